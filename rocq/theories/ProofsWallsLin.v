(** Multiples, sums and options that do not change exact results, in channels and boxes. *)
From Coq Require Import ZArith List Bool Lia ZifyBool Reals Lra.
From Verif Require Import ModelIndex ModelRun Lang ProofsLang Stencil ProofsStencil FormCommon Form2D Solver1D Solver2D
  ProofsThread1D ProofsThread2D ProofsCyclic1D ProofsOne2D Arith SpecReal SpecThreads SpecFields SpecFields2 SpecRun2 SpecNum2 SpecSym2 SpecWalls2 SpecChannel2 ProofsCyclic2D ProofsResults2D
  ProofsSymRun2D ProofsLin2D ProofsSlice2D ProofsChannelRun SpecImages2 ProofsImagesRun SpecImagesBox ProofsBoxRun ProofsBoxSym.
Import ListNotations.
Local Open Scope R_scope.

Section Lift.
  Variables eps tiny : R.
  Notation AR := (arithR eps tiny).
  Variable r : run2.
  Hypothesis RK : run2_ok r.
  Notation mem := (loc -> R).
  Notation lo := (s_lo r).
  Notation hi := (s_hi r).
  Notation ne := (n_eqns (s_cfg r)).
  Notation o := (s_o r).

  (** *** Channels *)
  Lemma ch_lift n nt (m m' : mem) : channel_end2 AR r n nt m m' -> image_passes o (s_nit r) ->
    exists M', cyclic_end2 AR (wide r) n nt (image_of r m) M' /\
      forall e i j, (e < ne)%nat -> on_grid lo hi i j -> on_grid (s_lo (wide r)) (s_hi (wide r)) i j /\ cell2 M' e (newest2 r nt) i j = cell2 m' e (newest2 r nt) i j.
  Proof.
    intros C IP. destruct (ok_lo_hi r RK) as [LX LY]. pose proof (image_of_ok r m) as W.
    destruct (images_exist eps tiny r RK n nt m m' _ C W) as [M' E]. exists M'. split; [exact E|]. intros e i j He [Hi Hj].
    split; [split; cbn [wide s_lo s_hi]; lia|].
    pose proof (images eps tiny r RK n n nt m m' _ M' C IP W E e i j He Hi ltac:(lia)) as Q. rewrite imaged_low in Q by lia. exact Q.
  Qed.
  Lemma ch_flow m1 m2 : same_flow2 r m1 m2 -> same_flow2 (wide r) (image_of r m1) (image_of r m2).
  Proof.
    intros (F1 & F2 & F3). destruct (image_of_ok r m1) as (_ & A2 & A3 & A4 & A5). destruct (image_of_ok r m2) as (_ & B2 & B3 & B4 & B5).
    unfold same_flow2. cbn [wide s_lo s_hi s_o]. split; [|split].
    - intros i j Hi Hj. rewrite A2, B2 by auto. apply F1; auto. apply (im_in r RK); auto.
    - intros i j Hi Hj. destruct (Z_lt_le_dec j (hi DY)); [rewrite A3, B3 by lia; apply F2; lia|]. rewrite A4, B4 by lia. f_equal. apply F2; lia.
    - intros NU i j Hi Hj. rewrite A5, B5 by auto. apply F3; auto. apply (im_in r RK); auto.
  Qed.
  Lemma ch_cells i j : inside (s_lo (wide r)) (s_hi (wide r)) i j -> in_channel lo hi i (imaged (hi DY) j) /\
    forall m e, cell2 (image_of r m) e false i j = cell2 m e false i (imaged (hi DY) j) /\ G2of (nug o) (image_of r m) i j = G2of (nug o) m i (imaged (hi DY) j).
  Proof.
    intros [Hi Hj]. cbn [wide s_lo s_hi] in Hi, Hj. split; [split; [exact Hi|apply (im_in r RK); lia]|]. intros m e. split; [reflexivity|].
    unfold G2of. destruct (nug o); reflexivity.
  Qed.

  (** *** Boxes *)
  Lemma bx_lift n nt (m m' : mem) : walled_end2 AR r n nt m m' -> image_passes o (s_nit r) ->
    exists M', channel_end2 AR (long r) 1 nt (image_along r m) M' /\
      forall e i j, (e < ne)%nat -> on_grid lo hi i j -> on_grid (s_lo (long r)) (s_hi (long r)) i j /\ cell2 M' e (newest2 r nt) i j = cell2 m' e (newest2 r nt) i j.
  Proof.
    intros C IP. destruct (ok_lo_hi r RK) as [LX LY]. pose proof (image_along_ok r m) as W.
    destruct (box_images_exist eps tiny r RK n nt m m' _ C IP W) as [M' E]. exists M'. split; [exact E|]. intros e i j He [Hi Hj].
    split; [split; cbn [long s_lo s_hi]; lia|].
    pose proof (box_images eps tiny r RK n 1 nt m m' _ M' C IP W E e i j He ltac:(lia) Hj) as Q. rewrite imaged_low in Q by lia. exact Q.
  Qed.
  Lemma bx_flow m1 m2 : same_flow2 r m1 m2 -> same_flow2 (long r) (image_along r m1) (image_along r m2).
  Proof.
    intros (F1 & F2 & F3). destruct (image_along_ok r m1) as (_ & A2 & A3 & A4 & A5). destruct (image_along_ok r m2) as (_ & B2 & B3 & B4 & B5).
    unfold same_flow2. cbn [long s_lo s_hi s_o]. split; [|split].
    - intros i j Hi Hj. destruct (Z_lt_le_dec i (hi DX)); [rewrite A3, B3 by lia; apply F1; lia|]. rewrite A4, B4 by lia. f_equal. apply F1; lia.
    - intros i j Hi Hj. rewrite A2, B2 by auto. apply F2; auto. apply (imx_in r RK); auto.
    - intros NU i j Hi Hj. rewrite A5, B5 by auto. apply F3; auto. apply (imx_in r RK); auto.
  Qed.
  Lemma bx_cells i j : in_channel (s_lo (long r)) (s_hi (long r)) i j -> on_grid lo hi (imaged (hi DX) i) j /\
    forall m e, cell2 (image_along r m) e false i j = cell2 m e false (imaged (hi DX) i) j /\ G2of (nug o) (image_along r m) i j = G2of (nug o) m (imaged (hi DX) i) j.
  Proof.
    intros [Hi Hj]. cbn [long s_lo s_hi] in Hi, Hj. split; [split; [apply (imx_in r RK); lia|exact Hj]|]. intros m e. split; [reflexivity|].
    unfold G2of. destruct (nug o); reflexivity.
  Qed.
End Lift.

(** *** Channels *)
Section Channel.
  Variables (eps tiny : R) (r : run2) (nt : nat).
  Notation AR := (arithR eps tiny).
  Notation mem := (loc -> R).
  Notation lo := (s_lo r).
  Notation hi := (s_hi r).
  Notation o := (s_o r).
  Hypothesis IP : image_passes (s_o r) (s_nit r).
  Variable e : nat.
  Hypothesis He : (e < n_eqns (s_cfg r))%nat.
  Theorem ch_multiple n1 n2 (m1 m2 m1' m2' : mem) lam : channel_end2 AR r n1 nt m1 m1' -> channel_end2 AR r n2 nt m2 m2' -> same_flow2 r m1 m2 ->
    fct o = false -> pfc o = true -> iga o = false -> 0 < lam \/ oabs o = true /\ lam <> 0 ->
    (forall i j, in_channel lo hi i j -> cell2 m2 e false i j = lam * cell2 m1 e false i j) ->
    forall i j, on_grid lo hi i j -> cell2 m2' e (newest2 r nt) i j = lam * cell2 m1' e (newest2 r nt) i j.
  Proof.
    intros C1 C2 F H1 H2 H3 H4 H i j OG. pose proof (ch_ok _ _ _ _ _ _ C1) as RK.
    destruct (ch_lift eps tiny r RK n1 nt m1 m1' C1 IP) as (M1 & E1 & Q1). destruct (ch_lift eps tiny r RK n2 nt m2 m2' C2 IP) as (M2 & E2 & Q2).
    destruct (Q1 e i j He OG) as [OW <-]. destruct (Q2 e i j He OG) as [_ <-].
    apply (multiple2 eps tiny (wide r) n1 n2 nt _ _ M1 M2 E1 E2 (ch_flow r RK m1 m2 F) e He lam H1 H2 H3 H4); [|exact OW].
    intros a b I. destruct (ch_cells r RK a b I) as [I' K]. rewrite !(proj1 (K _ e)). apply H, I'.
  Qed.
  Theorem ch_negated n1 n2 (m1 m2 m1' m2' : mem) : channel_end2 AR r n1 nt m1 m1' -> channel_end2 AR r n2 nt m2 m2' -> same_flow2 r m1 m2 ->
    iga o = negb (oabs o) -> (iga o = true -> (s_nit r <= 2)%nat) -> 0 < eps ->
    (forall i j, in_channel lo hi i j -> 0 < G2of (nug o) m1 i j) ->
    (forall i j, in_channel lo hi i j -> cell2 m2 e false i j = - cell2 m1 e false i j) ->
    forall i j, on_grid lo hi i j -> cell2 m2' e (newest2 r nt) i j = - cell2 m1' e (newest2 r nt) i j.
  Proof.
    intros C1 C2 F H1 H2 H3 HG H i j OG. pose proof (ch_ok _ _ _ _ _ _ C1) as RK.
    destruct (ch_lift eps tiny r RK n1 nt m1 m1' C1 IP) as (M1 & E1 & Q1). destruct (ch_lift eps tiny r RK n2 nt m2 m2' C2 IP) as (M2 & E2 & Q2).
    destruct (Q1 e i j He OG) as [OW <-]. destruct (Q2 e i j He OG) as [_ <-].
    apply (negated2 eps tiny (wide r) n1 n2 nt _ _ M1 M2 E1 E2 (ch_flow r RK m1 m2 F) e He H1 H2 H3); [| |exact OW].
    - intros a b I. destruct (ch_cells r RK a b I) as [I' K]. change (s_o (wide r)) with o. rewrite (proj2 (K m1 e)). apply HG, I'.
    - intros a b I. destruct (ch_cells r RK a b I) as [I' K]. rewrite !(proj1 (K _ e)). apply H, I'.
  Qed.
  Theorem ch_superpose n1 n2 n3 (m1 m2 m3 m1' m2' m3' : mem) la lb : channel_end2 AR r n1 nt m1 m1' -> channel_end2 AR r n2 nt m2 m2' ->
    channel_end2 AR r n3 nt m3 m3' -> same_flow2 r m1 m2 -> same_flow2 r m1 m3 ->
    s_nit r = 1%nat \/ iga o = true /\ fct o = false /\ (s_nit r <= 2)%nat ->
    (forall i j, in_channel lo hi i j -> cell2 m3 e false i j = la * cell2 m1 e false i j + lb * cell2 m2 e false i j) ->
    forall i j, on_grid lo hi i j -> cell2 m3' e (newest2 r nt) i j = la * cell2 m1' e (newest2 r nt) i j + lb * cell2 m2' e (newest2 r nt) i j.
  Proof.
    intros C1 C2 C3 F2 F3 S H i j OG. pose proof (ch_ok _ _ _ _ _ _ C1) as RK.
    destruct (ch_lift eps tiny r RK n1 nt m1 m1' C1 IP) as (M1 & E1 & Q1). destruct (ch_lift eps tiny r RK n2 nt m2 m2' C2 IP) as (M2 & E2 & Q2).
    destruct (ch_lift eps tiny r RK n3 nt m3 m3' C3 IP) as (M3 & E3 & Q3).
    destruct (Q1 e i j He OG) as [OW <-]. destruct (Q2 e i j He OG) as [_ <-]. destruct (Q3 e i j He OG) as [_ <-].
    apply (superpose2 eps tiny (wide r) n1 n2 n3 nt _ _ _ M1 M2 M3 e la lb He E1 E2 E3 (ch_flow r RK m1 m2 F2) (ch_flow r RK m1 m3 F3) S); [|exact OW].
    intros a b I. destruct (ch_cells r RK a b I) as [I' K]. rewrite !(proj1 (K _ e)). apply H, I'.
  Qed.
  Theorem ch_toggles a b n1 n2 (m m1' m2' : mem) : channel_end2 AR r n1 nt m m1' -> channel_end2 AR (with_toggles2 r a b) n2 nt m m2' ->
    forall i j, on_grid lo hi i j -> cell2 m2' e (newest2 r nt) i j = cell2 m1' e (newest2 r nt) i j.
  Proof.
    intros C1 C2 i j OG. pose proof (ch_ok _ _ _ _ _ _ C1) as RK.
    destruct (ch_lift eps tiny r RK n1 nt m m1' C1 IP) as (M1 & E1 & Q1).
    destruct (ch_lift eps tiny (with_toggles2 r a b) (ch_ok _ _ _ _ _ _ C2) n2 nt m m2' C2 IP) as (M2 & E2 & Q2).
    destruct (Q1 e i j He OG) as [OW <-]. destruct (Q2 e i j He OG) as [_ Q]. etransitivity; [symmetry; exact Q|].
    exact (toggles2 eps tiny (wide r) a b n1 n2 nt (image_of r m) M1 M2 e He E1 E2 i j OW).
  Qed.
  Theorem ch_hint s n1 n2 (m m1' m2' : mem) : channel_end2 AR r n1 nt m m1' -> channel_end2 AR (with_scale2 r s) n2 nt m m2' ->
    s_nit r = 1%nat \/ fct o = false /\ (iga o = false /\ pfc o = true \/ iga o = true /\ (s_nit r <= 2)%nat) ->
    forall i j, on_grid lo hi i j -> cell2 m2' e (newest2 r nt) i j = cell2 m1' e (newest2 r nt) i j.
  Proof.
    intros C1 C2 S i j OG. pose proof (ch_ok _ _ _ _ _ _ C1) as RK.
    destruct (ch_lift eps tiny r RK n1 nt m m1' C1 IP) as (M1 & E1 & Q1).
    destruct (ch_lift eps tiny (with_scale2 r s) (ch_ok _ _ _ _ _ _ C2) n2 nt m m2' C2 IP) as (M2 & E2 & Q2).
    destruct (Q1 e i j He OG) as [OW <-]. destruct (Q2 e i j He OG) as [_ Q]. etransitivity; [symmetry; exact Q|].
    exact (hint_scale2 eps tiny (wide r) s n1 n2 nt (image_of r m) M1 M2 e He E1 E2 S i j OW).
  Qed.
  Theorem ch_slice n n1 (m m' m1 m1' : mem) : channel_end2 AR r n nt m m' ->
    (0 < n1)%nat -> (Z.of_nat n1 <= hi DX - lo DX + 1)%Z ->
    can_end loc_eq_dec AR n1 (program1 (slice_run r) n1 nt) m1 m1' -> fot o = false ->
    div2 o = false \/ div3dt o = false /\ (iga o = true \/ div3 o = false /\ pfc o = true) ->
    uniform_along_y 0 r m1 m ->
    forall i j, on_grid lo hi i j -> cell2 m' e (newest2 r nt) i j = cell m1' e (newest (slice_run r) nt) i.
  Proof.
    intros C N1 R1 E H1 H2 (U1 & U2 & U3 & U4) i j OG. pose proof (ch_ok _ _ _ _ _ _ C) as RK.
    destruct (ch_lift eps tiny r RK n nt m m' C IP) as (M & E1 & Q1). destruct (Q1 e i j He OG) as [OW <-].
    assert (U : uniform_along_y 0 (wide r) m1 (image_of r m)).
    { destruct (image_of_ok r m) as (A1 & A2 & A3 & A4 & A5). unfold uniform_along_y. cbn [wide s_lo s_hi s_o s_cfg].
      split; [|split; [|split]].
      - intros k a b Hk [Ha Hb]. rewrite A1 by auto. apply U1; auto. split; [exact Ha|]. apply (im_in r RK); auto.
      - intros a b Ha Hb. rewrite A2 by auto. apply U2; auto. apply (im_in r RK); auto.
      - intros a b Ha Hb. destruct (Z_lt_le_dec b (hi DY)); [rewrite A3 by lia; apply U3; lia|]. rewrite A4 by lia. rewrite U3 by lia. lra.
      - intros NU a b [Ha Hb]. rewrite A5 by auto. apply U4; auto. split; [exact Ha|]. apply (im_in r RK); auto. }
    exact (slice2 eps tiny (wide r) n n1 nt (image_of r m) M m1 m1' E1 N1 R1 E H1 H2 U e He i j OW).
  Qed.
End Channel.

(** *** Boxes *)
Section Boxes.
  Variables (eps tiny : R) (r : run2) (nt : nat).
  Notation AR := (arithR eps tiny).
  Notation mem := (loc -> R).
  Notation lo := (s_lo r).
  Notation hi := (s_hi r).
  Notation o := (s_o r).
  Hypothesis IP : image_passes (s_o r) (s_nit r).
  Variable e : nat.
  Hypothesis He : (e < n_eqns (s_cfg r))%nat.
  Theorem bx_multiple n1 n2 (m1 m2 m1' m2' : mem) lam : walled_end2 AR r n1 nt m1 m1' -> walled_end2 AR r n2 nt m2 m2' -> same_flow2 r m1 m2 ->
    fct o = false -> pfc o = true -> iga o = false -> 0 < lam \/ oabs o = true /\ lam <> 0 ->
    (forall i j, on_grid lo hi i j -> cell2 m2 e false i j = lam * cell2 m1 e false i j) ->
    forall i j, on_grid lo hi i j -> cell2 m2' e (newest2 r nt) i j = lam * cell2 m1' e (newest2 r nt) i j.
  Proof.
    intros C1 C2 F H1 H2 H3 H4 H i j OG. pose proof (we_ok _ _ _ _ _ _ C1) as RK.
    destruct (bx_lift eps tiny r RK n1 nt m1 m1' C1 IP) as (M1 & E1 & Q1). destruct (bx_lift eps tiny r RK n2 nt m2 m2' C2 IP) as (M2 & E2 & Q2).
    destruct (Q1 e i j He OG) as [OW <-]. destruct (Q2 e i j He OG) as [_ <-].
    apply (ch_multiple eps tiny (long r) nt IP e He 1 1 _ _ M1 M2 lam E1 E2 (bx_flow r RK m1 m2 F) H1 H2 H3 H4); [|exact OW].
    intros a b I. destruct (bx_cells r RK a b I) as [I' K]. rewrite !(proj1 (K _ e)). apply H, I'.
  Qed.
  Theorem bx_negated n1 n2 (m1 m2 m1' m2' : mem) : walled_end2 AR r n1 nt m1 m1' -> walled_end2 AR r n2 nt m2 m2' -> same_flow2 r m1 m2 ->
    iga o = negb (oabs o) -> (iga o = true -> (s_nit r <= 2)%nat) -> 0 < eps ->
    (forall i j, on_grid lo hi i j -> 0 < G2of (nug o) m1 i j) ->
    (forall i j, on_grid lo hi i j -> cell2 m2 e false i j = - cell2 m1 e false i j) ->
    forall i j, on_grid lo hi i j -> cell2 m2' e (newest2 r nt) i j = - cell2 m1' e (newest2 r nt) i j.
  Proof.
    intros C1 C2 F H1 H2 H3 HG H i j OG. pose proof (we_ok _ _ _ _ _ _ C1) as RK.
    destruct (bx_lift eps tiny r RK n1 nt m1 m1' C1 IP) as (M1 & E1 & Q1). destruct (bx_lift eps tiny r RK n2 nt m2 m2' C2 IP) as (M2 & E2 & Q2).
    destruct (Q1 e i j He OG) as [OW <-]. destruct (Q2 e i j He OG) as [_ <-].
    apply (ch_negated eps tiny (long r) nt IP e He 1 1 _ _ M1 M2 E1 E2 (bx_flow r RK m1 m2 F) H1 H2 H3); [| |exact OW].
    - intros a b I. destruct (bx_cells r RK a b I) as [I' K]. change (s_o (long r)) with o. rewrite (proj2 (K m1 e)). apply HG, I'.
    - intros a b I. destruct (bx_cells r RK a b I) as [I' K]. rewrite !(proj1 (K _ e)). apply H, I'.
  Qed.
  Theorem bx_superpose n1 n2 n3 (m1 m2 m3 m1' m2' m3' : mem) la lb : walled_end2 AR r n1 nt m1 m1' -> walled_end2 AR r n2 nt m2 m2' ->
    walled_end2 AR r n3 nt m3 m3' -> same_flow2 r m1 m2 -> same_flow2 r m1 m3 ->
    s_nit r = 1%nat \/ iga o = true /\ fct o = false /\ (s_nit r <= 2)%nat ->
    (forall i j, on_grid lo hi i j -> cell2 m3 e false i j = la * cell2 m1 e false i j + lb * cell2 m2 e false i j) ->
    forall i j, on_grid lo hi i j -> cell2 m3' e (newest2 r nt) i j = la * cell2 m1' e (newest2 r nt) i j + lb * cell2 m2' e (newest2 r nt) i j.
  Proof.
    intros C1 C2 C3 F2 F3 S H i j OG. pose proof (we_ok _ _ _ _ _ _ C1) as RK.
    destruct (bx_lift eps tiny r RK n1 nt m1 m1' C1 IP) as (M1 & E1 & Q1). destruct (bx_lift eps tiny r RK n2 nt m2 m2' C2 IP) as (M2 & E2 & Q2).
    destruct (bx_lift eps tiny r RK n3 nt m3 m3' C3 IP) as (M3 & E3 & Q3).
    destruct (Q1 e i j He OG) as [OW <-]. destruct (Q2 e i j He OG) as [_ <-]. destruct (Q3 e i j He OG) as [_ <-].
    apply (ch_superpose eps tiny (long r) nt IP e He 1 1 1 _ _ _ M1 M2 M3 la lb E1 E2 E3 (bx_flow r RK m1 m2 F2) (bx_flow r RK m1 m3 F3) S); [|exact OW].
    intros a b I. destruct (bx_cells r RK a b I) as [I' K]. rewrite !(proj1 (K _ e)). apply H, I'.
  Qed.
  Theorem bx_toggles a b n1 n2 (m m1' m2' : mem) : walled_end2 AR r n1 nt m m1' -> walled_end2 AR (with_toggles2 r a b) n2 nt m m2' ->
    forall i j, on_grid lo hi i j -> cell2 m2' e (newest2 r nt) i j = cell2 m1' e (newest2 r nt) i j.
  Proof.
    intros C1 C2 i j OG. pose proof (we_ok _ _ _ _ _ _ C1) as RK.
    destruct (bx_lift eps tiny r RK n1 nt m m1' C1 IP) as (M1 & E1 & Q1).
    destruct (bx_lift eps tiny (with_toggles2 r a b) (we_ok _ _ _ _ _ _ C2) n2 nt m m2' C2 IP) as (M2 & E2 & Q2).
    destruct (Q1 e i j He OG) as [OW <-]. destruct (Q2 e i j He OG) as [_ Q]. etransitivity; [symmetry; exact Q|].
    exact (ch_toggles eps tiny (long r) nt IP e He a b 1 1 (image_along r m) M1 M2 E1 E2 i j OW).
  Qed.
  Theorem bx_hint s n1 n2 (m m1' m2' : mem) : walled_end2 AR r n1 nt m m1' -> walled_end2 AR (with_scale2 r s) n2 nt m m2' ->
    s_nit r = 1%nat \/ fct o = false /\ (iga o = false /\ pfc o = true \/ iga o = true /\ (s_nit r <= 2)%nat) ->
    forall i j, on_grid lo hi i j -> cell2 m2' e (newest2 r nt) i j = cell2 m1' e (newest2 r nt) i j.
  Proof.
    intros C1 C2 S i j OG. pose proof (we_ok _ _ _ _ _ _ C1) as RK.
    destruct (bx_lift eps tiny r RK n1 nt m m1' C1 IP) as (M1 & E1 & Q1).
    destruct (bx_lift eps tiny (with_scale2 r s) (we_ok _ _ _ _ _ _ C2) n2 nt m m2' C2 IP) as (M2 & E2 & Q2).
    destruct (Q1 e i j He OG) as [OW <-]. destruct (Q2 e i j He OG) as [_ Q]. etransitivity; [symmetry; exact Q|].
    exact (ch_hint eps tiny (long r) nt IP e He s 1 1 (image_along r m) M1 M2 E1 E2 S i j OW).
  Qed.
End Boxes.
