(** Runs between rigid walls compute the published algorithm on mirrored data. *)
From Coq Require Import ZArith List Bool Lia ZifyBool Reals Lra FunctionalExtensionality.
From Verif Require Import ModelIndex ModelRun Lang ProofsLang Stencil ProofsStencil FormCommon Form2D Solver1D Solver2D
  ProofsThread1D ProofsThread2D ProofsCyclic1D ProofsOne2D Arith SpecReal SpecThreads SpecFields SpecFields2 SpecRun2 SpecNum2 SpecSym2 SpecMpdata2 SpecWalls2 SpecChannel2 ProofsCyclic2D ProofsResults2D
  ProofsSymRun2D ProofsTextbook2D ProofsChannelRun SpecImages2 ProofsImagesRun SpecImagesBox ProofsBoxRun ProofsBoxSym ProofsWallsLin ProofsImgPt ProofsImgPtX SpecMirrored.
Import ListNotations.
Local Open Scope Z_scope.

Lemma refl_image lo hi i : lo < hi -> imaged hi (lo + (i - lo) mod (2 * hi - lo - lo)) = refl lo hi i.
Proof.
  intros H. unfold imaged, refl. replace (2 * hi - lo - lo) with (2 * (hi - lo)) by lia. cbv zeta.
  set (k := (i - lo) mod (2 * (hi - lo))). destruct (Z.leb_spec (lo + k) hi), (Z.leb_spec k (hi - lo)); lia.
Qed.

Section Run.
  Variables eps tiny : R.
  Notation AR := (arithR eps tiny).
  Variable r : run2.
  Notation mem := (loc -> R).
  Notation lo := (s_lo r).
  Notation hi := (s_hi r).
  Notation ne := (n_eqns (s_cfg r)).
  Notation o := (s_o r).

  Definition wx (f : Z -> Z -> R) : Z -> Z -> R := fun i j => f (wrap2 lo hi DX i) (refl (lo DY) (hi DY) j).
  Lemma ch_textbook n nt (m m' : mem) : channel_end2 AR r n nt m m' -> image_passes o (s_nit r) ->
    oabs o = false -> tot o = false -> dfl o = false -> div2 o = false -> fot o = false -> s_freq r = 0%Z ->
    forall e, (e < ne)%nat -> s_scale r e = 0%Z -> forall i j, on_grid lo hi i j ->
    cell2 m' e (newest2 r nt) i j =
    mpdata2 (wx (G2of (nug o) m)) (wx (face2 m DX)) (fun i j => refl_face (lo DY) (hi DY) (face2 m DY (wrap2 lo hi DX i)) j)
      (iga o) (fct o) (pfc o) eps tiny (s_nit r) nt (wx (cell2 m e false)) i j.
  Proof.
    intros C IP H1 H2 H3 H4 H5 H6 e He H7 i j OG. pose proof (ch_ok _ _ _ _ _ _ C) as RK. destruct (ok_lo_hi r RK) as [LX LY].
    destruct (ch_lift eps tiny r RK n nt m m' C IP) as (M & E & Q). destruct (Q e i j He OG) as [OW <-].
    etransitivity; [exact (textbook2 eps tiny (wide r) n nt _ M E H1 H2 H3 H4 H5 H6 e He H7 i j OW)|]. cbn [wide s_lo s_hi s_o s_nit].
    assert (W : forall d, wrap2 lo (fun d => match d with DY => 2 * hi DY - lo DY | _ => hi d end) d = match d with DY => fun j => lo DY + (j - lo DY) mod (2 * hi DY - lo DY - lo DY) | _ => wrap2 lo hi d end).
    { intros d. apply functional_extensionality. intros k. destruct d; reflexivity. }
    assert (A : forall f g : Z -> Z -> R, (forall a b, f a b = g a b) -> f = g) by (intros f g F; apply functional_extensionality; intros a; apply functional_extensionality; intros b; apply F).
    f_equal; apply A; intros a b; unfold wx; rewrite ?(W DX), ?(W DY).
    - rewrite <- (refl_image (lo DY) (hi DY) b LY). unfold G2of. destruct (nug o); reflexivity.
    - rewrite <- (refl_image (lo DY) (hi DY) b LY). reflexivity.
    - unfold refl_face. replace (2 * hi DY - lo DY - lo DY) with (2 * (hi DY - lo DY)) by lia. set (k := (b - lo DY) mod (2 * (hi DY - lo DY))). cbv zeta.
      unfold face2, image_of. cbn [fst snd par comp]. destruct (Z.ltb_spec (lo DY + k) (hi DY)), (Z.ltb_spec k (hi DY - lo DY)); try lia; [reflexivity|].
      do 3 f_equal. f_equal. f_equal. lia.
    - rewrite <- (refl_image (lo DY) (hi DY) b LY). reflexivity.
  Qed.
End Run.

Section Box.
  Variables eps tiny : R.
  Notation AR := (arithR eps tiny).
  Variable r : run2.
  Notation mem := (loc -> R).
  Notation lo := (s_lo r).
  Notation hi := (s_hi r).
  Notation ne := (n_eqns (s_cfg r)).
  Notation o := (s_o r).
  Notation rx := (refl (lo DX) (hi DX)).
  Notation ry := (refl (lo DY) (hi DY)).

  Lemma bx_textbook n nt (m m' : mem) : walled_end2 AR r n nt m m' -> image_passes o (s_nit r) ->
    oabs o = false -> tot o = false -> dfl o = false -> div2 o = false -> fot o = false -> s_freq r = 0%Z ->
    forall e, (e < ne)%nat -> s_scale r e = 0%Z -> forall i j, on_grid lo hi i j ->
    cell2 m' e (newest2 r nt) i j =
    mpdata2 (fun i j => G2of (nug o) m (rx i) (ry j)) (fun i j => refl_face (lo DX) (hi DX) (fun i => face2 m DX i (ry j)) i)
      (fun i j => refl_face (lo DY) (hi DY) (face2 m DY (rx i)) j)
      (iga o) (fct o) (pfc o) eps tiny (s_nit r) nt (fun i j => cell2 m e false (rx i) (ry j)) i j.
  Proof.
    intros C IP H1 H2 H3 H4 H5 H6 e He H7 i j OG. pose proof (we_ok _ _ _ _ _ _ C) as RK. destruct (ok_lo_hi r RK) as [LX LY].
    destruct (bx_lift eps tiny r RK n nt m m' C IP) as (M & E & Q). destruct (Q e i j He OG) as [OW <-].
    etransitivity; [exact (ch_textbook eps tiny (long r) 1 nt _ M E IP H1 H2 H3 H4 H5 H6 e He H7 i j OW)|]. cbn [long s_lo s_hi s_o s_nit].
    assert (W : forall a, wrap2 lo (s_hi (long r)) DX a = lo DX + (a - lo DX) mod (2 * hi DX - lo DX - lo DX)) by reflexivity.
    assert (A : forall f g : Z -> Z -> R, (forall a b, f a b = g a b) -> f = g) by (intros f g F; apply functional_extensionality; intros a; apply functional_extensionality; intros b; apply F).
    f_equal; apply A; intros a b; unfold wx; change (s_lo (long r)) with lo; change (s_hi (long r) DY) with (hi DY); rewrite ?W.
    - rewrite <- (refl_image (lo DX) (hi DX) a LX). unfold G2of. destruct (nug o); reflexivity.
    - unfold refl_face. replace (2 * hi DX - lo DX - lo DX) with (2 * (hi DX - lo DX)) by lia. set (k := (a - lo DX) mod (2 * (hi DX - lo DX))). cbv zeta.
      unfold face2, image_along. cbn [fst snd parx comp]. destruct (Z.ltb_spec (lo DX + k) (hi DX)), (Z.ltb_spec k (hi DX - lo DX)); try lia; [reflexivity|].
      do 3 f_equal. f_equal. f_equal. lia.
    - rewrite <- (refl_image (lo DX) (hi DX) a LX). reflexivity.
    - rewrite <- (refl_image (lo DX) (hi DX) a LX). reflexivity.
  Qed.
End Box.

(** *** Nothing but the data the user set matters *)
Section Fresh.
  Variables eps tiny : R.
  Notation AR := (arithR eps tiny).
  Notation mem := (loc -> R).
  Lemma ch_fresh r n1 n2 nt (m1 m2 m1' m2' : mem) : channel_end2 AR r n1 nt m1 m1' -> channel_end2 AR r n2 nt m2 m2' ->
    image_passes (s_o r) (s_nit r) -> same_data2 (s_lo r) (s_hi r) (n_eqns (s_cfg r)) (nug (s_o r)) m1 m2 ->
    forall e i j, (e < n_eqns (s_cfg r))%nat -> on_grid (s_lo r) (s_hi r) i j -> cell2 m1' e (newest2 r nt) i j = cell2 m2' e (newest2 r nt) i j.
  Proof.
    intros C1 C2 IP (F0 & F1 & F2 & F3) e i j He OG. pose proof (ch_ok _ _ _ _ _ _ C1) as RK.
    destruct (ch_lift eps tiny r RK n1 nt m1 m1' C1 IP) as (M1 & E1 & Q1). destruct (ch_lift eps tiny r RK n2 nt m2 m2' C2 IP) as (M2 & E2 & Q2).
    destruct (Q1 e i j He OG) as [OW <-]. destruct (Q2 e i j He OG) as [_ <-]. destruct OW as [O1 O2].
    destruct E1 as [K1 B1 B2 N1 R1 S1 T1 D1 P1]. destruct E2 as [K2 _ _ N2 R2 S2 _ _ P2].
    apply (no_stale_data2 (wide r) K1 AR n1 n2 nt (image_of r m1) (image_of r m2) M1 M2 (fun d => conj (B1 d) (B2 d)) N1 R1 S1 N2 R2 S2 T1 D1); auto.
    destruct (image_of_ok r m1) as (A1 & A2 & A3 & A4 & A5). destruct (image_of_ok r m2) as (G1 & G2 & G3 & G4 & G5).
    unfold same_data2. cbn [wide s_lo s_hi s_o s_cfg]. split; [|split; [|split]].
    - intros k a b Hk Ha Hb. rewrite A1, G1 by auto. apply F0; auto. apply (im_in r RK); auto.
    - intros a b Ha Hb. rewrite A2, G2 by auto. apply F1; auto. apply (im_in r RK); auto.
    - intros a b Ha Hb. destruct (Z_lt_le_dec b (s_hi r DY)); [rewrite A3, G3 by lia; apply F2; lia|]. rewrite A4, G4 by lia. f_equal. apply F2; lia.
    - intros NU a b Ha Hb. rewrite A5, G5 by auto. apply F3; auto. apply (im_in r RK); auto.
  Qed.
  Lemma bx_fresh r n1 n2 nt (m1 m2 m1' m2' : mem) : walled_end2 AR r n1 nt m1 m1' -> walled_end2 AR r n2 nt m2 m2' ->
    image_passes (s_o r) (s_nit r) -> same_data2 (s_lo r) (s_hi r) (n_eqns (s_cfg r)) (nug (s_o r)) m1 m2 ->
    forall e i j, (e < n_eqns (s_cfg r))%nat -> on_grid (s_lo r) (s_hi r) i j -> cell2 m1' e (newest2 r nt) i j = cell2 m2' e (newest2 r nt) i j.
  Proof.
    intros C1 C2 IP (F0 & F1 & F2 & F3) e i j He OG. pose proof (we_ok _ _ _ _ _ _ C1) as RK.
    destruct (bx_lift eps tiny r RK n1 nt m1 m1' C1 IP) as (M1 & E1 & Q1). destruct (bx_lift eps tiny r RK n2 nt m2 m2' C2 IP) as (M2 & E2 & Q2).
    destruct (Q1 e i j He OG) as [OW <-]. destruct (Q2 e i j He OG) as [_ <-].
    apply (ch_fresh (long r) 1 1 nt (image_along r m1) (image_along r m2) M1 M2 E1 E2 IP); auto.
    destruct (image_along_ok r m1) as (A1 & A2 & A3 & A4 & A5). destruct (image_along_ok r m2) as (G1 & G2 & G3 & G4 & G5).
    unfold same_data2. cbn [long s_lo s_hi s_o s_cfg]. split; [|split; [|split]].
    - intros k a b Hk Ha Hb. rewrite A1, G1 by auto. apply F0; auto. apply (imx_in r RK); auto.
    - intros a b Ha Hb. destruct (Z_lt_le_dec a (s_hi r DX)); [rewrite A3, G3 by lia; apply F1; lia|]. rewrite A4, G4 by lia. f_equal. apply F1; lia.
    - intros a b Ha Hb. rewrite A2, G2 by auto. apply F2; auto. apply (imx_in r RK); auto.
    - intros NU a b Ha Hb. rewrite A5, G5 by auto. apply F3; auto. apply (imx_in r RK); auto.
  Qed.
End Fresh.
