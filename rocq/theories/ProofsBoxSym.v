(** Mirror images of runs in channels and boxes: on the grid with the images they are
    runs moved by half a period. *)
From Coq Require Import ZArith List Bool Lia ZifyBool Reals Lra.
From Verif Require Import ModelIndex ModelRun Lang ProofsLang Stencil ProofsStencil FormCommon Form2D Solver1D Solver2D
  ProofsThread2D ProofsOne2D Arith SpecReal SpecThreads SpecFields SpecFields2 SpecRun2 SpecNum2 SpecSym2 SpecWalls2 SpecChannel2 ProofsCyclic2D ProofsResults2D
  ProofsSymRun2D ProofsChannelRun SpecImages2 ProofsImagesRun SpecImagesBox ProofsBoxRun.
Import ListNotations.
Local Open Scope Z_scope.

Lemma imaged_low h i : i <= h -> imaged h i = i.
Proof. unfold imaged. destruct (Z.leb_spec i h); lia. Qed.
Lemma imaged_high h i : h <= i -> imaged h i = 2 * h - i.
Proof. unfold imaged. destruct (Z.leb_spec i h); lia. Qed.
(** half a period *)
Section Half.
  Variables l h i : Z.
  Hypothesis LH : l < h.
  Notation w k := (l + (k - l) mod (2 * h - l - l)).
  Lemma half_low : l <= i < h -> w (i + (h - l)) = i + (h - l).
  Proof. intros H. rewrite Z.mod_small; lia. Qed.
  Lemma half_high : h <= i <= 2 * h - l -> w (i + (h - l)) = i - (h - l).
  Proof.
    intros H. replace (i + (h - l) - l) with (i - (h - l) - l + 1 * (2 * h - l - l)) by lia. rewrite Z.mod_add by lia. rewrite Z.mod_small; lia.
  Qed.
  Lemma half_in : l <= i <= 2 * h - l -> l <= w (i + (h - l)) <= 2 * h - l.
  Proof. intros H. pose proof (Z.mod_pos_bound (i + (h - l) - l) (2 * h - l - l)). lia. Qed.
  Lemma half_imaged : l <= i <= 2 * h - l -> imaged h (w (i + (h - l))) = l + h - imaged h i.
  Proof.
    intros H. destruct (Z_lt_le_dec i h).
    - rewrite half_low by lia. rewrite imaged_high by lia. rewrite imaged_low by lia. lia.
    - rewrite half_high by lia. rewrite (imaged_high h i) by lia. rewrite imaged_low by lia. lia.
  Qed.
End Half.

Section Sym.
  Variables eps tiny : R.
  Notation AR := (arithR eps tiny).
  Variable r : run2.
  Hypothesis RK : run2_ok r.
  Notation mem := (loc -> R).
  Notation lo := (s_lo r).
  Notation hi := (s_hi r).
  Notation ne := (n_eqns (s_cfg r)).
  Notation o := (s_o r).

  (** *** Channels *)
  Lemma across_moved (m1 m2 M1 M2 : mem) : channel_data2 lo hi ne (nug o) m1 -> with_image Ropp lo hi ne (nug o) m1 M1 -> with_image Ropp lo hi ne (nug o) m2 M2 ->
    mirrored2 Ropp lo hi ne (nug o) DY m1 m2 -> moved2 lo (s_hi (wide r)) ne (nug o) 0 (hi DY - lo DY) M1 M2.
  Proof.
    intros (D1 & D2 & D3) (W1 & W2 & W3 & W4 & W5) (V1 & V2 & V3 & V4 & V5) (S1 & S2 & S3 & S4). destruct (ok_lo_hi r RK) as [LX LY].
    cbn [opposite fst snd] in S1, S2, S3, S4. unfold moved2, wrap2. cbn [wide s_hi]. cbv zeta.
    assert (WX : forall i, lo DX <= i <= hi DX -> i = hi DX /\ lo DX + (i + 0 - lo DX) mod (hi DX - lo DX) = lo DX \/ lo DX + (i + 0 - lo DX) mod (hi DX - lo DX) = i).
    { intros i Hi. rewrite Z.add_0_r. destruct (Z.eq_dec i (hi DX)) as [->|]; [left; split; [reflexivity|rewrite Z.mod_same; lia]|right; rewrite Z.mod_small; lia]. }
    assert (IN : forall j, lo DY <= j <= 2 * hi DY - lo DY -> lo DY <= lo DY + hi DY - imaged (hi DY) j <= hi DY) by (intros j Hj; pose proof (im_in r RK j Hj); lia).
    split; [|split; [|split]].
    - intros e i j He Hi Hj. rewrite V1 by auto. rewrite S1 by (auto; apply im_in; auto).
      pose proof (half_in (lo DY) (hi DY) j LY Hj) as HI. pose proof (half_imaged (lo DY) (hi DY) j LY Hj) as HM. specialize (IN j Hj).
      destruct (WX i Hi) as [[-> ->]| ->]; rewrite W1 by (auto; lia); rewrite HM; [apply D1; auto|reflexivity].
    - intros i j Hi Hj. rewrite V2 by auto. rewrite S2 by (auto; apply im_in; auto).
      pose proof (half_in (lo DY) (hi DY) j LY Hj) as HI. pose proof (half_imaged (lo DY) (hi DY) j LY Hj) as HM.
      destruct (WX i ltac:(lia)) as [[? _]| ->]; [lia|]. rewrite W2 by (auto; lia). rewrite HM. reflexivity.
    - intros i j Hi Hj. destruct (Z_lt_le_dec j (hi DY)).
      + rewrite V3 by lia. rewrite S3 by lia. rewrite half_low by lia.
        destruct (WX i Hi) as [[-> ->]| ->]; rewrite W4 by lia; f_equal; [rewrite D2 by lia|]; f_equal; lia.
      + rewrite V4 by lia. rewrite S3 by lia. rewrite Ropp_involutive. rewrite half_high by lia.
        destruct (WX i Hi) as [[-> ->]| ->]; rewrite W3 by lia; [rewrite D2 by lia|]; f_equal; lia.
    - intros NU i j Hi Hj. rewrite V5 by auto. rewrite S4 by (auto; apply im_in; auto).
      pose proof (half_in (lo DY) (hi DY) j LY Hj) as HI. pose proof (half_imaged (lo DY) (hi DY) j LY Hj) as HM. specialize (IN j Hj).
      destruct (WX i Hi) as [[-> ->]| ->]; rewrite W5 by (auto; lia); rewrite HM; [apply D3; auto|reflexivity].
  Qed.
  Lemma along_mirrored (m1 m2 M1 M2 : mem) : with_image Ropp lo hi ne (nug o) m1 M1 -> with_image Ropp lo hi ne (nug o) m2 M2 ->
    mirrored2 Ropp lo hi ne (nug o) DX m1 m2 -> mirrored2 Ropp lo (s_hi (wide r)) ne (nug o) DX M1 M2.
  Proof.
    intros (W1 & W2 & W3 & W4 & W5) (V1 & V2 & V3 & V4 & V5) (S1 & S2 & S3 & S4). destruct (ok_lo_hi r RK) as [LX LY].
    cbn [opposite fst snd] in S1, S2, S3, S4. unfold mirrored2. cbn [wide s_hi opposite fst snd].
    split; [|split; [|split]].
    - intros e i j He Hi Hj. rewrite V1, W1 by (auto; lia). apply S1; auto. apply im_in; auto.
    - intros i j Hi Hj. rewrite V2, W2 by (auto; lia). apply S2; auto. apply im_in; auto.
    - intros i j Hi Hj. destruct (Z_lt_le_dec j (hi DY)); [rewrite V3, W3 by lia; apply S3; lia|].
      rewrite V4, W4 by lia. f_equal. apply S3; lia.
    - intros NU i j Hi Hj. rewrite V5, W5 by (auto; lia). apply S4; auto. apply im_in; auto.
  Qed.
  Theorem channel_mirror d n1 n2 nt (m1 m2 m1' m2' : mem) : In d [DX; DY] -> channel_end2 AR r n1 nt m1 m1' -> channel_end2 AR r n2 nt m2 m2' ->
    image_passes o (s_nit r) -> mirrored2 Ropp lo hi ne (nug o) d m1 m2 ->
    forall e i j, (e < ne)%nat -> on_grid lo hi i j ->
    cell2 m2' e (newest2 r nt) i j = let ij := opposite d (lo d + hi d) (i, j) in cell2 m1' e (newest2 r nt) (fst ij) (snd ij).
  Proof.
    intros Hd C1 C2 IP M e i j He [Hi Hj]. destruct (ok_lo_hi r RK) as [LX LY].
    set (M1 := image_of r m1). set (M2 := image_of r m2).
    pose proof (image_of_ok r m1 : with_image Ropp lo hi ne (nug o) m1 M1) as W1. pose proof (image_of_ok r m2 : with_image Ropp lo hi ne (nug o) m2 M2) as W2.
    destruct (images_exist eps tiny r RK n1 nt m1 m1' M1 C1 W1) as [M1' E1]. destruct (images_exist eps tiny r RK n2 nt m2 m2' M2 C2 W2) as [M2' E2].
    assert (Hj2 : lo DY <= j <= 2 * hi DY - lo DY) by lia.
    pose proof (images eps tiny r RK n2 n2 nt m2 m2' M2 M2' C2 IP W2 E2 e i j He Hi Hj2) as Q2. rewrite imaged_low in Q2 by lia. rewrite <- Q2. clear Q2.
    destruct Hd as [<-|[<-|[]]]; cbn [opposite fst snd].
    - pose proof (mirror2 eps tiny (wide r) DX n1 n2 nt M1 M2 M1' M2' (or_introl eq_refl) E1 E2 (along_mirrored m1 m2 M1 M2 W1 W2 M) e He i j (conj Hi Hj2)) as T.
      etransitivity; [exact T|]. cbn [opposite fst snd wide s_lo s_hi].
      pose proof (images eps tiny r RK n1 n1 nt m1 m1' M1 M1' C1 IP W1 E1 e (lo DX + hi DX - i) j He ltac:(lia) Hj2) as Q1.
      rewrite imaged_low in Q1 by lia. exact Q1.
    - pose proof (across_moved m1 m2 M1 M2 (ch_data _ _ _ _ _ _ C1) W1 W2 M) as MV.
      destruct E1 as [K B1 B2 N1 R1 T1 NS1 CD1 X1]. destruct E2 as [_ _ _ N2 R2 T2 _ _ X2].
      pose proof (translation2 (wide r) K B1 B2 AR n1 n2 nt 0 (hi DY - lo DY) M1 M1' M2 M2' N1 R1 T1 N2 R2 T2 NS1 CD1 MV X1 X2 e i j He Hi Hj2) as T.
      etransitivity; [exact T|]. change (newest2 (wide r) nt) with (newest2 r nt).
      assert (E1 : cyclic_end2 AR (wide r) n1 nt M1 M1') by (constructor; auto). unfold wrap2. cbn [wide s_lo s_hi].
      rewrite (images eps tiny r RK n1 n1 nt m1 m1' M1 M1' C1 IP W1 E1 e); auto.
      + rewrite half_imaged by lia. rewrite imaged_low by lia. rewrite Z.add_0_r. destruct (Z.eq_dec i (hi DX)) as [->|].
        * rewrite Z.mod_same by lia. rewrite Z.add_0_r. symmetry. apply (channel_edges r AR RK n1 nt m1 m1' C1 e); auto. lia.
        * rewrite Z.mod_small by lia. f_equal. lia.
      + rewrite Z.add_0_r. pose proof (Z.mod_pos_bound (i - lo DX) (hi DX - lo DX)). lia.
      + apply half_in; lia.
  Qed.

  (** *** Boxes *)
  Lemma box_moved (m1 m2 M1 M2 : mem) : with_image_along Ropp lo hi ne (nug o) m1 M1 -> with_image_along Ropp lo hi ne (nug o) m2 M2 ->
    mirrored2 Ropp lo hi ne (nug o) DX m1 m2 -> moved_along lo (s_hi (long r)) ne (nug o) (hi DX - lo DX) M1 M2.
  Proof.
    intros (W1 & W2 & W3 & W4 & W5) (V1 & V2 & V3 & V4 & V5) (S1 & S2 & S3 & S4). destruct (ok_lo_hi r RK) as [LX LY].
    cbn [opposite fst snd] in S1, S2, S3, S4. unfold moved_along, wrap2. cbn [long s_hi]. cbv zeta.
    split; [|split; [|split]].
    - intros e i j He Hi Hj. rewrite V1 by auto. rewrite S1 by (auto; apply (imx_in r RK); auto).
      rewrite W1 by (auto; apply half_in; auto). rewrite half_imaged by auto. reflexivity.
    - intros i j Hi Hj. destruct (Z_lt_le_dec i (hi DX)).
      + rewrite V3 by lia. rewrite S2 by lia. rewrite half_low by lia. rewrite W4 by lia. f_equal. f_equal. lia.
      + rewrite V4 by lia. rewrite S2 by lia. rewrite Ropp_involutive. rewrite half_high by lia. rewrite W3 by lia. f_equal. lia.
    - intros i j Hi Hj. rewrite V2 by auto. rewrite S3 by (auto; apply (imx_in r RK); auto).
      rewrite W2 by (auto; apply half_in; auto). rewrite half_imaged by auto. reflexivity.
    - intros NU i j Hi Hj. rewrite V5 by auto. rewrite S4 by (auto; apply (imx_in r RK); auto).
      rewrite W5 by (auto; apply half_in; auto). rewrite half_imaged by auto. reflexivity.
  Qed.
  Lemma box_across (m1 m2 M1 M2 : mem) : with_image_along Ropp lo hi ne (nug o) m1 M1 -> with_image_along Ropp lo hi ne (nug o) m2 M2 ->
    mirrored2 Ropp lo hi ne (nug o) DY m1 m2 -> mirrored2 Ropp lo (s_hi (long r)) ne (nug o) DY M1 M2.
  Proof.
    intros (W1 & W2 & W3 & W4 & W5) (V1 & V2 & V3 & V4 & V5) (S1 & S2 & S3 & S4). destruct (ok_lo_hi r RK) as [LX LY].
    cbn [opposite fst snd] in S1, S2, S3, S4. unfold mirrored2. cbn [long s_hi opposite fst snd].
    split; [|split; [|split]].
    - intros e i j He Hi Hj. rewrite V1, W1 by (auto; lia). apply S1; auto. apply (imx_in r RK); auto.
    - intros i j Hi Hj. destruct (Z_lt_le_dec i (hi DX)); [rewrite V3, W3 by lia; apply S2; lia|].
      rewrite V4, W4 by lia. f_equal. apply S2; lia.
    - intros i j Hi Hj. rewrite V2, W2 by (auto; lia). apply S3; auto. apply (imx_in r RK); auto.
    - intros NU i j Hi Hj. rewrite V5, W5 by (auto; lia). apply S4; auto. apply (imx_in r RK); auto.
  Qed.
End Sym.

Theorem box_mirror eps tiny r d n1 n2 nt (m1 m2 m1' m2' : loc -> R) : In d [DX; DY] ->
  walled_end2 (arithR eps tiny) r n1 nt m1 m1' -> walled_end2 (arithR eps tiny) r n2 nt m2 m2' ->
  image_passes (s_o r) (s_nit r) -> mirrored2 Ropp (s_lo r) (s_hi r) (n_eqns (s_cfg r)) (nug (s_o r)) d m1 m2 ->
  forall e i j, (e < n_eqns (s_cfg r))%nat -> on_grid (s_lo r) (s_hi r) i j ->
  cell2 m2' e (newest2 r nt) i j = let ij := opposite d (s_lo r d + s_hi r d) (i, j) in cell2 m1' e (newest2 r nt) (fst ij) (snd ij).
Proof.
  intros Hd B1 B2 IP M e i j He [Hi Hj]. pose proof (we_ok _ _ _ _ _ _ B1) as RK. destruct (ok_lo_hi r RK) as [LX LY].
  set (M1 := image_along r m1). set (M2 := image_along r m2).
  pose proof (image_along_ok r m1 : with_image_along Ropp (s_lo r) (s_hi r) (n_eqns (s_cfg r)) (nug (s_o r)) m1 M1) as W1.
  pose proof (image_along_ok r m2 : with_image_along Ropp (s_lo r) (s_hi r) (n_eqns (s_cfg r)) (nug (s_o r)) m2 M2) as W2.
  destruct (box_images_exist eps tiny r RK n1 nt m1 m1' M1 B1 IP W1) as [M1' E1]. destruct (box_images_exist eps tiny r RK n2 nt m2 m2' M2 B2 IP W2) as [M2' E2].
  assert (Hi2 : s_lo r DX <= i <= 2 * s_hi r DX - s_lo r DX) by lia.
  pose proof (box_images eps tiny r RK n2 1 nt m2 m2' M2 M2' B2 IP W2 E2 e i j He Hi2 Hj) as Q2. rewrite imaged_low in Q2 by lia. rewrite <- Q2. clear Q2.
  destruct Hd as [<-|[<-|[]]]; cbn [opposite fst snd].
  - pose proof (channel_moved (long r) (arithR eps tiny) (long_ok r RK) 1 1 nt (s_hi r DX - s_lo r DX) M1 M2 M1' M2' E1 E2 (box_moved r RK m1 m2 M1 M2 W1 W2 M) e i j He Hi2 Hj) as T.
    etransitivity; [exact T|]. change (newest2 (long r) nt) with (newest2 r nt). unfold wrap2. cbn [long s_lo s_hi].
    rewrite (box_images eps tiny r RK n1 1 nt m1 m1' M1 M1' B1 IP W1 E1 e); auto.
    + rewrite half_imaged by lia. rewrite imaged_low by lia. reflexivity.
    + apply half_in; lia.
  - pose proof (channel_mirror eps tiny (long r) (long_ok r RK) DY 1 1 nt M1 M2 M1' M2' (or_intror (or_introl eq_refl)) E1 E2 IP
      (box_across r RK m1 m2 M1 M2 W1 W2 M) e i j He (conj Hi2 Hj)) as T.
    etransitivity; [exact T|]. cbn [opposite fst snd long s_lo s_hi].
    pose proof (box_images eps tiny r RK n1 1 nt m1 m1' M1 M1' B1 IP W1 E1 e i (s_lo r DY + s_hi r DY - j) He Hi2 ltac:(lia)) as Q1.
    rewrite imaged_low in Q1 by lia. exact Q1.
Qed.
