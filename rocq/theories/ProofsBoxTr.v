(** Boxes with exchanged axes. *)
From Coq Require Import ZArith List Bool Lia ZifyBool Reals Lra FunctionalExtensionality.
From Verif Require Import ModelIndex ModelRun Lang ProofsLang Stencil ProofsStencil FormCommon Form2D Solver1D Solver2D
  ProofsThread2D ProofsOne2D Arith SpecReal SpecThreads SpecFields SpecFields2 SpecRun2 SpecNum2 SpecSym2 SpecWalls2 SpecChannel2 ProofsCyclic2D ProofsResults2D
  ProofsSymRun2D ProofsChannelRun SpecImages2 ProofsImagesRun SpecImagesBox ProofsBoxRun ProofsBoxSym.
Import ListNotations.
Local Open Scope Z_scope.

Lemma transpose_images r : transpose_run (wide (long r)) = wide (long (transpose_run r)).
Proof.
  unfold transpose_run, wide, long. cbn. f_equal. apply functional_extensionality. intros []; reflexivity.
Qed.
(** values of data with both images *)
Section Both.
  Variable r : run2.
  Hypothesis RK : run2_ok r.
  Variables m M MM : loc -> R.
  Notation lo := (s_lo r).
  Notation hi := (s_hi r).
  Notation ne := (n_eqns (s_cfg r)).
  Notation o := (s_o r).
  Hypothesis W : with_image_along Ropp lo hi ne (nug o) m M.
  Hypothesis V : with_image Ropp (s_lo (long r)) (s_hi (long r)) (n_eqns (s_cfg (long r))) (nug (s_o (long r))) M MM.
  Notation inx i := (lo DX <= i <= 2 * hi DX - lo DX).
  Notation iny j := (lo DY <= j <= 2 * hi DY - lo DY).
  Lemma both_cell e i j : (e < ne)%nat -> inx i -> iny j -> cell2 MM e false i j = cell2 m e false (imaged (hi DX) i) (imaged (hi DY) j).
  Proof.
    intros He Hi Hj. destruct W as (W1 & _). destruct V as (V1 & _). cbn [long s_lo s_hi s_cfg s_o] in V1.
    rewrite V1 by auto. apply W1; auto. apply (im_in r RK). exact Hj.
  Qed.
  Lemma both_g i j : nug o = true -> inx i -> iny j -> gfac2 MM i j = gfac2 m (imaged (hi DX) i) (imaged (hi DY) j).
  Proof.
    intros NU Hi Hj. destruct W as (_ & _ & _ & _ & W1). destruct V as (_ & _ & _ & _ & V1). cbn [long s_lo s_hi s_cfg s_o] in V1.
    rewrite V1 by auto. apply W1; auto. apply (im_in r RK). exact Hj.
  Qed.
  Lemma both_x i j : lo DX <= i < 2 * hi DX - lo DX -> iny j ->
    face2 MM DX i j = if i <? hi DX then face2 m DX i (imaged (hi DY) j) else (- face2 m DX (2 * hi DX - 1 - i)%Z (imaged (hi DY) j))%R.
  Proof.
    intros Hi Hj. destruct W as (_ & _ & W3 & W4 & _). destruct V as (_ & V2 & _). cbn [long s_lo s_hi s_cfg s_o] in V2.
    rewrite V2 by auto. pose proof (im_in r RK j Hj). destruct (Z.ltb_spec i (hi DX)); [apply W3|apply W4]; lia.
  Qed.
  Lemma both_y i j : inx i -> lo DY <= j < 2 * hi DY - lo DY ->
    face2 MM DY i j = if j <? hi DY then face2 m DY (imaged (hi DX) i) j else (- face2 m DY (imaged (hi DX) i) (2 * hi DY - 1 - j)%Z)%R.
  Proof.
    intros Hi Hj. destruct W as (_ & W2 & _). destruct V as (_ & _ & V3 & V4 & _). cbn [long s_lo s_hi s_cfg s_o] in V3, V4.
    destruct (Z.ltb_spec j (hi DY)); [rewrite V3 by lia; apply W2; lia|]. rewrite V4 by lia. f_equal. apply W2; lia.
  Qed.
End Both.

Theorem box_transpose eps tiny r n1 n2 nt (m1 m2 m1' m2' : loc -> R) :
  walled_end2 (arithR eps tiny) r n1 nt m1 m1' -> walled_end2 (arithR eps tiny) (transpose_run r) n2 nt m2 m2' ->
  image_passes (s_o r) (s_nit r) ->
  transposed2 (s_lo (transpose_run r)) (s_hi (transpose_run r)) (n_eqns (s_cfg r)) (nug (s_o r)) m1 m2 ->
  forall e i j, (e < n_eqns (s_cfg r))%nat -> on_grid (s_lo r) (s_hi r) i j ->
  cell2 m2' e (newest2 (transpose_run r) nt) j i = cell2 m1' e (newest2 r nt) i j.
Proof.
  intros B1 B2 IP T e i j He [Hi Hj]. set (q := transpose_run r) in *.
  pose proof (we_ok _ _ _ _ _ _ B1) as RK. pose proof (we_ok _ _ _ _ _ _ B2) as QK. destruct (ok_lo_hi r RK) as [LX LY].
  set (M1 := image_along r m1). set (M2 := image_along q m2).
  pose proof (image_along_ok r m1 : with_image_along Ropp (s_lo r) (s_hi r) (n_eqns (s_cfg r)) (nug (s_o r)) m1 M1) as W1.
  pose proof (image_along_ok q m2 : with_image_along Ropp (s_lo q) (s_hi q) (n_eqns (s_cfg q)) (nug (s_o q)) m2 M2) as W2.
  destruct (box_images_exist eps tiny r RK n1 nt m1 m1' M1 B1 IP W1) as [M1' E1].
  destruct (box_images_exist eps tiny q QK n2 nt m2 m2' M2 B2 IP W2) as [M2' E2].
  set (N1 := image_of (long r) M1). set (N2 := image_of (long q) M2).
  pose proof (image_of_ok (long r) M1 : with_image Ropp (s_lo (long r)) (s_hi (long r)) (n_eqns (s_cfg (long r))) (nug (s_o (long r))) M1 N1) as V1.
  pose proof (image_of_ok (long q) M2 : with_image Ropp (s_lo (long q)) (s_hi (long q)) (n_eqns (s_cfg (long q))) (nug (s_o (long q))) M2 N2) as V2.
  destruct (images_exist eps tiny (long r) (long_ok r RK) 1 nt M1 M1' N1 E1 V1) as [N1' F1].
  destruct (images_exist eps tiny (long q) (long_ok q QK) 1 nt M2 M2' N2 E2 V2) as [N2' F2].
  assert (TT : transposed2 (s_lo (transpose_run (wide (long r)))) (s_hi (transpose_run (wide (long r)))) (n_eqns (s_cfg (wide (long r)))) (nug (s_o (wide (long r)))) N1 N2).
  { destruct T as (T1 & T2 & T3 & T4). 
    change (s_lo q DX) with (s_lo r DY) in *. change (s_lo q DY) with (s_lo r DX) in *. change (s_hi q DX) with (s_hi r DY) in *. change (s_hi q DY) with (s_hi r DX) in *.
    cbn [transpose_run swap_axis wide long s_lo s_hi s_o s_cfg].
    assert (IX : forall k, s_lo r DX <= k <= 2 * s_hi r DX - s_lo r DX -> s_lo r DX <= imaged (s_hi r DX) k <= s_hi r DX) by (apply (imx_in r RK)).
    assert (IY : forall k, s_lo r DY <= k <= 2 * s_hi r DY - s_lo r DY -> s_lo r DY <= imaged (s_hi r DY) k <= s_hi r DY) by (apply (im_in r RK)).
    split; [|split; [|split]].
    - intros e0 a b H0 Ha Hb. rewrite (both_cell q QK m2 M2 N2 W2 V2) by auto. rewrite (both_cell r RK m1 M1 N1 W1 V1) by auto.
      change (s_hi q DX) with (s_hi r DY). change (s_hi q DY) with (s_hi r DX). apply T1; auto.
    - intros a b Ha Hb. cbn [swap_axis] in Ha, Hb. rewrite (both_x q QK m2 M2 N2 W2 V2) by auto. rewrite (both_y r m1 M1 N1 W1 V1) by auto.
      change (s_hi q DX) with (s_hi r DY). change (s_hi q DY) with (s_hi r DX). pose proof (IX b Hb). destruct (Z.ltb_spec a (s_hi r DY)); [apply T2; lia|apply f_equal, T2; lia].
    - intros a b Ha Hb. cbn [swap_axis] in Ha, Hb. rewrite (both_y q m2 M2 N2 W2 V2) by auto. rewrite (both_x r RK m1 M1 N1 W1 V1) by auto.
      change (s_hi q DX) with (s_hi r DY). change (s_hi q DY) with (s_hi r DX). pose proof (IY a Ha). destruct (Z.ltb_spec b (s_hi r DX)); [apply T3; lia|apply f_equal, T3; lia].
    - intros NU a b Ha Hb. rewrite (both_g q QK m2 M2 N2 W2 V2) by auto. rewrite (both_g r RK m1 M1 N1 W1 V1) by auto.
      change (s_hi q DX) with (s_hi r DY). change (s_hi q DY) with (s_hi r DX). apply T4; auto. }
  unfold q in F2. rewrite <- transpose_images in F2. fold q in F2.
  assert (OG : on_grid (s_lo (wide (long r))) (s_hi (wide (long r))) i j) by (split; cbn [wide long s_lo s_hi]; lia).
  pose proof (transpose2 eps tiny (wide (long r)) 1 1 nt N1 N2 N1' N2' F1 F2 TT e He i j OG) as Q.
  assert (A1 : cell2 N1' e (newest2 r nt) i j = cell2 m1' e (newest2 r nt) i j).
  { pose proof (images eps tiny (long r) (long_ok r RK) 1 1 nt M1 M1' N1 N1' E1 IP V1 F1 e i j He) as P. cbn [long s_lo s_hi] in P.
    specialize (P ltac:(lia) ltac:(lia)). rewrite imaged_low in P by lia. etransitivity; [exact P|].
    pose proof (box_images eps tiny r RK n1 1 nt m1 m1' M1 M1' B1 IP W1 E1 e i j He ltac:(lia) Hj) as P1. rewrite imaged_low in P1 by lia. exact P1. }
  rewrite transpose_images in F2. fold q in F2.
  assert (A2 : cell2 N2' e (newest2 q nt) j i = cell2 m2' e (newest2 q nt) j i).
  { pose proof (images eps tiny (long q) (long_ok q QK) 1 1 nt M2 M2' N2 N2' E2 IP V2 F2 e j i He) as P. cbn [long s_lo s_hi] in P.
    change (s_lo q DX) with (s_lo r DY) in P. change (s_lo q DY) with (s_lo r DX) in P. change (s_hi q DX) with (s_hi r DY) in P. change (s_hi q DY) with (s_hi r DX) in P.
    specialize (P ltac:(lia) ltac:(lia)). rewrite imaged_low in P by lia. etransitivity; [exact P|].
    pose proof (box_images eps tiny q QK n2 1 nt m2 m2' M2 M2' B2 IP W2 E2 e j i He) as P1. 
    change (s_lo q DX) with (s_lo r DY) in P1. change (s_lo q DY) with (s_lo r DX) in P1. change (s_hi q DX) with (s_hi r DY) in P1. change (s_hi q DY) with (s_hi r DX) in P1.
    specialize (P1 ltac:(lia) ltac:(lia)). rewrite imaged_low in P1 by lia. exact P1. }
  rewrite <- A1, <- A2. exact Q.
Qed.
