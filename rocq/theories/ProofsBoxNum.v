(** Sign, bounds and constants in closed boxes, from runs in channels with their images. *)
From Coq Require Import ZArith List Bool Lia ZifyBool Reals Lra.
From Verif Require Import ModelIndex ModelRun Lang ProofsLang Stencil ProofsStencil FormCommon Form2D Solver1D Solver2D
  ProofsThread2D ProofsOne2D Arith SpecReal SpecThreads SpecFields2 SpecRun2 SpecNum2 SpecWalls2 SpecWalls3 SpecChannel2 ProofsCyclic2D ProofsResults2D
  ProofsChannelRun SpecImages2 ProofsImagesRun ProofsImagesNum SpecImagesBox ProofsBoxRun.
Import ListNotations.
Local Open Scope R_scope.

Section Num.
  Variables (eps tiny : R) (r : run2) (n nt : nat) (m m' : loc -> R).
  Notation AR := (arithR eps tiny).
  Hypothesis BE : walled_end2 AR r n nt m m'.
  Hypothesis IP : image_passes (s_o r) (s_nit r).
  Variable e : nat.
  Hypothesis He : (e < n_eqns (s_cfg r))%nat.
  Notation lo := (s_lo r).
  Notation hi := (s_hi r).
  Notation hi2 := (s_hi (long r)).
  Notation o := (s_o r).
  Notation m2 := (image_along r m).
  Let RK : run2_ok r := we_ok _ _ _ _ _ _ BE.
  Lemma WA : with_image_along Ropp lo hi (n_eqns (s_cfg r)) (nug o) m m2. Proof. apply image_along_ok. Qed.
  Lemma BX : (lo DX < hi DX)%Z. Proof. apply (ok_lo_hi r RK). Qed.
  Lemma BY : (lo DY < hi DY)%Z. Proof. apply (ok_lo_hi r RK). Qed.

  Lemma in_long i j : in_channel lo hi2 i j -> on_grid lo hi (imaged (hi DX) i) j.
  Proof. intros [H1 H2]. cbn [long s_hi] in H1, H2. split; [|exact H2]. apply (imx_in r RK). lia. Qed.
  Lemma long_cell i j : in_channel lo hi2 i j -> cell2 m2 e false i j = cell2 m e false (imaged (hi DX) i) j.
  Proof. intros [H1 H2]. cbn [long s_hi] in H1, H2. apply WA; auto; lia. Qed.
  Lemma long_G i j : in_channel lo hi2 i j -> G2of (nug o) m2 i j = G2of (nug o) m (imaged (hi DX) i) j.
  Proof.
    intros [H1 H2]. cbn [long s_hi] in H1, H2. destruct WA as (_ & _ & _ & _ & W5). unfold G2of. revert W5.
    destruct (nug o); [|reflexivity]. intros W5. apply W5; auto; lia.
  Qed.
  Lemma long_y i j : (lo DX <= i < hi2 DX)%Z -> (lo DY <= j < hi DY)%Z -> face2 m2 DY i j = face2 m DY (imaged (hi DX) i) j.
  Proof. intros H1 H2. cbn [long s_hi] in H1. apply WA; lia. Qed.
  Lemma long_north i j : in_channel lo hi2 i j -> ch_north hi2 m2 i j = b_north hi m (imaged (hi DX) i) j.
  Proof.
    intros [H1 H2]. pose proof BY as L. unfold ch_north, b_north. change (hi2 DY) with (hi DY) in *.
    destruct (Z.ltb_spec j (hi DY)), (Z.eqb_spec j (hi DY)); try lia; rewrite long_y by lia; reflexivity.
  Qed.
  Lemma long_south i j : in_channel lo hi2 i j -> ch_south lo m2 i j = b_south lo m (imaged (hi DX) i) j.
  Proof.
    intros [H1 H2]. pose proof BY as L. unfold ch_south, b_south. change (hi2 DY) with (hi DY) in *.
    destruct (Z.ltb_spec (lo DY) j), (Z.eqb_spec j (lo DY)); try lia; rewrite long_y by lia; reflexivity.
  Qed.
  Lemma long_wrap i : (lo DX <= i < hi2 DX)%Z -> wrap2 lo hi2 DX (i - 1) = if (lo DX <? i)%Z then (i - 1)%Z else (hi2 DX - 1)%Z.
  Proof.
    intros H. pose proof BX as L. unfold wrap2. cbn [long s_hi] in *. destruct (Z.ltb_spec (lo DX) i).
    - rewrite Z.mod_small; lia.
    - replace i with (lo DX) by lia. replace (lo DX - 1 - lo DX)%Z with ((2 * hi DX - lo DX - lo DX - 1) + (-1) * (2 * hi DX - lo DX - lo DX))%Z by lia.
      rewrite Z.mod_add by lia. rewrite Z.mod_small by lia. lia.
  Qed.
  Lemma long_ew i j : in_channel lo hi2 i j ->
    east m2 i j = b_east hi m (imaged (hi DX) i) j /\ west lo hi2 m2 i j = b_west lo m (imaged (hi DX) i) j \/
    east m2 i j = - b_west lo m (imaged (hi DX) i) j /\ west lo hi2 m2 i j = - b_east hi m (imaged (hi DX) i) j.
  Proof.
    intros [H1 H2]. pose proof BX as L. unfold east, west. rewrite long_wrap by exact H1. cbn [long s_hi] in *. destruct WA as (_ & _ & W3 & W4 & _).
    unfold imaged, b_east, b_west. destruct (Z.leb_spec i (hi DX)).
    - left. split.
      + destruct (Z.eqb_spec i (hi DX)); [|apply W3; lia]. rewrite W4 by lia. f_equal. f_equal. lia.
      + destruct (Z.ltb_spec (lo DX) i), (Z.eqb_spec i (lo DX)); try lia; [apply W3; lia|]. rewrite W4 by lia. f_equal. f_equal. lia.
    - right. destruct (Z.eqb_spec (2 * hi DX - i) (hi DX)); [lia|]. destruct (Z.eqb_spec (2 * hi DX - i) (lo DX)); [lia|].
      destruct (Z.ltb_spec (lo DX) i); [|lia]. rewrite !W4 by lia. split; f_equal; f_equal; lia.
  Qed.
  Lemma long_out : box_outflow_ok lo hi (nug o) m -> channel_outflow lo hi2 (nug o) m2.
  Proof.
    intros H i j I. specialize (H _ _ (in_long i j I)). rewrite long_G, long_north, long_south by exact I. split; [apply H|].
    destruct (long_ew i j I) as [[-> ->]|[-> ->]]; [apply H|]. destruct H as [_ H]. revert H. unfold Rmax, Rmin. repeat destruct Rle_dec; lra.
  Qed.
  Lemma long_div : box_divergence_free lo hi m -> channel_divfree lo hi2 m2.
  Proof.
    intros H i j I. specialize (H _ _ (in_long i j I)). rewrite long_north, long_south by exact I.
    destruct (long_ew i j I) as [[-> ->]|[-> ->]]; lra.
  Qed.
  Lemma long_gentle g cx cy : box_gentle lo hi (nug o) m g cx cy -> channel_gentle lo hi2 (nug o) m2 g cx cy.
  Proof.
    intros (P & C & HG & HX & HY). split; auto. split; auto. split.
    - intros i j I. rewrite long_G by exact I. split; [apply HG, in_long, I|]. destruct I as [H1 H2]. cbn [long s_hi] in H1, H2.
      destruct WA as (_ & _ & W3 & W4 & _). destruct (Z_lt_le_dec i (hi DX)) as [J|J].
      + rewrite W3 by lia. apply HX; lia.
      + rewrite W4 by lia. rewrite Rabs_Ropp. apply HX; lia.
    - intros i j H1 H2. change (hi2 DY) with (hi DY) in H2. rewrite long_y by auto. apply HY; auto. apply (imx_in r RK). cbn [long s_hi] in H1. lia.
  Qed.
  Lemma long_all (P : R -> Prop) : (forall i j, on_grid lo hi i j -> P (cell2 m e false i j)) -> forall i j, in_channel lo hi2 i j -> P (cell2 m2 e false i j).
  Proof. intros H i j I. rewrite long_cell by exact I. apply H, in_long, I. Qed.
  (** any property of the cells of the run with the image is one of the box *)
  Lemma from_long (P : R -> Prop) :
    (forall m2', channel_end2 AR (long r) 1 nt m2 m2' -> forall i j, on_grid lo hi2 i j -> P (cell2 m2' e (newest2 r nt) i j)) ->
    forall i j, on_grid lo hi i j -> P (cell2 m' e (newest2 r nt) i j).
  Proof.
    intros H i j [H1 H2]. pose proof BX as L. destruct (box_images_exist eps tiny r RK n nt m m' m2 BE IP WA) as [m2' E].
    pose proof (box_images eps tiny r RK n 1 nt m m' m2 m2' BE IP WA E e i j He ltac:(lia) H2) as Q.
    unfold imaged in Q. destruct (Z.leb_spec i (hi DX)); [|lia]. rewrite <- Q. apply (H m2' E). split; [|exact H2]. cbn [long s_hi]. lia.
  Qed.

  Theorem box_constants c : box_divergence_free lo hi m ->
    (div2 o = false \/ (div3 o = false /\ div3dt o = false) \/ s_sp r = aver4) ->
    (forall i j, on_grid lo hi i j -> cell2 m e false i j = c) ->
    forall i j, on_grid lo hi i j -> cell2 m' e (newest2 r nt) i j = c.
  Proof.
    intros HD Opt Hc. apply (from_long (fun v => v = c)). intros m2' E.
    apply (ch_constants eps tiny (long r) 1 nt m2 m2' E IP e He c (long_div HD)).
    - destruct Opt as [O|[O|O]]; auto.
    - apply (long_all (fun v => v = c)). exact Hc.
  Qed.
  Theorem box_sign : box_outflow_ok lo hi (nug o) m -> s_nit r = 1%nat \/ (fct o = true /\ 0 < eps) ->
    (forall i j, on_grid lo hi i j -> 0 <= cell2 m e false i j) ->
    forall i j, on_grid lo hi i j -> 0 <= cell2 m' e (newest2 r nt) i j.
  Proof.
    intros FO S Hc. apply (from_long (fun v => 0 <= v)). intros m2' E.
    apply (ch_sign eps tiny (long r) 1 nt m2 m2' E IP e He (long_out FO) S). apply (long_all (fun v => 0 <= v)). exact Hc.
  Qed.
  Theorem box_bounds a b : box_outflow_ok lo hi (nug o) m ->
    s_nit r = 1%nat \/ (fct o = true /\ 0 < eps /\ (iga o = true \/ oabs o = true \/ 0 <= a)) -> box_divergence_free lo hi m ->
    (forall i j, on_grid lo hi i j -> a <= cell2 m e false i j <= b) ->
    forall i j, on_grid lo hi i j -> a <= cell2 m' e (newest2 r nt) i j <= b.
  Proof.
    intros FO S HD Hc. apply (from_long (fun v => a <= v <= b)). intros m2' E.
    apply (ch_bounds eps tiny (long r) 1 nt m2 m2' E IP e He a b (long_out FO) S (long_div HD)). apply (long_all (fun v => a <= v <= b)). exact Hc.
  Qed.
End Num.

Theorem box_basic_sign eps tiny r n nt m m' e g cx cy : walled_end2 (arithR eps tiny) r n nt m m' -> (e < n_eqns (s_cfg r))%nat ->
  iga (s_o r) = false -> fct (s_o r) = false -> div2 (s_o r) = false -> tot (s_o r) = false -> dfl (s_o r) = false -> fot (s_o r) = false ->
  (pfc (s_o r) = true \/ 0 < tiny) -> box_gentle (s_lo r) (s_hi r) (nug (s_o r)) m g cx cy ->
  (forall i j, on_grid (s_lo r) (s_hi r) i j -> 0 <= cell2 m e false i j) ->
  forall i j, on_grid (s_lo r) (s_hi r) i j -> 0 <= cell2 m' e (newest2 r nt) i j.
Proof.
  intros BE He H1 H2 H3 H4 H5 H6 H7 HG Hc. assert (IP : image_passes (s_o r) (s_nit r)) by (right; auto).
  apply (from_long eps tiny r n nt m m' BE IP e He (fun v => 0 <= v)). intros m2' E.
  apply (ch_basic_sign eps tiny (long r) 1 nt _ m2' e g cx cy E); auto.
  - apply (long_gentle eps tiny r n nt m m' BE e He). exact HG.
  - apply (long_all eps tiny r n nt m m' BE e He (fun v => 0 <= v)). exact Hc.
Qed.
