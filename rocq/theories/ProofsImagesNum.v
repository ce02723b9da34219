(** Sign, bounds, constants and streams in channels, from runs with their images. *)
From Coq Require Import ZArith List Bool Lia ZifyBool Reals Lra.
From Verif Require Import ModelIndex ModelRun Lang ProofsLang Stencil ProofsStencil FormCommon Form2D Solver1D Solver2D
  ProofsThread2D ProofsOne2D Arith SpecReal SpecThreads SpecFields2 SpecRun2 SpecNum2 SpecChannel2 ProofsCyclic2D ProofsResults2D
  ProofsChannelRun SpecImages2 ProofsImagesRun.
Import ListNotations.
Local Open Scope R_scope.

Section Num.
  Variables (eps tiny : R) (r : run2) (n nt : nat) (m m' : loc -> R).
  Notation AR := (arithR eps tiny).
  Hypothesis CE : channel_end2 AR r n nt m m'.
  Hypothesis IP : image_passes (s_o r) (s_nit r).
  Variable e : nat.
  Hypothesis He : (e < n_eqns (s_cfg r))%nat.
  Notation lo := (s_lo r).
  Notation hi := (s_hi r).
  Notation hi2 := (s_hi (wide r)).
  Notation o := (s_o r).
  Notation w := (wrap2 lo hi DX).
  Notation m2 := (image_of r m).
  Let RK : run2_ok r := ch_ok _ _ _ _ _ _ CE.
  Lemma W : with_image Ropp lo hi (n_eqns (s_cfg r)) (nug o) m m2. Proof. apply image_of_ok. Qed.
  Lemma LX : (lo DX < hi DX)%Z. Proof. apply (ok_lo_hi r RK). Qed.
  Lemma LY : (lo DY < hi DY)%Z. Proof. apply (ok_lo_hi r RK). Qed.

  (** an inner cell of the wide grid and the cell of the channel *)
  Lemma in_wide i j : inside lo hi2 i j -> in_channel lo hi i (imaged (hi DY) j).
  Proof. intros [H1 H2]. split; [exact H1|]. apply (im_in r RK). cbn [wide s_hi] in H2. lia. Qed.
  Lemma wide_cell i j : inside lo hi2 i j -> cell2 m2 e false i j = cell2 m e false i (imaged (hi DY) j).
  Proof. intros [H1 H2]. cbn [wide s_hi] in H1, H2. apply W; auto; lia. Qed.
  Lemma wide_G i j : inside lo hi2 i j -> G2of (nug o) m2 i j = G2of (nug o) m i (imaged (hi DY) j).
  Proof. intros [H1 H2]. cbn [wide s_hi] in H1, H2. destruct W as (_ & _ & _ & _ & W5). unfold G2of. revert W5. destruct (nug o); [|reflexivity]. intros W5. apply W5; auto; lia. Qed.
  Lemma wide_x i j : (lo DX <= i < hi DX)%Z -> (lo DY <= j < hi2 DY)%Z -> face2 m2 DX i j = face2 m DX i (imaged (hi DY) j).
  Proof. intros H1 H2. cbn [wide s_hi] in H2. apply W; lia. Qed.
  Lemma wide_east i j : inside lo hi2 i j -> east m2 i j = east m i (imaged (hi DY) j).
  Proof. intros [H1 H2]. apply wide_x; auto. Qed.
  Lemma wide_west i j : inside lo hi2 i j -> west lo hi2 m2 i j = west lo hi m i (imaged (hi DY) j).
  Proof. intros [H1 H2]. unfold west. change (wrap2 lo hi2 DX (i - 1)) with (w (i - 1)). apply wide_x; auto. apply cw_in, LX. Qed.
  Lemma wide_wrap j : (lo DY <= j < hi2 DY)%Z -> wrap2 lo hi2 DY (j - 1) = if (lo DY <? j)%Z then (j - 1)%Z else (hi2 DY - 1)%Z.
  Proof.
    intros H. pose proof LY as L. unfold wrap2. cbn [wide s_hi] in *. destruct (Z.ltb_spec (lo DY) j).
    - rewrite Z.mod_small; lia.
    - replace j with (lo DY) by lia. replace (lo DY - 1 - lo DY)%Z with ((2 * hi DY - lo DY - lo DY - 1) + (-1) * (2 * hi DY - lo DY - lo DY))%Z by lia.
      rewrite Z.mod_add by lia. rewrite Z.mod_small by lia. lia.
  Qed.
  Lemma wide_ns i j : inside lo hi2 i j ->
    north m2 i j = ch_north hi m i (imaged (hi DY) j) /\ south lo hi2 m2 i j = ch_south lo m i (imaged (hi DY) j) \/
    north m2 i j = - ch_south lo m i (imaged (hi DY) j) /\ south lo hi2 m2 i j = - ch_north hi m i (imaged (hi DY) j).
  Proof.
    intros [H1 H2]. pose proof LY as L. unfold north, south. rewrite wide_wrap by exact H2. cbn [wide s_hi] in *. destruct W as (_ & _ & W3 & W4 & _).
    unfold imaged, ch_north, ch_south. destruct (Z.leb_spec j (hi DY)).
    - left. split.
      + destruct (Z.ltb_spec j (hi DY)); [apply W3; lia|]. rewrite W4 by lia. f_equal. f_equal. lia.
      + destruct (Z.ltb_spec (lo DY) j); [apply W3; lia|]. rewrite W4 by lia. f_equal. f_equal. lia.
    - right. destruct (Z.ltb_spec (2 * hi DY - j) (hi DY)); [|lia]. destruct (Z.ltb_spec (lo DY) (2 * hi DY - j)); [|lia].
      destruct (Z.ltb_spec (lo DY) j); [|lia]. rewrite !W4 by lia. split; f_equal; f_equal; lia.
  Qed.
  Lemma wide_out : channel_outflow lo hi (nug o) m -> outflow_ok2 lo hi2 (nug o) m2.
  Proof.
    intros H i j I. specialize (H i (imaged (hi DY) j) (in_wide i j I)). rewrite wide_G, wide_east, wide_west by exact I. split; [apply H|].
    destruct (wide_ns i j I) as [[-> ->]|[-> ->]]; [apply H|]. destruct H as [_ H]. revert H. unfold Rmax, Rmin. repeat destruct Rle_dec; lra.
  Qed.
  Lemma wide_div : channel_divfree lo hi m -> divergence_free2 lo hi2 m2.
  Proof.
    intros H i j I. specialize (H i (imaged (hi DY) j) (in_wide i j I)). rewrite wide_east, wide_west by exact I.
    destruct (wide_ns i j I) as [[-> ->]|[-> ->]]; lra.
  Qed.
  Lemma wide_y (P : R -> Prop) : (forall v, P v -> P (- v)) ->
    (forall i j, (lo DX <= i < hi DX)%Z -> (lo DY <= j < hi DY)%Z -> P (face2 m DY i j)) -> forall i j, inside lo hi2 i j -> P (face2 m2 DY i j).
  Proof.
    intros S H i j [H1 H2]. cbn [wide s_hi] in H1, H2. destruct W as (_ & _ & W3 & W4 & _). destruct (Z_lt_le_dec j (hi DY)) as [J|J].
    - rewrite W3 by lia. apply H; lia.
    - rewrite W4 by lia. apply S, H; lia.
  Qed.
  Lemma wide_gentle g cx cy : channel_gentle lo hi (nug o) m g cx cy -> gentle2 lo hi2 (nug o) m2 g cx cy.
  Proof.
    intros (P & C & H & HY). split; auto. split; auto. intros i j I. destruct (H i (imaged (hi DY) j) (in_wide i j I)) as [A B].
    rewrite wide_G by exact I. split; [exact A|]. split; [rewrite wide_x; [exact B|apply I|apply I]|].
    apply (wide_y (fun v => Rabs v <= cy * g)); auto. intros v Hv. rewrite Rabs_Ropp. exact Hv.
  Qed.
  Lemma wide_stream c : stream lo hi m c -> uniform2 lo hi2 m2 c 0.
  Proof.
    intros [H HY] i j I. split; [rewrite wide_x by apply I; apply H, in_wide, I|].
    apply (wide_y (fun v => v = 0)); auto. intros v ->. lra.
  Qed.
  Lemma wide_all (P : R -> Prop) : (forall i j, in_channel lo hi i j -> P (cell2 m e false i j)) -> forall i j, inside lo hi2 i j -> P (cell2 m2 e false i j).
  Proof. intros H i j I. rewrite wide_cell by exact I. apply H, in_wide, I. Qed.
  (** any property of the cells of the run with the image is one of the channel *)
  Lemma from_wide (P : Z -> Z -> R -> Prop) :
    (forall m2', cyclic_end2 AR (wide r) n nt m2 m2' -> forall i j, on_grid lo hi2 i j -> P i j (cell2 m2' e (newest2 r nt) i j)) ->
    forall i j, on_grid lo hi i j -> P i j (cell2 m' e (newest2 r nt) i j).
  Proof.
    intros H i j [H1 H2]. pose proof LY as L. destruct (images_exist eps tiny r RK n nt m m' m2 CE W) as [m2' E].
    pose proof (images eps tiny r RK n n nt m m' m2 m2' CE IP W E e i j He H1 ltac:(lia)) as Q.
    unfold imaged in Q. destruct (Z.leb_spec j (hi DY)); [|lia]. rewrite <- Q. apply (H m2' E). split; [exact H1|]. cbn [wide s_hi]. lia.
  Qed.

  Theorem ch_constants c : channel_divfree lo hi m ->
    (div2 o = false \/ (div3 o = false /\ div3dt o = false) \/ s_sp r = aver4 \/ exists cx, stream lo hi m cx) ->
    (forall i j, in_channel lo hi i j -> cell2 m e false i j = c) ->
    forall i j, on_grid lo hi i j -> cell2 m' e (newest2 r nt) i j = c.
  Proof.
    intros HD Opt Hc. apply (from_wide (fun _ _ v => v = c)). intros m2' E.
    apply (constants2 eps tiny (wide r) n nt m2 m2' E e He c (wide_div HD)).
    - destruct Opt as [O|[O|[O|[cx O]]]]; auto. right; right; right. exists cx, 0. apply wide_stream, O.
    - apply (wide_all (fun v => v = c)). exact Hc.
  Qed.
  Theorem ch_sign : channel_outflow lo hi (nug o) m -> s_nit r = 1%nat \/ (fct o = true /\ 0 < eps) ->
    (forall i j, in_channel lo hi i j -> 0 <= cell2 m e false i j) ->
    forall i j, on_grid lo hi i j -> 0 <= cell2 m' e (newest2 r nt) i j.
  Proof.
    intros FO S Hc. apply (from_wide (fun _ _ v => 0 <= v)). intros m2' E.
    apply (sign2 eps tiny (wide r) n nt m2 m2' E e He (wide_out FO) S). apply (wide_all (fun v => 0 <= v)). exact Hc.
  Qed.
  Theorem ch_bounds a b : channel_outflow lo hi (nug o) m ->
    s_nit r = 1%nat \/ (fct o = true /\ 0 < eps /\ (iga o = true \/ oabs o = true \/ 0 <= a)) -> channel_divfree lo hi m ->
    (forall i j, in_channel lo hi i j -> a <= cell2 m e false i j <= b) ->
    forall i j, on_grid lo hi i j -> a <= cell2 m' e (newest2 r nt) i j <= b.
  Proof.
    intros FO S HD Hc. apply (from_wide (fun _ _ v => a <= v <= b)). intros m2' E.
    apply (bounds2 eps tiny (wide r) n nt m2 m2' E e He (wide_out FO) a b S (wide_div HD)). apply (wide_all (fun v => a <= v <= b)). exact Hc.
  Qed.
  Theorem ch_stream k : nug o = false -> div2 o = false \/ (iga o = true /\ div3dt o = false) ->
    (k = 0 \/ k = 1 \/ k = -1)%Z -> stream lo hi m (IZR k) ->
    forall i j, on_grid lo hi i j -> cell2 m' e (newest2 r nt) i j = cell2 m e false (w (i - k * Z.of_nat nt)) j.
  Proof.
    intros H1 H2 H3 U i j HJ.
    refine (from_wide (fun a b v => (lo DY <= b <= hi DY)%Z -> v = cell2 m e false (w (a - k * Z.of_nat nt)) b) _ i j HJ (proj2 HJ)).
    intros m2' E a b I Hb. pose proof LY as L. pose proof LX as L1.
    etransitivity; [exact (unit_courant2 eps tiny (wide r) n nt m2 m2' E e He k 0 H1 H2 (or_introl (conj eq_refl H3)) (wide_stream _ U) a b I)|].
    change (wrap2 (s_lo (wide r)) hi2 DX) with w. change (s_lo (wide r)) with lo. rewrite Z.mul_0_l, Z.sub_0_r.
    assert (EB : wrap2 lo hi2 DY b = b) by (unfold wrap2; cbn [wide s_hi]; rewrite Z.mod_small; lia). rewrite EB.
    pose proof (cw_in lo hi L1 (a - k * Z.of_nat nt)) as WI. rewrite wide_cell by (split; [exact WI|cbn [wide s_hi]; lia]).
    unfold imaged. destruct (Z.leb_spec b (hi DY)); [reflexivity|lia].
  Qed.
End Num.

Theorem ch_basic_sign eps tiny r n nt m m' e g cx cy : channel_end2 (arithR eps tiny) r n nt m m' -> (e < n_eqns (s_cfg r))%nat ->
  iga (s_o r) = false -> fct (s_o r) = false -> div2 (s_o r) = false -> tot (s_o r) = false -> dfl (s_o r) = false -> fot (s_o r) = false ->
  (pfc (s_o r) = true \/ 0 < tiny) -> channel_gentle (s_lo r) (s_hi r) (nug (s_o r)) m g cx cy ->
  (forall i j, in_channel (s_lo r) (s_hi r) i j -> 0 <= cell2 m e false i j) ->
  forall i j, on_grid (s_lo r) (s_hi r) i j -> 0 <= cell2 m' e (newest2 r nt) i j.
Proof.
  intros CE He H1 H2 H3 H4 H5 H6 H7 HG Hc. assert (IP : image_passes (s_o r) (s_nit r)) by (right; auto).
  apply (from_wide eps tiny r n nt m m' CE IP e He (fun _ _ v => 0 <= v)). intros m2' E.
  apply (basic_sign2 eps tiny (wide r) n nt _ m2' E e He g cx cy); auto.
  - apply (wide_gentle eps tiny r n nt m m' CE e He). exact HG.
  - apply (wide_all eps tiny r n nt m m' CE e He (fun v => 0 <= v)). exact Hc.
Qed.
