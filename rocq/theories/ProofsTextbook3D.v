(** Runs of the 3D solver on cyclic domains compute MPDATA as in the literature. *)
From Coq Require Import ZArith List Bool Lia ZifyBool Reals Lra.
From Verif Require Import ModelRun Lang ProofsLang Stencil FormCommon Form3D Solver1D Solver3D Fun1D FunN Arith SpecReal
  SpecFields3 SpecNum3 SpecRun3 ProofsCyclic3D ProofsReal1D ProofsAnti1D ProofsNum1D ProofsSign1D
  ProofsFunN ProofsPerN ProofsNumN ProofsReal3D ProofsAnti3D ProofsNum3D ProofsFun3D ProofsResults3D SpecMpdata SpecMpdata3.
Import ListNotations.
Local Open Scope R_scope.

Lemma ixt (a b c a' b' c' : Z) : a = a' -> b = b' -> c = c' -> (a, b, c) = (a', b', c').
Proof. intros -> -> ->. reflexivity. Qed.
Lemma nx_move d x : nx d x = move d 1 x.
Proof. destruct x as [[i j] k]. destruct d; unfold nx, iadd, uv; cbn [fst snd move]; apply ixt; lia. Qed.
Lemma pv_move d x : pv d x = move d (-1) x.
Proof. destruct x as [[i j] k]. destruct d; unfold pv, iadd, un; cbn [fst snd move]; apply ixt; lia. Qed.
Lemma lc_move (f : idx -> R) d x i j k : lc3 d x f i j k = f (move d i (move (dp d) j (move (dm d) k x))).
Proof. destruct x as [[a b] c]. unfold lc3. f_equal. destruct d; unfold iadd, x3; cbn [fst snd move dp dm]; apply ixt; lia. Qed.
Lemma move0 d x : move d 0 x = x.
Proof. destruct x as [[a b] c]. destruct d; cbn [move]; apply ixt; lia. Qed.

Ltac maxge := first [lra | apply Rmax_l | apply Rmax_r | (eapply Rle_trans; [|apply Rmax_l]; maxge) | (eapply Rle_trans; [|apply Rmax_r]; maxge)].
Ltac minle := first [lra | apply Rmin_l | apply Rmin_r | (eapply Rle_trans; [apply Rmin_l|]; minle) | (eapply Rle_trans; [apply Rmin_r|]; minle)].
Section Textbook.
  Variables eps tiny : R.
  Notation AR := (arithR eps tiny).
  Variables (o : fl) (sp : sptl) (tp : tmprl).
  Notation F := (forms3 o sp tp).
  Variable X : fixedN AR.
  Hypothesis Oabs : oabs o = false.
  Hypothesis Otot : tot o = false.
  Hypothesis Odfl : dfl o = false.
  Hypothesis Odiv : div2 o = false.
  Notation field := (idx -> R).
  Notation vector := (dim -> idx -> R).
  Definition same (f h : field) : Prop := forall x, f x = h x.
  Definition samev (c h : vector) : Prop := forall d x, c d x = h d x.
  Variable g : field.
  Hypothesis Hg : same (gN o (nG AR X)) g.
  Let CF := closed3 eps tiny o sp tp.

  Lemma t_up (a b c : R) : Rmax 0 c * a + Rmin 0 c * b = upstream a b c.
  Proof. unfold upstream. destruct (Rle_dec 0 c); [rewrite Rmax_right, Rmin_left by lra|rewrite Rmax_left, Rmin_right by lra]; ring. Qed.
  Lemma t_flux psi c p h : same psi p -> samev c h -> samev (fluxN AR F psi c) (fluxes p h).
  Proof. intros Hp Hc d x. rewrite (cl_flux _ _ _ _ _ CF) by apply in_ds. unfold donN. rewrite nx_move, !Hp, Hc. apply t_up. Qed.
  Lemma t_sum psi phi p h : same psi p -> samev phi h -> same (sumN AR o F psi phi (nG AR X)) (advect3 g p h).
  Proof.
    intros Hp Hc x. rewrite (cl_sum _ _ _ _ _ CF). unfold divN, advect3. cbn [dsum]. rewrite !pv_move, Hp, !Hc, Hg.
    rewrite Rplus_0_r. unfold Rminus, Rdiv. rewrite !Rplus_assoc. reflexivity.
  Qed.
  Lemma gb_avg d x : gbx o (lc3 d x (nG AR X)) 0 0 0 = density g d x.
  Proof.
    unfold density. rewrite <- !Hg. unfold gbx, gN. rewrite !lc_move, !move0. change (0 + 1)%Z with 1%Z. destruct (nug o); [|field]. toR. lra.
  Qed.
  Lemma main_avg u q gb : Rabs u / 2 * (1 - Rabs u / gb) * (2 * q) = (Rabs u - u * u / gb) * q.
  Proof.
    assert (A : u * u = Rabs u * Rabs u) by (unfold Rabs; destruct (Rcase_abs u); ring).
    rewrite A. unfold Rdiv. generalize (/ gb). intros z. field.
  Qed.
  Lemma t_quot a b : fracR o tiny a b = quot (pfc o) tiny a b. Proof. reflexivity. Qed.
  Lemma t_ndx psi p d x : same psi p -> Ndx o tiny (lc3 d x psi) 0 0 0 = 2 * slope_along (iga o) (pfc o) tiny p d x.
  Proof.
    intros Hp. unfold Ndx, slope_along, pp, paR. rewrite Oabs, !lc_move, !move0, !Hp, t_quot. change (0 + 1)%Z with 1%Z.
    destruct (iga o); [field|reflexivity].
  Qed.
  Lemma move_comm d e i j x : move d i (move e j x) = move e j (move d i x).
  Proof. destruct x as [[a b] c]. destruct d, e; cbn [move]; try reflexivity; apply ixt; lia. Qed.
  Lemma t_ndy psi p d x : same psi p -> Ndy o tiny (lc3 d x psi) 0 0 0 = 2 * slope_across (iga o) (pfc o) tiny p d (dp d) x.
  Proof.
    intros Hp. unfold Ndy, slope_across, pp, paR. rewrite Oabs, !lc_move, !move0, !Hp, t_quot.
    change (0 + 1)%Z with 1%Z. change (0 - 1)%Z with (-1)%Z. cbv zeta.
    destruct (iga o); [field|]. unfold Rdiv. rewrite (Rmult_comm (quot _ _ _ _)), <- Rmult_assoc, Rinv_r, Rmult_1_l by lra. apply f_equal2; ring.
  Qed.
  Lemma t_ndz psi p d x : same psi p -> Ndz o tiny (lc3 d x psi) 0 0 0 = 2 * slope_across (iga o) (pfc o) tiny p d (dm d) x.
  Proof.
    intros Hp. unfold Ndz, slope_across, pp, paR. rewrite Oabs, !lc_move, !move0, !Hp, t_quot.
    change (0 + 1)%Z with 1%Z. change (0 - 1)%Z with (-1)%Z. cbv zeta.
    destruct (iga o); [field|]. unfold Rdiv. rewrite (Rmult_comm (quot _ _ _ _)), <- Rmult_assoc, Rinv_r, Rmult_1_l by lra. apply f_equal2; ring.
  Qed.
  Lemma t_bb c h d x : samev c h -> bbxy (lc3 d x (c (dp d))) 0 0 0 = across h d (dp d) x.
  Proof.
    intros Hc. unfold bbxy, across. rewrite !lc_move, !move0, !Hc. change (0 + 1)%Z with 1%Z. change (0 - 1)%Z with (-1)%Z. f_equal. ring.
  Qed.
  Lemma t_cb c h d x : samev c h -> cbxz (lc3 d x (c (dm d))) 0 0 0 = across h d (dm d) x.
  Proof.
    intros Hc. unfold cbxz, across. rewrite !lc_move, !move0, !Hc. change (0 + 1)%Z with 1%Z. change (0 - 1)%Z with (-1)%Z. f_equal. ring.
  Qed.
  Lemma t_anti psi psin c p h : same psi p -> samev c h -> samev (corrN AR F X psi psin c) (pseudo3 g (iga o) (pfc o) tiny p h).
  Proof.
    intros Hp Hc d x. rewrite corr3. unfold A3, Tot, Dfl. rewrite Odiv, Otot, Odfl.
    rewrite gb_avg, (t_ndx psi p), (t_ndy psi p), (t_ndz psi p), (t_bb c h), (t_cb c h), main_avg by auto.
    rewrite !lc_move, !move0, !Hc.
    assert (S : pseudo3 g (iga o) (pfc o) tiny p h d x = pseudo1 g (iga o) (pfc o) tiny p h d (dp d) (dm d) x).
    { destruct d; try reflexivity; unfold pseudo3, pseudo1; cbv zeta; cbn [dp dm]; ring. }
    rewrite S. unfold pseudo1. cbv zeta. unfold Rdiv. generalize (/ density g d x). intros z. field.
  Qed.

  Lemma t_corr psi c p h : same psi p -> samev c h -> samev (if iga o then c else fluxN AR F psi c) (correct3 (iga o) p h).
  Proof. intros Hp Hc. unfold correct3. destruct (iga o); auto. apply t_flux; auto. Qed.
  Lemma t_max psi p : same psi p -> same (nbmax [DX; DY; DZ] psi) (max7 p).
  Proof.
    intros Hp x. unfold max7. cbn [nbmax]. rewrite !nx_move, !pv_move, !Hp. apply Rle_antisym; repeat apply Rmax_lub; maxge.
  Qed.
  Lemma t_min psi p : same psi p -> same (nbmin [DX; DY; DZ] psi) (min7 p).
  Proof.
    intros Hp x. unfold min7. cbn [nbmin]. rewrite !nx_move, !pv_move, !Hp. apply Rle_antisym; repeat apply Rmin_glb; minle.
  Qed.
  Lemma t_lim psi c mn mx old p h : same psi p -> samev c h -> same mn (min7 old) -> same mx (max7 old) ->
    samev (limN AR o F X psi c mn mx) (if fct o then limited3 g (iga o) eps old p h else h).
  Proof.
    intros Hp Hc Hn Hm. unfold FunN.limN. destruct (fct o) eqn:E; [|exact Hc].
    set (phi := if iga o then c else fluxN AR F psi c).
    assert (HF : samev phi (correct3 (iga o) p h)) by (apply t_corr; auto).
    assert (U : same (bupN AR F psi mx phi (nG AR X)) (up3 g eps old p (correct3 (iga o) p h))).
    { intros x. rewrite (cl_bup _ _ _ _ _ CF). unfold up3, in1, inN. cbn [dsum].
      rewrite Hm, (t_max psi p Hp), Hp, Hg, !pv_move, !HF, Rplus_0_r. f_equal. ring. }
    assert (Dn : same (bdnN AR F psi mn phi (nG AR X)) (dn3 g eps old p (correct3 (iga o) p h))).
    { intros x. rewrite (cl_bdn _ _ _ _ _ CF). unfold dn3, out1, outN. cbn [dsum].
      rewrite Hn, (t_min psi p Hp), Hp, Hg, !pv_move, !HF, Rplus_0_r. f_equal. ring. }
    intros d x. rewrite (cl_mono _ _ _ _ _ CF) by apply in_ds. unfold limfacN, limAN, limBN, limited3, gtb.
    rewrite Oabs, andb_false_r, nx_move, Hc, !U, !Dn. destruct (Rlt_dec 0 _); reflexivity.
  Qed.
  Lemma t_passes mn mx old more : same mn (min7 old) -> same mx (max7 old) -> forall psin psi c p h,
    same psi p -> samev c h ->
    same (passesN AR o F X mn mx more psin psi c) (corrections3 g (iga o) (fct o) (pfc o) eps tiny more old p h).
  Proof.
    intros Hn Hm. induction more as [|q IH]; intros psin psi c p h Hp Hc; cbn [passesN corrections3]; auto.
    pose proof (t_anti psi psin c p h Hp Hc) as HA. apply IH; auto.
    unfold finN. apply t_sum; auto. apply t_corr; auto. apply t_lim; auto.
  Qed.
  Lemma t_steps nit nt C : samev (nC AR X) C -> forall ts psi p, same psi p ->
    same (stepsN AR o F X nit 0 0 nt ts psi) (mpdata3 g C (iga o) (fct o) (pfc o) eps tiny nit nt p).
  Proof.
    intros HC. induction nt as [|q IH]; intros ts psi p Hp; cbn [stepsN mpdata3]; auto.
    apply IH. unfold stepN, mpdata3_step.
    assert (S0 : forall f, same f p -> same (scaleN AR 0 f) p) by (intros f Hf x; apply Hf).
    intros x. rewrite scaleN_R. change (- 0)%Z with 0%Z.
    replace (sc 0) with 1 by reflexivity. rewrite Rmult_1_l. revert x.
    assert (Hp' : same (scaleN AR 0 psi) p) by (apply S0; auto).
    apply t_passes; auto.
    - intros x. rewrite (cl_min _ _ _ _ _ CF). apply t_min. auto.
    - intros x. rewrite (cl_max _ _ _ _ _ CF). apply t_max. auto.
    - apply t_sum; auto. apply t_flux; auto.
  Qed.
End Textbook.

Theorem textbook3 eps tiny r n nt m m' : cyclic_end3 (arithR eps tiny) r n nt m m' ->
  oabs (s3_o r) = false -> tot (s3_o r) = false -> dfl (s3_o r) = false -> div2 (s3_o r) = false ->
  s3_freq r = 0%Z -> forall e, (e < n_eqns (s3_cfg r))%nat -> s3_scale r e = 0%Z ->
  let per (f : idx -> R) := fun i => f (wrap3 (s3_lo r) (s3_hi r) i) in
  forall i, inside (s3_lo r) (s3_hi r) i ->
  cell3 m' e (newest3 r nt) i =
  mpdata3 (per (G3of (nug (s3_o r)) m)) (fun d => per (face3 m d)) (iga (s3_o r)) (fct (s3_o r)) (pfc (s3_o r)) eps tiny
          (s3_nit r) nt (per (cell3 m e false)) i.
Proof.
  intros CE H1 H2 H3 H4 HF e He HS per i Hi. refine (eq_trans (run3_fun eps tiny r n nt m m' CE e He i Hi) _).
  rewrite HF, HS. unfold s3_forms. apply t_steps; auto.
  - intros x. rewrite (cyc_g eps tiny r m). reflexivity.
  - intros d x. reflexivity.
  - intros x. reflexivity.
Qed.
