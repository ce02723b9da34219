(** The shallow-water solver: mirror images, exchanged axes, other units. *)
From Coq Require Import ZArith List Bool Lia ZifyBool Reals Lra.
From Verif Require Import ModelRun Lang ProofsLang Stencil FormCommon Form2D Solver1D Solver2D Fun1D FunN Arith SpecReal SpecSym2
  ProofsReal1D ProofsAnti1D ProofsNum1D ProofsSign1D ProofsSym1D ProofsFunN ProofsPerN ProofsNumN ProofsSymN ProofsReal2D ProofsAnti2D
  ProofsNum2D ProofsMirror2D ProofsFun2D ProofsResults2D ProofsSymRun2D ProofsLinN ProofsLin2D ModelVip ModelShallow SpecShallow ProofsShallow ProofsShallow2.
Import ListNotations.
Local Open Scope R_scope.

Lemma vel_neg e d q : vel_of e d (- q) = - vel_of e d q.
Proof. unfold vel_of. destruct d; auto. destruct Req_EM_T; [|destruct Rlt_dec]; unfold Rdiv; ring. Qed.

(** ** Mirror images *)
Section Mirror.
  Variables (p : shallow) (dd : dim) (S : Z).
  Hypothesis Hdd : In dd xy.
  Hypothesis SB : sign_blind p.
  Notation p' := (in_mirror dd S p).
  Notation m := (mirror dd S).
  Notation b := (mneg dd).
  Definition img (f f' : dim -> lattice) : Prop := forall d x, In d xy -> f' d x = flip (b d) (f d (m x)).
  Record mir (s s' : water) : Prop := { m_q : img (q_ s) (q_ s'); m_h : forall x, h_ s' x = h_ s (m x); m_r : img (rhs_ s) (rhs_ s');
    m_s : img (stash_ s) (stash_ s'); m_t : step_ s' = step_ s; m_d : dts_ s' = dts_ s }.
  Lemma m_mh x : m x = mh dd S x. Proof. unfold mirror, mh. destruct dd; reflexivity. Qed.
  Lemma m_nx d x : In d xy -> m (nx d x) = if b d then pv d (m x) else nx d (m x).
  Proof.
    intros Hd. destruct x as [[i j] k]. unfold mirror, mneg, nx, pv, iadd, uv, un. two_dims Hdd; two_dims Hd; cbn [dim_eqb fst snd]; ixs.
  Qed.
  Lemma m_pv d x : In d xy -> m (pv d x) = if b d then nx d (m x) else pv d (m x).
  Proof.
    intros Hd. destruct x as [[i j] k]. unfold mirror, mneg, nx, pv, iadd, uv, un. two_dims Hdd; two_dims Hd; cbn [dim_eqb fst snd]; ixs.
  Qed.
  Lemma mir_rhs h h' : (forall x, h' x = h (m x)) -> img (update_rhs p h) (update_rhs p' h').
  Proof.
    intros H d x Hd. unfold update_rhs, sw_grad. cbn [in_mirror w_grav w_di]. rewrite !H, !step_nx, !step_pv, m_nx, m_pv by auto.
    destruct (b d); cbn [flip]; unfold Rdiv; ring.
  Qed.
  Lemma mir_vel s s' d x : mir s s' -> In d xy -> velocity p' (q_ s' d) (h_ s') x = flip (b d) (velocity p (q_ s d) (h_ s) (m x)).
  Proof.
    intros M Hd. unfold velocity. rewrite (m_q _ _ M), (m_h _ _ M) by auto. cbn [in_mirror w_veps]. destruct (b d); cbn [flip]; auto. apply vel_neg.
  Qed.
  Lemma mir_ext s s' d x : mir s s' -> In d xy -> extrapolated p' s' d x = flip (b d) (extrapolated p s d (m x)).
  Proof.
    intros M Hd. unfold extrapolated. rewrite (mir_vel s s'), (m_s _ _ M), (m_d _ _ M) by auto. cbn [in_mirror w_dt].
    destruct (b d); cbn [flip]; ring.
  Qed.
  Lemma mir_adv s s' : mir s s' -> frel ds2 (fun d => d) b (mhf dd S) (advector p s) (advector p' s').
  Proof.
    intros M d x Hd. unfold advector, intrp, sg, mhf. rewrite <- m_mh. cbn [in_mirror w_o w_dt w_di w_G].
    rewrite !step_nx, !(mir_ext s s') by auto.
    destruct (nug (w_o p)); cbv beta; rewrite !m_nx by auto; destruct (b d); cbn [flip]; rewrite ?step_nx, ?nx_pv; unfold Rdiv; ring.
  Qed.
  Lemma mir_advect C C' ts sc psi psi' : frel ds2 (fun d => d) b (mhf dd S) C C' -> (forall x, psi' x = psi (m x)) ->
    forall x, advect p' C' ts sc psi' x = advect p C ts sc psi (m x).
  Proof.
    intros HC HP x. rewrite m_mh.
    refine (mir_steps (w_eps p) (w_tiny p) (w_o p) (w_sp p) (w_tp p) (fixed_by p C) (fixed_by p' C') dd Hdd S HC _ _ _
      (w_nit p) (w_freq p) sc 1 ts psi psi' _ x).
    - intros _ y. cbn [fixed_by nG in_mirror w_G]. rewrite m_mh. reflexivity.
    - intros d y _. cbn [fixed_by nN]. unfold sg. destruct (mneg dd d); toR; ring.
    - intros d y _. cbn [fixed_by nT]. unfold sg. destruct (mneg dd d); toR; ring.
    - intros y. rewrite <- m_mh. apply HP.
  Qed.
  Lemma blind' : sign_blind p'.
  Proof. destruct SB as [H|(H1 & H2 & H3 & H4 & H5)]; [left; exact H|right]. repeat split; auto. intros N y. apply H5. auto. Qed.
  Lemma mir_signed C C' ts sc psi psi' d : frel ds2 (fun d => d) b (mhf dd S) C C' -> (forall x, psi' x = flip (b d) (psi (m x))) ->
    forall x, advect p' C' ts sc psi' x = flip (b d) (advect p C ts sc psi (m x)).
  Proof.
    intros HC HP x. destruct (b d); cbn [flip] in *.
    - rewrite (advect_neg p' C' ts sc (fun y => psi (m y)) psi' blind' HP). f_equal. apply mir_advect; auto.
    - apply mir_advect; auto.
  Qed.
  Lemma flip_add c u v k : flip c u + k * flip c v = flip c (u + k * v).
  Proof. destruct c; cbn; ring. Qed.
  Lemma mir_step s s' : mir s s' -> mir (sw_step p s) (sw_step p' s').
  Proof.
    intros M. pose proof (mir_adv s s' M) as HC.
    assert (H2 : forall x, h_ (sw_step p' s') x = h_ (sw_step p s) (m x)).
    { intros x. cbn [sw_step h_]. rewrite (m_t _ _ M). apply (mir_advect (advector p s)); auto. apply M. }
    constructor.
    - intros d x Hd. pose proof (mir_rhs _ _ H2 d x Hd) as E. cbn [sw_step q_ h_] in *. unfold apply_rhs at 1 3. rewrite E, (m_t _ _ M), <- flip_add.
      f_equal. change (w_scq p' d) with (w_scq p d).
      apply (mir_signed (advector p s)); auto. intros y. unfold apply_rhs. rewrite (m_q _ _ M), (m_r _ _ M) by auto. apply flip_add.
    - exact H2.
    - exact (mir_rhs _ _ H2).
    - intros d x Hd. apply mir_vel; auto.
    - cbn [sw_step step_]. rewrite (m_t _ _ M). reflexivity.
    - reflexivity.
  Qed.
  Lemma m_m x : m (m x) = x.
  Proof. destruct x as [[i j] k]. unfold mirror. destruct dd; cbn [fst snd]; ixs. Qed.
  Theorem mirrored q h q' h' n t : img q q' -> (forall x, h' x = h (m x)) -> sw_run p n (sw_start p q h) t ->
    exists t', sw_run p' n (sw_start p' q' h') t' /\ img (q_ t) (q_ t') /\ forall x, h_ t' x = h_ t (m x).
  Proof.
    intros Hq Hh H. destruct (simulates p p' mir n (sw_start p q h) t (sw_start p' q' h') mir_step) with (3 := H) as (t' & R & M).
    - intros s s' M K E x. rewrite (m_h _ _ M). apply K. exact E.
    - constructor; cbn [sw_start q_ h_ rhs_ stash_ step_ dts_]; auto; [apply mir_rhs; auto|]. intros d x _. destruct (b d); cbn; ring.
    - exists t'. split; auto. split; apply M.
  Qed.
End Mirror.

(** ** Exchanged axes *)
Section Exchange.
  Variable p : shallow.
  Notation p' := (exchanged p).
  Definition xch (f f' : dim -> lattice) : Prop := forall d x, In d xy -> f' d x = f (swap_axis d) (swapped x).
  Record exc (s s' : water) : Prop := { x_q : xch (q_ s) (q_ s'); x_h : forall x, h_ s' x = h_ s (swapped x); x_r : xch (rhs_ s) (rhs_ s');
    x_s : xch (stash_ s) (stash_ s'); x_t : step_ s' = step_ s; x_d : dts_ s' = dts_ s }.
  Lemma x_nx d x : In d xy -> swapped (nx d x) = nx (swap_axis d) (swapped x).
  Proof. intros Hd. destruct x as [[i j] k]. unfold swapped, nx, iadd, uv. two_dims Hd; cbn [swap_axis fst snd]; ixs. Qed.
  Lemma x_pv d x : In d xy -> swapped (pv d x) = pv (swap_axis d) (swapped x).
  Proof. intros Hd. destruct x as [[i j] k]. unfold swapped, pv, iadd, un. two_dims Hd; cbn [swap_axis fst snd]; ixs. Qed.
  Lemma sw_in d : In d xy -> In (swap_axis d) xy. Proof. intros Hd. two_dims Hd; cbn; auto. Qed.
  Lemma exc_rhs h h' : (forall x, h' x = h (swapped x)) -> xch (update_rhs p h) (update_rhs p' h').
  Proof.
    intros H d x Hd. unfold update_rhs, sw_grad. cbn [exchanged w_grav w_di]. rewrite !H, !step_nx, !step_pv, x_nx, x_pv by auto. reflexivity.
  Qed.
  Lemma exc_vel s s' d x : exc s s' -> In d xy -> velocity p' (q_ s' d) (h_ s') x = velocity p (q_ s (swap_axis d)) (h_ s) (swapped x).
  Proof. intros M Hd. unfold velocity. rewrite (x_q _ _ M), (x_h _ _ M) by auto. reflexivity. Qed.
  Lemma exc_ext s s' d x : exc s s' -> In d xy -> extrapolated p' s' d x = extrapolated p s (swap_axis d) (swapped x).
  Proof. intros M Hd. unfold extrapolated. rewrite (exc_vel s s'), (x_s _ _ M), (x_d _ _ M) by auto. reflexivity. Qed.
  Lemma exc_adv s s' : exc s s' -> frel ds2 swap_axis (fun _ => false) (fun _ => th) (advector p s) (advector p' s').
  Proof.
    intros M d x Hd. unfold advector, intrp, sg. change (th x) with (swapped x). cbn [exchanged w_o w_dt w_di w_G].
    rewrite !step_nx, !(exc_ext s s') by auto. destruct (nug (w_o p)); cbv beta; rewrite !x_nx by auto; reflexivity.
  Qed.
  Lemma exc_advect C C' ts sc psi psi' : frel ds2 swap_axis (fun _ => false) (fun _ => th) C C' -> (forall x, psi' x = psi (swapped x)) ->
    forall x, advect p' C' ts sc psi' x = advect p C ts sc psi (swapped x).
  Proof.
    intros HC HP x.
    refine (tr_steps (w_eps p) (w_tiny p) (w_o p) (w_sp p) (w_tp p) (fixed_by p C) (fixed_by p' C') HC _ _ _
      (w_nit p) (w_freq p) sc 1 ts psi psi' HP x); [intros _ y|intros d y _|intros d y _]; reflexivity.
  Qed.
  Lemma exc_step s s' : exc s s' -> exc (sw_step p s) (sw_step p' s').
  Proof.
    intros M. pose proof (exc_adv s s' M) as HC.
    assert (H2 : forall x, h_ (sw_step p' s') x = h_ (sw_step p s) (swapped x)).
    { intros x. cbn [sw_step h_]. rewrite (x_t _ _ M). apply (exc_advect (advector p s)); auto. apply M. }
    constructor.
    - intros d x Hd. pose proof (exc_rhs _ _ H2 d x Hd) as E. cbn [sw_step q_ h_] in *. unfold apply_rhs at 1 3. rewrite E, (x_t _ _ M).
      f_equal. change (w_scq p' d) with (w_scq p (swap_axis d)).
      apply (exc_advect (advector p s)); auto. intros y. unfold apply_rhs. rewrite (x_q _ _ M), (x_r _ _ M) by auto. reflexivity.
    - exact H2.
    - exact (exc_rhs _ _ H2).
    - intros d x Hd. apply exc_vel; auto.
    - cbn [sw_step step_]. rewrite (x_t _ _ M). reflexivity.
    - reflexivity.
  Qed.
  Theorem axes_exchanged q h q' h' n t : xch q q' -> (forall x, h' x = h (swapped x)) -> sw_run p n (sw_start p q h) t ->
    exists t', sw_run p' n (sw_start p' q' h') t' /\ xch (q_ t) (q_ t') /\ forall x, h_ t' x = h_ t (swapped x).
  Proof.
    intros Hq Hh H. destruct (simulates p p' exc n (sw_start p q h) t (sw_start p' q' h') exc_step) with (3 := H) as (t' & R & M).
    - intros s s' M K E x. rewrite (x_h _ _ M). apply K. exact E.
    - constructor; cbn [sw_start q_ h_ rhs_ stash_ step_ dts_]; auto; [apply exc_rhs; auto|]. intros d x _. reflexivity.
    - exists t'. split; auto. split; apply M.
  Qed.
End Exchange.

(** ** Other units *)
Section Units.
  Variables (p : shallow) (a b c : R).
  Hypothesis Ha : 0 < a.
  Hypothesis Hb : 0 < b.
  Hypothesis Hc : 0 < c.
  Hypothesis HD : forall d, In d xy -> w_di p d <> 0.
  Hypothesis UB : unit_blind p.
  Notation p' := (rescaled a b c p).
  Definition mul (k : R) (f f' : dim -> lattice) : Prop := forall d x, In d xy -> f' d x = k * f d x.
  Record sim (s s' : water) : Prop := { i_q : mul (a * b) (q_ s) (q_ s'); i_h : forall x, h_ s' x = a * h_ s x;
    i_r : mul (a * b * b / c) (rhs_ s) (rhs_ s'); i_s : mul b (stash_ s) (stash_ s'); i_t : step_ s' = step_ s; i_d : dts_ s' = c / b * dts_ s }.
  Lemma sim_rhs h h' : (forall x, h' x = a * h x) -> mul (a * b * b / c) (update_rhs p h) (update_rhs p' h').
  Proof.
    intros H d x Hd. unfold update_rhs, sw_grad. cbn [rescaled w_grav w_di]. rewrite !H. pose proof (HD d Hd). field. repeat split; auto; lra.
  Qed.
  Lemma vel_scaled h q : vel_of (a * w_veps p) (Some (a * h)) (a * b * q) = b * vel_of (w_veps p) (Some h) q.
  Proof.
    assert (E : a * b * q / (a * h) = b * (q / h)) by (unfold Rdiv; rewrite Rinv_mult; transitivity (a * / a * (b * (q * / h))); [ring|rewrite Rinv_r by lra; ring]).
    unfold vel_of. rewrite E. destruct (Req_EM_T (a * w_veps p) 0) as [Z|Z]; destruct (Req_EM_T (w_veps p) 0) as [Y|Y]; auto.
    - exfalso. destruct (Rmult_integral _ _ Z); lra.
    - exfalso. rewrite Y in Z. lra.
    - destruct (Rlt_dec (a * w_veps p) (a * h)) as [L|L]; destruct (Rlt_dec (w_veps p) h) as [K|K]; auto.
      + exfalso. apply K. apply Rmult_lt_reg_l with a; auto.
      + exfalso. apply L. apply Rmult_lt_compat_l; auto.
      + ring.
  Qed.
  Lemma sim_vel s s' d x : sim s s' -> In d xy -> velocity p' (q_ s' d) (h_ s') x = b * velocity p (q_ s d) (h_ s) x.
  Proof. intros M Hd. unfold velocity. rewrite (i_q _ _ M), (i_h _ _ M) by auto. apply vel_scaled. Qed.
  Lemma sim_ext s s' d x : sim s s' -> In d xy -> extrapolated p' s' d x = b * extrapolated p s d x.
  Proof.
    intros M Hd. unfold extrapolated. rewrite (sim_vel s s'), (i_s _ _ M), (i_d _ _ M) by auto. cbn [rescaled w_dt].
    assert (0 < c / b) by (apply Rdiv_lt_0_compat; auto).
    destruct (Rlt_dec 0 (c / b * dts_ s)) as [L|L]; destruct (Rlt_dec 0 (dts_ s)) as [K|K].
    - replace (c / b * w_dt p / (2 * (c / b * dts_ s))) with (w_dt p / (2 * dts_ s)) by (field; lra). ring.
    - exfalso. apply K. apply Rmult_lt_reg_l with (c / b); lra.
    - exfalso. apply L. apply Rmult_lt_0_compat; auto.
    - ring.
  Qed.
  Lemma sim_adv s s' : sim s s' -> veq xy (advector p s) (advector p' s').
  Proof.
    intros M d x Hd. unfold advector, intrp. cbn [rescaled w_o w_dt w_di w_G]. rewrite !(sim_ext s s') by auto. pose proof (HD d Hd).
    destruct (nug (w_o p)); field; repeat split; auto; lra.
  Qed.
  Lemma sim_advect k C C' ts sc psi psi' : 0 < k -> veq xy C C' -> (forall x, psi' x = k * psi x) ->
    forall x, advect p' C' ts sc psi' x = k * advect p C ts sc psi x.
  Proof.
    intros Hk HC HP x.
    rewrite <- (advect_mul p k C ts sc psi (fun y => k * psi y) UB (or_introl Hk) (fun _ => eq_refl) x).
    apply advect_same; auto.
  Qed.
  Lemma sim_step s s' : sim s s' -> sim (sw_step p s) (sw_step p' s').
  Proof.
    intros M. pose proof (sim_adv s s' M) as HC.
    assert (Hab : 0 < a * b) by (apply Rmult_lt_0_compat; auto).
    assert (H2 : forall x, h_ (sw_step p' s') x = a * h_ (sw_step p s) x).
    { intros x. cbn [sw_step h_]. rewrite (i_t _ _ M). apply (sim_advect a (advector p s)); auto. apply M. }
    constructor.
    - intros d x Hd. pose proof (sim_rhs _ _ H2 d x Hd) as E. cbn [sw_step q_ h_] in *. unfold apply_rhs at 1 3. rewrite E, (i_t _ _ M).
      change (w_scq p' d) with (w_scq p d). change (w_dt p') with (c / b * w_dt p).
      rewrite (sim_advect (a * b) (advector p s) _ _ _ (apply_rhs (w_dt p / 2) (rhs_ s) (q_ s) d)); auto; [field; lra|].
      intros y. unfold apply_rhs. rewrite (i_q _ _ M), (i_r _ _ M) by auto. field; lra.
    - exact H2.
    - exact (sim_rhs _ _ H2).
    - intros d x Hd. apply sim_vel; auto.
    - cbn [sw_step step_]. rewrite (i_t _ _ M). reflexivity.
    - reflexivity.
  Qed.
  Theorem similar q h q' h' n t : mul (a * b) q q' -> (forall x, h' x = a * h x) -> sw_run p n (sw_start p q h) t ->
    exists t', sw_run p' n (sw_start p' q' h') t' /\ mul (a * b) (q_ t) (q_ t') /\ forall x, h_ t' x = a * h_ t x.
  Proof.
    intros Hq Hh H. destruct (simulates p p' sim n (sw_start p q h) t (sw_start p' q' h') sim_step) with (3 := H) as (t' & R & M).
    - intros s s' M K E x. rewrite (i_h _ _ M). intros Z. destruct (Rmult_integral _ _ Z); [lra|]. revert H0. apply K.
      cbn [rescaled w_veps] in E. destruct (Rmult_integral _ _ E); lra.
    - constructor; cbn [sw_start q_ h_ rhs_ stash_ step_ dts_]; auto; [apply sim_rhs; auto| |ring]. intros d x _. ring.
    - exists t'. split; auto. split; apply M.
  Qed.
End Units.

(** ** Forcing *)
Theorem forcing_exact p a b m d x : In d xy -> w_di p d <> 0 -> m DX DY = m DY DX ->
  update_rhs p (parabolic p a b m) d x = - (w_grav p * parabolic p a b m x * slope p b m d x).
Proof.
  intros Hd HD HM. unfold update_rhs, sw_grad.
  assert (E : (parabolic p a b m (step_in d 1 x) - parabolic p a b m (step_in d (-1) x)) / w_di p d / 2 = slope p b m d x).
  { destruct x as [[i j] k]. unfold parabolic, slope, step_in, iadd, comp. two_dims Hd; cbn [fst snd]; rewrite !plus_IZR; field_simplify; auto.
    - field; auto.
    - rewrite HM. field; auto. }
  rewrite E. ring.
Qed.
