(** The shallow-water solver: lemmas about runs. *)
From Coq Require Import ZArith List Bool Lia ZifyBool Reals Lra.
From Verif Require Import ModelRun Lang ProofsLang Stencil FormCommon Form2D Solver1D Solver2D Fun1D FunN Arith SpecReal SpecSym2
  ProofsReal1D ProofsAnti1D ProofsNum1D ProofsSign1D ProofsSym1D ProofsFunN ProofsPerN ProofsNumN ProofsSymN ProofsReal2D ProofsAnti2D
  ProofsNum2D ProofsMirror2D ProofsFun2D ProofsResults2D ProofsSymRun2D ProofsLinN ProofsLin2D ModelVip ModelShallow SpecShallow ProofsShallow ProofsCons1D.
Import ListNotations.
Local Open Scope R_scope.

Lemma keeps p (I : water -> Prop) n s t : (forall s, I s -> (w_veps p = 0 -> forall x, h_ s x <> 0) -> I (sw_step p s)) -> I s -> sw_run p n s t -> I t.
Proof. intros HS H0 H. induction H; auto. Qed.
Lemma simulates p p' (E : water -> water -> Prop) n s t s' :
  (forall s s', E s s' -> E (sw_step p s) (sw_step p' s')) ->
  (forall s s', E s s' -> (w_veps p = 0 -> forall x, h_ s x <> 0) -> w_veps p' = 0 -> forall x, h_ s' x <> 0) ->
  E s s' -> sw_run p n s t -> exists t', sw_run p' n s' t' /\ E t t'.
Proof.
  intros HS HG H0 H. induction H; [exists s'; split; [constructor|auto]|].
  destruct (IHsw_run H0) as (t' & R & Q). exists (sw_step p' t'). split; auto. constructor; auto. eapply HG; eauto.
Qed.

(** ** Totals *)
Section Total.
  Variables nx ny : Z.
  Hypothesis Hx : (0 < nx)%Z.
  Hypothesis Hy : (0 < ny)%Z.
  Notation T := (total_of nx ny).
  Lemma T_ext f f' : (forall x, f x = f' x) -> T f = T f'.
  Proof. intros H. apply total_ext. intros i _. apply total_ext. auto. Qed.
  Lemma T_lin a b f f' : T (fun x => a * f x + b * f' x) = a * T f + b * T f'.
  Proof. unfold total_of. rewrite <- total_lin. apply total_ext. intros i _. apply total_lin. Qed.
  Lemma T_shift d (f : idx -> R) : In d xy -> same_after (box nx ny) f -> T (fun x => f (pv d x)) = T f.
  Proof.
    intros Hd P.
    assert (PX : forall i j, f ((i + nx)%Z, j, 0%Z) = f (i, j, 0%Z)).
    { intros i j. rewrite <- (P _ (or_introl eq_refl) (i, j, 0%Z)). unfold iadd. cbn [fst snd]. rewrite !Z.add_0_r. reflexivity. }
    assert (PY : forall i j, f (i, (j + ny)%Z, 0%Z) = f (i, j, 0%Z)).
    { intros i j. rewrite <- (P _ (or_intror (or_introl eq_refl)) (i, j, 0%Z)). unfold iadd. cbn [fst snd]. rewrite !Z.add_0_r. reflexivity. }
    destruct Hd as [<-|[<-|[]]]; unfold total_of, pv, iadd, un; cbn [fst snd].
    - rewrite <- (total_shift 0 nx (fun i => total 0 ny (fun j => f (i, j, 0%Z)))).
      + apply total_ext. intros i _. apply total_ext. intros j _. apply (f_equal f). apply f_equal2; [apply f_equal2|]; lia.
      + lia.
      + apply total_ext. intros j _. rewrite <- (PX (0 - 1)%Z). apply (f_equal f). apply f_equal2; [apply f_equal2|]; lia.
    - apply total_ext. intros i _. rewrite <- (total_shift 0 ny (fun j => f (i, j, 0%Z))).
      + apply total_ext. intros j _. apply (f_equal f). apply f_equal2; [apply f_equal2|]; lia.
      + lia.
      + rewrite <- (PY i (0 - 1)%Z). apply (f_equal f). apply f_equal2; [apply f_equal2|]; lia.
  Qed.
End Total.

Definition withG (p : shallow) : shallow :=
  {| w_eps := w_eps p; w_tiny := w_tiny p; w_o := w_o p; w_sp := w_sp p; w_tp := w_tp p; w_nit := w_nit p; w_freq := w_freq p;
     w_scq := w_scq p; w_sch := w_sch p; w_dt := w_dt p; w_di := w_di p; w_grav := w_grav p; w_veps := w_veps p; w_G := G_of p |}.
Lemma advect_withG p C ts sc psi x : advect (withG p) C ts sc psi x = advect p C ts sc psi x.
Proof. apply advect_same; auto; try reflexivity. - intros H y. cbn. unfold G_of. rewrite H. reflexivity. - intros d y _. reflexivity. Qed.

(** ** Translations *)
Section Per.
  Variables (p : shallow) (vs : list idx).
  Hypothesis HG : same_after vs (G_of p).
  Notation P := (same_after vs).
  Record per (s : water) : Prop := { p_q : forall d, P (q_ s d); p_h : P (h_ s); p_r : forall d, P (rhs_ s d); p_s : forall d, P (stash_ s d) }.
  Lemma P_step d k f : P f -> P (fun x => f (step_in d k x)).
  Proof.
    intros H v Hv x. replace (step_in d k (iadd x v)) with (iadd (step_in d k x) v); [apply H; auto|].
    destruct x as [[? ?] ?], v as [[? ?] ?], d; unfold step_in, iadd; cbn [fst snd]; ixs.
  Qed.
  Lemma P_rhs h d : P h -> P (update_rhs p h d).
  Proof.
    intros H v Hv x. unfold update_rhs, sw_grad. rewrite (H v Hv x).
    rewrite (P_step d 1 h H v Hv x), (P_step d (-1) h H v Hv x). reflexivity.
  Qed.
  Lemma P_vel q h : P q -> P h -> P (velocity p q h).
  Proof. intros Hq Hh v Hv x. unfold velocity. rewrite (Hq v Hv), (Hh v Hv). reflexivity. Qed.
  Lemma P_extrapolated s d : per s -> P (extrapolated p s d).
  Proof.
    intros H v Hv x. unfold extrapolated. rewrite (p_s s H d v Hv), (P_vel _ _ (p_q s H d) (p_h s H) v Hv). reflexivity.
  Qed.
  Lemma P_advector s d : per s -> P (advector p s d).
  Proof.
    intros H v Hv x. pose proof (P_extrapolated s d H) as E. unfold advector, intrp. destruct (nug (w_o p)) eqn:N.
    - assert (Q : P (w_G p)). { intros u Hu y. pose proof (HG u Hu y) as K. unfold G_of in K. rewrite N in K. exact K. }
      rewrite (E v Hv), (Q v Hv), (P_step d 1 _ E v Hv), (P_step d 1 _ Q v Hv). reflexivity.
    - rewrite (E v Hv), (P_step d 1 _ E v Hv). reflexivity.
  Qed.
  Lemma P_advect C ts sc psi : (forall d, P (C d)) -> P psi -> P (advect p C ts sc psi).
  Proof.
    intros HC HP v Hv x. rewrite <- !(advect_withG p).
    exact (advect_per (withG p) vs C ts sc psi HC HG HP v Hv x).
  Qed.
  Lemma P_apply dt r q d : P (r d) -> P (q d) -> P (apply_rhs dt r q d).
  Proof. intros Hr Hq v Hv x. unfold apply_rhs. rewrite (Hr v Hv), (Hq v Hv). reflexivity. Qed.
  Lemma per_step s : per s -> per (sw_step p s).
  Proof.
    intros H. pose proof (fun d => P_advector s d H) as HC.
    assert (H2 : P (h_ (sw_step p s))) by (apply P_advect; auto; apply H).
    constructor; auto.
    - intros d. apply P_apply; [apply P_rhs; exact H2|]. apply P_advect; auto. apply P_apply; apply H.
    - intros d. apply P_rhs; auto.
    - intros d. apply P_vel; apply H.
  Qed.
  Lemma per_start q h : (forall d, P (q d)) -> P h -> per (sw_start p q h).
  Proof. intros Hq Hh. constructor; cbn; auto. - intros d. apply P_rhs; auto. - intros d v _ x. reflexivity. Qed.
  Lemma per_run n s t : per s -> sw_run p n s t -> per t.
  Proof. intros H. apply keeps; auto. intros. apply per_step; auto. Qed.
End Per.

(** ** Conservation *)
Section Cons.
  Variables (p : shallow) (nx ny : Z).
  Hypothesis Hx : (0 < nx)%Z.
  Hypothesis Hy : (0 < ny)%Z.
  Hypothesis HG : same_after (box nx ny) (G_of p).
  Hypothesis G0 : forall x, G_of p x <> 0.
  Notation T := (total_of nx ny).
  Notation P := (same_after (box nx ny)).
  Lemma mass_advect C ts sc psi : (forall d, P (C d)) -> P psi ->
    T (fun x => G_of p x * advect p C ts sc psi x) = T (fun x => G_of p x * psi x).
  Proof.
    intros HC HP.
    assert (PX : perXN (arithR (w_eps p) (w_tiny p)) (box nx ny) (fixed_by (withG p) C)).
    { constructor; auto; intros d v _ x; reflexivity. }
    pose proof (mass_stepN (w_eps p) (w_tiny p) (w_o p) (forms2 (w_o p) (w_sp p) (w_tp p)) xy (closed2 _ _ _ _ _) (fixed_by (withG p) C) (box nx ny) PX
      T (T_ext nx ny) (T_lin nx ny) (T_shift nx ny Hx Hy)) as M.
    assert (EG : forall x, gN (w_o p) (G_of p) x = G_of p x).
    { intros x. unfold gN, G_of. destruct (nug (w_o p)); reflexivity. }
    specialize (M ltac:(intros x; cbn [fixed_by nG withG w_G]; rewrite EG; apply G0) (passes (w_nit p) (w_freq p) ts) sc psi HP).
    cbn [fixed_by nG withG w_G] in M.
    refine (eq_trans (T_ext _ _ _ _ _) (eq_trans M (T_ext _ _ _ _ _))).
    - intros x. rewrite EG, <- (advect_withG p). reflexivity.
    - intros x. rewrite EG. reflexivity.
  Qed.
  Lemma T_rhs h d : In d xy -> P h -> T (update_rhs p h d) = 0.
  Proof.
    intros Hd H. set (f := fun x => h x * h (ProofsNumN.nx d x)).
    assert (E : T (fun x => f (pv d x)) = T f).
    { apply T_shift; auto. intros v Hv x. unfold f. rewrite (H v Hv). f_equal.
      rewrite <- !step_nx. exact (P_step (box nx ny) d 1 h H v Hv x). }
    transitivity (- (w_grav p / w_di p d / 2) * T f + w_grav p / w_di p d / 2 * T (fun x => f (pv d x))).
    - rewrite <- T_lin. apply T_ext. intros x. unfold update_rhs, sw_grad, f. rewrite step_nx, step_pv, nx_pv. unfold Rdiv. ring.
    - rewrite E. ring.
  Qed.
  Lemma T_apply dt r q d : T (apply_rhs dt r q d) = T (q d) + dt * T (r d).
  Proof. rewrite <- (Rmult_1_l (T (q d))), <- T_lin. apply T_ext. intros x. unfold apply_rhs. ring. Qed.

  Theorem conserved q h n t : (forall d, P (q d)) -> P h -> sw_run p n (sw_start p q h) t ->
    T (fun x => G_of p x * h_ t x) = T (fun x => G_of p x * h x) /\
    (nug (w_o p) = false -> forall d, In d xy -> T (q_ t d) = T (q d)).
  Proof.
    intros Hq Hh H.
    cut (per (box nx ny) t /\ T (fun x => G_of p x * h_ t x) = T (fun x => G_of p x * h x) /\
      forall d, In d xy -> T (rhs_ t d) = 0 /\ (nug (w_o p) = false -> T (q_ t d) = T (q d))).
    { intros (_ & A & B). split; auto. intros N d Hd. apply B; auto. }
    pattern t. refine (keeps p _ n _ t _ _ H); clear t H; cbv beta.
    - intros s (PS & A & B) _. pose proof (fun d => P_advector p _ HG s d PS) as HC.
      pose proof (per_step p _ HG s PS) as PS'. split; [exact PS'|]. split.
      + rewrite <- A. apply mass_advect; auto. apply PS.
      + intros d Hd. assert (R0 : T (rhs_ (sw_step p s) d) = 0) by (apply T_rhs; auto; apply PS').
        split; auto. intros N. destruct (B d Hd) as [B1 B2]. rewrite <- (B2 N).
        change (T (apply_rhs (w_dt p / 2) (rhs_ (sw_step p s)) (fun d => advect p (advector p s) (step_ s) (w_scq p d) (apply_rhs (w_dt p / 2) (rhs_ s) (q_ s) d)) d) = T (q_ s d)).
        rewrite T_apply, R0.
        assert (G1 : forall x, G_of p x = 1) by (intros; unfold G_of; rewrite N; reflexivity).
        assert (M := mass_advect (advector p s) (step_ s) (w_scq p d) (apply_rhs (w_dt p / 2) (rhs_ s) (q_ s) d) HC
          (P_apply _ _ _ _ _ (p_r _ s PS d) (p_q _ s PS d))).
        rewrite (T_ext nx ny _ (advect p (advector p s) (step_ s) (w_scq p d) (apply_rhs (w_dt p / 2) (rhs_ s) (q_ s) d))) in M
          by (intros; rewrite G1; ring).
        rewrite (T_ext nx ny (fun x => G_of p x * apply_rhs (w_dt p / 2) (rhs_ s) (q_ s) d x) (apply_rhs (w_dt p / 2) (rhs_ s) (q_ s) d)) in M
          by (intros; rewrite G1; ring).
        rewrite M, T_apply, B1. ring.
    - split; [apply per_start; auto|]. split; auto. intros d Hd. split; auto. apply T_rhs; auto.
  Qed.
End Cons.

(** ** Uniform flow *)
Section Uni.
  Variables (p : shallow) (H0 : R) (Q : dim -> R).
  Hypothesis SO : second_order p.
  Hypothesis NZ : w_veps p = 0 -> H0 <> 0.
  Hypothesis NG : nug (w_o p) = false \/ forall d, In d xy -> Q d = 0.
  Let V d := vel_of (w_veps p) (Some H0) (Q d).
  Record uni (s : water) : Prop := { u_q : forall d x, In d xy -> q_ s d x = Q d; u_h : forall x, h_ s x = H0;
    u_r : forall d x, rhs_ s d x = 0; u_s : forall d x, In d xy -> 0 < dts_ s -> stash_ s d x = V d }.
  Lemma u_e s d x : uni s -> In d xy -> extrapolated p s d x = V d.
  Proof.
    intros [A B C D] Hd. unfold extrapolated, velocity. rewrite B, A by auto. fold (V d).
    destruct (Rlt_dec 0 (dts_ s)); [rewrite D by auto|]; ring.
  Qed.
  Lemma u_div s x : uni s -> divN xy (advector p s) x = 0.
  Proof.
    intros U. unfold divN. apply dsum_0. intros d Hd. unfold advector, intrp. destruct NG as [N|N].
    - rewrite N, !u_e by auto. ring.
    - assert (Z : V d = 0).
      { unfold V, vel_of. rewrite (N d Hd). unfold Rdiv. rewrite Rmult_0_l. destruct Req_EM_T; auto; destruct Rlt_dec; reflexivity. }
      destruct (nug (w_o p)); rewrite !u_e by auto; rewrite Z; ring.
  Qed.
  Lemma u_rhs h : (forall x, h x = H0) -> forall d x, update_rhs p h d x = 0.
  Proof. intros Hh d x. unfold update_rhs, sw_grad. rewrite !Hh. unfold Rdiv. ring. Qed.
  Lemma u_step s : uni s -> uni (sw_step p s).
  Proof.
    intros U. pose proof U as [A B C D].
    assert (H2 : forall x, h_ (sw_step p s) x = H0) by (intros x; apply advect_const; auto; intros; apply u_div; auto).
    constructor; auto.
    - intros d x Hd. cbn [sw_step q_]. unfold apply_rhs at 1. rewrite u_rhs by exact H2.
      rewrite advect_const with (c := Q d); auto; [ring|intros; apply u_div; auto|].
      intros y. unfold apply_rhs. rewrite A, C by auto. ring.
    - intros d x. cbn [sw_step rhs_]. apply u_rhs. exact H2.
    - intros d x Hd _. cbn [sw_step stash_]. unfold velocity. rewrite A, B by auto. reflexivity.
  Qed.
  Theorem uniform_stays q h n : (forall d x, In d xy -> q d x = Q d) -> (forall x, h x = H0) ->
    exists t, sw_run p n (sw_start p q h) t /\ (forall x, h_ t x = H0) /\ (forall d x, In d xy -> q_ t d x = Q d).
  Proof.
    intros Hq Hh.
    assert (exists t, sw_run p n (sw_start p q h) t /\ uni t).
    { induction n as [|n (t & R & U)].
      - eexists; split; [constructor|]. constructor; cbn; auto; [apply u_rhs; auto|]. intros; lra.
      - exists (sw_step p t). split; [constructor; auto|apply u_step; auto]. intros E x. rewrite (u_h t U). auto. }
    destruct H as (t & R & U). exists t. split; auto. split; apply U.
  Qed.
End Uni.

(** ** Depth *)
Theorem depth_stays p q h n t : keeps_sign p -> (forall x, 0 < G_of p x) -> (forall x, 0 <= h x) ->
  (forall m s, (m < n)%nat -> sw_run p m (sw_start p q h) s -> forall x, outflow (advector p s) x <= G_of p x) ->
  sw_run p n (sw_start p q h) t -> forall x, 0 <= h_ t x.
Proof.
  intros KS Hg Hh. revert t. induction n as [|n IH]; intros t Ho H.
  - inversion H; subst. exact Hh.
  - inversion H; subst. intros x. apply advect_sign; auto; [eapply Ho; eauto|]. intros y. apply IH; auto.
    intros m s Hm. apply Ho. lia.
Qed.

Lemma advect_gentle p m C ts sc psi : basic p -> 0 < m -> (forall x, m <= G_of p x <= 2 * m) -> gentle_flow m C ->
  (forall x, 0 <= psi x) -> forall x, 0 <= advect p C ts sc psi x.
Proof.
  intros (I1 & NF & E2 & T1 & D1 & F1 & Ht) Hm HG HC HP x. unfold advect.
  assert (TC : tame2 m C) by (destruct HC as (cx & cy & A & B); exists cx, cy; repeat split; auto; intros; apply B).
  assert (HG' : forall x, m <= gN (w_o p) (w_G p) x <= 2 * m) by (intros; apply HG).
  apply (step_signN (w_eps p) (w_tiny p) (w_o p) _ xy (closed2 _ _ _ _ _) (fixed_by p C)) with (tame := tame2 m) (nit := w_nit p); auto.
  - intros y. cbn [fixed_by nG]. specialize (HG' y). lra.
  - intros y. exact (tame_out _ _ (w_o p) (fixed_by p C) m Hm HG' C TC y).
  - right; right. split; auto. split; auto. split; auto.
    exact (tamed2 _ _ (w_o p) _ _ (fixed_by p C) m Hm HG' I1 E2 T1 D1 F1 Ht).
  - apply passes_cases.
Qed.
Theorem depth_gentle p m q h n t : basic p -> 0 < m -> (forall x, m <= G_of p x <= 2 * m) -> (forall x, 0 <= h x) ->
  (forall k s, (k < n)%nat -> sw_run p k (sw_start p q h) s -> gentle_flow m (advector p s)) ->
  sw_run p n (sw_start p q h) t -> forall x, 0 <= h_ t x.
Proof.
  intros BS Hm Hg Hh. revert t. induction n as [|n IH]; intros t Ho H.
  - inversion H; subst. exact Hh.
  - inversion H; subst. intros x. apply advect_gentle with m; auto; [eapply Ho; eauto|]. intros y. apply IH; auto.
    intros k s Hk. apply Ho. lia.
Qed.

(** ** Uniform velocity without gravity *)
Theorem uniform_velocity p u q h n t : w_grav p = 0 -> w_veps p = 0 -> unit_blind p -> (forall d, In d xy -> 0 <= u d \/ oabs (w_o p) = true \/ iga (w_o p) = true \/ w_nit p = 1%nat) ->
  (forall d x, In d xy -> q d x = u d * h x) -> sw_run p n (sw_start p q h) t -> forall d x, In d xy -> q_ t d x = u d * h_ t x.
Proof.
  intros G0 V0 UB S Hq H.
  cut ((forall d x, rhs_ t d x = 0) /\ forall d x, In d xy -> q_ t d x = u d * h_ t x); [tauto|].
  assert (R0 : forall h d x, update_rhs p h d x = 0) by (intros; unfold update_rhs; rewrite G0; ring).
  pattern t. refine (keeps p _ n _ t _ _ H); clear t H; cbv beta.
  - intros s (A & B) _. split; [intros; apply R0|]. intros d x Hd. cbn [sw_step q_ h_]. unfold apply_rhs at 1. rewrite R0.
    rewrite (advect_mul p (u d)) with (psi := h_ s); auto.
    + rewrite (advect_hint p _ _ (w_scq p d) (w_sch p)) by auto. ring.
    + destruct (S d Hd) as [[K|K]|[K|[K|K]]]; auto 6. destruct (Req_dec (u d) 0); auto 6.
    + intros y. unfold apply_rhs. rewrite A, B by auto. ring.
  - split; [intros; apply R0|exact Hq].
Qed.

(** ** Flow in one direction *)
Theorem one_dimensional p q h n t : iga (w_o p) = false \/ sign_blind p -> same_after [(0, 1, 0)%Z] (G_of p) ->
  (forall d, same_after [(0, 1, 0)%Z] (q d)) -> same_after [(0, 1, 0)%Z] h -> (forall x, q DY x = 0) ->
  sw_run p n (sw_start p q h) t ->
  same_after [(0, 1, 0)%Z] (h_ t) /\ same_after [(0, 1, 0)%Z] (q_ t DX) /\ forall x, q_ t DY x = 0.
Proof.
  intros O HG Hq Hh H0 H.
  cut (per [(0, 1, 0)%Z] t /\ (forall x, q_ t DY x = 0) /\ forall x, rhs_ t DY x = 0).
  { intros (PS & A & _). split; [apply PS|split; [apply PS|exact A]]. }
  assert (R0 : forall h, same_after [(0, 1, 0)%Z] h -> forall x, update_rhs p h DY x = 0).
  { intros f Hf x. unfold update_rhs, sw_grad. unfold step_in.
    rewrite (Hf (0, 1, 0)%Z (or_introl eq_refl)).
    pose proof (Hf (0, 1, 0)%Z (or_introl eq_refl) (iadd x (0, -1, 0)%Z)) as E. rewrite iadd_assoc in E. 
    change (iadd (0, -1, 0) (0, 1, 0))%Z with (0, 0, 0)%Z in E.
    replace (iadd x (0, 0, 0)%Z) with x in E by (destruct x as [[? ?] ?]; unfold iadd; cbn; rewrite !Z.add_0_r; reflexivity).
    rewrite <- E. unfold Rdiv. ring. }
  pattern t. refine (keeps p _ n _ t _ _ H); clear t H; cbv beta.
  - intros s (PS & A & B) _. pose proof (per_step p _ HG s PS) as PS'. split; auto.
    assert (R1 : forall x, rhs_ (sw_step p s) DY x = 0) by (intros; apply (R0 (h_ (sw_step p s))); apply PS').
    split; auto. intros x. cbn [sw_step q_]. unfold apply_rhs at 1. cbn [sw_step rhs_] in R1. rewrite R1.
    assert (Z1 : forall y, apply_rhs (w_dt p / 2) (rhs_ s) (q_ s) DY y = 0) by (intros; unfold apply_rhs; rewrite A, B; ring).
    destruct O as [O|O].
    + rewrite zero_step by auto. ring.
    + set (f := apply_rhs (w_dt p / 2) (rhs_ s) (q_ s) DY) in *.
      pose proof (advect_neg p (advector p s) (step_ s) (w_scq p DY) f f O ltac:(intros; rewrite Z1; ring) x). lra.
  - split; [apply per_start; auto|]. split; auto. intros x. apply R0; auto.
Qed.
