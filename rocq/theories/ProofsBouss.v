(** Boussinesq solvers: every step is a step of the trapezoidal rule. *)
From Coq Require Import ZArith List Bool Reals Lra FunctionalExtensionality Lia.
From Verif Require Import Stencil ModelVip ModelStress ModelBouss SpecBouss.
Local Open Scope R_scope.

Section B.
  Variable impl_tht : bool.
  Variable nd : ndims.
  Variable ab : vab.
  Variables dt dz g Tr : R.
  Variables tht_e tht_abs : idx -> R.
  Variables (coeff : idx -> R) (relax : nat -> idx -> R).
  Variable bf : bool.
  Variable adv : nat -> dyn -> dyn.
  Variable prs : nat -> (nat -> idx -> R) -> nat -> idx -> R.
  Variable prs_ini : (nat -> idx -> R) -> nat -> idx -> R.
  Variable sgs : option (nat -> dyn -> (nat -> idx -> R) * (idx -> R)).
  Variable hfu : idx -> R.

  Notation Run := (run impl_tht nd ab dt dz g Tr tht_e tht_abs coeff relax bf adv prs prs_ini sgs hfu).
  Notation Step := (step impl_tht nd ab dt dz g Tr tht_e tht_abs coeff relax bf adv prs sgs).

  Definition phys_of : phys :=
    {| up := wd nd; gT := g / Tr; amb := tht_e; damb := dtht_e nd dz tht_e; al := tht_abs;
       nu := match ab with Impl => coeff | _ => fun _ => 0 end; rel := relax; smooth := filtered nd bf |}.
  Definition rate := if impl_tht then rate_dev phys_of else rate_full phys_of.
  Definition flow_of (s : bst) : flow := (vel s, tht s).
  (** what is applied in full before advection *)
  Definition ahead (n : nat) (s : bst) : flow :=
    (fun d i => (match ab with Expl => - coeff i * (vel s d i - relax d i) | _ => 0 end) +
                (match sgs with None => 0 | Some f => 1 / 2 * fst (f n (vel s, tht s)) d i end), fun _ => 0).
  (** force of pressure: the solver's gradients are those of pressure times half of dt *)
  Definition p_force (n : nat) (s : bst) : nat -> idx -> R :=
    match n with O => p_grad s | S _ => fun d i => p_grad s d i / (dt / 2) end.

  Hypothesis Hdt : dt <> 0.
  Hypothesis HT : Tr <> 0.
  Hypothesis Hal : forall i, 1 + dt / 2 * tht_abs i <> 0.
  Hypothesis Hnu : forall i, ab = Impl -> 1 + dt / 2 * coeff i <> 0.
  Hypothesis Hst : forall i, impl_tht = true ->
    (1 + dt / 2 * (match ab with Impl => coeff i | _ => 0 end)) * (1 + dt / 2 * tht_abs i) + dt / 2 * (dt / 2) * (g / Tr) * dtht_e nd dz tht_e i <> 0.

  Definition Inv (n : nat) (s : bst) : Prop :=
    (forall d i, r_vel s d i + v_rhs s d i = fst (rate (hfx s) (p_force n s) (flow_of s)) d i) /\
    (forall i, r_tht s i = snd (rate (hfx s) (p_force n s) (flow_of s)) i).

  Lemma al' i : 2 + dt * tht_abs i <> 0.
  Proof. intro K. apply (Hal i). lra. Qed.
  Lemma nu' i : ab = Impl -> 2 + dt * coeff i <> 0.
  Proof. intros E K. apply (Hnu i E). lra. Qed.

  Lemma st0' i : impl_tht = true -> ab <> Impl -> 4 * Tr * (2 + dt * tht_abs i) + dt * dt * g * dtht_e nd dz tht_e i * 2 <> 0.
  Proof.
    intros E N K. apply (Hst i E). apply (Rmult_eq_reg_l (8 * Tr)); [| lra]. rewrite Rmult_0_r. etransitivity; [| exact K].
    destruct ab; try congruence; field; auto.
  Qed.
  Lemma st1' i : impl_tht = true -> ab = Impl ->
    (2 + dt * coeff i) * (4 * Tr * (2 + dt * tht_abs i)) + dt * dt * g * dtht_e nd dz tht_e i * 2 * 2 <> 0.
  Proof.
    intros E N K. apply (Hst i E). apply (Rmult_eq_reg_l (16 * Tr)); [| lra]. rewrite Rmult_0_r. etransitivity; [| exact K].
    rewrite N; field; auto.
  Qed.

  Lemma inv_start u : Inv 0 (Run 0%nat u).
  Proof.
    split; intros; unfold rate, flow_of, rate_dev, rate_full, phys_of; cbn -[filter]; destruct impl_tht; cbn -[filter];
      try (destruct (Nat.eqb d (wd nd))); destruct ab; unfold filtered, buoy_at_0; destruct bf; unfold filter; cbn; field; auto.
  Qed.

  Lemma inv_post n s : (forall d i, v_rhs s d i = 0) -> Inv (S n) (post_step impl_tht nd ab dt dz g Tr tht_e tht_abs coeff relax bf prs n s) /\
    flow_of (post_step impl_tht nd ab dt dz g Tr tht_e tht_abs coeff relax bf prs n s) =
    plus (dt / 2) (rate (hfx (post_step impl_tht nd ab dt dz g Tr tht_e tht_abs coeff relax bf prs n s))
                        (p_force (S n) (post_step impl_tht nd ab dt dz g Tr tht_e tht_abs coeff relax bf prs n s))
                        (flow_of (post_step impl_tht nd ab dt dz g Tr tht_e tht_abs coeff relax bf prs n s))) (flow_of s).
  Proof.
    intros Hv.
    set (t := post_step _ _ _ _ _ _ _ _ _ _ _ _ _ _ s).
    assert (Ht : forall i, tht t i = tht s i + dt / 2 * snd (rate (hfx t) (p_force (S n) t) (flow_of t)) i /\
                  r_tht t i = snd (rate (hfx t) (p_force (S n) t) (flow_of t)) i).
    { intros i. assert (A := al' i). subst t. unfold rate, flow_of, rate_dev, rate_full, phys_of, post_step, tht_fnlz, prs_fnlz, apply_rhs, update_rhs, tht_at_1.
      destruct impl_tht; cbn -[normalize]; split; field; repeat split; auto. }
    assert (Hw : forall d i, vel t d i = vel s d i + dt / 2 * fst (rate (hfx t) (p_force (S n) t) (flow_of t)) d i).
    { intros d i. assert (A := al' i). assert (B := nu' i). assert (C0 := st0' i). assert (C1 := st1' i). subst t.
      unfold rate, flow_of, rate_dev, rate_full, phys_of, post_step, tht_fnlz, prs_fnlz, apply_rhs, update_rhs, p_force.
      destruct impl_tht; cbn -[dtht_e filter tht_at_1 buoy_at_1]; set (pg := prs n _); unfold normalize.
      - specialize (C0 eq_refl); specialize (C1 eq_refl). unfold strat.
        destruct (Nat.eqb d (wd nd)) eqn:Ed.
        + apply Nat.eqb_eq in Ed; subst d. rewrite ?Nat.eqb_refl.
          destruct ab; try specialize (B eq_refl); try specialize (C1 eq_refl); field; repeat split; auto; apply C0; congruence.
        + destruct ab; try specialize (B eq_refl); field; repeat split; auto.
      - assert (Eb : forall j, buoy_at_1 dt g Tr tht_e tht_abs s j =
                      g / Tr * (tht s j + dt / 2 * (0 + (hfx s j - tht_abs j * (tht_at_1 dt tht_e tht_abs s j - tht_e j))) - tht_e j)).
        { intros j. assert (Aj := al' j). unfold buoy_at_1, tht_at_1. field; auto. }
        assert (Ef : filtered nd bf (buoy_at_1 dt g Tr tht_e tht_abs s) i = filtered nd bf (fun j =>
                      g / Tr * (tht s j + dt / 2 * (0 + (hfx s j - tht_abs j * (tht_at_1 dt tht_e tht_abs s j - tht_e j))) - tht_e j)) i)
          by (f_equal; extensionality j; apply Eb).
        rewrite <- Ef. 
        destruct (Nat.eqb d (wd nd)), ab; try specialize (B eq_refl); field; repeat split; auto. }
    split; [split|].
    - intros d i. pose proof (Hw d i) as W.
      assert (V : v_rhs t d i = (vel t d i - (vel s d i + dt / 2 * r_vel t d i)) / (1 / 2 * dt)).
      { subst t. unfold post_step, tht_fnlz, prs_fnlz, apply_rhs, update_rhs. destruct impl_tht; cbn -[normalize filter]; field; auto. }
      rewrite V, W. field; auto.
    - intros i. apply Ht.
    - unfold flow_of at 1, plus. f_equal; [extensionality d|]; extensionality i; [apply Hw | apply Ht].
  Qed.

  Lemma step_ok n s : Inv n s -> Inv (S n) (Step n s) /\ trapezoidal dt (adv n) (flow_of s) (flow_of (Step n s)) (rate (hfx s) (p_force n s) (flow_of s))
      (rate (hfx (Step n s)) (p_force (S n) (Step n s)) (flow_of (Step n s))) (ahead n s).
  Proof.
    intros [I1 I2]. unfold step. set (s1 := advect adv n (ante_step ab dt coeff relax sgs n s)).
    destruct (inv_post n s1) as [J K]; [reflexivity |]. split; [exact J |].
    unfold trapezoidal. etransitivity; [exact K |]. f_equal.
    transitivity (adv n (flow_of (ante_step ab dt coeff relax sgs n s))).
    { symmetry; apply surjective_pairing. }
    f_equal. unfold flow_of at 1, plus. cbn [fst snd].
    assert (V : forall d i, vel (ante_step ab dt coeff relax sgs n s) d i =
             vel s d i + dt / 2 * (r_vel s d i + v_rhs s d i) + dt * fst (ahead n s) d i).
    { intros d i. unfold ante_step, expl_calc, ahead. destruct sgs, ab; cbn; field. }
    assert (T : forall i, tht (ante_step ab dt coeff relax sgs n s) i = tht s i + dt / 2 * r_tht s i).
    { intros i. unfold ante_step, expl_calc. destruct sgs, ab; cbn; field. }
    f_equal.
    - extensionality d; extensionality i. rewrite V, I1. reflexivity.
    - extensionality i. rewrite T, I2. cbn. ring.
  Qed.

  Lemma run_inv n u : Inv n (Run n u).
  Proof. induction n; [apply inv_start | apply step_ok, IHn]. Qed.

  Theorem run_trapezoidal n u :
    trapezoidal dt (adv n) (flow_of (Run n u)) (flow_of (Run (S n) u))
      (rate (hfx (Run n u)) (p_force n (Run n u)) (flow_of (Run n u)))
      (rate (hfx (Run (S n) u)) (p_force (S n) (Run (S n) u)) (flow_of (Run (S n) u))) (ahead n (Run n u)).
  Proof. exact (proj2 (step_ok n _ (run_inv n u))). Qed.
End B.
