(** Boussinesq solvers: heat budget, rest, smoothing of the buoyancy, concrete cases. *)
From Coq Require Import ZArith List Bool Reals Lra FunctionalExtensionality Lia.
From Verif Require Import Stencil ModelVip ModelStress ModelBouss ProofsBouss SpecStress SpecBouss ProofsBouss2 ProofsStress.
Import ListNotations.
Local Open Scope R_scope.

(** ** Heat *)
Section Heat.
  Variables (c : case) (u : flow) (L : list idx).
  Hypothesis Hs : solvable c.
  Hypothesis Hi : c_impl c = false.
  Hypothesis H0 : forall i, c_abs c i = 0.
  Hypothesis Ha : forall n s, sum_over L (snd (c_adv c n s)) = sum_over L (snd s).

  Lemma heat_step n : sum_over L (snd (state c (S n) u)) =
    sum_over L (snd (state c n u)) + c_dt c / 2 * sum_over L (heating c n u) + c_dt c / 2 * sum_over L (heating c (S n) u).
  Proof.
    pose proof (every_step c n u Hs) as H. unfold trapezoidal in H. rewrite H at 1. clear H.
    unfold rate. rewrite Hi. unfold rate_full, plus. cbn [fst snd].
    match goal with |- sum_over L (fun i => snd ?s i + _ * _) = _ => set (z := s) end.
    rewrite (sum_over_ext L _ (fun i => 1 * snd z i + c_dt c / 2 * heating c (S n) u i)).
    2:{ intros i _. unfold phys_of; cbn [al]. rewrite H0. ring. }
    rewrite sum_over_lin. subst z. rewrite Ha. cbn [snd].
    rewrite (sum_over_ext L (fun i => snd (state c n u) i + _ + _) (fun i => 1 * snd (state c n u) i + c_dt c / 2 * heating c n u i)).
    2:{ intros i _. unfold phys_of; cbn [al ahead snd]. rewrite H0. ring. }
    rewrite sum_over_lin. ring.
  Qed.

  Theorem heat_iles n : c_sgs c = None ->
    sum_over L (snd (state c n u)) = sum_over L (snd (state c 0 u)) + INR n * c_dt c * sum_over L (c_heat c).
  Proof.
    intros E. induction n as [|n IH]; [cbn [INR]; ring|]. rewrite heat_step, IH, S_INR. unfold heating. rewrite E. field.
  Qed.
  Theorem heat_closure n f : c_sgs c = Some f ->
    sum_over L (snd (state c (S n) u)) = sum_over L (snd (state c 0 u)) +
      c_dt c * sum_to n (fun m => sum_over L (snd (f m (state c m u)))) + c_dt c / 2 * sum_over L (snd (f n (state c n u))).
  Proof.
    intros E. induction n as [|n IH].
    - rewrite heat_step. unfold heating. rewrite E. cbn [sum_to].
      rewrite (sum_over_ext L (fun _ => 0) (fun i => 0 * 0 + 0 * 0)) by (intros; ring). rewrite sum_over_lin. field.
    - rewrite heat_step, IH. unfold heating. rewrite E. cbn [sum_to]. field.
  Qed.
End Heat.

(** ** Rest *)
Lemma step_rest c n s : c_T c <> 0 -> c_dt c <> 0 -> (forall i, 1 + c_dt c / 2 * c_abs c i <> 0) ->
  (forall d i, c_relax c d i = 0) -> c_sgs c = None -> (forall i, c_heat c i = 0) ->
  (forall m, c_adv c m (rest c) = rest c) -> (forall m, c_prs c m (fun _ _ => 0) = fun _ _ => 0) ->
  vel s = (fun _ _ => 0) -> tht s = snd (rest c) -> r_vel s = (fun _ _ => 0) -> r_tht s = (fun _ => 0) -> v_rhs s = (fun _ _ => 0) ->
  hfx s = (fun _ => 0) ->
  let t := ModelBouss.step (c_impl c) (c_nd c) (c_ab c) (c_dt c) (c_dz c) (c_g c) (c_T c) (c_e c) (c_abs c) (c_coeff c) (c_relax c)
      (c_filter c) (c_adv c) (c_prs c) (c_sgs c) n s in
  vel t = (fun _ _ => 0) /\ tht t = snd (rest c) /\ r_vel t = (fun _ _ => 0) /\ r_tht t = (fun _ => 0) /\ v_rhs t = (fun _ _ => 0) /\
  hfx t = (fun _ => 0).
Proof.
  intros HT Hd Hal Hrel Hsg Hh Hadv Hprs V T RV RT VR HF t. subst t. unfold ModelBouss.step.
  set (s1 := ante_step _ _ _ _ _ n s).
  assert (A1 : (vel s1, tht s1) = rest c).
  { unfold rest. subst s1. unfold ante_step, expl_calc, vip_rhs_apply, apply_rhs. rewrite Hsg. cbn. rewrite V, RV, VR, RT, T. f_equal.
    - extensionality d; extensionality i. rewrite Hrel. destruct (c_ab c); ring.
    - extensionality i. cbn. ring. }
  assert (A2 : hfx s1 = fun _ => 0) by (subst s1; unfold ante_step, expl_calc, vip_rhs_apply, apply_rhs; rewrite Hsg; cbn; exact HF).
  set (s2 := advect (c_adv c) n s1).
  assert (B1 : vel s2 = fun _ _ => 0) by (change (fst (c_adv c n (vel s1, tht s1)) = fun _ _ => 0); rewrite A1, Hadv; reflexivity).
  assert (B2 : tht s2 = snd (rest c)) by (change (snd (c_adv c n (vel s1, tht s1)) = snd (rest c)); rewrite A1, Hadv; reflexivity).
  assert (B3 : hfx s2 = fun _ => 0) by exact A2. clearbody s2. clear s1 A1 A2.
  set (s3 := apply_rhs (c_dt c / 2) (update_rhs (c_impl c) (c_nd c) (c_dt c) (c_dz c) (c_g c) (c_T c) (c_e c) (c_abs c) (c_filter c) true s2)).
  assert (D0 : forall i, 2 + c_dt c * c_abs c i <> 0) by (intros i K; apply (Hal i); lra).
  assert (C4 : c_impl c = false -> forall i, tht_at_1 (c_dt c) (c_e c) (c_abs c) s2 i = c_e c i).
  { intros E i. unfold tht_at_1. rewrite B2, B3. unfold rest. rewrite E; cbn. field. apply D0. }
  assert (C1 : r_vel s3 = fun _ _ => 0).
  { subst s3. cbn. extensionality d. destruct (Nat.eqb d (wd (c_nd c))); [|reflexivity]. extensionality i.
    rewrite B2, B3. unfold rest. destruct (c_impl c).
    - cbn. field. split; auto.
    - unfold filtered, filter, buoy_at_1. destruct (c_filter c); rewrite ?C4 by reflexivity; field; auto. }
  assert (C2 : r_tht s3 = fun _ => 0).
  { subst s3. cbn. extensionality i. rewrite B3. destruct (c_impl c); cbn; [ring|]. rewrite C4 by reflexivity. ring. }
  assert (C3 : vel s3 = fun _ _ => 0).
  { transitivity (fun d i => vel s2 d i + c_dt c / 2 * r_vel s3 d i); [reflexivity|]. rewrite B1, C1. extensionality d; extensionality i. ring. }
  assert (C5 : tht s3 = snd (rest c)).
  { transitivity (fun i => tht s2 i + c_dt c / 2 * r_tht s3 i); [reflexivity|]. rewrite B2, C2. extensionality i. ring. }
  assert (C6 : hfx s3 = fun _ => 0) by exact B3. unfold post_step. fold s3. clearbody s3. clear s2 B1 B2 B3 C4.
  set (s4 := prs_fnlz _ _ _ _ _ _ _ _ _ _ _ _ n s3).
  assert (E1 : vel s4 = fun _ _ => 0).
  { subst s4. unfold prs_fnlz; cbn. rewrite C3.
    replace (fun (d : nat) (i : idx) => match c_ab c with Impl => 0 + 1 / 2 * c_dt c * c_coeff c i * c_relax c d i | _ => 0 end) with (fun (_ : nat) (_ : idx) => 0).
    2:{ extensionality d; extensionality i. rewrite Hrel. destruct (c_ab c); ring. }
    rewrite Hprs. extensionality d; extensionality i. unfold normalize, Rdiv.
    destruct (c_impl c), (c_ab c), (Nat.eqb d (wd (c_nd c))); cbv beta; rewrite ?Hrel, ?Rmult_0_r, ?Rplus_0_l, Rminus_0_r, ?Rmult_0_l; reflexivity. }
  assert (E2 : tht s4 = snd (rest c)) by exact C5. assert (E3 : r_vel s4 = fun _ _ => 0) by exact C1.
  assert (E4 : r_tht s4 = fun _ => 0) by exact C2. assert (E6 : hfx s4 = fun _ => 0) by exact C6.
  assert (E5 : v_rhs s4 = fun _ _ => 0).
  { transitivity (fun d i => (- vel s3 d i + vel s4 d i) / (1 / 2 * c_dt c)); [reflexivity|]. rewrite C3, E1. extensionality d; extensionality i. field. exact Hd. }
  clearbody s4. unfold tht_fnlz, rest in *. destruct (c_impl c); cbn; cbn in E2; [|repeat split; assumption].
  rewrite E1, E2, E3, E4. repeat split; try assumption; extensionality i; unfold Rdiv; ring.
Qed.

Theorem stays_at_rest c n : c_T c <> 0 -> c_dt c <> 0 -> (forall i, 1 + c_dt c / 2 * c_abs c i <> 0) ->
  (forall d i, c_relax c d i = 0) -> c_sgs c = None -> (forall i, c_heat c i = 0) ->
  (forall m, c_adv c m (rest c) = rest c) -> (forall m, c_prs c m (fun _ _ => 0) = fun _ _ => 0) -> c_ini c (fun _ _ => 0) = (fun _ _ => 0) ->
  state c n (rest c) = rest c.
Proof.
  intros HT Hd Hal Hrel Hsg Hh Hadv Hprs Hini.
  assert (I : let s := after c n (rest c) in vel s = (fun _ _ => 0) /\ tht s = snd (rest c) /\ r_vel s = (fun _ _ => 0) /\ r_tht s = (fun _ => 0) /\
     v_rhs s = (fun _ _ => 0) /\ hfx s = (fun _ => 0)).
  { cbv zeta. induction n as [|n IH].
    - assert (HH : c_heat c = fun _ => 0) by (extensionality i; apply Hh).
      unfold after, run, ante_loop, start. cbn. rewrite Hsg, Hini, HH. unfold rest.
      repeat split; try reflexivity.
      + extensionality d. destruct (Nat.eqb d (wd (c_nd c))); [|reflexivity]. extensionality i. unfold filtered, filter, buoy_at_0; cbn.
        destruct (c_impl c), (c_filter c); field; auto.
      + extensionality i. destruct (c_impl c); cbn; ring.
      + extensionality d; extensionality i. rewrite Hrel. destruct (c_ab c); ring.
    - destruct IH as (I1 & I2 & I3 & I4 & I5 & I6). unfold after. cbn [run]. fold (after c n (rest c)).
      apply (step_rest c n (after c n (rest c))); assumption. }
  destruct I as (I1 & I2 & _). unfold state, flow_of. rewrite I1, I2. reflexivity.
Qed.

(** ** Smoothing of the buoyancy *)
Lemma smooth_pt c f i : c_filter c = true -> smooth (phys_of c) f i =
  (f (step (up (phys_of c)) 1 i) + 2 * f i + f (step (up (phys_of c)) (-1) i)) / 4.
Proof. intros E. unfold phys_of; cbn [smooth up]. rewrite E. reflexivity. Qed.
Theorem smooth_sum c n f : (forall d, (0 < n d)%Z) -> periodic n f -> cells n (smooth (phys_of c) f) = cells n f.
Proof.
  intros Hn P. destruct (c_filter c) eqn:E; [|unfold phys_of; cbn [smooth]; rewrite E; reflexivity].
  rewrite (cells_ext n _ (fun i => 1 / 4 * (f (step (up (phys_of c)) 1 i) + 2 * f i + f (step (up (phys_of c)) (-1) i))))
    by (intros i; rewrite smooth_pt by exact E; field).
  rewrite cells_scal, cells_add, cells_add, cells_scal, cells_step1, cells_stepm by assumption. field.
Qed.
Theorem smooth_bounds c f lo hi : (forall i, lo <= f i <= hi) -> forall i, lo <= smooth (phys_of c) f i <= hi.
Proof.
  intros B i. destruct (c_filter c) eqn:E; [|unfold phys_of; cbn [smooth]; rewrite E; apply B].
  rewrite smooth_pt by exact E. pose proof (B i). pose proof (B (step (up (phys_of c)) 1 i)). pose proof (B (step (up (phys_of c)) (-1) i)). lra.
Qed.
Theorem smooth_wave c f i : c_filter c = true ->
  (forall j, f (step (up (phys_of c)) 1 j) = - f j) -> smooth (phys_of c) f i = 0.
Proof.
  intros E A. rewrite smooth_pt by exact E. rewrite A. pose proof (A (step (up (phys_of c)) (-1) i)) as B.
  rewrite step_add in B. cbn [Z.add] in B. rewrite step_0 in B. lra.
Qed.

(** ** Concrete cases *)

(** a uniform ambient gradient, nothing else; the vertical velocity is one everywhere *)
Definition wave_case (nd : ndims) : case :=
  {| c_impl := true; c_nd := nd; c_ab := NoAb; c_dt := 7; c_dz := 2; c_g := 10; c_T := 300;
     c_e := fun i => 3 * IZR (snd i) + 3 * IZR (snd (fst i)); c_abs := fun _ => 0; c_coeff := fun _ => 0; c_relax := fun _ _ => 0; c_filter := false;
     c_adv := fun _ s => s; c_prs := fun _ _ _ _ => 0; c_ini := fun _ _ _ => 0; c_sgs := None; c_heat := fun _ => 0 |}.
Lemma wave_profile nd i : profile (wave_case nd) i = 3 / 2.
Proof. destruct i as [[x y] z], nd; unfold profile; cbn -[IZR]; rewrite ?plus_IZR; field. Qed.
Lemma wave_solvable nd : solvable (wave_case nd).
Proof. unfold solvable. repeat split; intros; cbn -[profile]; rewrite ?wave_profile; lra. Qed.
Definition lifting : flow := (fun d _ => match d with O => 0 | _ => 1 end, fun _ => 0).
Lemma wave_case_ok n : sum_over [(0, 0, 0)%Z; (1, 5, 2)%Z] (energy 2 (phys_of (wave_case two)) (state (wave_case two) n lifting)) = 2.
Proof.
  pose proof (energy_kept (wave_case two) lifting (wave_solvable two) eq_refl) as K.
  rewrite K; auto; try discriminate.
  - rewrite !soc. unfold energy. cbn. unfold Rdiv. ring.
  - intros i _. rewrite wave_profile. lra.
  - intros m _. cbn [sum_over fold_right]. unfold p_work. cbn [c_nd wave_case ndn axes].
    assert (P : forall m d i, p_force (wave_case two) m lifting d i = 0).
    { intros [|k] d i; unfold p_force; [reflexivity|]. replace (p_grad (after (wave_case two) (S k) lifting) d i) with 0 by reflexivity. unfold Rdiv; ring. }
    rewrite !P. ring.
Qed.

(** a closure that heats every cell at the rate of one *)
Definition heated_case : case :=
  {| c_impl := false; c_nd := two; c_ab := NoAb; c_dt := 1; c_dz := 1; c_g := 10; c_T := 300;
     c_e := fun _ => 300; c_abs := fun _ => 0; c_coeff := fun _ => 0; c_relax := fun _ _ => 0; c_filter := false;
     c_adv := fun _ s => s; c_prs := fun _ _ _ _ => 0; c_ini := fun _ _ _ => 0;
     c_sgs := Some (fun _ _ => (fun _ _ => 0, fun _ => 1)); c_heat := fun _ => 0 |}.
Lemma heated_solvable : solvable heated_case.
Proof. unfold solvable. repeat split; intros; cbn; try discriminate; lra. Qed.
Lemma heat_refuted : exists c u L f n,
  solvable c /\ c_impl c = false /\ (forall i, c_abs c i = 0) /\ (forall n s, sum_over L (snd (c_adv c n s)) = sum_over L (snd s)) /\
  c_sgs c = Some f /\ (forall m s, sum_over L (snd (f m s)) = 1) /\
  sum_over L (snd (state c n u)) <> sum_over L (snd (state c 0 u)) + INR n * c_dt c * 1.
Proof.
  exists heated_case, (fun _ _ => 0, fun _ => 300), [(0, 0, 0)%Z], (fun _ _ => (fun _ _ => 0, fun _ => 1)), 1%nat.
  repeat split; try (apply heated_solvable); try (intros; cbn; ring).
  rewrite (heat_closure heated_case _ [(0, 0, 0)%Z] heated_solvable eq_refl (fun _ => eq_refl) (fun _ _ => eq_refl) 0
             (fun _ _ => (fun _ _ => 0, fun _ => 1)) eq_refl).
  cbn. lra.
Qed.
Lemma heat_case : exists c u L n, c_sgs c = None /\ solvable c /\ c_impl c = false /\ (forall i, c_abs c i = 0) /\
  sum_over L (snd (state c n u)) <> sum_over L (snd (state c 0 u)).
Proof.
  set (c := {| c_impl := false; c_nd := two; c_ab := NoAb; c_dt := 1; c_dz := 1; c_g := 10; c_T := 300;
     c_e := fun _ => 300; c_abs := fun _ => 0; c_coeff := fun _ => 0; c_relax := fun _ _ => 0; c_filter := false;
     c_adv := fun _ s => s; c_prs := fun _ _ _ _ => 0; c_ini := fun _ _ _ => 0; c_sgs := None; c_heat := fun _ => 1 |}).
  assert (S : solvable c) by (unfold solvable; repeat split; intros; cbn; try discriminate; lra).
  exists c, (fun _ _ => 0, fun _ => 300), [(0, 0, 0)%Z], 4%nat. repeat split; try apply S.
  rewrite (heat_iles c _ [(0, 0, 0)%Z] S eq_refl (fun _ => eq_refl) (fun _ _ => eq_refl) 4 eq_refl). cbn. lra.
Qed.
