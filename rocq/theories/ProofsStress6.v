(** Viscous forces: planar flows, witnesses. *)
From Coq Require Import ZArith Reals Lra Lia Field.
From Verif Require Import Stencil SpecReal SpecStress ModelStress ProofsStress ProofsStress2 ProofsStress3 ProofsStress4 ProofsStress5.
Local Open Scope R_scope.

Section Planar.
  Variable dx : nat -> R.
  Variable G : field.
  Hypothesis Hdx : forall d, dx d <> 0.
  Definition flat (f : field) : Prop := forall x y z, f (x, y, z) = f (x, y, 0%Z).

  Lemma flat_grad_z f i : flat f -> grad 2 f (dx 2%nat) i = 0.
  Proof. intros F. destruct i as [[x y] z]. cbn [grad]. rewrite (F x y (z + 1)%Z), (F x y (z - 1)%Z). unfold Rdiv. ring. Qed.
  Lemma flat_grad d f : (d < 2)%nat -> flat f -> flat (grad d f (dx d)).
  Proof.
    intros Hd F x y z. destruct d as [|[|d]]; [| |lia]; cbn [grad].
    - rewrite (F (x + 1)%Z y z), (F (x - 1)%Z y z). reflexivity.
    - rewrite (F x (y + 1)%Z z), (F x (y - 1)%Z z). reflexivity.
  Qed.
  Lemma flat_pade m d f : (d < 2)%nat -> flat f -> flat (pade_wrk m d f).
  Proof.
    intros Hd F. induction m as [|m IH]; [exact F|]. intros x y z. cbn [pade_wrk].
    rewrite (F x y z), (IH x y z). do 3 f_equal. destruct d as [|[|d]]; [| |lia]; cbn [pade_helper];
    [rewrite (IH (x + 1)%Z y z), (IH (x - 1)%Z y z), (IH x y z)|rewrite (IH x (y + 1)%Z z), (IH x (y - 1)%Z z), (IH x y z)]; reflexivity.
  Qed.
  Lemma grad_zero d f i : (forall i, f i = 0) -> grad d f (dx d) i = 0.
  Proof. intros F. rewrite grad_step, !F. unfold Rdiv. ring. Qed.
  Lemma pade_zero m d f i : (forall i, f i = 0) -> pade_wrk m d f i = 0.
  Proof. intros F. rewrite (pade_ext m d f (fun _ => 0)) by exact F. apply pade_const. Qed.

  Definition lift (c : nat) : nat := match c with 0%nat => 0 | 1%nat => 1 | _ => 3 end%nat.

  (** deformation of planar flows *)
  Lemma planar_der df d v : df <> compact -> planar v ->
    (forall i, der dx df d (v 2%nat) i = 0) /\ (forall c i, der dx df 2 (v c) i = 0) /\ (forall c, (d < 2)%nat -> flat (der dx df d (v c))).
  Proof.
    intros N [F Z]. assert (FF : forall c, flat (v c)) by (intros c x y z; apply F).
    destruct df; [| |congruence]; cbn [der]; repeat split; intros.
    - apply grad_zero. exact Z.
    - apply flat_grad_z. apply FF.
    - apply flat_grad; auto.
    - apply pade_zero. intros; apply grad_zero. exact Z.
    - apply pade_zero. intros; apply flat_grad_z. apply FF.
    - apply flat_pade; auto. apply flat_grad; auto.
  Qed.

  Lemma planar_rhs nd_df eta v rhs d i : planar v -> (d < 2)%nat ->
    vip_rhs_expl_calc dx false G three nd_df (Dns eta) v rhs d i = vip_rhs_expl_calc dx false G two nd_df (Dns eta) v rhs d i.
  Proof.
    intros P Hd. destruct P as [F Z]. destruct nd_df eqn:E.
    3: { subst. destruct i as [[x y] z]. unfold vip_rhs_expl_calc.
      destruct d as [|[|d]]; [| |lia];
      cbn [forces calc_stress_rhs_cmpct calc_stress_rhs_cmpct2 calc_stress_rhs_cmpct3 multiply_sgs_visc deform calc_deform_cmpct];
        unfold multiply_tnsr_const, Gop; cbn [calc_deform_cmpct2 calc_deform_cmpct3 calc_vip_div_cmpct];
        rewrite !Z; rewrite !(F _ _ _ (z + 1)%Z), !(F _ _ _ (z - 1)%Z), !(F _ _ _ (z - 1 + 1)%Z), !(F _ _ _ z); field; auto. }
    all: assert (A : forall c i, der dx nd_df 2 (v c) i = 0) by (intros; apply (planar_der nd_df 2 v); [congruence|split; assumption]).
    all: assert (B : forall d i, der dx nd_df d (v 2%nat) i = 0) by (intros; apply (planar_der nd_df d0 v); [congruence|split; assumption]).
    all: subst nd_df; cbn [der] in A, B; unfold vip_rhs_expl_calc; cbn [forces multiply_sgs_visc deform calc_stress_rhs calc_deform].
    all: set (t3 := fun c i => calc_deform3 _ c i * eta); set (t2 := fun c i => calc_deform2 _ c i * eta).
    all: assert (T : forall c, (c < 3)%nat -> forall i, t3 (lift c) i = t2 c i)
           by (intros c Hc j; unfold t3, t2; destruct c as [|[|[|c]]]; [| | |lia]; cbn [lift calc_deform2 calc_deform3 calc_vgrad calc_vgrad2 calc_vgrad3];
               unfold pade_deriv; cbn [calc_deform2 calc_deform3 calc_vgrad calc_vgrad2 calc_vgrad3 pade_dir]; ring).
    all: assert (T2 : forall i, t3 2%nat i = 0)
           by (intros j; unfold t3; cbn [calc_deform3 calc_vgrad calc_vgrad3]; unfold pade_deriv; cbn [calc_vgrad3 pade_dir]; rewrite A, B; ring).
    all: assert (T4 : forall i, t3 4%nat i = 0)
           by (intros j; unfold t3; cbn [calc_deform3 calc_vgrad calc_vgrad3]; unfold pade_deriv; cbn [calc_vgrad3 pade_dir]; rewrite A, B; ring).
    all: pose proof (T 0%nat ltac:(lia)) as T0; pose proof (T 1%nat ltac:(lia)) as T1; pose proof (T 2%nat ltac:(lia)) as T3; cbn [lift] in T0, T1, T3.
    all: destruct d as [|[|d]]; [| |lia]; cbn [calc_stress_rhs2 calc_stress_rhs3 calc_stress_div calc_stress_div2 calc_stress_div3];
           unfold pade_deriv; cbn [calc_stress_div calc_stress_div2 calc_stress_div3 pade_dir].
    - rewrite (grad_ext _ _ _ _ T0), (grad_ext _ _ _ _ T1), (grad_zero 2 _ _ T2). ring.
    - rewrite (grad_ext _ _ _ _ T1), (grad_ext _ _ _ _ T3), (grad_zero 2 _ _ T4). ring.
    - rewrite (pade_ext 3 _ _ _ (grad_ext _ _ _ _ T0)), (pade_ext 3 _ _ _ (grad_ext _ _ _ _ T1)), (pade_zero 3 2 _ i (fun i => grad_zero 2 _ i T2)). ring.
    - rewrite (pade_ext 3 _ _ _ (grad_ext _ _ _ _ T1)), (pade_ext 3 _ _ _ (grad_ext _ _ _ _ T3)), (pade_zero 3 2 _ i (fun i => grad_zero 2 _ i T4)). ring.
  Qed.
End Planar.

(** shear flow with velocity y^2 along x *)
Definition shear : fields := fun c '(x, y, z) => match c with 0%nat => IZR y * IZR y | _ => 0 end.
Definition unit_dx : nat -> R := fun _ => 1.
Lemma shear_planar : planar shear.
Proof. split; [intros [|c] x y z; reflexivity|intros [[x y] z]; reflexivity]. Qed.

Lemma smg_shear nd k : vip_rhs_expl_calc unit_dx false (fun _ => 1) nd normal (Smg 1) (fun c i => k * shear c i) (fun _ _ => 0) 0%nat (0, 0, 0)%Z =
  match nd with two => 64 / 9 * (k * k * k) | three => 16 * (k * k * k) end.
Proof.
  destruct nd; unfold vip_rhs_expl_calc, forces, multiply_sgs_visc, deform;
    cbn [calc_stress_rhs calc_stress_rhs2 calc_stress_rhs3 calc_stress_div calc_stress_div2 calc_stress_div3 grad k_m fst tdef_sq];
    unfold calc_tdef_sq2, calc_tdef_sq3, dlta, unit_dx, pow2;
    cbn [calc_deform calc_deform2 calc_deform3 calc_vgrad calc_vgrad2 calc_vgrad3 grad shear Z.add Z.sub Z.opp Z.pos_sub Pos.add Pos.sub];
    field.
Qed.

(** periodic shear: velocities 0, 1, 0, -1 along x, repeating along y *)
Definition wavy : fields := fun c '(x, y, z) =>
  match c with
  | 0%nat => match (y mod 4)%Z with 1%Z => 1 | 3%Z => -1 | _ => 0 end
  | _ => 0
  end.
Definition four : nat -> Z := fun d => match d with 1%nat => 4%Z | _ => 1%Z end.
Lemma wavy_periodic c : periodic four (wavy c).
Proof.
  intros d [[x y] z] Hd. destruct d as [|[|[|d]]]; [| | |lia]; destruct c as [|c]; try reflexivity.
  cbn [step fst snd four wavy]. replace (y + 4)%Z with (y + 1 * 4)%Z by lia. rewrite Z_mod_plus_full. reflexivity.
Qed.
Lemma wavy_power nd : cells four (fun i => axes (ndn nd) (fun d => wavy d i *
  (vip_rhs_expl_calc unit_dx false (fun _ => 1) nd normal (Dns 3) wavy (fun _ _ => 0) d i - 0))) = - 12.
Proof.
  pose proof (energy_eq four) as E.
  specialize (E ltac:(intros [|[|d]]; reflexivity) unit_dx false (fun _ => 1) ltac:(intros; unfold unit_dx; lra)
     ltac:(intros; cbn; lra) ltac:(discriminate) nd 3 wavy (fun _ _ => 0) wavy_periodic).
  rewrite E. unfold cells, strain2, cdiff, total, four, unit_dx. change (Z.to_nat (1 - 0)) with 1%nat. change (Z.to_nat (4 - 0)) with 4%nat. destruct nd; cbn; field.
Qed.

(** ** In the form of the property theorems *)
Lemma exact_force : forall nd df dx G eta a b h rhs d i, (forall e, dx e <> 0) -> (d < ndn nd)%nat ->
  vip_rhs_expl_calc dx false G nd df (Dns eta) (quad_vel dx nd a b h) rhs d i = rhs d i + 2 * eta * lap_graddiv nd h d.
Proof. intros. apply exact_all; assumption. Qed.
Lemma exact_case : forall df rhs i,
  vip_rhs_expl_calc (fun _ => 1 / 10) false (fun _ => 1) three df (Dns 3)
    (quad_vel (fun _ => 1 / 10) three (fun _ => 1) (fun _ _ => 2) (fun c d e => match c, d, e with O, S O, S O => 5 | _, _, _ => 0 end)) rhs 0%nat i
  = rhs 0%nat i + 60.
Proof.
  intros. rewrite exact_force; [|intros; lra|cbn; lia].
  unfold lap_graddiv, quad_dd. cbn. ring.
Qed.

Lemma Gok nug G n : (nug = true -> periodic n G /\ forall i, G i <> 0) -> (nug = true -> periodic n G) /\ (forall i, Gop nug G i <> 0).
Proof.
  intros H. split; [intros E; apply H; exact E|]. intros i. unfold Gop. destruct nug; [apply H; reflexivity|lra].
Qed.
Lemma no_momentum : forall nd df cl dx nug G n v rhs d,
  (forall e, (0 < n e)%Z) -> (forall e, dx e <> 0) -> (nug = true -> periodic n G /\ forall i, G i <> 0) ->
  (forall c, periodic n (v c)) -> (d < ndn nd)%nat ->
  cells n (fun i => mass nug G df i * (vip_rhs_expl_calc dx nug G nd df cl v rhs d i - rhs d i)) = 0.
Proof. intros nd df cl dx nug G n v rhs d Hn Hdx HG V Hd. apply Gok in HG. destruct HG. apply momentum; assumption. Qed.
Lemma no_energy : forall nd df cl dx nug G n v rhs,
  (forall e, (0 < n e)%Z) -> (forall e, dx e <> 0) -> (nug = true -> periodic n G /\ forall i, G i <> 0) -> (df = compact -> nug = false) -> visc_ok cl ->
  (forall c, periodic n (v c)) ->
  cells n (fun i => axes (ndn nd) (fun d => v d i * (vip_rhs_expl_calc dx nug G nd df cl v rhs d i - rhs d i))) <= 0.
Proof. intros nd df cl dx nug G n v rhs Hn Hdx HG. apply Gok in HG. destruct HG. intros. apply energy; assumption. Qed.
Lemma energy_rate : forall nd dx G n eta v rhs,
  (forall e, (0 < n e)%Z) -> (forall e, dx e <> 0) -> (forall c, periodic n (v c)) ->
  cells n (fun i => axes (ndn nd) (fun d => v d i * (vip_rhs_expl_calc dx false G nd normal (Dns eta) v rhs d i - rhs d i))) =
  - (4 * eta * cells n (strain2 (ndn nd) dx v)).
Proof. intros nd dx G n eta v rhs Hn Hdx. apply energy_eq; try assumption; [intros; unfold Gop; lra|discriminate]. Qed.
Lemma rigid_motion : forall nd df cl dx nug G c w v rhs d i,
  (forall e, dx e <> 0) -> (df = compact -> nug = false) -> antisym w ->
  vip_rhs_expl_calc dx nug G nd df cl (fun e j => v e j + rigid dx nd c w e j) rhs d i = vip_rhs_expl_calc dx nug G nd df cl v rhs d i.
Proof. intros. apply rhs_rigid; assumption. Qed.
Lemma antisym_case : antisym (fun d e => INR d - INR e).
Proof. intros d e. ring. Qed.
Lemma cubic : forall nd df cl dx nug G v rhs k d i, eddy cl -> (d < ndn nd)%nat ->
  vip_rhs_expl_calc dx nug G nd df cl (fun e j => k * v e j) rhs d i - rhs d i =
  k * k * k * (vip_rhs_expl_calc dx nug G nd df cl v rhs d i - rhs d i).
Proof. intros. apply rhs_scale; assumption. Qed.
Lemma smg_shear1 nd : vip_rhs_expl_calc unit_dx false (fun _ => 1) nd normal (Smg 1) shear (fun _ _ => 0) 0%nat (0, 0, 0)%Z =
  match nd with two => 64 / 9 | three => 16 end.
Proof.
  transitivity (vip_rhs_expl_calc unit_dx false (fun _ => 1) nd normal (Smg 1) (fun c i => 1 * shear c i) (fun _ _ => 0) 0%nat (0, 0, 0)%Z).
  - apply rhs_deform. intros c i. apply deform_ext. intros; ring.
  - rewrite smg_shear. destruct nd; field.
Qed.
Lemma quadratic_refuted : exists nd df dx c v rhs k,
  (forall e, 0 < dx e) /\ 0 < c /\ 0 < k /\
  vip_rhs_expl_calc dx false (fun _ => 1) nd df (Smg c) (fun e j => k * v e j) rhs 0%nat (0, 0, 0)%Z - rhs 0%nat (0, 0, 0)%Z <>
  k * k * (vip_rhs_expl_calc dx false (fun _ => 1) nd df (Smg c) v rhs 0%nat (0, 0, 0)%Z - rhs 0%nat (0, 0, 0)%Z).
Proof.
  exists three, normal, unit_dx, 1, shear, (fun _ _ => 0), 2. unfold unit_dx at 1. repeat split; try (intros; lra).
  rewrite smg_shear, smg_shear1. lra.
Qed.
Lemma planar_constant : forall df dx G eta v rhs d i,
  (forall e, dx e <> 0) -> planar v -> (d < 2)%nat ->
  vip_rhs_expl_calc dx false G three df (Dns eta) v rhs d i = vip_rhs_expl_calc dx false G two df (Dns eta) v rhs d i.
Proof. intros. apply planar_rhs; assumption. Qed.
Lemma planar_refuted : exists dx v, (forall e, dx e = 1) /\ planar v /\
  vip_rhs_expl_calc dx false (fun _ => 1) two normal (Smg 1) v (fun _ _ => 0) 0%nat (0, 0, 0)%Z <>
  vip_rhs_expl_calc dx false (fun _ => 1) three normal (Smg 1) v (fun _ _ => 0) 0%nat (0, 0, 0)%Z.
Proof.
  exists unit_dx, shear. split; [reflexivity|]. split; [exact shear_planar|]. rewrite !smg_shear1. lra.
Qed.
