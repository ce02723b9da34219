(** Property theorems: viscous forces (C86 to C91).
    [vip_rhs_expl_calc dx nug G nd df cl v rhs] is the array of right-hand sides
    after the closure [cl] with differencing [df] has added its forces for the
    velocities [v] to [rhs]. *)
From Coq Require Import ZArith Reals.
From Verif Require Import Stencil SpecReal SpecStress ModelStress ProofsStress3 ProofsStress4 ProofsStress5 ProofsStress6.
Local Open Scope R_scope.

(** C86: with constant viscosity, the force added to flows that are quadratic in
    the coordinates is exactly twice eta times the Laplacian plus the gradient
    of the divergence (right-hand sides are applied over half steps), for all
    three ways of differencing. *)
Theorem C86_viscous_force_exact : forall nd df dx G eta a b h rhs d i,
  (forall e, dx e <> 0) -> (d < ndn nd)%nat ->
  vip_rhs_expl_calc dx false G nd df (Dns eta) (quad_vel dx nd a b h) rhs d i = rhs d i + 2 * eta * lap_graddiv nd h d.
Proof. exact exact_force. Qed.
Print Assumptions C86_viscous_force_exact.

Example C86_case : forall df rhs i,
  vip_rhs_expl_calc (fun _ => 1 / 10) false (fun _ => 1) three df (Dns 3)
    (quad_vel (fun _ => 1 / 10) three (fun _ => 1) (fun _ _ => 2) (fun c d e => match c, d, e with O, S O, S O => 5 | _, _, _ => 0 end)) rhs 0%nat i
  = rhs 0%nat i + 60.
Proof. exact exact_case. Qed.

(** C87: on cyclic domains the forces of every closure add up to zero (times the
    mass of the cells for compact differencing). *)
Theorem C87_no_momentum_created : forall nd df cl dx nug G n v rhs d,
  (forall e, (0 < n e)%Z) -> (forall e, dx e <> 0) -> (nug = true -> periodic n G /\ forall i, G i <> 0) ->
  (forall c, periodic n (v c)) -> (d < ndn nd)%nat ->
  cells n (fun i => mass nug G df i * (vip_rhs_expl_calc dx nug G nd df cl v rhs d i - rhs d i)) = 0.
Proof. exact no_momentum. Qed.
Print Assumptions C87_no_momentum_created.

(** C88: on cyclic domains the forces never feed energy into the flow (compact
    differencing: without G), whatever the eddy viscosity or the constant one. *)
Theorem C88_no_energy_fed : forall nd df cl dx nug G n v rhs,
  (forall e, (0 < n e)%Z) -> (forall e, dx e <> 0) -> (nug = true -> periodic n G /\ forall i, G i <> 0) -> (df = compact -> nug = false) -> visc_ok cl ->
  (forall c, periodic n (v c)) ->
  cells n (fun i => axes (ndn nd) (fun d => v d i * (vip_rhs_expl_calc dx nug G nd df cl v rhs d i - rhs d i))) <= 0.
Proof. exact no_energy. Qed.
Print Assumptions C88_no_energy_fed.

(** C88: with constant viscosity and normal differencing, energy drains at a rate
    of four times eta times the squared strain rates. *)
Theorem C88_energy_rate : forall nd dx G n eta v rhs,
  (forall e, (0 < n e)%Z) -> (forall e, dx e <> 0) -> (forall c, periodic n (v c)) ->
  cells n (fun i => axes (ndn nd) (fun d => v d i * (vip_rhs_expl_calc dx false G nd normal (Dns eta) v rhs d i - rhs d i))) =
  - (4 * eta * cells n (strain2 (ndn nd) dx v)).
Proof. exact energy_rate. Qed.
Print Assumptions C88_energy_rate.

Example C87_C88_case : forall nd, (forall c, periodic four (wavy c)) /\
  cells four (fun i => axes (ndn nd) (fun d => wavy d i *
    (vip_rhs_expl_calc unit_dx false (fun _ => 1) nd normal (Dns 3) wavy (fun _ _ => 0) d i - 0))) = - 12.
Proof. exact (fun nd => conj wavy_periodic (wavy_power nd)). Qed.

(** C89: adding a rigid motion (uniform flow and rotation) to the velocities does
    not change the forces, for every closure and differencing. *)
Theorem C89_rigid_motion : forall nd df cl dx nug G c w v rhs d i,
  (forall e, dx e <> 0) -> (df = compact -> nug = false) -> antisym w ->
  vip_rhs_expl_calc dx nug G nd df cl (fun e j => v e j + rigid dx nd c w e j) rhs d i = vip_rhs_expl_calc dx nug G nd df cl v rhs d i.
Proof. exact rigid_motion. Qed.
Print Assumptions C89_rigid_motion.

Example C89_case : antisym (fun d e => INR d - INR e).
Proof. exact antisym_case. Qed.

(** C90: with a Smagorinsky closure the forces grow with the square of the
    velocity, as advection does.  They do not. *)
Theorem C90_eddy_force_quadratic_refuted : exists nd df dx c v rhs k,
  (forall e, 0 < dx e) /\ 0 < c /\ 0 < k /\
  vip_rhs_expl_calc dx false (fun _ => 1) nd df (Smg c) (fun e j => k * v e j) rhs 0%nat (0, 0, 0)%Z - rhs 0%nat (0, 0, 0)%Z <>
  k * k * (vip_rhs_expl_calc dx false (fun _ => 1) nd df (Smg c) v rhs 0%nat (0, 0, 0)%Z - rhs 0%nat (0, 0, 0)%Z).
Proof. exact quadratic_refuted. Qed.
Print Assumptions C90_eddy_force_quadratic_refuted.

(** C90: they grow with its third power: the eddy viscosity is proportional to the
    square of the strain rate, not to the strain rate. *)
Theorem C90_eddy_force_cubic : forall nd df cl dx nug G v rhs k d i,
  eddy cl -> (d < ndn nd)%nat ->
  vip_rhs_expl_calc dx nug G nd df cl (fun e j => k * v e j) rhs d i - rhs d i =
  k * k * k * (vip_rhs_expl_calc dx nug G nd df cl v rhs d i - rhs d i).
Proof. exact cubic. Qed.
Print Assumptions C90_eddy_force_cubic.

(** C91: planar flows get the same forces from the three-dimensional solver as
    from the two-dimensional one, with constant viscosity. *)
Theorem C91_planar_flow_constant : forall df dx G eta v rhs d i,
  (forall e, dx e <> 0) -> planar v -> (d < 2)%nat ->
  vip_rhs_expl_calc dx false G three df (Dns eta) v rhs d i = vip_rhs_expl_calc dx false G two df (Dns eta) v rhs d i.
Proof. exact planar_constant. Qed.
Print Assumptions C91_planar_flow_constant.

(** C91: not with the Smagorinsky closure, even on grids with equal spacings: the
    filter width is a third of the sum of the spacings in 2D too. *)
Theorem C91_planar_flow_eddy_refuted : exists dx v, (forall e, dx e = 1) /\ planar v /\
  vip_rhs_expl_calc dx false (fun _ => 1) two normal (Smg 1) v (fun _ _ => 0) 0%nat (0, 0, 0)%Z <>
  vip_rhs_expl_calc dx false (fun _ => 1) three normal (Smg 1) v (fun _ _ => 0) 0%nat (0, 0, 0)%Z.
Proof. exact planar_refuted. Qed.
Print Assumptions C91_planar_flow_eddy_refuted.

Example C91_case : planar shear.
Proof. exact shear_planar. Qed.
