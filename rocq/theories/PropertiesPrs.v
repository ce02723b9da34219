(** Pressure solvers (C42). *)
From Coq Require Import ZArith List Bool Reals.
From Verif Require Import Stencil ModelVip ModelPrs SpecPrs ProofsPrs ProofsPrsEx.
Import ListNotations.
Local Open Scope R_scope.

(** C42: whatever the grid, boundary conditions, weights G, velocities,
    starting potential and leftovers from earlier calls: the solver either
    raises its exception or returns, after at most 10000 iterations. *)
Theorem C42_mr_ends : forall E tol simple uvw phi beta, exists r,
  mr_update E tol simple uvw phi beta = Some r.
Proof. exact mr_total. Qed.
Print Assumptions C42_mr_ends.
Theorem C42_gcrk_ends : forall E k tol simple uvw phi beta p lp alpha den, exists r,
  gcrk_update k E tol simple uvw phi beta p lp alpha den = Some r.
Proof. exact gc_total. Qed.
Print Assumptions C42_gcrk_ends.

(** C42: when the minimal residual solver returns, the corrected velocity has a
    divergence below the tolerance in every cell of the domain. *)
Theorem C42_mr_tolerance : forall E, fills E -> forall tol simple uvw phi beta s,
  edges_compatible E simple ->
  mr_update E tol simple uvw phi beta = Some (Done s) ->
  forall x, In x (pcells E) -> Rabs (flow_div E (corrected E simple uvw (m_phi idx s)) x) <= tol.
Proof. exact mr_result. Qed.
Print Assumptions C42_mr_tolerance.

(** C42: the Courant numbers interpolated from it then have a divergence below
    prs_tol, scaled by the ratio of the time step to the one at construction. *)
Theorem C42_mr_advector : forall E, fills E -> forall prs_tol dt0 dt simple uvw phi beta s x,
  pG E = None -> (forall d, pdi E d <> 0) -> 0 < dt0 -> 0 <= dt -> edges_compatible E simple ->
  mr_update E (prs_tol / dt0) simple uvw phi beta = Some (Done s) ->
  In x (pcells E) ->
  Rabs (vctr_div (pdims E) (fun d => intrp dt (pdi E d) None (pfill E (corrected E simple uvw (m_phi idx s) d)) d) x)
    <= prs_tol * (dt / dt0).
Proof. exact mr_advector. Qed.
Print Assumptions C42_mr_advector.

(** C42: every iteration of either solver leaves the domain total of the squared
    divergence the same or smaller, whatever the iteration limits and
    tolerances. *)
Theorem C42_mr_monotone : forall E, fills E -> forall tol simple uvw phi beta n, edges_compatible E simple ->
  div_energy E (corrected E simple uvw (m_phi idx (mr_at E tol simple uvw phi beta (S n))))
  <= div_energy E (corrected E simple uvw (m_phi idx (mr_at E tol simple uvw phi beta n))).
Proof. exact mr_monotone. Qed.
Print Assumptions C42_mr_monotone.
Theorem C42_gcrk_monotone : forall E, fills E -> forall k tol simple uvw phi beta p lp alpha den, (0 < k)%nat ->
  edges_compatible E simple -> forall n,
  div_energy E (corrected E simple uvw (g_phi idx (gc_at E k tol simple uvw phi beta p lp alpha den (S n))))
  <= div_energy E (corrected E simple uvw (g_phi idx (gc_at E k tol simple uvw phi beta p lp alpha den n))).
Proof. exact gc_monotone. Qed.
Print Assumptions C42_gcrk_monotone.

(** C42: the conjugate residual solver guarantees the root mean square of the
    divergence ... *)
Theorem C42_gcrk_mean_square : forall E, fills E -> forall k tol simple uvw phi beta p lp alpha den, (0 < k)%nat ->
  edges_compatible E simple -> forall s,
  gcrk_update k E tol simple uvw phi beta p lp alpha den = Some (Done s) ->
  div_energy E (corrected E simple uvw (g_phi idx s)) <= INR (length (pcells E)) * (tol * tol).
Proof. exact gc_result. Qed.
Print Assumptions C42_gcrk_mean_square.

(** C42: ... but not its tolerance in every cell: "converged", once set inside
    the loop over search directions, is not checked again after the directions
    that follow. *)
Theorem C42_gcrk_tolerance_refuted : exists E tol uvw x, fills E /\ edges_compatible E true /\ In x (pcells E) /\
  forall beta p lp alpha den, exists s,
  gcrk_update 2 E tol true uvw (fun _ => 0) beta p lp alpha den = Some (Done s) /\
  tol < Rabs (flow_div E (corrected E true uvw (g_phi idx s)) x).
Proof. exact gcrk_counterexample. Qed.
Print Assumptions C42_gcrk_tolerance_refuted.

(** C42: a velocity field without divergence and with the prescribed edge
    values is not changed by the correction before the first time step. *)
Theorem C42_unchanged : forall E, fills E -> forall tol uvw beta, 0 <= tol -> on_edges E uvw ->
  (forall x, In x (pcells E) -> flow_div E uvw x = 0) ->
  exists s, mr_update E tol true uvw (fun _ => 0) beta = Some (Done s) /\
    forall d x, In x (pcells E) -> corrected E true uvw (m_phi idx s) d x = uvw d x.
Proof. exact mr_unchanged. Qed.
Print Assumptions C42_unchanged.

(** C42: with an implicit absorber acting where a non-zero edge velocity is
    prescribed the solver returns although the resulting velocity is divergent:
    the residual scales the edge value, the update does not. *)
Theorem C42_absorber_at_open_edge_refuted : exists E tol uvw x s, fills E /\ In x (pcells E) /\
  mr_update E tol false uvw (fun _ => 0) (1 / 4) = Some (Done s) /\
  tol < Rabs (flow_div E (corrected E false uvw (m_phi idx s)) x).
Proof. exact absorber_counterexample. Qed.
Print Assumptions C42_absorber_at_open_edge_refuted.

(** three cells between open edges with inflow 0 and outflow 1: no correction
    exists and the exception is raised *)
Example C42_stuck_example : fills unbalanced_env /\ edges_compatible unbalanced_env false /\
  mr_update unbalanced_env (1 / 4) false unbalanced_flow (fun _ => 0) (1 / 4) = Some Stuck.
Proof. exact unbalanced_example. Qed.
(** seven cells between walls: the hypotheses hold, and one iteration is made *)
Example C42_walls_example : fills walls /\ edges_compatible walls true /\ length (pcells walls) = 7%nat /\
  (exists x, In x (pcells walls) /\ flow_div walls (corrected walls true walls_flow (fun _ => 0)) x <> 0) /\
  exists s, gcrk_update 2 walls (9 / 25) true walls_flow (fun _ => 0) (1 / 4) (fun _ _ => 0) (fun _ _ => 0) (fun _ => 1) (fun _ => 1)
    = Some (Done s).
Proof. exact walls_example. Qed.
(** a flow through open edges without divergence *)
Example C42_unchanged_example : let E := line 2 1 1 (fun _ => 1) in let u := flow [1; 1; 1] in
  fills E /\ on_edges E u /\ (forall x, In x (pcells E) -> flow_div E u x = 0) /\ u DX (1, 0, 0)%Z = 1 /\
  edges_compatible E false.
Proof. exact unchanged_example. Qed.
