(** Property theorems: adaptive time step (C09). *)
From Coq Require Import ZArith List Reals.
From Verif Require Import Stencil ModelVarDt SpecVarDt ProofsVarDt.
Import ListNotations.
Local Open Scope Z_scope.

(** C09: one, two or three dimensions, any number of threads, any way of
    filling halos from inner faces, with the division by the G factor ([wg],
    2D and 3D) or without it.  If the flow is not at rest, the largest Courant
    number becomes [mc] and advector/dt is unchanged on every face of every
    cell. *)
Theorem C09_rescaled : forall dims dd lo hi n src sg G wg, In dd dims ->
  (forall d, In d dims -> lo d < hi d) -> (forall d, ~ In d dims -> lo d = 0 /\ hi d = 0) ->
  (0 < n)%nat -> Z.of_nat n <= hi dd - lo dd + 1 ->
  (wg = true -> forall x, is_cell dims lo hi x -> (0 < G x)%R) -> halo_rule dims lo hi src sg ->
  forall mc dt gc, (0 < mc)%R -> (0 < dt)%R ->
  let Gq := if wg then G else (fun _ => 1%R) in
  let gc1 := fun d x => (sg d x * gc d (src d x))%R in
  (exists x, is_cell dims lo hi x /\ local_courant dims Gq gc1 x <> 0%R) ->
  let '(dt', gc') := adjust dims dd lo hi n src sg G wg mc dt gc in
  largest_courant dims lo hi Gq gc' mc /\ (0 < dt')%R /\
  forall d x, In d dims -> is_face dims lo hi d x -> (gc' d x / dt' = gc1 d x / dt)%R.
Proof. exact adjust_moving. Qed.
Print Assumptions C09_rescaled.

(** ... and if it is at rest nothing changes (halos apart). *)
Theorem C09_at_rest : forall (dims : list dim) (dd : dim) (lo hi : dim -> Z) (n : nat)
  (src : dim -> idx -> idx) (sg : dim -> idx -> R) (G : idx -> R) (wg : bool), In dd dims ->
  (forall d, In d dims -> lo d < hi d) -> (forall d, ~ In d dims -> lo d = 0 /\ hi d = 0) ->
  (0 < n)%nat -> Z.of_nat n <= hi dd - lo dd + 1 ->
  (wg = true -> forall x, is_cell dims lo hi x -> (0 < G x)%R) ->
  forall mc dt gc,
  let Gq := if wg then G else (fun _ => 1%R) in
  let gc1 := fun d x => (sg d x * gc d (src d x))%R in
  (forall x, is_cell dims lo hi x -> local_courant dims Gq gc1 x = 0%R) ->
  let '(dt', gc') := adjust dims dd lo hi n src sg G wg mc dt gc in
  dt' = dt /\ forall d x, gc' d x = gc1 d x.
Proof. exact adjust_still. Qed.
Print Assumptions C09_at_rest.

(** In 1D the G factor is left out of the Courant number: with G = 2 and a
    uniform flow the true Courant number after the adjustment is not the
    requested one. *)
Theorem C09_one_dimension_g_factor_refuted :
  let '(dt', gc') := adjust [DX] DX zero_d one_d 2 (cyclic_src zero_d one_d) no_sign
     (fun _ => 2%R) false (1 / 2) 1 (fun _ _ => (1 / 4)%R) in
  ~ largest_courant [DX] zero_d one_d (fun _ => 2%R) gc' (1 / 2).
Proof. exact one_d_g. Qed.
Print Assumptions C09_one_dimension_g_factor_refuted.

(** A cyclic 2D domain with two threads meets the hypotheses. *)
Example C09_example : halo_rule [DX; DY] (fun _ => 0) two_d (cyclic_src (fun _ => 0) two_d) no_sign /\
  In DX [DX; DY] /\ Z.of_nat 2 <= two_d DX - 0 + 1 /\ is_cell [DX; DY] (fun _ => 0) two_d (0, 3, 0) /\
  local_courant [DX; DY] (fun _ => 1%R) (fun d _ => match d with DX => 1 | _ => -1 end)%R (0, 3, 0) = 2%R.
Proof. exact two_d_ok. Qed.
