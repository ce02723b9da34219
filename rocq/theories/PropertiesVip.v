(** Property theorems: predicted advectors (C39), divergence of the advector
    (C40), velocity absorber (C41). *)
From Coq Require Import ZArith List Bool Reals.
From Verif Require Import Stencil ModelVip SpecVip ProofsVip.
Import ListNotations.
Local Open Scope R_scope.

(** C39: for every history of velocities, every sequence of positive time
    steps and of rejected attempts (adaptive stepping), whatever the scratch
    arrays contained at the start: the first step uses the initial velocity,
    every later one the line through the two latest velocities, evaluated in
    the middle of the step. *)
Theorem C39_prediction : forall var_dt div3 eps garbage (xs : list vin),
  (forall x, In x xs -> 0 < dt_used x /\ (var_dt || div3 = false -> tries x = [])) ->
  forall vel : nat -> R,
  (forall n x, nth_error xs n = Some x -> velocity_is eps (den x) (q x) (vel n)) ->
  let t := start_of (map dt_used xs) in
  let out := vip_run var_dt div3 eps xs (vip_init var_dt div3 garbage) in
  (forall x, nth_error xs 0 = Some x -> exists d, nth_error out 0 = Some (vel 0%nat, d))
  /\ (forall n x, nth_error xs (S n) = Some x -> exists d,
        nth_error out (S n) = Some (line (t n) (vel n) (t (S n)) (vel (S n)) (t (S n) + dt_used x / 2), d)).
Proof. exact predicted. Qed.
Print Assumptions C39_prediction.

(** C39: with third-order options the time derivatives are those of the line
    and the parabola through the latest velocities (when velocities are
    advected directly). *)
Theorem C39_derivatives : forall var_dt eps garbage (xs : list vin),
  (forall x, In x xs -> 0 < dt_used x /\ den x = None) ->
  let t := start_of (map dt_used xs) in
  let v := fun n => nth n (map q xs) 0 in
  let out := vip_run var_dt true eps xs (vip_init var_dt true garbage) in
  (forall x, nth_error xs 0 = Some x -> exists y, nth_error out 0 = Some (y, (None, None)))
  /\ (forall x, nth_error xs 1 = Some x -> exists y, nth_error out 1 =
       Some (y, (Some (dt_used x * slope (t 0%nat) (v 0%nat) (t 1%nat) (v 1%nat)), None)))
  /\ (forall n x, nth_error xs (S (S n)) = Some x -> exists y, nth_error out (S (S n)) =
       Some (y, (Some (dt_used x * slope (t (S n)) (v (S n)) (t (S (S n))) (v (S (S n)))),
                 Some (dt_used x * dt_used x * curvature (t n) (v n) (t (S n)) (v (S n)) (t (S (S n))) (v (S (S n))))))).
Proof. exact predicted_derivatives. Qed.
Print Assumptions C39_derivatives.

(** C39: when momentum is advected ([vip_den] set) the derivative formula
    mixes momentum and velocity: a flow with steady velocity 1 gets a non-zero
    time derivative. *)
Theorem C39_density_derivative_refuted : exists (xs : list vin),
  (forall x, In x xs -> 0 < dt_used x /\ velocity_is 0 (den x) (q x) 1) /\
  exists y d, nth_error (vip_run false true 0 xs (vip_init false true (fun _ => 0))) 1 = Some (y, (Some d, None)) /\ d <> 0.
Proof. exact density_derivative. Qed.
Print Assumptions C39_density_derivative_refuted.

(** C39: the stash never reaches outside the arrays allocated for it. *)
Theorem C39_stash_allocated : forall var_dt div3 n t,
  (0 <= n)%Z -> (t = 0 \/ t = -1 \/ (div3 = true /\ t = -2))%Z ->
  (0 <= stash_slot var_dt div3 n t < stash_count var_dt div3)%Z.
Proof. exact slot_in_bounds. Qed.
Print Assumptions C39_stash_allocated.

(** three steps of different lengths, one rejected attempt, u = 1 + 2 t + 3 t^2 *)
Example C39_example :
  let xs := [ {| q := 1; den := None; tries := []; dt_used := 1 |};
              {| q := 6; den := None; tries := [5]; dt_used := 2 |};
              {| q := 34; den := None; tries := []; dt_used := 1 |} ] in
  (forall x, In x xs -> 0 < dt_used x /\ den x = None)
  /\ nth_error (vip_run true true 0 xs (vip_init true true (fun _ => 7))) 1 = Some (11, (Some 10, None))
  /\ nth_error (vip_run true true 0 xs (vip_init true true (fun _ => 7))) 2 = Some (41, (Some 14, Some 6)).
Proof. exact vip_example. Qed.

(** C40: the advector interpolated from a velocity field has, in every cell,
    dt times the divergence which the pressure solver computes for that
    velocity field (weighted with G), in any number of dimensions. *)
Theorem C40_divergence : forall dims dt di G (u : dim -> idx -> R) x,
  (forall d, di d <> 0) ->
  vctr_div dims (fun d => intrp dt (di d) G (u d) d) x
  = dt * div dims di (fun d y => match G with None => u d y | Some g => g y * u d y end) x.
Proof. exact advector_divergence. Qed.
Print Assumptions C40_divergence.

(** C40: hence the extrapolated advector is divergence-free up to the
    divergence left by the pressure solver in the two latest velocity fields. *)
Theorem C40_predicted : forall dims dt di G (u u1 w : dim -> idx -> R) beta tol x,
  (forall d, di d <> 0) -> 0 <= beta -> 0 <= dt ->
  (forall d y, w d y = (1 + beta) * u d y - beta * u1 d y) ->
  let weighted v := fun (d : dim) y => match G with None => v d y | Some g => g y * v d y end : R in
  Rabs (div dims di (weighted u) x) <= tol -> Rabs (div dims di (weighted u1) x) <= tol ->
  Rabs (vctr_div dims (fun d => intrp dt (di d) G (w d) d) x) <= dt * (1 + 2 * beta) * tol.
Proof. exact predicted_divergence. Qed.
Print Assumptions C40_predicted.

(** a divergent 2D flow: u = (x, y), unit spacings, dt = 1/2 *)
Example C40_example :
  (forall d : dim, (fun _ => 1) d <> 0) /\
  vctr_div [DX; DY] (fun d => intrp (1 / 2) 1 None
     (fun y => match d with DX => IZR (fst (fst y)) | DY => IZR (snd (fst y)) | DZ => 0 end) d) (3, 4, 0)%Z = 1.
Proof. exact div_example. Qed.

(** C41: for every advection, coefficient field and sequence of time steps,
    each step of the implicit absorber is the trapezoidal rule along
    trajectories, each step of the explicit one Euler forward, and without an
    absorber nothing happens. *)
Theorem C41_implicit : forall X (coeff relax : X -> R) adv dts dt u,
  (forall d, In d (dts ++ [dt]) -> 0 < d) -> (forall x, 0 <= coeff x) ->
  trapezoidal X coeff relax adv dt
    (fst (vab_run_dts X Impl coeff relax adv dts u)) (fst (vab_run_dts X Impl coeff relax adv (dts ++ [dt]) u)).
Proof. exact (fun X c r adv => vab_rule X c r adv Impl). Qed.
Print Assumptions C41_implicit.

Theorem C41_explicit : forall X (coeff relax : X -> R) adv dts dt u,
  (forall d, In d (dts ++ [dt]) -> 0 < d) -> (forall x, 0 <= coeff x) ->
  forward X coeff relax adv dt
    (fst (vab_run_dts X Expl coeff relax adv dts u)) (fst (vab_run_dts X Expl coeff relax adv (dts ++ [dt]) u)).
Proof. exact (fun X c r adv => vab_rule X c r adv Expl). Qed.
Print Assumptions C41_explicit.

Theorem C41_off : forall X (coeff relax : X -> R) adv dts dt u,
  (forall d, In d (dts ++ [dt]) -> 0 < d) -> (forall x, 0 <= coeff x) ->
  fst (vab_run_dts X NoAb coeff relax adv (dts ++ [dt]) u) = adv (fst (vab_run_dts X NoAb coeff relax adv dts u)).
Proof. exact (fun X c r adv => vab_rule X c r adv NoAb). Qed.
Print Assumptions C41_off.

(** C41: the relaxation field is a fixed point wherever the flow keeps it. *)
Theorem C41_fixed_point : forall X (ab : vab) (coeff relax : X -> R) adv dts,
  (forall x, 0 <= coeff x) -> (forall d, In d dts -> 0 < d) -> adv relax = relax ->
  fst (vab_run_dts X ab coeff relax adv dts relax) = relax.
Proof. exact absorber_fixed. Qed.
Print Assumptions C41_fixed_point.

(** C41: in still flow the implicit absorber never increases the distance
    from the relaxation value, whatever the coefficient and the time steps. *)
Theorem C41_implicit_stable : forall X (coeff relax : X -> R) dts u,
  (forall x, 0 <= coeff x) -> (forall d, In d dts -> 0 < d) ->
  forall x, Rabs (fst (vab_run_dts X Impl coeff relax (fun v => v) dts u) x - relax x) <= Rabs (u x - relax x).
Proof. exact implicit_alone. Qed.
Print Assumptions C41_implicit_stable.

(** C41: with advection, the largest deviation never grows if c dt <= 4
    (implicit) or c dt <= 2 (explicit). *)
Theorem C41_bounded : forall X (ab : vab) (coeff relax : X -> R) adv dts u M,
  (forall x, 0 <= coeff x) -> (forall d, In d dts -> 0 < d) ->
  (forall x d, In d dts -> match ab with NoAb => True | Expl => coeff x * d <= 2 | Impl => coeff x * d <= 4 end) ->
  (forall v N, deviation_le X relax v N -> deviation_le X relax (adv v) N) ->
  deviation_le X relax u M ->
  deviation_le X relax (fst (vab_run_dts X ab coeff relax adv dts u)) M.
Proof. exact absorber_bounded. Qed.
Print Assumptions C41_bounded.

(** C41: no overshoot past the relaxation value in still flow if c dt <= 2
    (implicit) or c dt <= 1 (explicit). *)
Theorem C41_no_overshoot : forall X (ab : vab) (coeff relax : X -> R) dts d u,
  (forall x, 0 <= coeff x) -> (forall e, In e (dts ++ [d]) -> 0 < e) ->
  (forall x, match ab with NoAb => True | Expl => coeff x * d <= 1 | Impl => coeff x * d <= 2 end) ->
  no_overshoot X relax (fst (vab_run_dts X ab coeff relax (fun v => v) dts u))
                       (fst (vab_run_dts X ab coeff relax (fun v => v) (dts ++ [d]) u)).
Proof. exact absorber_overshoot. Qed.
Print Assumptions C41_no_overshoot.

(** C41: with advection the implicit absorber is not unconditionally stable:
    a strongly damped cell next to an undamped one amplifies deviations. *)
Theorem C41_implicit_with_advection_refuted : exists (coeff relax u : bool -> R) (adv : (bool -> R) -> (bool -> R)),
  (forall x, 0 <= coeff x) /\
  (forall v N, deviation_le bool relax v N -> deviation_le bool relax (adv v) N) /\
  deviation_le bool relax u 1 /\
  ~ deviation_le bool relax (fst (vab_run_dts bool Impl coeff relax adv [1] u)) 1.
Proof. exact strong_amplifies. Qed.
Print Assumptions C41_implicit_with_advection_refuted.

(** C41: nor is the explicit one beyond c dt = 2, even in still flow. *)
Theorem C41_explicit_refuted : exists (coeff relax u : unit -> R),
  (forall x, 0 <= coeff x) /\ deviation_le unit relax u 1 /\
  ~ deviation_le unit relax (fst (vab_run_dts unit Expl coeff relax (fun v => v) [1] u)) 1.
Proof. exact explicit_unstable. Qed.
Print Assumptions C41_explicit_refuted.

(** two steps of different lengths, c = 2, r = 1, u = 7, still flow *)
Example C41_example :
  (forall d, In d [1; 2] -> 0 < d) /\ (forall x : unit, 0 <= (fun _ => 2) x) /\
  fst (vab_run_dts unit Impl (fun _ => 2) (fun _ => 1) (fun v => v) [1 / 2; 2] (fun _ => 7)) tt = 1 - 2 / 3.
Proof. exact vab_example. Qed.
