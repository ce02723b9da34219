(** Property theorems: output scheduling (C43, C44). *)
From Coq Require Import ZArith List Bool Reals.
From Verif Require Import ModelIndex ModelRun SpecRun ModelOutput SpecOutput ProofsOutput ProofsVarOut.
Import ListNotations.
Local Open Scope Z_scope.

(** C43: fixed time step, any solver, any history of advance() calls (the first
    of positive length), any output interval, start and window (window not
    longer than the interval): the initial state and exactly the requested
    steps are recorded, each once and in order, and each record holds the state
    which a run of that many steps ends with. *)
Theorem C43_recorded_steps : forall (W : Type) f s0 w c (h : hooks W) n rest u,
  0 < f -> w <= f -> 0 < n -> Forall (fun n => 0 <= n) rest -> n + total rest <= int_max ->
  (forall v, h_panic h v = false) ->
  (forall a b v, h_ante_loop h 0 a v = h_ante_loop h 0 b v) ->
  exists wend recorded,
    advances c (out_hooks f s0 w h) (n :: rest) (0, (u, [])) = Some (n + total rest, (wend, recorded)) /\
    increasing (map fst recorded) /\
    (forall s, In s (map fst recorded) <-> s = 0 \/ (0 < s <= n + total rest /\ requested f s0 w s)) /\
    (forall s v, In (s, v) recorded ->
       (s = 0 /\ v = h_ante_loop h 0 n u) \/ (0 < s /\ advances c h [s] (0, u) = Some (s, v))).
Proof. exact records_ok. Qed.
Print Assumptions C43_recorded_steps.

(** C43: the time axis lists the recorded steps of a run made by one advance()
    that reaches the output start. *)
Theorem C43_time_axis : forall (W : Type) f s0 w c (h : hooks W) nt u,
  0 < f -> 0 < w -> w <= f -> (f | s0) -> 0 <= s0 <= nt -> 0 < nt -> nt <= int_max -> w <= int_max ->
  (forall v, h_panic h v = false) ->
  (forall a b v, h_ante_loop h 0 a v = h_ante_loop h 0 b v) ->
  exists wend recorded,
    advances c (out_hooks f s0 w h) [nt] (0, (u, [])) = Some (nt, (wend, recorded)) /\
    time_axis f s0 w nt = map fst recorded.
Proof. exact axis_matches. Qed.
Print Assumptions C43_time_axis.

(** C43: a run that stops before the output start asks for a time axis of
    almost 2^64 entries. *)
Theorem C43_time_axis_short_run_refuted : exists f s0 w nt,
  0 < f /\ 0 < w <= f /\ (f | s0) /\ 0 < nt < s0 /\ nt_out f s0 w nt = 2 ^ 64 - 7.
Proof. exact axis_underflow. Qed.
Print Assumptions C43_time_axis_short_run_refuted.

(** C43: with a second advance() later records are missing from the axis. *)
Theorem C43_time_axis_second_call_refuted : exists f n1 n2 recorded,
  0 < f /\ 0 < n1 /\ 0 < n2 /\
  advances cfg1 (out_hooks f 0 1 still) [n1; n2] (0, (tt, [])) = Some (n1 + n2, (tt, recorded)) /\
  ~ incl (map fst recorded) (time_axis f 0 1 n1).
Proof. exact axis_second_call. Qed.
Print Assumptions C43_time_axis_second_call_refuted.

(** C43: with a window longer than the interval steps are recorded repeatedly. *)
Theorem C43_long_window_refuted : exists f w nt recorded, 0 < f /\ 0 < w /\
  advances cfg1 (out_hooks f 0 w still) [nt] (0, (tt, [])) = Some (nt, (tt, recorded)) /\
  ~ increasing (map fst recorded).
Proof. exact window_twice. Qed.
Print Assumptions C43_long_window_refuted.

(** C43: a leading advance(0) writes the initial state twice. *)
Theorem C43_leading_zero_refuted : exists recorded,
  advances cfg1 (out_hooks 1 0 1 still) [0; 1] (0, (tt, [])) = Some (1, (tt, recorded)) /\
  map fst recorded = [0; 0; 1].
Proof. exact initial_twice. Qed.
Print Assumptions C43_leading_zero_refuted.

Example C43_example : exists recorded,
  advances cfg1 (out_hooks 5 5 2 still) [7; 5] (0, (tt, [])) = Some (12, (tt, recorded)) /\
  map fst recorded = [0; 5; 6; 10; 11] /\ time_axis 5 5 2 12 = [0; 5; 6; 10; 11].
Proof. exact output_example. Qed.

Local Open Scope R_scope.

(** C44: adaptive step, first-order interpolation: if no step is longer than
    the output interval, the k-th record is at k times the interval, all
    multiples reached are there, and the value is on the line between the two
    states around that time. *)
Theorem C44_first_order : forall f y0 xs, 0 < f -> (forall x, In x xs -> 0 < fst x <= f) ->
  let T := fst (List.last (run_states y0 xs) (0, 0)) in
  let out := o_out (out_run 1 f y0 xs) in
  Z.of_nat (length out) = (floor (T / f) + 1)%Z /\
  forall k e, nth_error out k = Some e ->
    fst e = INR k * f /\
    (k = 0%nat /\ snd e = y0 \/
     exists i a b, nth_error (run_states y0 xs) i = Some a /\ nth_error (run_states y0 xs) (S i) = Some b /\
       fst a < fst e <= fst b /\ snd e = linear a b (fst e)).
Proof. exact first_order. Qed.
Print Assumptions C44_first_order.

(** C44: second order: if two consecutive steps together fit into one output
    interval, the same holds with the parabola through three states, for all
    multiples reached before the last step (the solver makes one extra step,
    see C08). *)
Theorem C44_second_order : forall f y0 xs x, 0 < f -> (forall z, In z (xs ++ [x]) -> 0 < fst z <= f) ->
  pairs_fit f (xs ++ [x]) ->
  let T := fst (List.last (run_states y0 (xs ++ [x])) (0, 0)) in
  let out := o_out (out_run 2 f y0 (xs ++ [x])) in
  (floor ((T - fst x) / f) + 1 <= Z.of_nat (length out) <= floor (T / f) + 1)%Z /\
  forall k e, nth_error out k = Some e ->
    fst e = INR k * f /\
    (k = 0%nat /\ snd e = y0 \/
     exists i a b c, nth_error (run_states y0 (xs ++ [x])) i = Some a /\ nth_error (run_states y0 (xs ++ [x])) (S i) = Some b /\
       nth_error (run_states y0 (xs ++ [x])) (S (S i)) = Some c /\
       fst a < fst e <= fst b /\ snd e = quadratic a b c (fst e)).
Proof. exact second_order. Qed.
Print Assumptions C44_second_order.

(** C44: the recorded values stay between the surrounding states (first order)
    and are exact for linear / quadratic evolution. *)
Theorem C44_between : forall a b t, fst a < t <= fst b -> between (snd a) (snd b) (linear a b t).
Proof. exact linear_between. Qed.
Print Assumptions C44_between.
Theorem C44_exact_quadratic : forall p q r t0 t1 t2 t, t0 <> t1 -> t1 <> t2 -> t0 <> t2 ->
  let g := fun t => p + q * t + r * (t * t) in
  quadratic (t0, g t0) (t1, g t1) (t2, g t2) t = g t.
Proof. exact quadratic_exact. Qed.
Print Assumptions C44_exact_quadratic.

(** C44: a step over two output times loses the first of them. *)
Theorem C44_long_step_refuted : exists f y0 xs k, 0 < f /\ (forall x, In x xs -> 0 < fst x) /\
  0 < IZR k * f <= fst (List.last (run_states y0 xs) (0, 0)) /\
  ~ In (IZR k * f) (map fst (o_out (out_run 1 f y0 xs))).
Proof. exact long_step. Qed.
Print Assumptions C44_long_step_refuted.

(** C44: second order, two consecutive steps that each reach an output time:
    the second is lost even long before the end of the run. *)
Theorem C44_second_order_refuted : exists f y0 xs k, 0 < f /\ (forall x, In x xs -> 0 < fst x <= f) /\
  (3 <= length xs)%nat /\ 0 < IZR k * f /\ IZR k * f + 1 <= fst (List.last (run_states y0 xs) (0, 0)) /\
  ~ In (IZR k * f) (map fst (o_out (out_run 2 f y0 xs))).
Proof. exact consecutive_crossings. Qed.
Print Assumptions C44_second_order_refuted.

Example C44_example :
  let xs := [(1 / 2, 1); (3 / 4, 4); (1, 5)] in
  (forall x, In x xs -> 0 < fst x <= 1) /\ map fst (o_out (out_run 1 1 0 xs)) = [0; 1 * 1; 2 * 1].
Proof. exact var_out_example. Qed.
