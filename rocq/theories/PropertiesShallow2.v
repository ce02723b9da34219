(** Property theorems: time stepping of the shallow-water solver (C112). *)
From Coq Require Import ZArith List Bool Lia Reals Lra.
From Verif Require Import ModelRun Lang Stencil FormCommon ModelVip ModelShallow SpecReal SpecShallow ProofsShallow4 ProofsShallow5.
Import ListNotations.
Local Open Scope R_scope.

(** C112: every step transports depth and momenta with velocities extrapolated to
    the middle of the step, 3/2 times the present ones minus half the previous
    ones (the first step: the initial ones), and forces the momenta by the
    trapezoidal rule. *)
Theorem C112_trapezoidal_rule : forall p q h, (forall d, In d xy -> w_di p d <> 0) -> 0 < w_dt p ->
  let v s d x := speed p (q_ s d x) (h_ s x) in
  (forall t, sw_run p 1 (sw_start p q h) t -> trapezoid p (v (sw_start p q h)) 0 (sw_start p q h) t) /\
  (forall n r s t, sw_run p n (sw_start p q h) r -> sw_run p 1 r s -> sw_run p 1 s t ->
     trapezoid p (fun d x => 3 / 2 * v s d x - 1 / 2 * v r d x) (S n) s t).
Proof. exact steps_trapezoidal. Qed.
Print Assumptions C112_trapezoidal_rule.
(** a heap released from rest: the first step leaves it in place and gives the
    water a time step's worth of the pull *)
Example C112_example : let s := sw_start waves (fun _ _ => 0) bump in
  sw_run waves 1 s (sw_step waves s) /\ forall x, h_ (sw_step waves s) x = bump x /\ q_ (sw_step waves s) DX x = tab 0 (1 / 2) 0 (- (1 / 2)) x.
Proof. exact released. Qed.
