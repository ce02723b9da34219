(** What users expect of predicted advectors and of the velocity absorber. *)
From Coq Require Import ZArith List Bool Reals.
From Verif Require Import Stencil.
Import ListNotations.
Local Open Scope R_scope.

(** ** Extrapolation and derivatives in time *)

(** the straight line through (t0,y0) and (t1,y1), at time t *)
Definition line (t0 y0 t1 y1 t : R) : R := y1 + (y1 - y0) * ((t - t1) / (t1 - t0)).
(** its slope *)
Definition slope (t0 y0 t1 y1 : R) : R := (y1 - y0) / (t1 - t0).
(** second derivative of the parabola through three points *)
Definition curvature (t0 y0 t1 y1 t2 y2 : R) : R := 2 * ((slope t1 y1 t2 y2 - slope t0 y0 t1 y1) / (t2 - t0)).
(** time at which step n starts when step k takes [nth k dts 0] *)
Fixpoint start_of (dts : list R) (n : nat) : R :=
  match n with O => 0 | S m => start_of dts m + nth m dts 0 end.

(** velocity of advected quantity [q] with optional density *)
Definition velocity_is (eps : R) (den : option R) (q v : R) : Prop :=
  match den with
  | None => v = q
  | Some r => (eps = 0 -> v = q / r) /\ (eps <> 0 -> eps < r -> v = q / r) /\ (eps <> 0 -> r <= eps -> v = 0)
  end.

(** ** Velocity absorber: du/dt = - c (u - r) *)
Section Relaxation.
  Variable X : Type.
  Variables (c r : X -> R).
  Definition pull (u : X -> R) : X -> R := fun x => - c x * (u x - r x).
  (** trapezoidal rule along trajectories: half of the forcing before
      advection, half after it with the new velocity *)
  Definition trapezoidal (adv : (X -> R) -> (X -> R)) (dt : R) (u u' : X -> R) : Prop :=
    exists w, (forall x, w x = u x + dt / 2 * pull u x) /\ (forall x, u' x = adv w x + dt / 2 * pull u' x).
  (** Euler forward before advection *)
  Definition forward (adv : (X -> R) -> (X -> R)) (dt : R) (u u' : X -> R) : Prop :=
    exists w, (forall x, w x = u x + dt * pull u x) /\ (forall x, u' x = adv w x).
  (** largest deviation from the relaxation field does not exceed M *)
  Definition deviation_le (u : X -> R) (M : R) : Prop := forall x, Rabs (u x - r x) <= M.
  Definition no_overshoot (u u' : X -> R) : Prop := forall x, 0 <= (u x - r x) * (u' x - r x).
End Relaxation.
