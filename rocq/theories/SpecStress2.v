(** Notions used in the statements on stresses of uniformly sheared flows. *)
From Coq Require Import Reals List.
From Verif Require Import Stencil SpecStress ModelStress.
Local Open Scope R_scope.

(** where the arrays of stresses hold component (d, e) of the symmetric tensor *)
Definition entry (nd : ndims) (df : sdiff) (d e : nat) : nat :=
  match nd, df with
  | two, compact => if Nat.eqb d e then d else 2%nat
  | two, _ => (d + e)%nat
  | three, compact => if Nat.eqb d e then d else (2 + d + e)%nat
  | three, _ => match d, e with
                | 0, _ => e | _, 0 => d | _, _ => (1 + d + e)%nat
                end
  end%nat.

(** the stress tensor a closure computes for velocities [v], at cell (or, compact
    differencing, at the faces and edges next to it) [i] *)
Definition stress dx nug G nd df cl v (i : idx) (d e : nat) : R :=
  multiply_sgs_visc dx nug G nd df cl (deform dx nug G nd df v) (entry nd df d e) i.

(** flow with uniform velocity gradient [w d e] (derivative of component [d] along axis [e]) *)
Definition uniform_shear (dx : nat -> R) (nd : ndims) (c : nat -> R) (w : nat -> nat -> R) : nat -> idx -> R :=
  fun d => linear (ndn nd) dx (c d) (w d).

(** orthogonal matrices (rotations and reflections); tensor in rotated coordinates *)
Definition delta (d e : nat) : R := if Nat.eqb d e then 1 else 0.
Definition orthogonal (k : nat) (q : nat -> nat -> R) : Prop := forall d e, (d < k)%nat -> (e < k)%nat ->
  axes k (fun f => q d f * q e f) = delta d e /\ axes k (fun f => q f d * q f e) = delta d e.
Definition rotated (k : nat) (q t : nat -> nat -> R) (d e : nat) : R :=
  axes k (fun f => axes k (fun g => q d f * t f g * q e g)).

(** a turn by 53 degrees about the third axis makes of pure shear a flow with stretching *)
Definition turn (d e : nat) : R :=
  match d, e with
  | 0%nat, 0%nat => 3 / 5 | 0%nat, 1%nat => - (4 / 5) | 1%nat, 0%nat => 4 / 5 | 1%nat, 1%nat => 3 / 5 | 2%nat, 2%nat => 1 | _, _ => 0
  end.
Definition pure_shear (d e : nat) : R := match d, e with 0%nat, 1%nat => 2 | _, _ => 0 end.
