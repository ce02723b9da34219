(** Notions for the heat budget: sums over the domain in which the outermost
    levels count half (cells at the ground and under the lid), levels. *)
From Coq Require Import ZArith Reals.
From Verif Require Import Stencil SpecStress ModelStress.
Local Open Scope R_scope.

Definition upw (nd : ndims) : nat := match nd with two => 1%nat | three => 2%nat end.
Definition weight (nz z : Z) : R := if orb (z =? 0)%Z (z =? nz - 1)%Z then 1 / 2 else 1.
(** repeating along the horizontal axes *)
Definition hperiodic (nd : ndims) (n : nat -> Z) (f : idx -> R) : Prop :=
  forall d i, (d < upw nd)%nat -> f (step d (n d) i) = f i.
(** sum over the levels next to the ground *)
Definition ground (nd : ndims) (n : nat -> Z) (f : idx -> R) : R :=
  cells n (fun i => if (coord (upw nd) i =? 0)%Z then f i else 0).
Definition weighted (nd : ndims) (n : nat -> Z) (f : idx -> R) : R :=
  cells n (fun i => weight (n (upw nd)) (coord (upw nd) i) * f i).
(** the eddy viscosity one expects: squared mixing length times the root of what
    shear leaves over stratification *)
Definition ri_visc (c l pr n2 s2 : R) : R := Rsqr (c * l) * sqrt (Rmax 0 (s2 - n2 / pr)).
