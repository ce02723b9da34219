(** The drag one expects of a surface: density times squared speed, against the wind. *)
From Coq Require Import ZArith Reals.
From Verif Require Import Stencil SpecStress ModelStress SpecHeat.
Local Open Scope R_scope.

(** mean of neighbouring cells along [c] *)
Definition mid (c : nat) (f : idx -> R) (i : idx) : R := (f (step c 1 i) + f i) / 2.
Definition drag_law (nd : ndims) (rho : idx -> R) (cd : R) (v : fields) (c : nat) (i : idx) : R :=
  cd * mid c rho i * sqrt (axes (upw nd) (fun e => Rsqr (mid c (v e) i))) * mid c (v c) i.

(** a flow over x and height as a flow in three dimensions that does not vary along y *)
Definition plane_idx (i : idx) : idx := let '(x, _, z) := i in (x, z, 0%Z).
Definition plane_vel (v : fields) : fields := fun c i =>
  match c with 0%nat => v 0%nat (plane_idx i) | 1%nat => 0 | _ => v 1%nat (plane_idx i) end.

(** the same in all cells of the domain, whatever is stored outside of it *)
Definition same_inside (nd : ndims) (nz : Z) (f g : field) : Prop :=
  forall i, (0 <= coord (upw nd) i < nz)%Z -> f i = g i.
(** a wind blowing faster everywhere, by [a] *)
Definition faster (nd : ndims) (a : nat -> R) (v : fields) : fields := fun c i => if (c <? upw nd)%nat then v c i + a c else v c i.

(** mirror image of a flow, x reversed *)
Definition mirror_idx (i : idx) : idx := let '(x, y, z) := i in ((- x)%Z, y, z).
Definition mirror_vel (v : fields) : fields := fun c i => match c with 0%nat => - v 0%nat (mirror_idx i) | _ => v c (mirror_idx i) end.
(** a flow with x and y interchanged *)
Definition swap_idx (i : idx) : idx := let '(x, y, z) := i in (y, x, z).
Definition swap_axis (c : nat) : nat := match c with 0%nat => 1%nat | 1%nat => 0%nat | _ => c end.
Definition swap_vel (v : fields) : fields := fun c i => v (swap_axis c) (swap_idx i).
