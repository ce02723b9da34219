(** Courant number of a flow on a staggered grid, independent of the model. *)
From Coq Require Import ZArith List Reals.
From Verif Require Import Stencil.
Import ListNotations.
Local Open Scope Z_scope.

(** [x] is a cell of the domain / an inner face in direction [d] (between two cells) / any
    face of a cell of the domain *)
Definition is_cell (dims : list dim) (lo hi : dim -> Z) (x : idx) : Prop :=
  (forall d, In d dims -> lo d <= comp d x <= hi d) /\ (forall d, ~ In d dims -> comp d x = 0).
Definition is_inner_face (dims : list dim) (lo hi : dim -> Z) (d : dim) (x : idx) : Prop :=
  (forall e, In e dims -> e <> d -> lo e <= comp e x <= hi e) /\ (forall e, ~ In e dims -> comp e x = 0) /\
  lo d <= comp d x <= hi d - 1.
Definition is_face (dims : list dim) (lo hi : dim -> Z) (d : dim) (x : idx) : Prop :=
  (forall e, In e dims -> e <> d -> lo e <= comp e x <= hi e) /\ (forall e, ~ In e dims -> comp e x = 0) /\
  lo d - 1 <= comp d x <= hi d.

Definition below (d : dim) (x : idx) : idx :=
  match d with DX => (comp DX x - 1, comp DY x, comp DZ x)
             | DY => (comp DX x, comp DY x - 1, comp DZ x)
             | DZ => (comp DX x, comp DY x, comp DZ x - 1) end.

(** velocity in the middle of a cell in units of cells per step, summed over directions *)
Definition local_courant (dims : list dim) (G : idx -> R) (u : dim -> idx -> R) (x : idx) : R :=
  (fold_right Rplus 0 (map (fun d => Rabs ((u d x + u d (below d x)) / 2)) dims) / G x)%R.
Definition largest_courant (dims : list dim) (lo hi : dim -> Z) (G : idx -> R) (u : dim -> idx -> R) (c : R) : Prop :=
  (exists x, is_cell dims lo hi x /\ local_courant dims G u x = c) /\
  forall x, is_cell dims lo hi x -> (local_courant dims G u x <= c)%R.

(** a way of filling halos: inner faces keep their values, the others are
    (signed) copies of inner faces *)
Definition halo_rule (dims : list dim) (lo hi : dim -> Z) (src : dim -> idx -> idx) (sg : dim -> idx -> R) : Prop :=
  forall d, In d dims ->
    (forall x, is_inner_face dims lo hi d x -> src d x = x /\ sg d x = 1%R) /\
    (forall x, is_face dims lo hi d x -> is_inner_face dims lo hi d (src d x)).
