(** What is expected of boundary conditions (C27, C28, C29). *)
From Coq Require Import ZArith List Bool Reals.
From Verif Require Import ModelIndex ModelBcond.
Import ListNotations.
Local Open Scope Z_scope.

(** Reflection about the middle of the domain [f .. l]: of values in cells and
    of values at faces (face [j] between cells [j] and [j + 1]); velocities
    change sign. *)
Definition mirror_cells (i : rng) (a : Z -> R) : Z -> R := fun j => a (first i + last i - j).
Definition mirror_faces (i : rng) (v : Z -> R) : Z -> R := fun j => (- v (first i + last i - 1 - j)%Z)%R.

(** mass in the domain: the walls are in the middle of the edge cells, so half
    of these cells is inside *)
Definition sum_from (f : Z -> R) (from : Z) (k : nat) : R :=
  fold_right (fun j a => (f (from + Z.of_nat j)%Z + a)%R) 0%R (seq 0 k).
Definition walled_mass (i : rng) (m : Z -> R) : R :=
  (m (first i) / 2 + m (last i) / 2 + sum_from m (first i + 1)%Z (Z.to_nat (last i - first i - 1)))%R.

(** a field on a grid of [n] points whose first and last points coincide *)
Definition periodic {V : Type} (n : Z) (g : Z -> V) : Prop := forall j, g (j + (n - 1)) = g j.

(** One exchange of scalars, and one of a staggered vector component, by
    [size] processes sharing a grid of [n] points.  A process computes values at
    its own points; at the faces between them and the face before the first
    one (from face 0 on). *)
Definition sclr_exchange (V : Type) (halo n size : Z) (cyclic : bool) : net V -> net V -> Prop :=
  nsteps V n size cyclic (left_send_sclr halo n size) (left_recv_sclr halo n size)
    (rght_send_sclr halo n size) (rght_recv_sclr halo n size) 0.
Definition sclr_step (V : Type) (halo n size : Z) (cyclic : bool) : net V -> net V -> Prop :=
  nstep V n size cyclic (left_send_sclr halo n size) (left_recv_sclr halo n size)
    (rght_send_sclr halo n size) (rght_recv_sclr halo n size) 0.
Definition vctr_exchange (V : Type) (halo n size : Z) (cyclic : bool) : net V -> net V -> Prop :=
  nsteps V n size cyclic (left_send_vctr halo n size) (left_recv_vctr halo n size)
    (rght_send_vctr halo n size) (rght_recv_vctr halo n size) 1.
Definition vctr_step (V : Type) (halo n size : Z) (cyclic : bool) : net V -> net V -> Prop :=
  nstep V n size cyclic (left_send_vctr halo n size) (left_recv_vctr halo n size)
    (rght_send_vctr halo n size) (rght_recv_vctr halo n size) 1.
Definition own_faces (n size r : Z) : rng := (if r =? 0 then 0 else first (part n size r) - 1, last (part n size r) - 1).
(** enough points for every process *)
Definition wide_parts (halo n size : Z) (cyclic : bool) : Prop :=
  forall r, 0 <= r < size -> (if cyclic then halo + 1 else halo) <= rlen (part n size r).
