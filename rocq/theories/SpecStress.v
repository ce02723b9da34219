(** Notions used in the statements on viscous forces: sums over the cells of a
    cyclic domain, polynomial velocity fields and their derivatives, rigid
    motions, strain. *)
From Coq Require Import ZArith Reals.
From Verif Require Import Stencil SpecReal ModelStress.
Local Open Scope R_scope.

(** one step along axis number [d] *)
Definition step (d : nat) (k : Z) (i : idx) : idx :=
  match d with 0%nat => (fst (fst i) + k, snd (fst i), snd i)%Z | 1%nat => (fst (fst i), snd (fst i) + k, snd i)%Z
          | _ => (fst (fst i), snd (fst i), snd i + k)%Z end.
Definition coord (d : nat) (i : idx) : Z :=
  match d with 0%nat => fst (fst i) | 1%nat => snd (fst i) | _ => snd i end.

(** fields repeating after [n d] cells along each axis; sum over one period *)
Definition periodic (n : nat -> Z) (f : idx -> R) : Prop := forall d i, (d < 3)%nat -> f (step d (n d) i) = f i.
Definition cells (n : nat -> Z) (f : idx -> R) : R :=
  total 0 (n 0%nat) (fun x => total 0 (n 1%nat) (fun y => total 0 (n 2%nat) (fun z => f (x, y, z)))).

(** sum over the first [k] axes *)
Fixpoint axes (k : nat) (f : nat -> R) : R := match k with O => 0 | S m => axes m f + f m end.

(** positions on a grid with spacings [dx] *)
Definition pos (dx : nat -> R) (d : nat) (i : idx) : R := IZR (coord d i) * dx d.

(** polynomials of degree two in the positions along the first [k] axes, their second derivatives *)
Definition quad (k : nat) (dx : nat -> R) (a : R) (b : nat -> R) (h : nat -> nat -> R) (i : idx) : R :=
  a + axes k (fun d => b d * pos dx d i) + axes k (fun d => axes k (fun e => h d e * pos dx d i * pos dx e i)).
Definition quad_dd (h : nat -> nat -> R) (d e : nat) : R := h d e + h e d.

(** linear velocity fields; rigid motions: the gradient [w] is antisymmetric *)
Definition linear (k : nat) (dx : nat -> R) (c : R) (w : nat -> R) (i : idx) : R := c + axes k (fun e => w e * pos dx e i).
Definition antisym (w : nat -> nat -> R) : Prop := forall d e, w d e = - w e d.

(** centred difference; squared strain rate [sum (d_d v_e + d_e v_d)^2 / 4] *)
Definition cdiff (dx : nat -> R) (d : nat) (f : idx -> R) (i : idx) : R :=
  (f (step d 1 i) - f (step d (-1) i)) / (2 * dx d).
Definition strain2 (k : nat) (dx : nat -> R) (v : nat -> idx -> R) (i : idx) : R :=
  axes k (fun d => axes k (fun e => ((cdiff dx d (v e) i + cdiff dx e (v d) i) / 2) ^ 2)).

(** velocity of a rigid motion: translation [c], rotation [w] *)
Definition rigid (dx : nat -> R) (nd : ndims) (c : nat -> R) (w : nat -> nat -> R) : nat -> idx -> R :=
  fun d => linear (ndn nd) dx (c d) (w d).
(** closures: viscosity not negative; eddy viscosity *)
Definition visc_ok (cl : closure) : Prop := match cl with Dns eta => 0 <= eta | _ => True end.
Definition eddy (cl : closure) : Prop := match cl with Dns _ => False | _ => True end.
(** velocities with components given by degree-two polynomials; what viscosity one does to them:
    the Laplacian plus the gradient of the divergence *)
Definition quad_vel (dx : nat -> R) (nd : ndims) (a : nat -> R) (b : nat -> nat -> R) (h : nat -> nat -> nat -> R) : nat -> idx -> R :=
  fun c => quad (ndn nd) dx (a c) (b c) (h c).
Definition lap_graddiv (nd : ndims) (h : nat -> nat -> nat -> R) (d : nat) : R :=
  axes (ndn nd) (fun e => quad_dd (h d) e e) + axes (ndn nd) (fun e => quad_dd (h e) d e).
(** mass of a cell: forces of the compact scheme are per mass G *)
Definition mass (nug : bool) (G : idx -> R) (df : sdiff) (i : idx) : R :=
  match df with compact => if nug then G i else 1 | _ => 1 end.
(** a flow in the plane, seen in three dimensions *)
Definition planar (v : nat -> idx -> R) : Prop :=
  (forall c x y z, v c (x, y, z) = v c (x, y, 0%Z)) /\ (forall i, v 2%nat i = 0).
