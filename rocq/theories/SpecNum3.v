(** Notions used in the statements of numerical properties of 3D runs on cyclic
    domains, in terms of the data the user provides.  The cells of a cyclic
    domain are those with [lo <= i < hi] in each direction: the last plane
    across each direction repeats the first. *)
From Coq Require Import ZArith List Bool Reals.
From Verif Require Import ModelIndex Lang Stencil FormCommon SpecReal SpecFields3.
Local Open Scope R_scope.

Section Num.
  Variables lo hi : dim -> Z.
  Variable nug : bool.
  Notation mem := (loc -> R).

  Definition own (i : idx) : Prop := forall d, (lo d <= comp d i < hi d)%Z.

  (** sum over the cells *)
  Definition total3 (f : idx -> R) : R :=
    total (lo DX) (hi DX) (fun x => total (lo DY) (hi DY) (fun y => total (lo DZ) (hi DZ) (fun z => f (x, y, z)))).
  (** over the directions *)
  Definition sum3d (f : dim -> R) : R := f DX + f DY + f DZ.

  (** G factor of a cell (1 if there is none) *)
  Definition G3of (m : mem) (i : idx) : R := if nug then gfac3 m i else 1.
  (** velocities at the two faces of a cell across [d] *)
  Definition ahead (m : mem) (d : dim) (i : idx) : R := face3 m d i.
  Definition behind (m : mem) (d : dim) (i : idx) : R := face3 m d (wrap3 lo hi (put d (comp d i - 1) i)).

  (** no cell loses more than it contains *)
  Definition outflow_ok3 (m : mem) : Prop := forall i, own i -> 0 < G3of m i /\
    sum3d (fun d => Rmax 0 (ahead m d i) - Rmin 0 (behind m d i)) <= G3of m i.
  (** as much flows into each cell as flows out *)
  Definition divergence_free3 (m : mem) : Prop := forall i, own i -> sum3d (fun d => ahead m d i - behind m d i) = 0.
  (** small Courant numbers [c], for [nit] passes: adding up to at most one half
      if the G factor is uniform; to at most [6 / (11 + nit)] (0.46 for two
      passes) if G factors are within a factor of two *)
  Definition gentle3 (m : mem) (nit : nat) (g : R) (c : dim -> R) : Prop :=
    0 < g /\ (forall d i, own i -> Rabs (face3 m d i) <= c d * g) /\
    ((forall i, own i -> G3of m i = g) /\ sum3d c <= 1 / 2 \/
     (forall i, own i -> g <= G3of m i <= 2 * g) /\ (11 + INR nit) * sum3d c <= 6).
  (** the same velocity everywhere *)
  Definition uniform3 (m : mem) (c : dim -> R) : Prop := forall d i, own i -> face3 m d i = c d.
End Num.
