(** Notions used in the statements of numerical properties of 2D runs on cyclic
    domains, in terms of the data the user provides.  The cells of a cyclic
    domain are those with [lo <= i < hi] in each direction: the last row and
    column repeat the first. *)
From Coq Require Import ZArith List Bool Reals.
From Verif Require Import Lang Stencil SpecReal SpecFields2.
Local Open Scope R_scope.

Section Num.
  Variables lo hi : dim -> Z.
  Variable nug : bool.
  Notation mem := (loc -> R).

  Definition inside (i j : Z) : Prop := (lo DX <= i < hi DX)%Z /\ (lo DY <= j < hi DY)%Z.
  Definition on_grid (i j : Z) : Prop := (lo DX <= i <= hi DX)%Z /\ (lo DY <= j <= hi DY)%Z.

  (** sum over the cells *)
  Definition total2 (f : Z -> Z -> R) : R := total (lo DX) (hi DX) (fun i => total (lo DY) (hi DY) (fun j => f i j)).

  (** G factor of a cell (1 if there is none) *)
  Definition G2of (m : mem) (i j : Z) : R := if nug then gfac2 m i j else 1.
  (** velocities at the faces of a cell *)
  Definition east (m : mem) (i j : Z) : R := face2 m DX i j.
  Definition west (m : mem) (i j : Z) : R := face2 m DX (wrap2 lo hi DX (i - 1)) j.
  Definition north (m : mem) (i j : Z) : R := face2 m DY i j.
  Definition south (m : mem) (i j : Z) : R := face2 m DY i (wrap2 lo hi DY (j - 1)).

  (** no cell loses more than it contains *)
  Definition outflow_ok2 (m : mem) : Prop := forall i j, inside i j -> 0 < G2of m i j /\
    Rmax 0 (east m i j) - Rmin 0 (west m i j) + (Rmax 0 (north m i j) - Rmin 0 (south m i j)) <= G2of m i j.
  (** as much flows into each cell as flows out *)
  Definition divergence_free2 (m : mem) : Prop := forall i j, inside i j ->
    east m i j - west m i j + (north m i j - south m i j) = 0.
  (** Courant numbers with sum at most one half, G factors within a factor of two *)
  Definition gentle2 (m : mem) (g cx cy : R) : Prop :=
    0 < g /\ cx + cy <= 1 / 2 /\ forall i j, inside i j ->
    g <= G2of m i j <= 2 * g /\ Rabs (face2 m DX i j) <= cx * g /\ Rabs (face2 m DY i j) <= cy * g.
  (** the same velocity everywhere *)
  Definition uniform2 (m : mem) (cx cy : R) : Prop := forall i j, inside i j -> face2 m DX i j = cx /\ face2 m DY i j = cy.
End Num.
