(** Courant numbers at the faces of cells in a box closed by rigid walls.  A wall
    runs through the middle of the outermost cells; the face beyond it carries the
    mirror image of the flow through the face inside. *)
From Coq Require Import ZArith Reals.
From Verif Require Import Lang Stencil SpecFields2 SpecNum2.
Local Open Scope R_scope.

Section Box.
  Variables lo hi : dim -> Z.
  Variable nug : bool.
  Notation mem := (loc -> R).
  Definition b_east (m : mem) (i j : Z) : R := if (i =? hi DX)%Z then - face2 m DX (hi DX - 1) j else face2 m DX i j.
  Definition b_west (m : mem) (i j : Z) : R := if (i =? lo DX)%Z then - face2 m DX (lo DX) j else face2 m DX (i - 1) j.
  Definition b_north (m : mem) (i j : Z) : R := if (j =? hi DY)%Z then - face2 m DY i (hi DY - 1) else face2 m DY i j.
  Definition b_south (m : mem) (i j : Z) : R := if (j =? lo DY)%Z then - face2 m DY i (lo DY) else face2 m DY i (j - 1).

  (** no cell loses more than it contains, what the images beyond walls lose included *)
  Definition box_outflow_ok (m : mem) : Prop := forall i j, on_grid lo hi i j -> 0 < G2of nug m i j /\
    Rmax 0 (b_east m i j) - Rmin 0 (b_west m i j) + (Rmax 0 (b_north m i j) - Rmin 0 (b_south m i j)) <= G2of nug m i j.
  Definition box_divergence_free (m : mem) : Prop := forall i j, on_grid lo hi i j ->
    b_east m i j - b_west m i j + (b_north m i j - b_south m i j) = 0.

  (** the same if nothing were to pass through the walls and the cells next to them
      were whole *)
  Definition inner (b : bool) (c : R) : R := if b then 0 else c.
  Definition solid_outflow_ok (m : mem) : Prop := forall i j, on_grid lo hi i j -> 0 < G2of nug m i j /\
    Rmax 0 (inner (i =? hi DX)%Z (face2 m DX i j)) - Rmin 0 (inner (i =? lo DX)%Z (face2 m DX (i - 1) j)) +
    (Rmax 0 (inner (j =? hi DY)%Z (face2 m DY i j)) - Rmin 0 (inner (j =? lo DY)%Z (face2 m DY i (j - 1)))) <= G2of nug m i j.
End Box.
