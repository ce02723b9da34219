(** Runs of the 2D solver in a domain with four open edges, in terms of the data
    users set: cells, and faces between cells. *)
From Coq Require Import ZArith Reals.
From Verif Require Import ModelIndex ModelRun Lang Stencil FormCommon Solver2D SpecThreads SpecFields2 SpecNum2 SpecWalls3
  ProofsThread2D ProofsOne2D.
Local Open Scope Z_scope.

(** as [walled_end2] of SpecWalls2.v *)
Record open_end2 (ar : arith) (r : run2) (n nt : nat) (m m' : loc -> car ar) : Prop :=
  { oe_ok : run2_ok r;
    oe_bl : forall d, s_bl r d = Open2;
    oe_br : forall d, s_br r d = Open2;
    oe_n : (0 < n)%nat;
    oe_rows : Z.of_nat n <= s_hi r DX - s_lo r DX + 1;
    oe_settled : settled r n;
    oe_end : can_end loc_eq_dec ar n (program2 r n nt) m m' }.

Section Open.
  Local Open Scope R_scope.
  Variables lo hi : dim -> Z.
  Variable nug : bool.
  Notation mem := (loc -> R).
  Definition interior (i j : Z) : Prop := (lo DX < i < hi DX)%Z /\ (lo DY < j < hi DY)%Z.
  (** what a cell gets from its neighbours in the domain *)
  Definition inner_inflow (m : mem) (i j : Z) : R :=
    Rmax 0 (inner (i =? lo DX)%Z (face2 m DX (i - 1) j)) - Rmin 0 (inner (i =? hi DX)%Z (face2 m DX i j)) +
    (Rmax 0 (inner (j =? lo DY)%Z (face2 m DY i (j - 1))) - Rmin 0 (inner (j =? hi DY)%Z (face2 m DY i j))).
  (** no cell in the interior loses more than it contains, no cell at the edges
      gets more from the domain than it can hold (the rest passes through the
      edges, which keep the flow free of divergence there) *)
  Definition open_flow_ok (m : mem) : Prop := forall i j, on_grid lo hi i j -> 0 < G2of nug m i j /\
    (interior i j -> Rmax 0 (face2 m DX i j) - Rmin 0 (face2 m DX (i - 1) j) +
                     (Rmax 0 (face2 m DY i j) - Rmin 0 (face2 m DY i (j - 1))) <= G2of nug m i j) /\
    (~ interior i j -> inner_inflow m i j <= G2of nug m i j).
  (** as much flows into each cell as flows out, cells at the edges excepted *)
  Definition open_divergence_free (m : mem) : Prop := forall i j, interior i j ->
    face2 m DX i j - face2 m DX (i - 1) j + (face2 m DY i j - face2 m DY i (j - 1)) = 0.
  (** a step of the upwind scheme: in the interior what flows in minus what flows
      out, at the edges a mixture with what neighbours in the domain bring *)
  Definition upwind (c p q : R) : R := Rmax 0 c * p + Rmin 0 c * q.
  Definition on_edge (i j : Z) : bool := ((i =? lo DX) || (i =? hi DX) || (j =? lo DY) || (j =? hi DY))%Z%bool.
  Definition open_step (m : mem) (p : Z -> Z -> R) (i j : Z) : R :=
    p i j +
    (if on_edge i j then
       Rmax 0 (inner (i =? lo DX)%Z (face2 m DX (i - 1) j)) * (p (i - 1)%Z j - p i j) -
       Rmin 0 (inner (i =? hi DX)%Z (face2 m DX i j)) * (p (i + 1)%Z j - p i j) +
       (Rmax 0 (inner (j =? lo DY)%Z (face2 m DY i (j - 1))) * (p i (j - 1)%Z - p i j) -
        Rmin 0 (inner (j =? hi DY)%Z (face2 m DY i j)) * (p i (j + 1)%Z - p i j))
     else
       upwind (face2 m DX (i - 1) j) (p (i - 1)%Z j) (p i j) - upwind (face2 m DX i j) (p i j) (p (i + 1)%Z j) +
       (upwind (face2 m DY i (j - 1)) (p i (j - 1)%Z) (p i j) - upwind (face2 m DY i j) (p i j) (p i (j + 1)%Z))) / G2of nug m i j.
End Open.
