(** Notions used in the statements of numerical properties of 1D runs: the
    velocities at the two faces of a cell, the G factors of its neighbours and
    mirror images, all in terms of the data the user provides. *)
From Coq Require Import ZArith List Bool Reals.
From Verif Require Import Lang Stencil Solver1D SpecFields.
Local Open Scope R_scope.

Section Num.
  Variables (bl br : bcond) (lo hi halo : Z).
  Variable nug : bool.
  Notation mem := (loc -> R).

  (** G factor of cell [i] (1 if there is none) *)
  Definition Gof (m : mem) (i : Z) : R := if nug then gfac m i else 1.

  (** velocity at the left (right) face of cell [i], [lo <= i <= hi]; the outer
      faces of the domain take the velocity of the face across the domain
      (cyclic) or of an inner face (open).  On an open right edge this is the
      face [hi - halo], the last but one for [halo = 2]: see C26. *)
  Definition Cleft (m : mem) (i : Z) : R :=
    if (i =? lo)%Z then match bl with Cyclic => face m (hi - 1)%Z | Open => face m lo end
    else face m (i - 1)%Z.
  Definition Crght (m : mem) (i : Z) : R :=
    if (i =? hi)%Z then match br with Cyclic => face m lo | Open => face m (hi - halo)%Z end
    else face m i.

  (** G factors of the neighbours of cell [i] *)
  Definition Gleft (m : mem) (i : Z) : R :=
    if (i =? lo)%Z then match bl with Cyclic => Gof m (hi - 1)%Z | Open => Gof m lo end else Gof m (i - 1)%Z.
  Definition Grght (m : mem) (i : Z) : R :=
    if (i =? hi)%Z then match br with Cyclic => Gof m (lo + 1)%Z | Open => Gof m hi end else Gof m (i + 1)%Z.

  (** no cell loses more than it contains *)
  Definition outflow_ok (m : mem) : Prop := forall i, (lo <= i <= hi)%Z ->
    0 < Gof m i /\ Rmax 0 (Crght m i) - Rmin 0 (Cleft m i) <= Gof m i.
  (** Courant number at most one *)
  Definition courant_ok (m : mem) : Prop := forall i, (lo <= i <= hi)%Z ->
    Rabs (Cleft m i) <= (Gof m i + Gleft m i) / 2 /\ Rabs (Crght m i) <= (Gof m i + Grght m i) / 2.
  (** the G factor varies moderately *)
  Definition smooth_G (m : mem) : Prop := forall i, (lo <= i <= hi)%Z ->
    Gleft m i + Grght m i <= 6 * Gof m i.

  (** uniform velocity not faster than one cell per step *)
  Definition uniform (m : mem) (k : R) : Prop :=
    (forall i, (lo <= i < hi)%Z -> face m i = k) /\
    (forall i, (lo <= i <= hi)%Z -> 0 < Gof m i /\ Rabs k <= Gof m i).

End Num.
