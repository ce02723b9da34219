(** What a user of the 1D solver sees: cell values of the advectees, the face
    values of the advector and the G factor; halos, temporaries and the other
    time level are not visible. *)
From Coq Require Import ZArith List.
From Verif Require Import Lang Stencil.
Local Open Scope Z_scope.

Section Fields.
  Context {V : Type}.
  Notation mem := (loc -> V).
  (** cell [i] of equation [e] in time level [b]; face between cells [i] and
      [i+1]; G factor of cell [i] *)
  Definition cell (m : mem) (e : nat) (b : bool) (i : Z) : V := m ((e, Psi b), (i, 0, 0)).
  Definition face (m : mem) (i : Z) : V := m ((O, GC DX), (i, 0, 0)).
  Definition gfac (m : mem) (i : Z) : V := m ((O, Gf), (i, 0, 0)).

  (** two memories show the same data to the user of a solver with cells
      [lo..hi] and [ne] equations that has not made a step yet (time level
      [false]); [nug]: whether there is a G factor *)
  Definition same_data (lo hi : Z) (ne : nat) (nug : bool) (m m' : mem) : Prop :=
    (forall e i, (e < ne)%nat -> lo <= i <= hi -> cell m e false i = cell m' e false i) /\
    (forall i, lo <= i < hi -> face m i = face m' i) /\
    (nug = true -> forall i, lo <= i <= hi -> gfac m i = gfac m' i).

  (** data of a cyclic problem: cells [lo] and [hi] are the same cell *)
  Definition cyclic_data (lo hi : Z) (ne : nat) (nug : bool) (m : mem) : Prop :=
    (forall e, (e < ne)%nat -> cell m e false hi = cell m e false lo) /\
    (nug = true -> gfac m hi = gfac m lo).

  (** position in a cyclic domain *)
  Definition wrap (lo hi i : Z) : Z := lo + (i - lo) mod (hi - lo).

  (** [m'] is [m] moved by [k] cells in a cyclic domain *)
  Definition moved (lo hi : Z) (ne : nat) (nug : bool) (k : Z) (m m' : mem) : Prop :=
    (forall e i, (e < ne)%nat -> lo <= i <= hi -> cell m' e false i = cell m e false (wrap lo hi (i + k))) /\
    (forall i, lo <= i < hi -> face m' i = face m (wrap lo hi (i + k))) /\
    (nug = true -> forall i, lo <= i <= hi -> gfac m' i = gfac m (wrap lo hi (i + k))).

  (** [m'] is the mirror image of [m]: velocities change sign ([opp]) *)
  Definition mirrored (opp : V -> V) (lo hi : Z) (ne : nat) (nug : bool) (m m' : mem) : Prop :=
    (forall e i, (e < ne)%nat -> lo <= i <= hi -> cell m' e false i = cell m e false (lo + hi - i)) /\
    (forall i, lo <= i < hi -> face m' i = opp (face m (lo + hi - 1 - i))) /\
    (nug = true -> forall i, lo <= i <= hi -> gfac m' i = gfac m (lo + hi - i)).
End Fields.
