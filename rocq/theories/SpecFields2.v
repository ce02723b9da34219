(** What users see of a two-dimensional memory. *)
From Coq Require Import ZArith List.
From Verif Require Import ModelIndex Lang Stencil FormCommon.
Local Open Scope Z_scope.

Section Fields.
  Context {V : Type}.
  (** advected field of equation [e], cell (i, j); advector component [d] at the
      face to the right of (i, j); G factor *)
  Definition cell2 (m : loc -> V) (e : nat) (b : bool) (i j : Z) : V := m ((e, Psi b), (i, j, 0)).
  Definition face2 (m : loc -> V) (d : dim) (i j : Z) : V := m ((O, GC d), (i, j, 0)).
  Definition gfac2 (m : loc -> V) (i j : Z) : V := m ((O, Gf), (i, j, 0)).

  (** the data that users set before the first step agree: [lo], [hi] are the
      first and last cells of the grid, [ne] equations, [nug]: G factor in use.
      Advector components are set at the inner faces only. *)
  Definition same_data2 (lo hi : dim -> Z) (ne : nat) (nug : bool) (m m' : loc -> V) : Prop :=
    (forall e i j, (e < ne)%nat -> lo DX <= i <= hi DX -> lo DY <= j <= hi DY -> cell2 m e false i j = cell2 m' e false i j) /\
    (forall i j, lo DX <= i < hi DX -> lo DY <= j <= hi DY -> face2 m DX i j = face2 m' DX i j) /\
    (forall i j, lo DX <= i <= hi DX -> lo DY <= j < hi DY -> face2 m DY i j = face2 m' DY i j) /\
    (nug = true -> forall i j, lo DX <= i <= hi DX -> lo DY <= j <= hi DY -> gfac2 m i j = gfac2 m' i j).

  (** the last row and column repeat the first ones *)
  Definition cyclic_data2 (lo hi : dim -> Z) (ne : nat) (nug : bool) (m : loc -> V) : Prop :=
    (forall e, (e < ne)%nat ->
      (forall j, lo DY <= j <= hi DY -> cell2 m e false (hi DX) j = cell2 m e false (lo DX) j) /\
      (forall i, lo DX <= i <= hi DX -> cell2 m e false i (hi DY) = cell2 m e false i (lo DY))) /\
    (forall i, lo DX <= i < hi DX -> face2 m DX i (hi DY) = face2 m DX i (lo DY)) /\
    (forall j, lo DY <= j < hi DY -> face2 m DY (hi DX) j = face2 m DY (lo DX) j) /\
    (nug = true ->
      (forall j, lo DY <= j <= hi DY -> gfac2 m (hi DX) j = gfac2 m (lo DX) j) /\
      (forall i, lo DX <= i <= hi DX -> gfac2 m i (hi DY) = gfac2 m i (lo DY))).

  (** [m'] is [m] moved by [(-k, -l)] around the domain *)
  Definition wrap2 (lo hi : dim -> Z) (d : dim) (i : Z) : Z := lo d + (i - lo d) mod (hi d - lo d).
  Definition moved2 (lo hi : dim -> Z) (ne : nat) (nug : bool) (k l : Z) (m m' : loc -> V) : Prop :=
    let w := wrap2 lo hi in
    (forall e i j, (e < ne)%nat -> lo DX <= i <= hi DX -> lo DY <= j <= hi DY ->
       cell2 m' e false i j = cell2 m e false (w DX (i + k)) (w DY (j + l))) /\
    (forall i j, lo DX <= i < hi DX -> lo DY <= j <= hi DY -> face2 m' DX i j = face2 m DX (w DX (i + k)) (w DY (j + l))) /\
    (forall i j, lo DX <= i <= hi DX -> lo DY <= j < hi DY -> face2 m' DY i j = face2 m DY (w DX (i + k)) (w DY (j + l))) /\
    (nug = true -> forall i j, lo DX <= i <= hi DX -> lo DY <= j <= hi DY -> gfac2 m' i j = gfac2 m (w DX (i + k)) (w DY (j + l))).
End Fields.
