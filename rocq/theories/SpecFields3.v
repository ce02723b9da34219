(** What users see of a three-dimensional memory. *)
From Coq Require Import ZArith List.
From Verif Require Import ModelIndex Lang Stencil FormCommon.
Local Open Scope Z_scope.

(** [i] with coordinate [d] replaced by [k] *)
Definition put (d : dim) (k : Z) (i : idx) : idx :=
  match i with (x, y, z) => match d with DX => (k, y, z) | DY => (x, k, z) | DZ => (x, y, k) end end.

Section Fields.
  Context {V : Type}.
  (** advected field of equation [e] in cell [i]; advector component [d] at the
      face to the right of cell [i] along [d]; G factor *)
  Definition cell3 (m : loc -> V) (e : nat) (b : bool) (i : idx) : V := m ((e, Psi b), i).
  Definition face3 (m : loc -> V) (d : dim) (i : idx) : V := m ((O, GC d), i).
  Definition gfac3 (m : loc -> V) (i : idx) : V := m ((O, Gf), i).

  (** the cells of the grid and its inner faces *)
  Definition inside (lo hi : dim -> Z) (i : idx) : Prop := forall d, lo d <= comp d i <= hi d.
  Definition inner (lo hi : dim -> Z) (d : dim) (i : idx) : Prop := inside lo hi i /\ comp d i < hi d.

  (** the data that users set before the first step agree *)
  Definition same_data3 (lo hi : dim -> Z) (ne : nat) (nug : bool) (m m' : loc -> V) : Prop :=
    (forall e i, (e < ne)%nat -> inside lo hi i -> cell3 m e false i = cell3 m' e false i) /\
    (forall d i, inner lo hi d i -> face3 m d i = face3 m' d i) /\
    (nug = true -> forall i, inside lo hi i -> gfac3 m i = gfac3 m' i).

  (** the last plane across each direction repeats the first one *)
  Definition cyclic_data3 (lo hi : dim -> Z) (ne : nat) (nug : bool) (m : loc -> V) : Prop :=
    (forall e d i, (e < ne)%nat -> inside lo hi i -> comp d i = hi d -> cell3 m e false i = cell3 m e false (put d (lo d) i)) /\
    (forall c d i, inner lo hi c i -> comp d i = hi d -> face3 m c i = face3 m c (put d (lo d) i)) /\
    (nug = true -> forall d i, inside lo hi i -> comp d i = hi d -> gfac3 m i = gfac3 m (put d (lo d) i)).

  (** [m'] is [m] moved by [-k] around the domain *)
  Definition wrap3 (lo hi : dim -> Z) (i : idx) : idx :=
    let w d := lo d + (comp d i - lo d) mod (hi d - lo d) in (w DX, w DY, w DZ).
  Definition moved3 (lo hi : dim -> Z) (ne : nat) (nug : bool) (k : idx) (m m' : loc -> V) : Prop :=
    (forall e i, (e < ne)%nat -> inside lo hi i -> cell3 m' e false i = cell3 m e false (wrap3 lo hi (iadd i k))) /\
    (forall d i, inner lo hi d i -> face3 m' d i = face3 m d (wrap3 lo hi (iadd i k))) /\
    (nug = true -> forall i, inside lo hi i -> gfac3 m' i = gfac3 m (wrap3 lo hi (iadd i k))).
End Fields.

(** what users can look at: fields of the equations, the advector, the G factor
    (not the temporaries of the solver) *)
Definition visible (l : loc) : Prop := match snd (fst l) with Psi _ | GC _ | Gf => True | _ => False end.
