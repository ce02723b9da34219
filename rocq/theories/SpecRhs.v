(** The documented right-hand-side schemes (comments in
    libmpdata++/solvers/mpdata_rhs.hpp:21-23), on fields of any arithmetic,
    with the equations without forcing left alone. *)
From Coq Require Import ZArith List.
From Verif Require Import Lang.
Local Open Scope Z_scope.

Section S.
  Variable ar : arith.
  Notation V := (car ar).
  Variable X : Type.
  Notation st := (nat -> X -> V).
  Variable forced : nat -> bool.
  Variable ADV : Z -> st -> st.                 (* advection during step k *)
  Variable R : bool -> st -> st.                (* forcing at n, at n+1 *)
  Variables dt half_dt : V.

  (** s + d * r *)
  Definition plus_forcing (d : V) (s r : st) : st := fun e x =>
    if forced e then abin ar Add (s e x) (abin ar Mul d (r e x)) else s e x.

  (** psi(n+1) = ADV(psi(n)) + dt R(n) *)
  Fixpoint euler_a (k : nat) (s0 : st) : st :=
    match k with
    | O => s0
    | S j => let s := euler_a j s0 in plus_forcing dt (ADV (Z.of_nat j) s) (R false s)
    end.
  (** psi(n+1) = ADV(psi(n) + dt R(n)) *)
  Fixpoint euler_b (k : nat) (s0 : st) : st :=
    match k with
    | O => s0
    | S j => let s := euler_b j s0 in ADV (Z.of_nat j) (plus_forcing dt s (R false s))
    end.
  (** psi(n+1) = ADV(psi(n) + dt/2 R(n)) + dt/2 R(n+1); R(n+1) is evaluated on
      the advected field and used again as R(n) of the next step *)
  Fixpoint trapez (k : nat) (s0 : st) : st * st :=
    match k with
    | O => (s0, R false s0)
    | S j =>
        let (s, r) := trapez j s0 in
        let a := ADV (Z.of_nat j) (plus_forcing half_dt s r) in
        let r' := R true a in
        (plus_forcing half_dt a r', r')
    end.
End S.
