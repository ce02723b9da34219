(** Execution of one-equation programs on the infinite lattice: every
    statement is executed at every index, barriers and halo exchanges do
    nothing.  This is the reference against which runs on a cyclic grid are
    compared; it knows nothing about grids, halos or threads. *)
From Coq Require Import ZArith List Bool.
From Verif Require Import Lang Stencil FormCommon.
Import ListNotations.
Local Open Scope Z_scope.

Section Lattice.
  Variable ar : arith.
  Definition lat_do (e : nat) (s : tdesc) (f : loc -> car ar) : loc -> car ar :=
    fun l => if garr_eqb (fst l) (tag e (t_arr s))
             then ev ar (fun ao => f (tag e (fst ao), iadd (snd l) (snd ao))) (t_exp s)
             else f l.
  Definition lat_instr (e : nat) (i : minstr) (f : loc -> car ar) : loc -> car ar :=
    match i with MDo s => lat_do e s f | _ => f end.
  Definition lat_prog (e : nat) (p : list minstr) (f : loc -> car ar) : loc -> car ar :=
    fold_left (fun f i => lat_instr e i f) p f.
  Definition lat_progs (l : list (nat * list minstr)) (f : loc -> car ar) : loc -> car ar :=
    fold_left (fun f ep => lat_prog (fst ep) (snd ep) f) l f.

  (** period [k] along direction [d] (as an index vector [v]) *)
  Definition periodic (v : idx) (f : loc -> car ar) : Prop :=
    forall a i, f (a, iadd i v) = f (a, i).
  Definition shift (v : idx) (f : loc -> car ar) : loc -> car ar := fun l => f (fst l, iadd (snd l) v).
End Lattice.
