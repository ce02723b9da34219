(** A table-driven evaluator for sequential runs: computes the same memory as
    [run_prog] but remembers every assigned element, so that concrete runs can
    be evaluated. *)
From Coq Require Import ZArith List Bool.
From Verif Require Import ModelIndex Lang Stencil ProofsStencil.
Import ListNotations.

Section Exec.
  Variable ar : arith.
  Variable m : loc -> car ar.
  Notation V := (car ar).

  Definition loc_eqb (a b : loc) : bool := idx_eqb (snd a) (snd b) && garr_eqb (fst a) (fst b).
  Fixpoint look (T : list (loc * V)) (l : loc) : V :=
    match T with
    | [] => m l
    | (x, v) :: T' => if loc_eqb x l then v else look T' l
    end.
  Definition exec_stmt (n : nat) (s : stmt loc) (T : list (loc * V)) : list (loc * V) :=
    map (fun l => (l, ev ar (look T) (s_rhs s l))) (flat_map (s_el s) (seq 0 n)) ++ T.
  Definition exec_instr (n : nat) (T : list (loc * V)) (i : instr loc) : list (loc * V) :=
    match i with Do s => exec_stmt n s T | Bar => T end.
  Definition exec (n : nat) (p : list (instr loc)) : list (loc * V) := fold_left (exec_instr n) p [].
End Exec.
