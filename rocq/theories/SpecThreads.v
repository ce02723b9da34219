(** Specification of "a multi-threaded run", independent of how threads are
    scheduled, for programs of the array language. *)
From Coq Require Import ZArith List.
From Verif Require Import Lang.

(** Some interleaving of [n] threads executing [p] from memory [m] ends with memory [m']. *)
Definition can_end {L} (leq : forall x y : L, {x = y} + {x <> y}) (ar : arith)
  (n : nat) (p : list (instr L)) (m m' : L -> car ar) : Prop :=
  exists c, steps leq ar n (m, code ar p) (m', c) /\ finished ar n (m', c).

(** No reachable configuration is stuck before all threads are done. *)
Definition never_stuck {L} (leq : forall x y : L, {x = y} + {x <> y}) (ar : arith)
  (n : nat) (p : list (instr L)) (m : L -> car ar) : Prop :=
  forall c, steps leq ar n (m, code ar p) c ->
    finished ar n c \/ exists c', step leq ar n c c'.
