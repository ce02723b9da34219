(** Notions on fields of reals used in the statements of numerical properties. *)
From Coq Require Import ZArith Reals.
Local Open Scope R_scope.

(** sum of [f] over [lo <= i < lo + n], over [lo <= i < hi] *)
Fixpoint sumn (n : nat) (lo : Z) (f : Z -> R) : R :=
  match n with O => 0 | S k => f lo + sumn k (lo + 1)%Z f end.
Definition total (lo hi : Z) (f : Z -> R) : R := sumn (Z.to_nat (hi - lo)) lo f.
