(** Small specifications used by the integer-layer properties, written
    without reference to the model functions. *)
From Coq Require Import ZArith List.
Local Open Scope Z_scope.

Definition in_range (i : Z) (r : Z * Z) : Prop := fst r <= i <= snd r.

(** [part 0 .. part (k-1)] are consecutive ranges that cut [span] into
    pieces: every index has exactly one owner, nobody owns anything outside,
    and owners are ordered like the indices. *)
Definition ordered_partition (span : Z * Z) (k : Z) (part : Z -> Z * Z) : Prop :=
  (forall i, in_range i span -> exists! r, 0 <= r < k /\ in_range i (part r)) /\
  (forall r i, 0 <= r < k -> in_range i (part r) -> in_range i span) /\
  (forall r s i j, 0 <= r < k -> 0 <= s < k -> r < s ->
     in_range i (part r) -> in_range j (part s) -> i < j).

Definition size_of (r : Z * Z) : Z := snd r - fst r + 1.

Definition balanced (k : Z) (part : Z -> Z * Z) : Prop :=
  forall r s, 0 <= r < k -> 0 <= s < k -> Z.abs (size_of (part r) - size_of (part s)) <= 1.

Definition nobody_idle (k : Z) (part : Z -> Z * Z) : Prop :=
  forall r, 0 <= r < k -> exists i, in_range i (part r).

(** The [d]-th coordinate of a triple. *)
Definition coordinate (d : nat) (p : Z * Z * Z) : Z :=
  match d with O => fst (fst p) | S O => snd (fst p) | _ => snd p end.
