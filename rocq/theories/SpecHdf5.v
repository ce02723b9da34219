(** Notions for stored arrays. *)
From Coq Require Import ZArith List.
Local Open Scope Z_scope.

(** indices of an array with extents [ext] *)
Definition within (ext idx : list Z) : Prop := Forall2 (fun n i => 0 <= i < n) ext idx.
(** the dataset [file] of extents [ext] holds [g] *)
Definition holds {V : Type} (ext : list Z) (g : list Z -> V) (file : list Z -> option V) : Prop :=
  forall idx, within ext idx -> file idx = Some (g idx).
(** every process once *)
Definition each_process (P : Z) (ranks : list Z) : Prop := forall r, In r ranks <-> 0 <= r < P.
(** shifted by [h] in every dimension *)
Definition shifted {V : Type} (h : Z) (g : list Z -> V) (idx : list Z) : V := g (map (fun i => i - h) idx).
(** lexicographic order *)
Fixpoint lex_lt (a b : list Z) : Prop :=
  match a, b with
  | x :: a', y :: b' => x < y \/ (x = y /\ lex_lt a' b')
  | nil, _ :: _ => True
  | _, nil => False
  end.
