(** What the global reductions should return, for fields given as functions
    on cells; no mention of threads, scratch arrays or calls. *)
From Coq Require Import ZArith List Reals.
From Verif Require Import Lang.
Import ListNotations.

Section S.
  Variable ar : arith.
  Notation V := (car ar).
  Notation "0" := (acst ar (CQ 0 1)).
  Definition plain_sum (xs : list V) : V := fold_left (abin ar Add) xs 0.
  (** Kahan's compensated sum: running sum [s] and compensation [c]. *)
  Fixpoint compensated (s c : V) (xs : list V) : V :=
    match xs with
    | [] => s
    | x :: r =>
        let y := abin ar Sub x c in
        let t := abin ar Add s y in
        compensated t (abin ar Sub (abin ar Sub t s) y) r
    end.
  Definition reduce (khn : bool) (xs : list V) : V :=
    if khn then compensated 0 0 xs else plain_sum xs.
  (** slice by slice, then over the slice totals *)
  Definition two_step (khn : bool) (slices : list Z) (rest : list (Z * Z)) (f : Z * (Z * Z) -> V) : V :=
    reduce khn (map (fun c => reduce khn (map (fun k => f (c, k)) rest)) slices).
End S.

(** The indices [lo .. hi] in order, and the cells of a domain. *)
Definition indices (lo hi : Z) : list Z :=
  map (fun k => (lo + Z.of_nat k)%Z) (seq 0 (Z.to_nat (hi - lo + 1))).
Definition in_cells (lo hi : Z) (rest : list (Z * Z)) (x : Z * (Z * Z)) : Prop :=
  (lo <= fst x <= hi)%Z /\ In (snd x) rest.

(** [v] is the smallest / largest value of [f] over the cells. *)
Definition is_min (v : R) (P : Z * (Z * Z) -> Prop) (f : Z * (Z * Z) -> R) : Prop :=
  (exists x, P x /\ v = f x) /\ forall x, P x -> (v <= f x)%R.
Definition is_max (v : R) (P : Z * (Z * Z) -> Prop) (f : Z * (Z * Z) -> R) : Prop :=
  (exists x, P x /\ v = f x) /\ forall x, P x -> (f x <= v)%R.
(** The exact total. *)
Definition exact_sum (xs : list R) : R := fold_right Rplus 0%R xs.
