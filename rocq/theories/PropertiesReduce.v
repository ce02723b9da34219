(** Property theorems: global sums, minima and maxima (C18). *)
From Coq Require Import ZArith List Reals.
From Verif Require Import Lang SpecThreads SpecReduce ModelReduce ProofsReduce Arith.
Import ListNotations.
Local Open Scope Z_scope.

(** C18: in any sequence of reduction calls made by any number of threads, the
    value every thread gets from a sum (plain or Kahan, of a field or of a
    product of two) is the two-step sum over the whole domain; it depends
    neither on the interleaving nor on the number of threads.  For every
    arithmetic (no associativity is assumed). *)
Theorem C18_sum : forall ar lo hi rest n qs m m' i t, (0 < n)%nat -> Z.of_nat n <= hi - lo + 1 ->
  can_end rloc_dec ar n (calls (lo, hi) rest n 0 qs) m m' -> (t < n)%nat ->
  (forall khn a, nth_error qs i = Some (Sum khn a) ->
     m' (Res i t) = two_step ar khn (indices lo hi) rest (fun x => m (Fld a x))) /\
  (forall khn a b, nth_error qs i = Some (SumProd khn a b) ->
     m' (Res i t) = two_step ar khn (indices lo hi) rest (fun x => abin ar Mul (m (Fld a x)) (m (Fld b x)))).
Proof. exact sums_correct. Qed.
Print Assumptions C18_sum.

Theorem C18_sum_threads : forall ar lo hi rest n1 n2 qs m m1 m2 i t1 t2, (0 < n1)%nat -> (0 < n2)%nat ->
  Z.of_nat n1 <= hi - lo + 1 -> Z.of_nat n2 <= hi - lo + 1 ->
  can_end rloc_dec ar n1 (calls (lo, hi) rest n1 0 qs) m m1 ->
  can_end rloc_dec ar n2 (calls (lo, hi) rest n2 0 qs) m m2 -> (t1 < n1)%nat -> (t2 < n2)%nat ->
  (forall khn a, nth_error qs i = Some (Sum khn a) -> m1 (Res i t1) = m2 (Res i t2)) /\
  (forall khn a b, nth_error qs i = Some (SumProd khn a b) -> m1 (Res i t1) = m2 (Res i t2)).
Proof. exact sums_agree. Qed.
Print Assumptions C18_sum_threads.

(** In exact arithmetic both kinds of two-step sum are the sum over all cells. *)
Theorem C18_sum_exact : forall eps tiny rest khn cs f,
  two_step (arithR eps tiny) khn cs rest f = exact_sum (flat_map (fun c => map (fun k => f (c, k)) rest) cs).
Proof. exact two_step_exact. Qed.
Print Assumptions C18_sum_exact.

(** Minima and maxima are those of the whole domain. *)
Theorem C18_extrema : forall eps tiny lo hi rest n qs m m' i t, (0 < n)%nat -> Z.of_nat n <= hi - lo + 1 -> rest <> [] ->
  can_end rloc_dec (arithR eps tiny) n (calls (lo, hi) rest n 0 qs) m m' -> (t < n)%nat ->
  (forall a, nth_error qs i = Some (MinOf a) -> is_min (m' (Res i t)) (in_cells lo hi rest) (fun x => m (Fld a x))) /\
  (forall a, nth_error qs i = Some (MaxOf a) -> is_max (m' (Res i t)) (in_cells lo hi rest) (fun x => m (Fld a x))).
Proof. exact extrema_correct. Qed.
Print Assumptions C18_extrema.

(** Every sequence of calls finishes, and no two threads ever touch the same
    element between two barriers with one of them writing. *)
Theorem C18_finish : forall ar lo hi rest n qs m, (0 < n)%nat -> Z.of_nat n <= hi - lo + 1 ->
  (exists m', can_end rloc_dec ar n (calls (lo, hi) rest n 0 qs) m m') /\
  never_stuck rloc_dec ar n (calls (lo, hi) rest n 0 qs) m.
Proof. exact reductions_finish. Qed.
Print Assumptions C18_finish.

Theorem C18_race_free : forall lo hi rest n qs, (0 < n)%nat -> Z.of_nat n <= hi - lo + 1 ->
  forall ph, In ph (phases (calls (lo, hi) rest n 0 qs)) -> ~ race n ph.
Proof. exact reductions_race_free. Qed.
Print Assumptions C18_race_free.

(** Four calls by three threads on a 5 x 3 grid; a sum with a known value. *)
Example C18_example : Z.of_nat 3 <= 4 - 0 + 1 /\ ex_rest <> [] /\
  length (calls (0, 4) ex_rest 3 0 ex_calls) = 16%nat /\
  two_step (arithR 0 0) false (indices 0 4) ex_rest (fun x => IZR (fst x)) = 30%R.
Proof. split; [discriminate|]. split; [discriminate|]. split; [reflexivity|exact ex_expected]. Qed.
