(** Property theorems of the integer layer.  Each theorem is closed by a lemma
    proved elsewhere; an example next to it shows that its hypotheses are met
    by a non-trivial case. *)
From Coq Require Import ZArith NArith List Lia.
From Verif Require Import SpecIndex ModelIndex ProofsIndex.
Import ListNotations.
Local Open Scope Z_scope.

(** C01 *)
Theorem C01_slab_partition : forall span k,
  0 < k -> fst span <= snd span + 1 ->
  ordered_partition span k (fun r => slab span r k)
  /\ balanced k (fun r => slab span r k)
  /\ (nobody_idle k (fun r => slab span r k) <-> k <= size_of span).
Proof. exact slab_partition. Qed.
Print Assumptions C01_slab_partition.

Example C01_example : 0 < 3 /\ fst (0, 9) <= snd (0, 9) + 1 /\
  slab (0, 9) 0 3 = (0, 2) /\ slab (0, 9) 1 3 = (3, 5) /\ slab (0, 9) 2 3 = (6, 9).
Proof. repeat split; simpl; lia. Qed.

(** The subdomains of nested decompositions (processes, then threads within a
    process) again partition the grid: instance of C01 on a process' slab. *)
Theorem C01_nested_partition : forall span p r k,
  0 < p -> fst span <= snd span + 1 -> 0 <= r < p -> 0 < k ->
  ordered_partition (slab span r p) k (fun t => slab (slab span r p) t k).
Proof. exact slab_nested. Qed.
Print Assumptions C01_nested_partition.

Example C01_nested_example : slab (slab (0, 19) 1 2) 2 3 = (16, 19).
Proof. reflexivity. Qed.

(** C02 *)
Theorem C02_slab_int32_exact : forall span k rank,
  0 < k <= int_max -> 0 <= rank < k ->
  0 <= first span -> first span <= last span + 1 -> last span <= int_max - 1 ->
  k * rlen span <= int_max ->
  slab32 span rank k = Some (slab span rank k).
Proof. exact slab32_exact. Qed.
Print Assumptions C02_slab_int32_exact.

Example C02_example : 0 < 8 <= int_max /\ 8 * rlen (0, 199999999) <= int_max /\
  slab32 (0, 199999999) 7 8 = Some (175000000, 199999999).
Proof. repeat split; vm_compute; congruence. Qed.

(** Outside the guard the product [rank*span] is not representable although
    the grid and the number of threads are: undefined behaviour, and with
    wrap-around the rank would get a negative start. *)
Theorem C02_slab_int32_refuted :
  exists span k rank, 0 < k <= int_max /\ 0 <= rank < k /\ 0 <= first span /\ last span <= int_max - 1 /\
    k <= rlen span /\ slab32 span rank k = None /\ dd_min_hw (rlen span) rank k < 0.
Proof. exact slab32_overflow. Qed.
Print Assumptions C02_slab_int32_refuted.

(** C45 *)
Theorem C45_flags_independent : forall o k m,
  isset (N.lor o (bit m)) (bit k) = orb (isset o (bit k)) (N.eqb k m).
Proof. exact flags_independent. Qed.
Print Assumptions C45_flags_independent.

Theorem C45_names_determine_flags_except_div_3rd_dt : forall o p f,
  In f all_flags -> f <> o_div_3rd_dt -> opts_string o = opts_string p -> isset o f = isset p f.
Proof. exact opts_string_determines. Qed.
Print Assumptions C45_names_determine_flags_except_div_3rd_dt.

Example C45_example : In o_fct all_flags /\ o_fct <> o_div_3rd_dt /\
  opts_string (N.lor o_fct o_iga) = [o_iga; o_fct].
Proof. repeat split; try (vm_compute; congruence). vm_compute; auto. Qed.

Theorem C45_names_refuted :
  exists o p f, In f all_flags /\ opts_string o = opts_string p /\ isset o f = true /\ isset p f = false.
Proof. exact opts_string_ambiguous. Qed.
Print Assumptions C45_names_refuted.

(** C45 also covers the position of the highest set bit, which decides which
    equation is advected last. *)
Theorem C45_most_significant : forall x k,
  most_significant x = N.succ k <->
  N.testbit x k = true /\ (forall m, (k < m)%N -> N.testbit x m = false).
Proof. exact most_significant_spec. Qed.
Print Assumptions C45_most_significant.

Example C45_ms_example : most_significant 5%N = N.succ 2%N.
Proof. reflexivity. Qed.

(** C46, index part *)
Theorem C46_pi2 : forall d i j, (d < 2)%nat ->
  nth d [fst (pi2 d (i, j)); snd (pi2 d (i, j))] 0 = i /\
  (forall p q, pi2 d p = pi2 d q -> p = q) /\ (forall q, exists p, pi2 d p = q).
Proof. exact pi2_ok. Qed.
Print Assumptions C46_pi2.

Theorem C46_pi3 : forall d i j k, (d < 3)%nat ->
  coordinate d (pi3 d (i, j, k)) = i /\
  coordinate ((d + 1) mod 3) (pi3 d (i, j, k)) = j /\
  coordinate ((d + 2) mod 3) (pi3 d (i, j, k)) = k /\
  (forall p q, pi3 d p = pi3 d q -> p = q) /\ (forall q, exists p, pi3 d p = q).
Proof. exact pi3_ok. Qed.
Print Assumptions C46_pi3.

Example C46_example : pi3 2 (7, 8, 9) = (8, 9, 7) /\ pi2 1 (7, 8) = (8, 7).
Proof. split; reflexivity. Qed.

(** C03, indexing part: cyclic indexing of array vectors, for any length, is
    exact down to one negative period; with two elements it is exact for every
    machine integer. *)
Theorem C03_arrvec_index : forall i size,
  0 < size < 2 ^ 31 -> - size <= i < 2 ^ 31 -> arrvec_index i size = Some (i mod size).
Proof. exact arrvec_index_small. Qed.
Print Assumptions C03_arrvec_index.

Example C03_arrvec_example : arrvec_index (-2) 5 = Some 3.
Proof. reflexivity. Qed.

Theorem C03_arrvec_index_deep_refuted :
  exists i size, 0 < size < 2 ^ 31 /\ - 2 ^ 31 <= i < 0 /\ arrvec_index i size <> Some (i mod size).
Proof. exact arrvec_index_wraps. Qed.
Print Assumptions C03_arrvec_index_deep_refuted.
