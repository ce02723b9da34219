(** Proofs about ModelIndex. *)
From Coq Require Import ZArith List Bool Lia.
From Coq Require Import ZifyBool ZifyNat ZifyN.
From Verif Require Import SpecIndex ModelIndex.
Import ListNotations.
Local Open Scope Z_scope.

Lemma dd_min_div span rank size :
  0 <= span -> 0 <= rank -> 0 < size -> dd_min span rank size = rank * span / size.
Proof. intros. unfold dd_min. apply Z.quot_div_nonneg; nia. Qed.

Lemma dd_min_0 span size : 0 < size -> dd_min span 0 size = 0.
Proof. intros. unfold dd_min. simpl. apply Z.quot_0_l. lia. Qed.

Lemma dd_min_full span size : 0 <= span -> 0 < size -> dd_min span size size = span.
Proof.
  intros. rewrite dd_min_div by lia.
  rewrite Z.mul_comm. apply Z.div_mul. lia.
Qed.

Lemma dd_min_mono span r1 r2 size :
  0 <= span -> 0 <= r1 <= r2 -> 0 < size -> dd_min span r1 size <= dd_min span r2 size.
Proof.
  intros. rewrite !dd_min_div by lia. apply Z.div_le_mono; nia.
Qed.

(** Every cell is owned by some rank. *)
Lemma slab_cover span size i :
  0 < size -> in_rng i span ->
  exists rank, 0 <= rank < size /\ in_rng i (slab span rank size).
Proof.
  intros Hs Hi. unfold in_rng in *.
  set (L := rlen span). set (j := i - first span).
  assert (HL : 0 <= j < L) by (unfold L, rlen, j; lia).
  (* the rank is ((j+1)*size - 1) / L *)
  set (r := ((j + 1) * size - 1) / L).
  assert (Hr : 0 <= r < size).
  { unfold r. split; [apply Z.div_pos; nia|]. apply Z.div_lt_upper_bound; nia. }
  exists r. split; [exact Hr|].
  unfold slab, first, last, dd_max in *. cbn [fst snd] in *. fold L.
  rewrite !dd_min_div by lia.
  assert (D1 : L * r <= (j + 1) * size - 1 < L * r + L).
  { unfold r. pose proof (Z.div_mod ((j + 1) * size - 1) L ltac:(lia)).
    pose proof (Z.mod_pos_bound ((j + 1) * size - 1) L ltac:(lia)). lia. }
  assert (A : r * L / size <= j).
  { assert (r * L / size < j + 1); [|lia]. apply Z.div_lt_upper_bound; nia. }
  assert (B : j + 1 <= (r + 1) * L / size).
  { apply Z.div_le_lower_bound; nia. }
  unfold j in *. lia.
Qed.

(** ... by at most one. *)
Lemma slab_disjoint span size i r1 r2 :
  0 < size -> first span <= last span + 1 -> 0 <= r1 < size -> 0 <= r2 < size ->
  in_rng i (slab span r1 size) -> in_rng i (slab span r2 size) -> r1 = r2.
Proof.
  intros Hs HL H1 H2 I1 I2.
  assert (W : forall a b, 0 <= a < b -> b < size ->
    in_rng i (slab span a size) -> in_rng i (slab span b size) -> False).
  { intros a b Hab Hb J1 J2. unfold in_rng, slab, dd_max, first, last in *.
    cbn [fst snd] in *.
    pose proof (dd_min_mono (rlen span) (a + 1) b size
                  ltac:(unfold rlen, first, last; lia) ltac:(lia) Hs). lia. }
  destruct (Z.lt_trichotomy r1 r2) as [H|[H|H]]; [|exact H|].
  - exfalso; eapply (W r1 r2); eauto; lia.
  - exfalso; eapply (W r2 r1); eauto; lia.
Qed.

Lemma slab_inside span size rank i :
  0 < size -> first span <= last span + 1 -> 0 <= rank < size ->
  in_rng i (slab span rank size) -> in_rng i span.
Proof.
  intros Hs HL Hr Hi. unfold in_rng, slab, dd_max, first, last in *. cbn [fst snd] in *.
  assert (HL' : 0 <= rlen span) by (unfold rlen, first, last; lia).
  pose proof (dd_min_mono (rlen span) 0 rank size HL' ltac:(lia) Hs) as A.
  pose proof (dd_min_mono (rlen span) (rank + 1) size size HL' ltac:(lia) Hs) as B.
  rewrite dd_min_0 in A by lia. rewrite dd_min_full in B by lia.
  unfold rlen, first, last in *. lia.
Qed.

(** Consecutive ranks own adjacent ranges; first and last touch the ends. *)
Lemma slab_adjacent span rank size :
  first (slab span (rank + 1) size) = last (slab span rank size) + 1.
Proof. unfold slab, dd_max, first, last. cbn [fst snd]. lia. Qed.

Lemma slab_first span size : 0 < size -> first (slab span 0 size) = first span.
Proof. intros. unfold slab, first. cbn [fst snd]. rewrite dd_min_0 by lia. lia. Qed.

Lemma slab_last span size :
  0 < size -> first span <= last span + 1 -> last (slab span (size - 1) size) = last span.
Proof.
  intros. unfold slab, last, dd_max. cbn [fst snd].
  replace (size - 1 + 1) with size by lia.
  rewrite dd_min_full; unfold rlen, first, last in *; lia.
Qed.

Lemma slab_len span rank size :
  0 < size -> first span <= last span + 1 -> 0 <= rank ->
  rlen span / size <= rlen (slab span rank size) <= rlen span / size + 1.
Proof.
  intros Hs HL Hr. unfold slab, dd_max. 
  assert (HL' : 0 <= rlen span) by (unfold rlen, first, last in *; lia).
  set (L := rlen span) in *. unfold rlen at 1 2, first, last. cbn [fst snd].
  rewrite !dd_min_div by lia.
  replace ((rank + 1) * L) with (rank * L + L) by ring.
  pose proof (Z.div_mod (rank * L) size ltac:(lia)).
  pose proof (Z.mod_pos_bound (rank * L) size ltac:(lia)).
  pose proof (Z.div_mod L size ltac:(lia)).
  pose proof (Z.mod_pos_bound L size ltac:(lia)).
  pose proof (Z.div_mod (rank * L + L) size ltac:(lia)).
  pose proof (Z.mod_pos_bound (rank * L + L) size ltac:(lia)).
  nia.
Qed.

Lemma slab_nonempty_iff span size :
  0 < size -> first span <= last span + 1 ->
  (forall rank, 0 <= rank < size -> first (slab span rank size) <= last (slab span rank size))
  <-> size <= rlen span.
Proof.
  intros Hs HL.
  assert (HL' : 0 <= rlen span) by (unfold rlen, first, last in *; lia).
  split.
  - intros H. specialize (H 0 ltac:(lia)).
    unfold slab, dd_max, first, last in H. cbn [fst snd] in H.
    rewrite dd_min_0 in H by lia. rewrite dd_min_div in H by lia.
    assert (1 <= (0 + 1) * rlen span / size) by lia.
    pose proof (Z.mul_div_le ((0 + 1) * rlen span) size Hs). nia.
  - intros H rank Hr. pose proof (slab_len span rank size Hs HL ltac:(lia)) as [A _].
    assert (1 <= rlen span / size) by (apply Z.div_le_lower_bound; lia).
    set (s := slab span rank size) in *. unfold rlen, first, last in *. lia.
Qed.

Lemma slab_mono span k r s : 0 < k -> first span <= last span + 1 -> 0 <= r -> r < s ->
  last (slab span r k) < first (slab span s k).
Proof.
  intros Hk HL Hr Hs. unfold slab, dd_max, first, last. cbn [fst snd].
  pose proof (dd_min_mono (rlen span) (r + 1) s k
                ltac:(unfold rlen, first, last in *; lia) ltac:(lia) Hk). lia.
Qed.

Lemma slab_partition span k :
  0 < k -> fst span <= snd span + 1 ->
  ordered_partition span k (fun r => slab span r k) /\ balanced k (fun r => slab span r k)
  /\ (nobody_idle k (fun r => slab span r k) <-> k <= size_of span).
Proof.
  intros Hk HL. split; [split; [|split]|split].
  - intros i Hi. destruct (slab_cover span k i Hk Hi) as (r & Hr & Hin).
    exists r. split; [auto|]. intros r' (Hr' & Hin').
    exact (slab_disjoint span k i r r' Hk HL Hr Hr' Hin Hin').
  - intros r i Hr Hi. exact (slab_inside span k r i Hk HL Hr Hi).
  - intros r s i j Hr Hs Hrs Hi Hj.
    pose proof (slab_mono span k r s Hk HL ltac:(lia) Hrs). unfold in_range, first, last in *. lia.
  - intros r s Hr Hs.
    pose proof (slab_len span r k Hk HL ltac:(lia)) as A.
    pose proof (slab_len span s k Hk HL ltac:(lia)) as B.
    unfold size_of. unfold rlen, first, last in A, B. cbv beta. lia.
  - change (size_of span) with (rlen span).
    rewrite <- (slab_nonempty_iff span k Hk HL). unfold nobody_idle, in_range, first, last.
    split; intros H r Hr.
    + destruct (H r Hr) as [i Hi]. lia.
    + exists (fst (slab span r k)). specialize (H r Hr). lia.
Qed.

(** ** 32-bit version *)
Lemma int32_some x : int_min <= x <= int_max -> int32 x = Some x.
Proof. intros. unfold int32. replace ((int_min <=? x) && (x <=? int_max)) with true by lia. reflexivity. Qed.

Lemma slab32_exact span k rank :
  0 < k <= int_max -> 0 <= rank < k ->
  0 <= first span -> first span <= last span + 1 -> last span <= int_max - 1 ->
  k * rlen span <= int_max ->
  slab32 span rank k = Some (slab span rank k).
Proof.
  intros Hk Hr H0 HL HM Hb.
  assert (HL' : 0 <= rlen span) by (unfold rlen, first, last in *; lia).
  assert (Hb2 : rlen span <= int_max).
  { unfold rlen, first, last in *; lia. }
  assert (Hm : int_min <= -1) by (unfold int_min; lia).
  unfold slab32. rewrite int32_some by lia.
  set (L := rlen span) in *.
  assert (Q : forall r, 0 <= r <= k -> 0 <= dd_min L r k <= L).
  { intros r Hr'. pose proof (dd_min_mono L 0 r k HL' ltac:(lia) ltac:(lia)).
    pose proof (dd_min_mono L r k k HL' ltac:(lia) ltac:(lia)).
    rewrite dd_min_0 in * by lia. rewrite dd_min_full in * by lia. lia. }
  assert (M : forall r, 0 <= r <= k -> dd_min32 L r k = Some (dd_min L r k)).
  { intros r Hr'. unfold dd_min32. rewrite int32_some by nia.
    replace (k =? 0) with false by lia.
    fold (dd_min L r k). rewrite int32_some; [reflexivity|]. specialize (Q r Hr'). lia. }
  rewrite M by lia. unfold dd_max32. rewrite int32_some by lia. rewrite M by lia.
  pose proof (Q rank ltac:(lia)). pose proof (Q (rank + 1) ltac:(lia)).
  rewrite int32_some by lia.
  rewrite !int32_some; [reflexivity| |];
    unfold L, rlen, first, last in *; lia.
Qed.

(** ** Index permutations *)
Lemma pi2_coord d i j : (d < 2)%nat ->
  nth d [fst (pi2 d (i, j)); snd (pi2 d (i, j))] 0 = i.
Proof. destruct d as [|[|d]]; intros; simpl; auto; lia. Qed.

Lemma pi3_coord d i j k : (d < 3)%nat ->
  coordinate d (pi3 d (i, j, k)) = i /\
  coordinate ((d + 1) mod 3) (pi3 d (i, j, k)) = j /\
  coordinate ((d + 2) mod 3) (pi3 d (i, j, k)) = k.
Proof. destruct d as [|[|[|d]]]; intros; simpl; auto; lia. Qed.

Lemma pi2_inj d p q : pi2 d p = pi2 d q -> p = q.
Proof. destruct d, p, q; simpl; congruence. Qed.
Lemma pi3_inj d p q : pi3 d p = pi3 d q -> p = q.
Proof. destruct d as [|[|d]], p as [[? ?] ?], q as [[? ?] ?]; simpl; congruence. Qed.
Lemma pi2_surj d q : exists p, pi2 d p = q.
Proof. destruct q as [a b], d; [exists (a, b) | exists (b, a)]; reflexivity. Qed.
Lemma pi3_surj d q : exists p, pi3 d p = q.
Proof.
  destruct q as [[a b] c], d as [|[|d]];
  [exists (a, b, c) | exists (b, c, a) | exists (c, a, b)]; reflexivity.
Qed.
(** Applying the three cyclic permutations one after another is the identity. *)
Lemma pi3_cycle p : pi3 1 (pi3 1 (pi3 1 p)) = p /\ pi3 2 (pi3 1 p) = p.
Proof. destruct p as [[a b] c]; simpl; auto. Qed.

(** ** Array-vector indexing *)
Lemma arrvec_index_small i size :
  0 < size < 2 ^ 31 -> - size <= i < 2 ^ 31 -> arrvec_index i size = Some (i mod size).
Proof.
  intros Hs Hi. unfold arrvec_index. replace (size =? 0) with false by lia. f_equal.
  destruct (Z.leb_spec 0 i).
  - rewrite (Z.mod_small i) by lia. rewrite (Z.mod_small (i + size)) by lia.
    rewrite <- (Z.mod_add i 1 size) by lia. f_equal. lia.
  - replace (i mod 2 ^ 64) with (i + 2 ^ 64)
      by (apply (Zmod_unique i (2^64) (-1)); lia).
    replace ((i + 2 ^ 64 + size) mod 2 ^ 64) with (i + size)
      by (apply (Zmod_unique _ _ 1); lia).
    rewrite <- (Z.mod_add i 1 size) by lia. f_equal. lia.
Qed.

(** Two time levels: any machine integer index is reduced correctly. *)
Lemma arrvec_index_2 i : arrvec_index i 2 = Some (i mod 2).
Proof.
  unfold arrvec_index. simpl (2 =? 0). cbv iota. f_equal.
  rewrite <- (Znumtheory.Zmod_div_mod 2 (2 ^ 64)) by
    (try lia; exists (2 ^ 63); reflexivity).
  rewrite Z.add_mod by lia.
  rewrite <- (Znumtheory.Zmod_div_mod 2 (2 ^ 64)) by
    (try lia; exists (2 ^ 63); reflexivity).
  rewrite Z_mod_same_full, Z.add_0_r, Z.mod_mod by lia. reflexivity.
Qed.

(** ** Flags *)
Lemma isset_bit o k : isset o (bit k) = N.testbit o k.
Proof.
  unfold isset, bit. 
  assert (H : N.land o (N.shiftl 1 k) = if N.testbit o k then N.shiftl 1 k else 0%N).
  { apply N.bits_inj. intros m. rewrite N.land_spec, N.shiftl_1_l, N.pow2_bits_eqb.
    destruct (N.eqb_spec k m) as [->|Hk].
    - rewrite andb_true_r. destruct (N.testbit o m) eqn:E; [|now rewrite N.bits_0].
      now rewrite N.pow2_bits_eqb, N.eqb_refl.
    - rewrite andb_false_r. destruct (N.testbit o k); [|now rewrite N.bits_0].
      rewrite N.pow2_bits_eqb. symmetry. now apply N.eqb_neq. }
  rewrite H. destruct (N.testbit o k) eqn:E.
  - rewrite N.shiftl_1_l. pose proof (N.pow_nonzero 2 k).
    destruct (N.eqb_spec 0 (2 ^ k)); [lia|reflexivity].
  - reflexivity.
Qed.

Lemma isset_lor o p f : isset (N.lor o p) f = isset o f || isset p f.
Proof.
  unfold isset. rewrite N.land_lor_distr_l.
  destruct (N.eqb_spec 0 (N.land o f)) as [E|E]; destruct (N.eqb_spec 0 (N.land p f)) as [F|F].
  - rewrite <- E, <- F. reflexivity.
  - rewrite <- E. rewrite N.lor_0_l. destruct (N.eqb_spec 0 (N.land p f)); [congruence|reflexivity].
  - rewrite <- F. rewrite N.lor_0_r. destruct (N.eqb_spec 0 (N.land o f)); [congruence|reflexivity].
  - destruct (N.eqb_spec 0 (N.lor (N.land o f) (N.land p f))) as [G|G]; [|reflexivity].
    symmetry in G. apply N.lor_eq_0_iff in G. destruct G; congruence.
Qed.

Lemma most_significant_spec x k :
  (most_significant x = N.succ k) <-> (N.testbit x k = true /\ forall m, (k < m)%N -> N.testbit x m = false).
Proof.
  unfold most_significant. destruct (N.eqb_spec x 0) as [->|Hx].
  - split; [lia|]. intros [H _]. rewrite N.bits_0 in H. discriminate.
  - split.
    + intros H. assert (k = N.log2 x) by lia. subst k. split.
      * apply N.bit_log2; auto.
      * intros m Hm. apply N.bits_above_log2. lia.
    + intros [H1 H2].
      assert (N.log2 x = k); [|lia].
      destruct (N.lt_trichotomy (N.log2 x) k) as [H|[H|H]]; [|exact H|].
      * rewrite (N.bits_above_log2 x k H) in H1. discriminate.
      * specialize (H2 (N.log2 x) H). rewrite N.bit_log2 in H2 by auto. discriminate.
Qed.

Lemma most_significant_0 x : most_significant x = 0%N <-> x = 0%N.
Proof. unfold most_significant. destruct (N.eqb_spec x 0); split; intros; auto; lia. Qed.

(** The printed names determine every flag except div_3rd_dt. *)
Lemma opts_string_determines o p f :
  In f all_flags -> f <> o_div_3rd_dt -> opts_string o = opts_string p -> isset o f = isset p f.
Proof.
  intros Hf Hn He.
  assert (HI : In f opt_order).
  { simpl in Hf. unfold opt_order. simpl.
    repeat (destruct Hf as [<-|Hf]; [solve [auto 20 | congruence]|]). contradiction. }
  assert (A : forall q, isset q f = true <-> In f (opts_string q)).
  { intros q. unfold opts_string. rewrite filter_In. tauto. }
  pose proof (A o) as A1. pose proof (A p) as A2. rewrite <- He in A2.
  destruct (isset o f), (isset p f); auto.
  - symmetry. tauto.
  - tauto.
Qed.

Lemma slab_nested span p r k :
  0 < p -> fst span <= snd span + 1 -> 0 <= r < p -> 0 < k ->
  ordered_partition (slab span r p) k (fun t => slab (slab span r p) t k).
Proof.
  intros Hp HL Hr Hk. apply slab_partition; [exact Hk|].
  pose proof (slab_len span r p Hp HL ltac:(lia)) as A.
  assert (0 <= rlen span / p) by (apply Z.div_pos; unfold rlen, first, last; lia).
  set (s := slab span r p) in *. unfold rlen at 2, first, last in A. lia.
Qed.

Lemma slab32_overflow :
  exists span k rank, 0 < k <= int_max /\ 0 <= rank < k /\ 0 <= first span /\ last span <= int_max - 1 /\
    k <= rlen span /\ slab32 span rank k = None /\ dd_min_hw (rlen span) rank k < 0.
Proof.
  exists (0, 999999999), 4, 3. repeat split; vm_compute; congruence.
Qed.

Lemma flags_independent o k m :
  isset (N.lor o (bit m)) (bit k) = orb (isset o (bit k)) (N.eqb k m).
Proof.
  rewrite isset_lor. f_equal. rewrite isset_bit. unfold bit.
  rewrite N.shiftl_1_l, N.pow2_bits_eqb. apply N.eqb_sym.
Qed.

Lemma opts_string_ambiguous :
  exists o p f, In f all_flags /\ opts_string o = opts_string p /\ isset o f = true /\ isset p f = false.
Proof.
  exists o_div_3rd_dt, 0%N, o_div_3rd_dt. repeat split. vm_compute; auto 20.
Qed.

Lemma pi2_ok d i j : (d < 2)%nat ->
  nth d [fst (pi2 d (i, j)); snd (pi2 d (i, j))] 0 = i /\
  (forall p q, pi2 d p = pi2 d q -> p = q) /\ (forall q, exists p, pi2 d p = q).
Proof.
  intros H. split; [apply pi2_coord, H|]. split; [apply pi2_inj|apply pi2_surj].
Qed.

Lemma pi3_ok d i j k : (d < 3)%nat ->
  coordinate d (pi3 d (i, j, k)) = i /\
  coordinate ((d + 1) mod 3) (pi3 d (i, j, k)) = j /\
  coordinate ((d + 2) mod 3) (pi3 d (i, j, k)) = k /\
  (forall p q, pi3 d p = pi3 d q -> p = q) /\ (forall q, exists p, pi3 d p = q).
Proof.
  intros H. destruct (pi3_coord d i j k H) as (A & B & C).
  repeat split; auto; [apply pi3_inj|apply pi3_surj].
Qed.

Lemma arrvec_index_wraps :
  exists i size, 0 < size < 2 ^ 31 /\ - 2 ^ 31 <= i < 0 /\ arrvec_index i size <> Some (i mod size).
Proof. exists (-4), 3. repeat split; vm_compute; congruence. Qed.
