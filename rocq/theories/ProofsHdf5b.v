(** More proofs about stored arrays: partitions, chunks, arrays with halos in three
    dimensions, [get_global_array], file names. *)
From Coq Require Import ZArith List Bool Lia.
From Verif Require Import ModelIndex ModelHdf5 SpecIndex SpecHdf5 ProofsIndex ProofsHdf5.
Import ListNotations.
Local Open Scope Z_scope.

Section Parts.
  Variables (N h P : Z) (rest : list Z).
  Hypothesis HN : 0 <= N.
  Hypothesis HP : 0 < P.
  Hypothesis Hh : 0 <= h.
  Notation own := (own N P).
  Lemma own_mono r s : 0 <= r -> r < s -> s < P -> first (own r) + rlen (own r) <= first (own s).
  Proof.
    intros A B C. rewrite <- own_next. unfold ModelHdf5.own, slab, first. cbn [fst]. unfold rlen, first, last. cbn [fst snd].
    pose proof (dd_min_mono (N - 1 - 0 + 1) (r + 1) s P). lia.
  Qed.
  Lemma parts (off cnt : Z -> Z) E : (forall i, 0 <= i < E -> exists r, 0 <= r < P /\ off r <= i < off r + cnt r) ->
    (forall r, 0 <= r < P -> 0 <= off r /\ off r + cnt r <= E) -> (forall r s, 0 <= r -> r < s -> s < P -> off r + cnt r <= off s) ->
    ordered_partition (0, E - 1) P (fun r => (off r, off r + cnt r - 1)).
  Proof.
    intros C B M. unfold ordered_partition, in_range. cbn [fst snd]. split; [|split].
    - intros i I. destruct (C i) as (r & R & V); [lia|]. exists r. split; [lia|]. intros s (S & W).
      destruct (Z.lt_trichotomy r s) as [X|[X|X]]; [pose proof (M r s); lia|auto|pose proof (M s r); lia].
    - intros r i R I. pose proof (B r R). lia.
    - intros r s i j R S L I J. pose proof (M r s). lia.
  Qed.
  Lemma off0 r : 0 <= r < P -> hd 0 (offst N P rest r) = first (own r).
  Proof. intros R. unfold offst, multi. cbn [hd]. destruct (Z.ltb_spec 1 P); [reflexivity|]. assert (r = 0) by lia. subst. symmetry. apply own_0. lia. Qed.
  Lemma op_ext E part part' : (forall r, 0 <= r < P -> part r = part' r) -> ordered_partition (0, E) P part -> ordered_partition (0, E) P part'.
  Proof.
    intros X (A & B & C). split; [|split].
    - intros i I. destruct (A i I) as (r & (R & V) & U). exists r. split; [rewrite <- X by auto; auto|]. intros s (S & W). apply U. split; [auto|rewrite X by auto; auto].
    - intros r i R I. rewrite <- X in I by auto. eauto.
    - intros r s i j R S L I J. rewrite <- X in I, J by auto. eauto.
  Qed.
  Lemma field_parts : ordered_partition (0, N - 1) P (fun r => (hd 0 (offst N P rest r), hd 0 (offst N P rest r) + hd 0 (shape N P rest r) - 1)).
  Proof.
    apply (op_ext _ (fun r => (first (own r), first (own r) + rlen (own r) - 1))).
    - intros r R. rewrite off0 by auto. unfold shape, multi. cbn [hd]. destruct (Z.ltb_spec 1 P); [reflexivity|]. destruct (own_one N P HN HP) as [X Y]; [lia|]. assert (r = 0) by lia. subst. rewrite Y. reflexivity.
    - apply parts; [apply own_covers; auto| |apply own_mono]. intros r R. pose proof (own_first N P HN HP r R). destruct (own_end N P HN HP r R). lia.
  Qed.
  Lemma coord_parts : ordered_partition (0, N) P (fun r => (hd 0 (offst N P rest r), hd 0 (offst N P rest r) + hd 0 (cshape N P rest r) - 1)).
  Proof.
    apply (op_ext _ (fun r => (first (own r), first (own r) + ccnt N P r - 1))); [intros r R; rewrite off0 by auto; reflexivity|].
    replace N with (N + 1 - 1) at 1 by lia. apply parts; [apply ccover; auto| |].
    - intros r R. pose proof (own_first N P HN HP r R). destruct (own_end N P HN HP r R). unfold ccnt, multi. destruct (Z.ltb_spec 1 P); [destruct (r =? P - 1); lia|].
      destruct (own_one N P HN HP) as [X Y]; [lia|]. assert (r = 0) by lia. subst. lia.
    - intros r s A B C. pose proof (own_mono r s A B C). unfold ccnt, multi. destruct (Z.ltb_spec 1 P); [|lia]. destruct (Z.eqb_spec r (P - 1)); lia.
  Qed.
  Lemma halo_parts : ordered_partition (0, N + 2 * h - 1) P (fun r => (hd 0 (offst_h N h P rest r), hd 0 (offst_h N h P rest r) + hd 0 (shape_h N h P rest r) - 1)).
  Proof.
    change (ordered_partition (0, N + 2 * h - 1) P (fun r => (hoff N h P r, hoff N h P r + hcnt N h P r - 1))).
    apply parts; [apply hcover; auto| |].
    - intros r R. pose proof (hbounds N h P HN HP Hh r R). lia.
    - intros r s A B C. pose proof (own_mono r s A B C). unfold hoff, hcnt, multi, is_end. pose proof (own_0 N P HP). destruct (Z.ltb_spec 1 P); [|lia].
      destruct (Z.eqb_spec s 0); [lia|]. destruct (Z.eqb_spec r 0) as [->|]; cbn [orb]; [lia|]. destruct (Z.eqb_spec r (P - 1)); lia.
  Qed.
  Lemma chunk_ok : P <= N -> 1 <= chunk0 N P <= N.
  Proof.
    intros L. unfold chunk0, multi. destruct (Z.ltb_spec 1 P); [|lia]. split.
    - apply Z.div_le_lower_bound; lia.
    - apply Z.div_le_upper_bound; nia.
  Qed.
End Parts.

(** ** three dimensions, halos *)
Section Halo3.
  Variables (N h P a b : Z).
  Hypothesis HP : 1 < P.
  Hypothesis Hh : 0 < h.
  Hypothesis HN : P <= N.
  Hypothesis Ha : 0 < a.
  Hypothesis Hb : 0 < b.
  Lemma elements_has ext c : within ext c -> In c (elements (zeros ext) ext (fun c => c)).
  Proof. intros W. eapply nth_error_In. rewrite (nth_elements ext c W) by apply zeros_len. rewrite zip_zeros by (apply within_length; auto). reflexivity. Qed.
  Lemma nonempty r : 0 <= r < P -> 0 < rlen (own N P r).
  Proof.
    intros R. pose proof (slab_nonempty_iff (0, N - 1) P ltac:(lia) ltac:(cbn; lia)) as [_ H].
    assert (X : P <= rlen (0, N - 1)) by (unfold rlen, first, last; cbn [fst snd]; lia). specialize (H X r R). unfold own, rlen. lia.
  Qed.
  Lemma halo3_over {V} r (arr : list Z -> V) file : 1 <= r < P -> record_halo N h P [a; b] r arr file = None.
  Proof.
    intros R. unfold record_halo. cbn [length Nat.eqb]. set (sh := shape_h N h P [a; b] r).
    assert (NE := nonempty r ltac:(lia)).
    assert (SH : sh = [hcnt N h P r; a + 2 * h; b + 2 * h]) by reflexivity.
    assert (HC : 0 < hcnt N h P r) by (unfold hcnt, multi; destruct (Z.ltb_spec 1 P); [destruct (is_end P r); lia|lia]).
    set (c := [hcnt N h P r - 1; a + 2 * h - 1; b + 2 * h - 1]).
    assert (W : within sh c) by (rewrite SH; unfold c; repeat constructor; lia).
    assert (NN : nneg sh) by (rewrite SH; repeat constructor; lia).
    unfold h5_write. match goal with |- context [forallb ?f ?l] => destruct (forallb f l) eqn:E end; [|rewrite andb_false_r; reflexivity].
    exfalso. rewrite forallb_forall in E. specialize (E c (elements_has sh c W)). apply Z.ltb_lt in E. rewrite length_elements in E by exact NN.
    assert (M : offst_mem_h h P [a; b] r = [h; 0; 0]) by (unfold offst_mem_h, multi; destruct (Z.ltb_spec 1 P); [|lia]; destruct (Z.ltb_spec 0 r); [reflexivity|lia]).
    rewrite M in E. unfold c, shape_mem_h in E. rewrite SH in E. cbn [zip map flat volume fold_right] in E. nia.
  Qed.
  Lemma write_all_none {V} (w : Z -> dataset V -> option (dataset V)) r : (forall f, w r f = None) -> forall ranks file, In r ranks -> write_all w ranks file = None.
  Proof.
    intros H ranks. induction ranks as [|s rs IH]; intros file I; [destruct I|]. cbn [write_all]. destruct I as [->|I]; [rewrite H; reflexivity|].
    destruct (w s file); [apply IH; auto|reflexivity].
  Qed.
  Lemma halo3_all {V} ranks (arr : Z -> list Z -> V) file : each_process P ranks -> write_all (fun r => record_halo N h P [a; b] r (arr r)) ranks file = None.
  Proof. intros EP. apply (write_all_none _ 1); [intros f; apply halo3_over; lia|apply EP; lia]. Qed.
End Halo3.

(** ** get_global_array *)
Lemma int32_in x : 0 <= x <= int_max -> int32 x = Some x.
Proof. intros H. apply int32_some. unfold int_min, int_max in *. lia. Qed.
Lemma vol_pos l : Forall (fun n => 0 < n) l -> 0 < volume l.
Proof. induction 1; cbn [volume fold_right]; [lia|]. unfold volume in IHForall. nia. Qed.
Lemma fold_mul l : forall x, Forall (fun n => 0 < n) l -> 0 <= x -> x * volume l <= int_max -> fold_left mul32 l (Some x) = Some (x * volume l).
Proof.
  induction l as [|n l IH]; intros x F X B; cbn [fold_left volume fold_right]; [f_equal; lia|]. inversion F; subst. cbn [volume fold_right] in B. pose proof (vol_pos l H2). unfold volume in *.
  cbn [mul32]. rewrite int32_in by nia. rewrite IH by (auto; nia). f_equal. lia.
Qed.
Section Global.
  Variables (N P : Z) (rest : list Z).
  Hypothesis HP : 0 < P.
  Hypothesis HN : 0 < N.
  Hypothesis Hr : Forall (fun n => 0 < n) rest.
  Notation V0 := (volume rest).
  Notation own := (own N P).
  Hypothesis Tot : N * V0 <= int_max.
  Lemma nn : nneg rest.
  Proof. eapply Forall_impl; [|exact Hr]. cbn; intros; lia. Qed.
  Lemma V0pos : 0 < V0.
  Proof. apply vol_pos; auto. Qed.
  Lemma part_le r : 0 <= r < P -> 0 <= first (own r) /\ 0 <= rlen (own r) /\ first (own r) + rlen (own r) <= N.
  Proof. intros R. pose proof (own_first N P ltac:(lia) HP r R). pose proof (own_len N P ltac:(lia) HP r R). destruct (own_end N P ltac:(lia) HP r R). lia. Qed.
  Lemma gsize_ok r : 0 <= r < P -> gsize N P rest r = Some (rlen (own r) * V0).
  Proof.
    intros R. unfold gsize. change (slab (0, N - 1) r P) with (own r). destruct (part_le r R) as (A & B & C). pose proof V0pos.
    rewrite int32_in by nia. apply fold_mul; auto. nia.
  Qed.
  Lemma psum_ok r : Z.of_nat r < P -> psum N P rest r = Some ((first (own (Z.of_nat r)) + rlen (own (Z.of_nat r))) * V0).
  Proof.
    pose proof V0pos. induction r as [|r IH]; intros L.
    - cbn [psum]. rewrite gsize_ok by lia. change (Z.of_nat 0) with 0. rewrite (own_0 N P HP). reflexivity.
    - cbn [psum]. rewrite IH by lia. rewrite gsize_ok by lia. cbn [add32]. destruct (part_le (Z.of_nat (S r)) ltac:(lia)) as (A & B & C).
      rewrite Nat2Z.inj_succ in *. unfold Z.succ in *. rewrite own_next in *. destruct (part_le (Z.of_nat r) ltac:(lia)) as (A' & B' & C').
      rewrite int32_in by nia. f_equal. lia.
  Qed.
  Lemma displ_ok r : Z.of_nat r < P -> displ N P rest r = Some (first (own (Z.of_nat r)) * V0).
  Proof.
    intros L. unfold displ. rewrite psum_ok by auto. rewrite gsize_ok by lia. cbn [sub32]. destruct (part_le (Z.of_nat r) ltac:(lia)) as (A & B & C). pose proof V0pos.
    rewrite int32_in by nia. f_equal. lia.
  Qed.
  Lemma total_ok : gtotal (N :: rest) = Some (N * V0).
  Proof.
    unfold gtotal. cbn [fold_left mul32]. pose proof V0pos. rewrite int32_in by nia. rewrite fold_mul; [f_equal; lia|auto|lia|lia].
  Qed.
  Lemma gathered_ok {V} (g : list Z -> V) (arr : nat -> list Z -> V) i idx ranks :
    0 <= i < N -> within rest idx -> (forall r, In r ranks -> Z.of_nat r < P) ->
    (forall r i idx, Z.of_nat r < P -> in_range i (own (Z.of_nat r)) -> within rest idx -> arr r (i :: idx) = g (i :: idx)) ->
    (exists r, In r ranks /\ first (own (Z.of_nat r)) <= i < first (own (Z.of_nat r)) + rlen (own (Z.of_nat r))) ->
    gathered N P rest (fun r => elements (first (own (Z.of_nat r)) :: zeros rest) (rlen (own (Z.of_nat r)) :: rest) (arr r)) ranks (flat (N :: rest) (i :: idx)) = Some (g (i :: idx)).
  Proof.
    intros I W RB A EX. induction ranks as [|r rs IH]; [destruct EX as (? & [] & _)|].
    pose proof (RB r (or_introl eq_refl)) as RP. cbn [gathered]. rewrite displ_ok, gsize_ok by lia. cbn [flat].
    destruct (part_le (Z.of_nat r) ltac:(lia)) as (B1 & B2 & B3). pose proof V0pos as VP. pose proof (flat_bound rest idx W) as FB.
    set (f0 := first (own (Z.of_nat r))) in *. set (l0 := rlen (own (Z.of_nat r))) in *.
    destruct ((f0 * V0 <=? i * V0 + flat rest idx) && (i * V0 + flat rest idx <? f0 * V0 + l0 * V0)) eqn:E.
    - apply andb_true_iff in E as [E1 E2]. apply Z.leb_le in E1. apply Z.ltb_lt in E2. assert (f0 <= i < f0 + l0) by nia.
      replace (i * V0 + flat rest idx - f0 * V0) with (flat (l0 :: rest) ((i - f0) :: idx)) by (cbn [flat]; lia).
      rewrite (nth_elements (l0 :: rest) ((i - f0) :: idx)).
      + cbn [zip]. rewrite zip_zeros by (apply within_length; auto). replace (f0 + (i - f0)) with i by lia. f_equal. apply A; auto. unfold in_range. unfold l0, rlen in *. unfold f0, first, last in *. lia.
      + constructor; [lia|exact W].
      + cbn [length]. rewrite zeros_len. reflexivity.
    - apply IH; [intros; apply RB; right; auto|]. destruct EX as (s & [->|S] & X); [|exists s; auto].
      exfalso. fold f0 l0 in X. apply andb_false_iff in E as [E|E]; [apply Z.leb_gt in E; nia|apply Z.ltb_ge in E; nia].
  Qed.
  Lemma global_ok {V} (g : list Z -> V) (arr : nat -> list Z -> V) :
    (forall r i idx, Z.of_nat r < P -> in_range i (own (Z.of_nat r)) -> within rest idx -> arr r (i :: idx) = g (i :: idx)) ->
    exists f, global_array N P rest arr = Some f /\ holds (N :: rest) g f.
  Proof.
    intros A. unfold global_array. rewrite total_ok.
    assert (F : forallb (fun r => match displ N P rest r with Some _ => true | None => false end) (seq 0 (Z.to_nat P)) = true).
    { apply forallb_forall. intros r R. apply in_seq in R. rewrite displ_ok by lia. reflexivity. }
    rewrite F. eexists. split; [reflexivity|]. intros idx W. inversion W; subst. apply gathered_ok; auto.
    - intros r R. apply in_seq in R. lia.
    - destruct (own_covers N P HP y) as (r & R & B); [lia|]. exists (Z.to_nat r). rewrite Z2Nat.id by lia. split; [apply in_seq; lia|exact B].
  Qed.
End Global.
Lemma global_over {V} N P rest (arr : nat -> list Z -> V) : 0 < N -> Forall (fun n => 0 < n) rest -> int_max < N * volume rest -> global_array N P rest arr = None.
Proof.
  intros HN Hr B. unfold global_array.
  assert (X : forall l x, Forall (fun n => 0 < n) l -> 0 <= x -> int_max < x * volume l -> x <= int_max -> fold_left mul32 l (Some x) = None).
  { induction l as [|n l IH]; intros x F X0 Bd M; cbn [volume fold_right] in Bd; [lia|]. inversion F; subst. cbn [fold_left mul32].
    destruct (Z.leb_spec (x * n) int_max).
    - rewrite int32_in by nia. apply IH; auto; [nia|]. unfold volume. nia.
    - unfold int32. replace (x * n <=? int_max) with false by (symmetry; apply Z.leb_gt; lia). rewrite andb_false_r. clear. induction l; [reflexivity|exact IHl]. }
  unfold gtotal. rewrite X; [reflexivity|constructor; auto|lia|cbn [volume fold_right]; unfold volume in B; lia|unfold int_max; lia].
Qed.

(** ** names *)
Lemma digits_len k t : length (digits k t) = k.
Proof. revert t. induction k as [|k IH]; intros t; [reflexivity|]. cbn [digits]. rewrite app_length, IH. cbn. lia. Qed.
Lemma lex_app a : forall b x y, length a = length b -> lex_lt a b -> lex_lt (a ++ [x]) (b ++ [y]).
Proof. induction a as [|u a IH]; intros [|v b] x y L H; try discriminate; [destruct H|]. cbn [app lex_lt] in *. cbn [length] in L. destruct H as [H|[E H]]; [left; exact H|right; split; [exact E|apply IH; [lia|exact H]]]. Qed.
Lemma lex_same a x y : x < y -> lex_lt (a ++ [x]) (a ++ [y]).
Proof. intros H. induction a as [|u a IH]; cbn [app lex_lt]; [left; exact H|right; auto]. Qed.
Lemma digits_lt k : forall t u, 0 <= t -> t < u -> u < 10 ^ Z.of_nat k -> lex_lt (digits k t) (digits k u).
Proof.
  induction k as [|k IH]; intros t u T L U; [cbn in U; lia|]. cbn [digits]. rewrite Nat2Z.inj_succ, Z.pow_succ_r in U by lia.
  pose proof (Z.div_mod t 10). pose proof (Z.div_mod u 10). pose proof (Z.mod_pos_bound t 10). pose proof (Z.mod_pos_bound u 10).
  destruct (Z.eq_dec (t / 10) (u / 10)) as [E|NE].
  - rewrite <- E. apply lex_same. lia.
  - apply lex_app; [rewrite !digits_len; reflexivity|]. apply IH; [apply Z.div_pos; lia| |apply Z.div_lt_upper_bound; lia].
    pose proof (Z.div_le_mono t u 10). lia.
Qed.
Lemma names_sorted t u : 0 <= t -> t < u -> u <= int_max -> lex_lt (base_name t) (base_name u).
Proof. intros T L U. apply digits_lt; auto. unfold int_max in U. change (10 ^ Z.of_nat 10) with 10000000000. lia. Qed.
Lemma names_ten t : length (base_name t) = 10%nat.
Proof. apply digits_len. Qed.

(** ** Surface fields *)
Lemma zeros_len (a b : list Z) : length a = length b -> zeros a = zeros b.
Proof. revert b. induction a as [|x a IH]; intros [|y b] H; try discriminate; [reflexivity|]. unfold zeros in *. cbn [map]. f_equal. apply IH. injection H as H. exact H. Qed.
Lemma lowest_len rest : rest <> [] -> length (lowest rest) = length rest.
Proof. intros H. unfold lowest. rewrite (app_removelast_last 0 H) at 2. rewrite !app_length. reflexivity. Qed.
Lemma srfc_dsc N P rest {V : Type} r (arr : list Z -> V) f : rest <> [] -> record_srfc N P rest r arr f = record_dsc N P (lowest rest) r arr f.
Proof.
  intros H. unfold record_srfc. destruct rest as [|x rest'] eqn:E; [contradiction|]. rewrite <- E in *. unfold record_dsc, shape, ext_f, offst.
  rewrite (zeros_len rest (lowest rest)) by (symmetry; apply lowest_len; exact H). reflexivity.
Qed.
Lemma write_all_ext {V} (w w' : Z -> dataset V -> option (dataset V)) ranks : (forall r f, w r f = w' r f) -> forall file, write_all w ranks file = write_all w' ranks file.
Proof. intros H. induction ranks as [|r rs IH]; intros file; [reflexivity|]. cbn. rewrite H. destruct (w' r file); auto. Qed.
Lemma srfc_stored N P rest {V} (g : list Z -> V) (arr : Z -> list Z -> V) ranks file : 0 <= N -> 0 < P -> Forall (fun n => 0 <= n) rest -> rest <> [] ->
  each_process P ranks ->
  (forall r i idx, 0 <= r < P -> in_range i (own N P r) -> within (removelast rest ++ [1]) idx -> arr r (i :: idx) = g (i :: idx)) ->
  exists f, write_all (fun r => record_srfc N P rest r (arr r)) ranks file = Some f /\ holds (N :: removelast rest ++ [1]) g f.
Proof.
  intros HN HP Hr NE EP A.
  rewrite (write_all_ext _ (fun r => record_dsc N P (lowest rest) r (arr r))) by (intros; apply srfc_dsc; exact NE).
  apply fields_stored; auto. unfold nneg, lowest. apply Forall_app. split; [|constructor; [lia|constructor]].
  rewrite (app_removelast_last 0 NE) in Hr. apply Forall_app in Hr. apply Hr.
Qed.
Lemma srfc_1d N P {V} (arr : list Z -> V) r file : 1 < P -> P <= N -> 1 <= r < P -> record_srfc N P [] r arr file = None.
Proof.
  intros HP HN Hr. unfold record_srfc, h5_write, offst, multi. replace (1 <? P) with true by (symmetry; apply Z.ltb_lt; lia).
  cbn [zeros map sel_okb]. assert (F : 1 <= first (own N P r)).
  { unfold own, slab, first. cbn. unfold rlen, last, first. cbn. unfold dd_min. rewrite Z.quot_div_nonneg by nia. apply Z.div_le_lower_bound; nia. }
  replace (first (own N P r) + 1 <=? 1) with false by (symmetry; apply Z.leb_gt; lia). rewrite !andb_false_r. reflexivity.
Qed.
