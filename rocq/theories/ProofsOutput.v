From Coq Require Import ZArith List Bool Reals Lia Lra Psatz.
From Verif Require Import ModelIndex ModelRun SpecRun ProofsRun ModelOutput SpecOutput.
Import ListNotations.
Local Open Scope Z_scope.

(** ** Fixed time step: which steps are recorded *)
Lemma rem_zero_divide : forall a b, 0 < b -> (Z.rem a b = 0 <-> (b | a)).
Proof. intros a b Hb. apply Z.rem_divide. lia. Qed.

Lemma requested_iff : forall f s0 w ts, 0 < f ->
  (requested f s0 w ts <-> exists t, In t (map Z.of_nat (seq 0 (Z.to_nat w))) /\ Z.rem (ts - t) f = 0 /\ s0 <= ts - t).
Proof.
  intros f s0 w ts Hf. split.
  - intros (v & Hv & Hs & Hw). exists (ts - v). split; [|split].
    + apply in_map_iff. exists (Z.to_nat (ts - v)). split; [lia|]. apply in_seq. lia.
    + replace (ts - (ts - v)) with v by lia. apply rem_zero_divide; assumption.
    + lia.
  - intros (t & Ht & Hr & Hs). apply in_map_iff in Ht. destruct Ht as (n & <- & Hn). apply in_seq in Hn.
    exists (ts - Z.of_nat n). split; [apply rem_zero_divide; assumption|]. lia.
Qed.

Lemma filter_length_0 : forall (A : Type) (p : A -> bool) l, (forall x, In x l -> p x = false) -> length (filter p l) = 0%nat.
Proof. intros A p l. induction l as [|a l IH]; intros H; cbn; [reflexivity|]. rewrite (H a (or_introl eq_refl)). apply IH. intros; apply H; right; assumption. Qed.

Lemma count_zero : forall f s0 w ts, 0 < f -> ~ requested f s0 w ts -> record_count f s0 w ts = 0%nat.
Proof.
  intros f s0 w ts Hf H. unfold record_count. apply filter_length_0. intros t Ht.
  destruct (Z.eqb_spec (Z.rem (ts - t) f) 0) as [E|E]; [|reflexivity].
  destruct (Z.leb_spec s0 (ts - t)) as [L|L]; [|reflexivity].
  exfalso. apply H. apply requested_iff; [exact Hf|]. exists t. auto.
Qed.

Lemma filter_unique : forall (A : Type) (p : A -> bool) l x, NoDup l -> In x l -> p x = true ->
  (forall y, In y l -> p y = true -> y = x) -> length (filter p l) = 1%nat.
Proof.
  intros A p l x ND. revert x. induction ND as [|a l Ha ND IH]; intros x Hx Px U; [contradiction|].
  cbn. destruct Hx as [->|Hx].
  - rewrite Px. cbn. apply f_equal. apply filter_length_0. intros y Hy.
    destruct (p y) eqn:E; [|reflexivity]. rewrite (U y (or_intror Hy) E) in Hy. contradiction.
  - destruct (p a) eqn:E.
    + rewrite <- (U a (or_introl eq_refl) E) in Hx. contradiction.
    + apply (IH x Hx Px). intros y Hy. apply U. right; exact Hy.
Qed.

Lemma count_one : forall f s0 w ts, 0 < f -> w <= f -> requested f s0 w ts -> record_count f s0 w ts = 1%nat.
Proof.
  intros f s0 w ts Hf Hw H. apply requested_iff in H; [|exact Hf]. destruct H as (t & Ht & Hr & Hs).
  unfold record_count. apply (filter_unique _ _ _ t).
  - apply FinFun.Injective_map_NoDup; [intros a b E; lia|apply seq_NoDup].
  - exact Ht.
  - rewrite Hr. destruct (Z.leb_spec s0 (ts - t)); [reflexivity|lia].
  - intros y Hy E. apply andb_prop in E. destruct E as [E _]. apply Z.eqb_eq in E.
    apply rem_zero_divide in E; [|exact Hf]. apply rem_zero_divide in Hr; [|exact Hf].
    apply in_map_iff in Ht. destruct Ht as (a & <- & Ha). apply in_seq in Ha.
    apply in_map_iff in Hy. destruct Hy as (b & <- & Hb). apply in_seq in Hb.
    destruct E as [p E], Hr as [q Hr]. assert (Z.of_nat a - Z.of_nat b = (p - q) * f) by lia.
    assert (p = q) by nia. lia.
Qed.

(** ** The wrapped run *)
Section Wrapped.
  Variable W : Type.
  Variables (f s0 w : Z) (c : cfg) (h : hooks W).
  Notation H := (out_hooks f s0 w h).

  Lemma fold_fst : forall ts es u, fold_left (fun u e => h_adv H ts e u) es u
    = (fold_left (fun u e => h_adv h ts e u) es (fst u), snd u).
  Proof. intros ts es. induction es as [|e es IH]; intros u; cbn [fold_left]; [destruct u; reflexivity|]. rewrite IH. reflexivity. Qed.

  Lemma one_step_out : forall ts u,
    one_step c H (ts, u) = (ts + 1, (snd (one_step c h (ts, fst u)),
      snd u ++ repeat (ts + 1, snd (one_step c h (ts, fst u))) (record_count f s0 w (ts + 1)))).
  Proof. intros ts u. unfold one_step. rewrite !fold_fst. reflexivity. Qed.

  (** states of the underlying run *)
  Definition at_step (k : nat) (u : W) : W := snd (iter_steps c h k (0, u)).
  Lemma iter_ts : forall k u, iter_steps c h k (0, u) = (Z.of_nat k, at_step k u).
  Proof.
    intros k u. unfold at_step. rewrite (surjective_pairing (iter_steps c h k (0, u))) at 1.
    rewrite iter_steps_ts. cbn [fst]. rewrite Z.add_0_l. reflexivity.
  Qed.
  Lemma iter_out : forall k u r,
    iter_steps c H k (0, (u, r)) = (Z.of_nat k, (at_step k u,
      r ++ flat_map (fun j => repeat (Z.of_nat j, at_step j u) (record_count f s0 w (Z.of_nat j))) (seq 1 k))).
  Proof.
    induction k as [|k IH]; intros u r.
    - cbn. rewrite app_nil_r. reflexivity.
    - replace (S k) with (k + 1)%nat by lia. rewrite iter_steps_add, IH. cbn [iter_steps].
      rewrite one_step_out. cbn [fst snd].
      assert (E : at_step (k + 1) u = snd (one_step c h (Z.of_nat k, at_step k u))).
      { unfold at_step at 1. rewrite iter_steps_add. cbn [iter_steps]. rewrite iter_ts. reflexivity. }
      rewrite <- E. rewrite seq_app, flat_map_app. cbn [flat_map seq]. rewrite app_nil_r.
      replace (1 + k)%nat with (k + 1)%nat by lia.
      replace (Z.of_nat (k + 1)) with (Z.of_nat k + 1) by lia. rewrite app_assoc. reflexivity.
  Qed.

  Lemma advances_pos : forall (hh : hooks W) calls ts u, (forall v, h_panic hh v = false) ->
    Forall (fun n => 0 <= n) calls -> 0 < ts -> ts + total calls <= int_max ->
    advances c hh calls (ts, u) = Some (iter_steps c hh (Z.to_nat (total calls)) (ts, u)).
  Proof.
    intros hh calls. induction calls as [|n r IH]; intros ts u NP HF Ht Hr; [reflexivity|].
    inversion HF; subst. cbn [advances]. rewrite total_cons in *.
    assert (0 <= total r) by (apply total_nonneg; assumption).
    rewrite solve_nopanic by (try exact NP; unfold int_min, int_max in *; cbn [fst]; lia).
    unfold ante. cbn [fst snd]. destruct (Z.eqb_spec ts 0) as [E|E]; [lia|].
    rewrite (surjective_pairing (iter_steps c hh (Z.to_nat n) (ts, u))).
    rewrite iter_steps_ts. cbn [fst].
    rewrite IH; try assumption; try lia. apply f_equal.
    replace (Z.to_nat (n + total r)) with (Z.to_nat n + Z.to_nat (total r))%nat by lia.
    rewrite iter_steps_add. apply f_equal.
    rewrite (surjective_pairing (iter_steps c hh (Z.to_nat n) (ts, u))) at 2.
    rewrite iter_steps_ts. reflexivity.
  Qed.
End Wrapped.

Lemma advances_first : forall (W : Type) c (hh : hooks W) n r u, (forall v, h_panic hh v = false) ->
  0 < n -> Forall (fun n => 0 <= n) r -> n + total r <= int_max ->
  advances c hh (n :: r) (0, u) = Some (iter_steps c hh (Z.to_nat (n + total r)) (0, h_ante_loop hh 0 n u)).
Proof.
  intros W c hh n r u NP Hn HF Hr. cbn [advances].
  assert (0 <= total r) by (apply total_nonneg; assumption).
  rewrite solve_nopanic by (try exact NP; unfold int_min, int_max in *; cbn [fst]; lia).
  unfold ante. cbn [fst snd Z.eqb]. rewrite Z.add_0_r.
  rewrite (surjective_pairing (iter_steps c hh (Z.to_nat n) (0, h_ante_loop hh 0 n u))).
  rewrite iter_steps_ts. cbn [fst].
  rewrite (advances_pos W c hh r) by (try assumption; lia). apply f_equal.
  replace (Z.to_nat (n + total r)) with (Z.to_nat n + Z.to_nat (total r))%nat by lia.
  rewrite iter_steps_add. apply f_equal.
  rewrite (surjective_pairing (iter_steps c hh (Z.to_nat n) (0, h_ante_loop hh 0 n u))) at 2.
  rewrite iter_steps_ts. reflexivity.
Qed.

(** ** increasing lists *)
Lemma increasing_head : forall l a, increasing (a :: l) -> forall b, In b l -> a < b.
Proof.
  induction l as [|x l IH]; intros a Ha b Hb; [contradiction|]. inversion Ha; subst.
  destruct Hb as [->|Hb]; [assumption|]. specialize (IH x ltac:(assumption) b Hb). lia.
Qed.
Lemma increasing_tail : forall a l, increasing (a :: l) -> increasing l.
Proof. intros a l H. inversion H; subst; [constructor|assumption]. Qed.
Lemma increasing_cons : forall a l, increasing l -> (forall b, In b l -> a < b) -> increasing (a :: l).
Proof. intros a [|b l] H Hb; constructor; [apply Hb; left; reflexivity|assumption]. Qed.
Lemma increasing_eq : forall l m, increasing l -> increasing m -> (forall x, In x l <-> In x m) -> l = m.
Proof.
  induction l as [|a l IH]; intros [|b m] Hl Hm E; auto.
  - exfalso. apply (proj2 (E b)). left; reflexivity.
  - exfalso. apply (proj1 (E a)). left; reflexivity.
  - pose proof (increasing_head l a Hl) as Ha. pose proof (increasing_head m b Hm) as Hb.
    assert (a = b).
    { destruct (proj1 (E a) (or_introl eq_refl)) as [?|H1]; [congruence|].
      destruct (proj2 (E b) (or_introl eq_refl)) as [?|H2]; [congruence|].
      specialize (Ha b H2). specialize (Hb a H1). lia. }
    subst b. apply f_equal. apply IH; [exact (increasing_tail _ _ Hl)|exact (increasing_tail _ _ Hm)|].
    intros x. split; intros Hx.
    + destruct (proj1 (E x) (or_intror Hx)) as [->|H]; [|exact H]. specialize (Ha x Hx). lia.
    + destruct (proj2 (E x) (or_intror Hx)) as [->|H]; [|exact H]. specialize (Hb x Hx). lia.
Qed.
Lemma increasing_map_seq : forall (g : nat -> Z) n a, (forall i j, (a <= i < j)%nat -> (j < a + n)%nat -> g i < g j) -> increasing (map g (seq a n)).
Proof.
  intros g n. induction n as [|n IH]; intros a H; cbn; [constructor|].
  apply increasing_cons.
  - apply IH. intros; apply H; lia.
  - intros b Hb. apply in_map_iff in Hb. destruct Hb as (j & <- & Hj). apply in_seq in Hj. apply H; lia.
Qed.

Section Recorded.
  Variable W : Type.
  Variables (f s0 w : Z).
  Variable g : nat -> W.
  Definition recs (k n : nat) : list (Z * W) :=
    flat_map (fun j => repeat (Z.of_nat j, g j) (record_count f s0 w (Z.of_nat j))) (seq k n).
  Lemma recs_in : forall k n s v, 0 < f -> In (s, v) (recs k n) ->
    exists j, (k <= j < k + n)%nat /\ s = Z.of_nat j /\ v = g j /\ requested f s0 w s.
  Proof.
    intros k n s v Hf Hi. apply in_flat_map in Hi. destruct Hi as (j & Hj & Hi). apply in_seq in Hj.
    pose proof (repeat_spec _ _ _ Hi) as E. injection E as -> ->. exists j. repeat split; try lia.
    destruct (record_count f s0 w (Z.of_nat j)) eqn:C; [contradiction|].
    unfold record_count in C.
    destruct (filter (fun t => (Z.rem (Z.of_nat j - t) f =? 0) && (s0 <=? Z.of_nat j - t)) (map Z.of_nat (seq 0 (Z.to_nat w)))) as [|t l] eqn:F; [discriminate|].
    assert (Ht : In t (t :: l)) by (left; reflexivity). rewrite <- F in Ht. apply filter_In in Ht.
    destruct Ht as [Ht E]. apply andb_prop in E. destruct E as [E1 E2].
    apply requested_iff; [exact Hf|]. exists t. split; [exact Ht|]. split; [apply Z.eqb_eq, E1|apply Z.leb_le, E2].
  Qed.
  Lemma recs_complete : forall k n j, 0 < f -> w <= f -> (k <= j < k + n)%nat -> requested f s0 w (Z.of_nat j) ->
    In (Z.of_nat j, g j) (recs k n).
  Proof.
    intros k n j Hf Hw Hj Hr. apply in_flat_map. exists j. split; [apply in_seq; lia|].
    rewrite (count_one f s0 w _ Hf Hw Hr). left; reflexivity.
  Qed.
  Lemma requested_dec : forall s, 0 < f -> w <= f -> {requested f s0 w s} + {~ requested f s0 w s}.
  Proof.
    intros s Hf Hw. destruct (Nat.eq_dec (record_count f s0 w s) 0) as [E|E].
    - right. intros R. rewrite (count_one f s0 w s Hf Hw R) in E. discriminate.
    - left. destruct (filter (fun t => (Z.rem (s - t) f =? 0) && (s0 <=? s - t)) (map Z.of_nat (seq 0 (Z.to_nat w)))) as [|t l] eqn:F.
      + exfalso. apply E. unfold record_count. rewrite F. reflexivity.
      + assert (Ht : In t (t :: l)) by (left; reflexivity). rewrite <- F in Ht. apply filter_In in Ht.
        destruct Ht as [Ht E']. apply andb_prop in E'. destruct E' as [E1 E2].
        apply requested_iff; [exact Hf|]. exists t. split; [exact Ht|]. split; [apply Z.eqb_eq, E1|apply Z.leb_le, E2].
  Qed.
  Lemma recs_increasing : forall n k, 0 < f -> w <= f -> increasing (map fst (recs k n)).
  Proof.
    induction n as [|n IH]; intros k Hf Hw; [constructor|].
    unfold recs. cbn [seq flat_map]. rewrite map_app. fold (recs (S k) n).
    destruct (requested_dec (Z.of_nat k) Hf Hw) as [R|R].
    - rewrite (count_one f s0 w _ Hf Hw R). cbn [repeat map app fst]. apply increasing_cons; [apply IH; assumption|].
      intros b Hb. apply in_map_iff in Hb. destruct Hb as ([s v] & <- & Hi).
      destruct (recs_in (S k) n s v Hf Hi) as (j & Hj & -> & _). cbn [fst]. lia.
    - rewrite (count_zero f s0 w _ Hf R). cbn [repeat map app]. apply IH; assumption.
  Qed.
End Recorded.

Lemma records_ok : forall (W : Type) f s0 w c (h : hooks W) n rest u,
  0 < f -> w <= f -> 0 < n -> Forall (fun n => 0 <= n) rest -> n + total rest <= int_max ->
  (forall v, h_panic h v = false) ->
  (forall a b v, h_ante_loop h 0 a v = h_ante_loop h 0 b v) ->
  exists wend recorded,
    advances c (out_hooks f s0 w h) (n :: rest) (0, (u, [])) = Some (n + total rest, (wend, recorded)) /\
    increasing (map fst recorded) /\
    (forall s, In s (map fst recorded) <-> s = 0 \/ (0 < s <= n + total rest /\ requested f s0 w s)) /\
    (forall s v, In (s, v) recorded ->
       (s = 0 /\ v = h_ante_loop h 0 n u) \/ (0 < s /\ advances c h [s] (0, u) = Some (s, v))).
Proof.
  intros W f s0 w c h n rest u Hf Hw Hn HF Hr NP Hante.
  assert (0 <= total rest) by (apply total_nonneg; assumption).
  set (v0 := h_ante_loop h 0 n u). set (N := Z.to_nat (n + total rest)).
  rewrite (advances_first _ c (out_hooks f s0 w h) n rest (u, []) (fun v => NP (fst v)) Hn HF Hr). fold N.
  cbn [h_ante_loop out_hooks fst snd app]. fold v0.
  rewrite (iter_out W f s0 w c h N v0 [(0, v0)]).
  exists (at_step W c h N v0), ([(0, v0)] ++ recs W f s0 w (fun j => at_step W c h j v0) 1 N).
  split; [unfold N; rewrite Z2Nat.id by lia; reflexivity|].
  split; [|split].
  - cbn [map app fst]. apply increasing_cons; [apply recs_increasing; assumption|].
    intros b Hb. apply in_map_iff in Hb. destruct Hb as ([s v] & <- & Hi).
    destruct (recs_in W f s0 w _ 1 N s v Hf Hi) as (j & Hj & -> & _). cbn [fst]. lia.
  - intros s. cbn [map app fst In]. split.
    + intros [<-|Hi]; [left; reflexivity|right]. apply in_map_iff in Hi. destruct Hi as ([s' v] & <- & Hi).
      destruct (recs_in W f s0 w _ 1 N s' v Hf Hi) as (j & Hj & -> & _ & R). cbn [fst]. split; [lia|exact R].
    + intros [->|[Hs R]]; [left; reflexivity|right]. apply in_map_iff.
      exists (Z.of_nat (Z.to_nat s), at_step W c h (Z.to_nat s) v0). split; [cbn [fst]; lia|].
      apply (recs_complete W f s0 w (fun j => at_step W c h j v0) 1 N (Z.to_nat s) Hf Hw); [lia|]. rewrite Z2Nat.id by lia. exact R.
  - intros s v [E|Hi].
    + injection E as <- <-. left. split; reflexivity.
    + right. destruct (recs_in W f s0 w _ 1 N s v Hf Hi) as (j & Hj & -> & -> & _).
      split; [lia|].
      rewrite (advances_first W c h (Z.of_nat j) [] u NP) by (try constructor; cbn; unfold int_max in *; lia).
      replace (Z.to_nat (Z.of_nat j + total [])) with j by (cbn; lia).
      rewrite (Hante (Z.of_nat j) n u). fold v0. rewrite iter_ts. reflexivity.
Qed.

(** ** The time axis *)
Lemma axis_entry_eq : forall f w k, 0 <= k -> 0 < w -> axis_entry f w k = (k / w) * f + k mod w.
Proof. intros. unfold axis_entry. rewrite Z.quot_div_nonneg, Z.rem_mod_nonneg by lia. reflexivity. Qed.

Lemma axis_increasing : forall f w i j, 0 < w -> w <= f -> 0 <= i < j -> axis_entry f w i < axis_entry f w j.
Proof.
  intros f w i j Hw Hf H. rewrite !axis_entry_eq by lia.
  pose proof (Z.div_mod i w ltac:(lia)). pose proof (Z.div_mod j w ltac:(lia)).
  pose proof (Z.mod_pos_bound i w ltac:(lia)). pose proof (Z.mod_pos_bound j w ltac:(lia)).
  assert (i / w <= j / w) by (apply Z.div_le_mono; lia).
  destruct (Z.eq_dec (i / w) (j / w)) as [E|E]; [rewrite E in *; lia|].
  assert (i / w + 1 <= j / w) by lia. nia.
Qed.

(** entries below [cnt] are exactly the offsets m in [0,M] with m mod f < w *)
Lemma axis_members : forall f w M x, 0 < w -> w <= f -> 0 <= M ->
  let cnt := (M / f + 1) * w - Z.max 0 (w - M mod f - 1) in
  (exists k, 0 <= k < cnt /\ axis_entry f w k = x) <-> (0 <= x <= M /\ x mod f < w).
Proof.
  intros f w M x Hw Hf HM cnt.
  pose proof (Z.div_mod M f ltac:(lia)) as DM. pose proof (Z.mod_pos_bound M f ltac:(lia)) as BM.
  pose proof (Z.div_pos M f ltac:(lia) ltac:(lia)) as PM.
  split.
  - intros (k & Hk & <-). rewrite axis_entry_eq by lia.
    pose proof (Z.div_mod k w ltac:(lia)). pose proof (Z.mod_pos_bound k w ltac:(lia)).
    pose proof (Z.div_pos k w ltac:(lia) ltac:(lia)).
    assert (A : k / w <= M / f) by (unfold cnt in Hk; nia).
    assert (B : (k / w * f + k mod w) mod f = k mod w).
    { rewrite Z.add_comm, Z.mod_add by lia. apply Z.mod_small. lia. }
    rewrite B. split; [|lia].
    split; [nia|]. destruct (Z.eq_dec (k / w) (M / f)) as [E|E].
    + assert (k mod w <= M mod f) by (unfold cnt in Hk; lia). nia.
    + assert (k / w + 1 <= M / f) by lia. nia.
  - intros [Hx Hm].
    pose proof (Z.div_mod x f ltac:(lia)) as DX. pose proof (Z.mod_pos_bound x f ltac:(lia)) as BX.
    pose proof (Z.div_pos x f ltac:(lia) ltac:(lia)) as PX.
    exists (x / f * w + x mod f).
    assert (Q : (x / f * w + x mod f) / w = x / f).
    { rewrite Z.div_add_l by lia. rewrite (Z.div_small (x mod f) w) by lia. lia. }
    assert (R : (x / f * w + x mod f) mod w = x mod f).
    { rewrite Z.add_comm, Z.mod_add by lia. apply Z.mod_small. lia. }
    split.
    + split; [nia|]. assert (x / f <= M / f) by (apply Z.div_le_mono; lia).
      unfold cnt. destruct (Z.eq_dec (x / f) (M / f)) as [E|E].
      * rewrite E in *. assert (x mod f <= M mod f) by lia. lia.
      * assert (x / f + 1 <= M / f) by lia. nia.
    + rewrite axis_entry_eq by (try lia; nia). rewrite Q, R. lia.
Qed.

Lemma requested_mod : forall f s0 w s, 0 < f -> 0 < w -> w <= f -> (f | s0) -> 0 <= s0 ->
  (requested f s0 w s <-> (s0 <= s /\ (s - s0) mod f < w)).
Proof.
  intros f s0 w s Hf Hw Hwf [p Hp] Hs. split.
  - intros (v & [q Hv] & Hle & Hr). split; [lia|].
    replace (s - s0) with ((s - v) + (q - p) * f) by lia. rewrite Z.mod_add by lia. rewrite Z.mod_small by lia. lia.
  - intros [Hle Hm]. pose proof (Z.div_mod (s - s0) f ltac:(lia)). pose proof (Z.mod_pos_bound (s - s0) f ltac:(lia)).
    pose proof (Z.div_pos (s - s0) f ltac:(lia) ltac:(lia)).
    exists (s - (s - s0) mod f). split; [|split].
    + exists (p + (s - s0) / f). lia.
    + nia.
    + lia.
Qed.

Lemma nt_out_eq : forall f s0 w nt, 0 < f -> 0 < w -> w <= f -> (f | s0) -> 0 <= s0 <= nt -> nt <= int_max -> w <= int_max ->
  nt_out f s0 w nt = ((nt - s0) / f + 1) * w - Z.max 0 (w - (nt - s0) mod f - 1) + (if s0 =? 0 then 0 else 1).
Proof.
  intros f s0 w nt Hf Hw Hwf [p Hp] Hs Hn Hwm. unfold nt_out.
  rewrite Z.quot_div_nonneg by lia. rewrite Z.rem_mod_nonneg by lia.
  assert (E : nt mod f = (nt - s0) mod f).
  { replace (nt - s0) with (nt + (- p) * f) by lia. rewrite Z.mod_add by lia. reflexivity. }
  rewrite E. pose proof (Z.mod_pos_bound (nt - s0) f ltac:(lia)). pose proof (Z.div_mod (nt - s0) f ltac:(lia)).
  pose proof (Z.div_pos (nt - s0) f ltac:(lia) ltac:(lia)).
  set (a := (nt - s0) / f) in *. set (r := (nt - s0) mod f) in *.
  assert (a * w <= nt) by nia.
  rewrite Z.mod_small.
  - lia.
  - change (2 ^ 64) with 18446744073709551616. unfold int_max in *. change (2 ^ 31) with 2147483648 in *.
    destruct (s0 =? 0); nia.
Qed.

Lemma axis_ok : forall f s0 w nt x, 0 < f -> 0 < w -> w <= f -> (f | s0) -> 0 <= s0 <= nt -> nt <= int_max -> w <= int_max ->
  In x (time_axis f s0 w nt) <-> x = 0 \/ (0 < x <= nt /\ requested f s0 w x).
Proof.
  intros f s0 w nt x Hf Hw Hwf Hd Hs Hn Hwm.
  unfold time_axis. rewrite (nt_out_eq f s0 w nt) by assumption.
  rewrite (requested_mod f s0 w x) by (try assumption; lia).
  pose proof (fun y => axis_members f w (nt - s0) y Hw Hwf ltac:(lia)) as AM. cbv zeta in AM.
  set (cnt := ((nt - s0) / f + 1) * w - Z.max 0 (w - (nt - s0) mod f - 1)) in *.
  assert (Hc : 0 < cnt).
  { destruct (proj2 (AM 0)) as (k & Hk & _); [rewrite Z.mod_0_l by lia; lia|lia]. }
  destruct (Z.eqb_spec s0 0) as [E|E].
  - rewrite Z.add_0_r. split.
    + intros Hi. apply in_map_iff in Hi. destruct Hi as (k & <- & Hk). apply in_seq in Hk.
      destruct (proj1 (AM (axis_entry f w (Z.of_nat k)))) as [A B]; [exists (Z.of_nat k); split; [lia|reflexivity]|].
      rewrite E, Z.sub_0_r in *. destruct (Z.eq_dec (axis_entry f w (Z.of_nat k)) 0); [left; assumption|right; lia].
    + intros Hx. assert (Hx' : 0 <= x <= nt /\ x mod f < w).
      { rewrite E in *. rewrite Z.sub_0_r in Hx. destruct Hx as [->|Hx]; [rewrite Z.mod_0_l by lia; lia|lia]. }
      destruct (proj2 (AM x)) as (k & Hk & Ek); [rewrite E, Z.sub_0_r; exact Hx'|].
      apply in_map_iff. exists (Z.to_nat k). rewrite Z2Nat.id by lia. split; [exact Ek|]. apply in_seq. lia.
  - split.
    + intros [<-|Hi]; [left; reflexivity|right]. apply in_map_iff in Hi. destruct Hi as (k & <- & Hk). apply in_seq in Hk.
      destruct (proj1 (AM (axis_entry f w (Z.of_nat k)))) as [A B]; [exists (Z.of_nat k); split; [lia|reflexivity]|].
      replace (axis_entry f w (Z.of_nat k) + s0 - s0) with (axis_entry f w (Z.of_nat k)) by lia. lia.
    + intros [->|[Hx [Hx1 Hx2]]]; [left; reflexivity|right].
      destruct (proj2 (AM (x - s0))) as (k & Hk & Ek); [lia|].
      apply in_map_iff. exists (Z.to_nat k). rewrite Z2Nat.id by lia. split; [lia|]. apply in_seq. lia.
Qed.

Lemma axis_sorted : forall f s0 w nt, 0 < w -> w <= f -> 0 <= s0 -> increasing (time_axis f s0 w nt).
Proof.
  intros f s0 w nt Hw Hwf Hs. unfold time_axis. destruct (Z.eqb_spec s0 0) as [E|E].
  - apply increasing_map_seq. intros i j Hi Hj. apply axis_increasing; lia.
  - apply increasing_cons.
    + apply increasing_map_seq. intros i j Hi Hj. pose proof (axis_increasing f w (Z.of_nat i) (Z.of_nat j) Hw Hwf ltac:(lia)). lia.
    + intros b Hb. apply in_map_iff in Hb. destruct Hb as (k & <- & _).
      rewrite axis_entry_eq by lia. pose proof (Z.mod_pos_bound (Z.of_nat k) w ltac:(lia)).
      pose proof (Z.div_pos (Z.of_nat k) w ltac:(lia) ltac:(lia)). nia.
Qed.

Lemma axis_matches : forall (W : Type) f s0 w c (h : hooks W) nt u,
  0 < f -> 0 < w -> w <= f -> (f | s0) -> 0 <= s0 <= nt -> 0 < nt -> nt <= int_max -> w <= int_max ->
  (forall v, h_panic h v = false) ->
  (forall a b v, h_ante_loop h 0 a v = h_ante_loop h 0 b v) ->
  exists wend recorded,
    advances c (out_hooks f s0 w h) [nt] (0, (u, [])) = Some (nt, (wend, recorded)) /\
    time_axis f s0 w nt = map fst recorded.
Proof.
  intros W f s0 w c h nt u Hf Hw Hwf Hd Hs Hn Hm Hwm NP Hante.
  destruct (records_ok W f s0 w c h nt [] u Hf Hwf Hn (Forall_nil _) ltac:(cbn [total fold_right]; lia) NP Hante) as (we & r & E & I & M & _).
  cbn [total fold_right] in *. rewrite Z.add_0_r in *.
  exists we, r. split; [exact E|].
  apply increasing_eq; [apply axis_sorted; lia|exact I|].
  intros x. rewrite M. apply axis_ok; assumption.
Qed.

(** counterexamples *)
Definition still : hooks unit := {| h_ante_loop := fun _ _ u => u; h_calc_gc := fun _ u => u;
  h_ante_step := fun _ u => u; h_adv := fun _ _ u => u; h_ante_delayed := fun _ u => u;
  h_post_step := fun _ u => u; h_panic := fun _ => false |}.
Definition cfg1 : cfg := {| n_eqns := 1; delayed_step := 0%N |}.

(** run shorter than outstart *)
Lemma axis_underflow : exists f s0 w nt, 0 < f /\ 0 < w <= f /\ (f | s0) /\ 0 < nt < s0 /\ nt_out f s0 w nt = 2 ^ 64 - 7.
Proof. exists 1, 10, 1, 1. repeat split; try lia. exists 10. lia. Qed.
(** window longer than the interval *)
Lemma window_twice : exists f w nt recorded, 0 < f /\ 0 < w /\
  advances cfg1 (out_hooks f 0 w still) [nt] (0, (tt, [])) = Some (nt, (tt, recorded)) /\
  ~ increasing (map fst recorded).
Proof.
  exists 1, 2, 1. eexists. split; [lia|]. split; [lia|]. split; [vm_compute; reflexivity|].
  intros H. pose proof (increasing_tail _ _ H) as H'. cbn in H'. pose proof (increasing_head _ _ H' 1 (or_introl eq_refl)). lia.
Qed.
(** a second advance() *)
Lemma axis_second_call : exists f n1 n2 recorded,
  0 < f /\ 0 < n1 /\ 0 < n2 /\
  advances cfg1 (out_hooks f 0 1 still) [n1; n2] (0, (tt, [])) = Some (n1 + n2, (tt, recorded)) /\
  ~ incl (map fst recorded) (time_axis f 0 1 n1).
Proof.
  exists 1, 1, 1. eexists. repeat (split; [lia|]). split; [vm_compute; reflexivity|].
  intros H. assert (In 2 [0; 1]) as [C|[C|[]]] by (apply H; right; right; left; reflexivity); discriminate.
Qed.
(** a leading advance(0) writes the initial state twice *)
Lemma initial_twice : exists recorded,
  advances cfg1 (out_hooks 1 0 1 still) [0; 1] (0, (tt, [])) = Some (1, (tt, recorded)) /\
  map fst recorded = [0; 0; 1].
Proof. eexists. split; [vm_compute; reflexivity|reflexivity]. Qed.
Lemma output_example : exists recorded,
  advances cfg1 (out_hooks 5 5 2 still) [7; 5] (0, (tt, [])) = Some (12, (tt, recorded)) /\
  map fst recorded = [0; 5; 6; 10; 11] /\ time_axis 5 5 2 12 = [0; 5; 6; 10; 11].
Proof. eexists. split; [vm_compute; reflexivity|]. split; reflexivity. Qed.
