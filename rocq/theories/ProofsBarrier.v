(** Proofs about ModelBarrier. *)
From Coq Require Import ZArith List Bool Lia.
From Coq Require Import ZifyBool ZifyNat.
From Verif Require Import ModelBarrier.
Import ListNotations.
Local Open Scope Z_scope.

Definition is_cur (s : bstate) (t : nat) : bool :=
  match b_thr s t with Blocked g _ _ => g =? b_gen s | Out _ => false end.

Definition ncur (k : nat) (f : nat -> bool) : nat := length (filter f (seq 0 k)).

Lemma ncur_ext k f g : (forall t, (t < k)%nat -> f t = g t) -> ncur k f = ncur k g.
Proof.
  intros H. unfold ncur. f_equal. apply filter_ext_in. intros t Ht. apply H. apply in_seq in Ht. lia.
Qed.

Lemma ncur_le k f : (ncur k f <= k)%nat.
Proof.
  unfold ncur. induction k; [simpl; lia|].
  rewrite seq_S, filter_app, app_length. simpl. destruct (f k); simpl; lia.
Qed.

Lemma ncur_set k f g t : (t < k)%nat -> f t = false -> g t = true ->
  (forall x, x <> t -> g x = f x) -> ncur k g = S (ncur k f).
Proof.
  intros Ht Hf Hg Ho. unfold ncur. induction k; [lia|].
  rewrite !seq_S, !filter_app, !app_length. simpl.
  destruct (Nat.eq_dec t k) as [->|Hne].
  - rewrite Hf, Hg. simpl. rewrite (filter_ext_in g f).
    + lia.
    + intros a Ha. apply in_seq in Ha. apply Ho. lia.
  - rewrite (Ho k) by lia. rewrite IHk by lia. destruct (f k); simpl; lia.
Qed.

Lemma ncur_full k f t : (t < k)%nat -> f t = false -> S (ncur k f) = k ->
  forall x, (x < k)%nat -> x <> t -> f x = true.
Proof.
  intros Ht Hf Hn x Hx Hne. destruct (f x) eqn:E; auto. exfalso.
  set (g := fun y => if Nat.eqb y t then true else f y).
  assert (A' : ncur k g = S (ncur k f)).
  { apply ncur_set with (t := t); auto; unfold g.
    - now rewrite Nat.eqb_refl.
    - intros y Hy. destruct (Nat.eqb_spec y t); congruence. }
  assert (gx : g x = false) by (unfold g; destruct (Nat.eqb_spec x t); congruence).
  assert (B' : ncur k (fun y => if Nat.eqb y x then true else g y) = S (ncur k g)).
  { apply ncur_set with (t := x); auto.
    - now rewrite Nat.eqb_refl.
    - intros y Hy. destruct (Nat.eqb_spec y x); congruence. }
  pose proof (ncur_le k (fun y => if Nat.eqb y x then true else g y)). lia.
Qed.

(** The invariant, valid while generation numbers fit in 32 bits. *)
Definition binv (k : nat) (s : bstate) : Prop :=
  0 <= b_gen s <= 2 ^ 32 /\
  b_count s = Z.of_nat k - Z.of_nat (ncur k (is_cur s)) /\
  (ncur k (is_cur s) < k)%nat /\
  forall t, (t < k)%nat ->
    match b_thr s t with
    | Out r => r = b_gen s
    | Blocked g r n => g = r /\ 0 <= r < 2 ^ 32 /\ (r = b_gen s \/ (r = b_gen s - 1 /\ n = true))
    end.

Lemma binv_init k : (0 < k)%nat -> binv k (binit k).
Proof.
  intros Hk. unfold binv, binit. cbn [b_gen b_count b_thr].
  assert (E : ncur k (is_cur (binit k)) = 0%nat).
  { unfold ncur, is_cur, binit. cbn [b_thr b_gen]. clear. induction (seq 0 k); simpl; auto. }
  unfold binit in E. rewrite E. repeat split; auto; lia.
Qed.

Lemma bupd_same f t v : bupd f t v t = v.
Proof. unfold bupd. now rewrite Nat.eqb_refl. Qed.
Lemma bupd_other f t v x : x <> t -> bupd f t v x = f x.
Proof. intros. unfold bupd. destruct (Nat.eqb_spec x t); congruence. Qed.

(** One step preserves the invariant as long as call numbers stay <= 2^32. *)
Lemma binv_step k s ev s' : (Z.of_nat k < 2 ^ 64) ->
  binv k s -> bstep k s ev = Some s' ->
  (forall t, (t < k)%nat -> entered (b_thr s' t) <= 2 ^ 32) -> binv k s'.
Proof.
  intros HK (Hg & Hc & Hn & Ht) Hs He.
  destruct ev as [t|t]; cbn [bstep] in Hs.
  - destruct (Nat.ltb_spec t k) as [Htk|]; [|discriminate].
    pose proof (Ht t Htk) as Hr.
    destruct (b_thr s t) as [r|] eqn:Et; [|discriminate]. cbv beta iota in Hr. subst r.
    pose proof (He t Htk) as Het.
    assert (Hlt : b_gen s < 2 ^ 32).
    { destruct (u64 (b_count s - 1) =? 0); [|destruct (u32 (b_gen s) =? b_gen s)];
        inversion Hs; subst s'; cbn [b_thr] in Het; rewrite bupd_same in Het;
        cbn [entered] in Het; lia. }
    clear Het.
    assert (Hu32 : u32 (b_gen s) = b_gen s) by (unfold u32; apply Z.mod_small; lia).
    assert (Hu64 : u64 (b_gen s + 1) = b_gen s + 1) by (unfold u64; apply Z.mod_small; lia).
    assert (Hcnt : u64 (b_count s - 1) = b_count s - 1).
    { unfold u64. apply Z.mod_small. lia. }
    rewrite Hu32, Hu64, Hcnt, Z.eqb_refl in Hs.
    assert (Hcur : is_cur s t = false) by (unfold is_cur; now rewrite Et).
    destruct (Z.eqb_spec (b_count s - 1) 0) as [E0|E0]; inversion Hs; subst s'; clear Hs.
    + (* last arrival *)
      assert (Hall : forall x, (x < k)%nat -> x <> t -> is_cur s x = true).
      { apply ncur_full; auto. lia. }
      unfold binv. cbn [b_gen b_count b_thr].
      assert (E : ncur k (is_cur {| b_gen := b_gen s + 1; b_count := Z.of_nat k;
           b_thr := bupd (fun x => notify (b_thr s x)) t (Out (b_gen s + 1)) |}) = 0%nat).
      { unfold ncur. rewrite (filter_ext_in _ (fun _ => false)).
        - clear. induction (seq 0 k); simpl; auto.
        - intros x Hx. apply in_seq in Hx. unfold is_cur. cbn [b_thr b_gen].
          destruct (Nat.eq_dec x t) as [->|Hne]; [now rewrite bupd_same|].
          rewrite bupd_other by auto.
          pose proof (Hall x ltac:(lia) Hne) as Hx1. unfold is_cur in Hx1.
          destruct (b_thr s x); cbn [notify] in *; [reflexivity|]. lia. }
      rewrite E. repeat split; try lia.
      intros x Hx. destruct (Nat.eq_dec x t) as [->|Hne]; [rewrite bupd_same; lia|].
      rewrite bupd_other by auto.
      pose proof (Hall x Hx Hne) as Hx1. pose proof (Ht x Hx) as Hx2. unfold is_cur in Hx1.
      destruct (b_thr s x); cbn [notify] in *; [discriminate|].
      destruct Hx2 as (-> & Hx2 & Hx3). repeat split; try lia; right; split; auto; lia.
    + (* block *)
      unfold binv. cbn [b_gen b_count b_thr].
      assert (E : ncur k (is_cur {| b_gen := b_gen s; b_count := b_count s - 1;
           b_thr := bupd (b_thr s) t (Blocked (b_gen s) (b_gen s) false) |}) = S (ncur k (is_cur s))).
      { apply ncur_set with (t := t); auto.
        - unfold is_cur. cbn [b_thr b_gen]. rewrite bupd_same. apply Z.eqb_refl.
        - intros x Hx. unfold is_cur. cbn [b_thr b_gen]. now rewrite bupd_other. }
      rewrite E. repeat split; try lia.
      intros x Hx. destruct (Nat.eq_dec x t) as [->|Hne].
      * rewrite bupd_same. repeat split; try lia.
      * rewrite bupd_other by auto. apply Ht; auto.
  - destruct (Nat.ltb_spec t k) as [Htk|]; [|discriminate].
    pose proof (Ht t Htk) as Hr.
    destruct (b_thr s t) as [|g r n] eqn:Et; [discriminate|]. destruct Hr as (-> & Hr1 & Hr2).
    destruct (Z.eqb_spec r (b_gen s)) as [Eg|Eg]; inversion Hs; subst s'; clear Hs;
      unfold binv; cbn [b_gen b_count b_thr].
    + assert (E : ncur k (is_cur {| b_gen := b_gen s; b_count := b_count s;
           b_thr := bupd (b_thr s) t (Blocked r r false) |}) = ncur k (is_cur s)).
      { apply ncur_ext. intros x Hx. unfold is_cur. cbn [b_thr b_gen].
        destruct (Nat.eq_dec x t) as [->|Hne]; [rewrite bupd_same, Et; reflexivity|].
        now rewrite bupd_other. }
      rewrite E. repeat split; try lia.
      intros x Hx. destruct (Nat.eq_dec x t) as [->|Hne].
      * rewrite bupd_same. repeat split; try lia.
      * rewrite bupd_other by auto. apply Ht; auto.
    + assert (E : ncur k (is_cur {| b_gen := b_gen s; b_count := b_count s;
           b_thr := bupd (b_thr s) t (Out (r + 1)) |}) = ncur k (is_cur s)).
      { apply ncur_ext. intros x Hx. unfold is_cur. cbn [b_thr b_gen].
        destruct (Nat.eq_dec x t) as [->|Hne]; [rewrite bupd_same, Et; lia|].
        now rewrite bupd_other. }
      rewrite E. repeat split; try lia.
      intros x Hx. destruct (Nat.eq_dec x t) as [->|Hne].
      * rewrite bupd_same. lia.
      * rewrite bupd_other by auto. apply Ht; auto.
Qed.

Lemma entered_mono k s ev s' t : bstep k s ev = Some s' ->
  entered (b_thr s t) <= entered (b_thr s' t) /\ returned (b_thr s t) <= returned (b_thr s' t).
Proof.
  intros H. destruct ev as [u|u]; cbn [bstep] in H; destruct (u <? k)%nat; try discriminate;
    destruct (b_thr s u) as [r|g r n] eqn:Eu; try discriminate.
  - destruct (_ =? 0); [|destruct (_ =? _)]; inversion H; subst s'; cbn [b_thr];
      (destruct (Nat.eq_dec t u) as [->|Hne];
        [rewrite bupd_same, Eu; cbn [entered returned]; lia
        |rewrite bupd_other by auto; try (destruct (b_thr s t); cbn [notify]; cbn [entered returned]); lia]).
  - destruct (_ =? _); inversion H; subst s'; cbn [b_thr];
      (destruct (Nat.eq_dec t u) as [->|Hne];
        [rewrite bupd_same, Eu; cbn [entered returned]; lia
        |rewrite bupd_other by auto; lia]).
Qed.

Lemma entered_mono_run k evs : forall s s' t, brun k s evs = Some s' ->
  entered (b_thr s t) <= entered (b_thr s' t).
Proof.
  induction evs as [|ev evs IH]; intros s s' t H; cbn [brun] in H.
  - inversion H; lia.
  - destruct (bstep k s ev) as [s1|] eqn:E; [|discriminate].
    pose proof (entered_mono k s ev s1 t E). specialize (IH s1 s' t H). lia.
Qed.

Lemma binv_run k evs : (Z.of_nat k < 2 ^ 64) -> forall s s', binv k s -> brun k s evs = Some s' ->
  (forall t, (t < k)%nat -> entered (b_thr s' t) <= 2 ^ 32) -> binv k s'.
Proof.
  intros HK. induction evs as [|ev evs IH]; intros s s' HI H He; cbn [brun] in H.
  - inversion H; subst; exact HI.
  - destruct (bstep k s ev) as [s1|] eqn:E; [|discriminate].
    apply (IH s1 s'); auto. apply (binv_step k s ev); auto.
    intros t Ht. pose proof (entered_mono_run k evs s1 s' t H). specialize (He t Ht). lia.
Qed.

Lemma barrier_safe k evs s : (0 < k)%nat -> Z.of_nat k < 2 ^ 64 ->
  brun k (binit k) evs = Some s ->
  (forall t, (t < k)%nat -> entered (b_thr s t) <= 2 ^ 32) ->
  forall t u, (t < k)%nat -> (u < k)%nat -> returned (b_thr s t) <= entered (b_thr s u).
Proof.
  intros Hk HK Hr He t u Ht Hu.
  destruct (binv_run k evs HK _ _ (binv_init k Hk) Hr He) as (_ & _ & _ & HI).
  pose proof (HI t Ht) as A. pose proof (HI u Hu) as B.
  destruct (b_thr s t), (b_thr s u); cbn [returned entered]; lia.
Qed.

(** Steps that do not rely on spurious wake-ups. *)
Definition productive (s : bstate) (ev : bevent) : Prop :=
  match ev with
  | Enter _ => True
  | Wake t => match b_thr s t with Blocked _ _ n => n = true | Out _ => False end
  end.

Fixpoint work (k : nat) (f : nat -> tstate) : Z :=
  match k with
  | O => 0
  | S j => work j f + entered (f j) + returned (f j)
  end.

Lemma work_lt k f g t : (t < k)%nat ->
  (forall x, entered (f x) <= entered (g x) /\ returned (f x) <= returned (g x)) ->
  entered (f t) + returned (f t) < entered (g t) + returned (g t) -> work k f < work k g.
Proof.
  intros Ht Hle Hlt. induction k; [lia|]. cbn [work].
  assert (W : forall j, work j f <= work j g).
  { induction j; cbn [work]; [lia|]. pose proof (Hle j). lia. }
  destruct (Nat.eq_dec t k) as [->|Hne].
  - specialize (W k). lia.
  - pose proof (Hle k). specialize (IHk ltac:(lia)). lia.
Qed.

Lemma barrier_progress k evs s : (0 < k)%nat -> Z.of_nat k < 2 ^ 64 ->
  brun k (binit k) evs = Some s ->
  (forall t, (t < k)%nat -> entered (b_thr s t) <= 2 ^ 32) ->
  exists ev s', productive s ev /\ bstep k s ev = Some s' /\ work k (b_thr s) < work k (b_thr s').
Proof.
  intros Hk HK Hr He.
  destruct (binv_run k evs HK _ _ (binv_init k Hk) Hr He) as (Hg & Hc & Hn & HI).
  (* some thread is not blocked in the current generation *)
  assert (exists t, (t < k)%nat /\ is_cur s t = false) as (t & Ht & Hcur).
  { destruct (existsb (fun t => negb (is_cur s t)) (seq 0 k)) eqn:E.
    - apply existsb_exists in E. destruct E as (t & H1 & H2). exists t.
      apply in_seq in H1. split; [lia|]. now apply negb_true_iff.
    - exfalso. assert (A : ncur k (is_cur s) = k); [|lia].
      unfold ncur. rewrite (filter_ext_in _ (fun _ => true)).
      + clear. rewrite <- (seq_length k 0) at 2. induction (seq 0 k); simpl; auto.
      + intros x Hx. destruct (is_cur s x) eqn:F; auto. exfalso.
        assert (existsb (fun t => negb (is_cur s t)) (seq 0 k) = true); [|congruence].
        apply existsb_exists. exists x. rewrite F. auto. }
  pose proof (HI t Ht) as Hst. unfold is_cur in Hcur.
  assert (Hb : (t <? k)%nat = true) by lia.
  destruct (b_thr s t) as [r|g r n] eqn:Et.
  - assert (G : exists s', bstep k s (Enter t) = Some s' /\
       entered (b_thr s t) + returned (b_thr s t) < entered (b_thr s' t) + returned (b_thr s' t)).
    { cbn [bstep]. rewrite Hb, Et.
      destruct (_ =? 0); [|destruct (_ =? _)]; eexists; (split; [reflexivity|]);
        cbn [b_thr]; rewrite bupd_same; cbn [entered returned]; lia. }
    destruct G as (s' & E & W). exists (Enter t), s'. split; [exact I|]. split; [exact E|].
    apply work_lt with (t := t); auto.
    intros x. exact (entered_mono k s _ s' x E).
  - destruct Hst as (-> & Hr1 & Hr2).
    assert (E : bstep k s (Wake t) = Some {| b_gen := b_gen s; b_count := b_count s;
                      b_thr := bupd (b_thr s) t (Out (r + 1)) |}).
    { cbn [bstep]. rewrite Hb, Et. rewrite Hcur. reflexivity. }
    exists (Wake t). eexists. split; [|split; [exact E|]].
    + cbn [productive]. rewrite Et. lia.
    + apply work_lt with (t := t); auto.
      * intros x. exact (entered_mono k s _ _ x E).
      * cbn [b_thr]. rewrite bupd_same, Et. cbn [entered returned]. lia.
Qed.

(** No step ever loses work, and spurious wake-ups do not change the counts. *)
Lemma barrier_work_mono k s ev s' : bstep k s ev = Some s' -> work k (b_thr s) <= work k (b_thr s').
Proof.
  intros H.
  assert (W : forall j, work j (b_thr s) <= work j (b_thr s')).
  { induction j; cbn [work]; [lia|]. pose proof (entered_mono k s ev s' j H). lia. }
  apply W.
Qed.

(** ** After 2^32 generations *)
Lemma brun_app k e1 : forall s e2, brun k s (e1 ++ e2) =
  match brun k s e1 with Some s' => brun k s' e2 | None => None end.
Proof.
  induction e1 as [|ev e1 IH]; intros s e2; cbn [brun app]; auto.
  destruct (bstep k s ev); auto.
Qed.

Definition round2 : list bevent := [Enter 0; Enter 1; Wake 0].

Lemma round2_ok s n : 0 <= n < 2 ^ 32 -> b_gen s = n -> b_count s = 2 ->
  b_thr s 0%nat = Out n -> b_thr s 1%nat = Out n ->
  exists s', brun 2 s round2 = Some s' /\ b_gen s' = n + 1 /\ b_count s' = 2 /\
    b_thr s' 0%nat = Out (n + 1) /\ b_thr s' 1%nat = Out (n + 1).
Proof.
  intros Hn Hg Hc H0 H1. unfold round2. cbn [brun bstep Nat.ltb Nat.leb]. rewrite H0, Hc, Hg.
  change (u64 (2 - 1) =? 0) with false. cbv iota.
  assert (Hu : u32 n = n) by (unfold u32; apply Z.mod_small; lia).
  rewrite Hu, Z.eqb_refl. cbn [b_thr b_count b_gen]. rewrite bupd_other by discriminate. rewrite H1.
  change (u64 (u64 (2 - 1) - 1) =? 0) with true. cbv iota. cbn [b_thr b_gen b_count].
  rewrite bupd_other by discriminate. rewrite bupd_same. cbn [notify].
  assert (Hu' : u64 (n + 1) = n + 1) by (unfold u64; apply Z.mod_small; lia).
  rewrite Hu'. replace (n =? n + 1) with false by lia.
  eexists. split; [reflexivity|]. cbn [b_gen b_count b_thr].
  repeat split; auto.
Qed.

Lemma rounds2 (n : nat) : Z.of_nat n <= 2 ^ 32 ->
  exists evs s, brun 2 (binit 2) evs = Some s /\ b_gen s = Z.of_nat n /\ b_count s = 2 /\
    b_thr s 0%nat = Out (Z.of_nat n) /\ b_thr s 1%nat = Out (Z.of_nat n).
Proof.
  induction n as [|n IH]; intros Hn.
  - exists [], (binit 2). repeat split.
  - destruct IH as (evs & s & R & A & B & C & D); [lia|].
    destruct (round2_ok s (Z.of_nat n) ltac:(lia) A B C D) as (s' & R' & A' & B' & C' & D').
    exists (evs ++ round2), s'. rewrite brun_app, R.
    replace (Z.of_nat (S n)) with (Z.of_nat n + 1) by lia. auto.
Qed.

Lemma barrier_breaks :
  exists evs s, brun 2 (binit 2) evs = Some s /\
    returned (b_thr s 0%nat) = 2 ^ 32 + 1 /\ entered (b_thr s 1%nat) = 2 ^ 32.
Proof.
  destruct (rounds2 (Z.to_nat (2 ^ 32))) as (evs & s & R & A & B & C & D).
  { rewrite Z2Nat.id; lia. }
  rewrite Z2Nat.id in * by lia.
  exists (evs ++ [Enter 0]). 
  exists {| b_gen := 2 ^ 32; b_count := 1; b_thr := bupd (b_thr s) 0 (Out (2 ^ 32 + 1)) |}.
  rewrite brun_app, R. cbn [brun bstep Nat.ltb Nat.leb]. rewrite C, B, A.
  change (u64 (2 - 1) =? 0) with false. change (u32 (2 ^ 32) =? 2 ^ 32) with false. cbv iota.
  change (u64 (2 - 1)) with 1.
  split; [reflexivity|]. cbn [b_thr]. rewrite bupd_same, bupd_other by discriminate. rewrite D.
  split; reflexivity.
Qed.
