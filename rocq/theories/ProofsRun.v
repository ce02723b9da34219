(** Proofs about ModelRun. *)
From Coq Require Import ZArith QArith List Bool Lia Permutation Lqa.
From Coq Require Import ZifyBool ZifyNat ZifyN.
From Verif Require Import SpecRun ModelIndex ProofsIndex ModelRun.
Import ListNotations.
Local Open Scope Z_scope.

(** ** Time levels *)

Lemma buf_of_mod n : buf_of n = Some (n mod 2).
Proof. apply arrvec_index_2. Qed.

Lemma cycle_n_mod n : (cycle_n 2 n) mod 2 = (n + 1) mod 2.
Proof.
  unfold cycle_n. pose proof (Z.quot_rem (n + 1) 2 ltac:(lia)).
  rewrite <- (Z.mod_add (Z.rem (n + 1) 2 - 2) (Z.quot (n + 1) 2 + 1) 2) by lia.
  f_equal. lia.
Qed.

Lemma buf_cycle n : buf_of (cycle_n 2 n) = buf_of (n + 1).
Proof. rewrite !buf_of_mod, cycle_n_mod. reflexivity. Qed.

Lemma buf_cong a b : buf_of a = buf_of b -> buf_of (cycle_n 2 a) = buf_of (cycle_n 2 b).
Proof.
  rewrite !buf_of_mod. rewrite !cycle_n_mod. intros H. injection H as H. f_equal.
  rewrite Z.add_mod, H, <- Z.add_mod by lia. reflexivity.
Qed.

Fixpoint flips (k : nat) (n : Z) : Z :=
  match k with O => n | S k' => flips k' (cycle_n 2 n) end.

Lemma flips_cong k : forall a b, buf_of a = buf_of b -> buf_of (flips k a) = buf_of (flips k b).
Proof. induction k; simpl; auto. intros. apply IHk, buf_cong, H. Qed.

Lemma upd_same {A} (f : nat -> A) e v : upd f e v e = v.
Proof. unfold upd. now rewrite Nat.eqb_refl. Qed.
Lemma upd_other {A} (f : nat -> A) e v x : x <> e -> upd f e v x = f x.
Proof. intros. unfold upd. destruct (Nat.eqb_spec x e); congruence. Qed.

Lemma advop_more_spec c e m : forall t,
  nvec (advop_more c e m t) e = flips m (nvec t e) /\
  (forall x, x <> e -> nvec (advop_more c e m t) x = nvec t x /\
                       written (advop_more c e m t) x = written t x) /\
  mem_n (advop_more c e m t) = (if is_last_eqn c e then flips m (mem_n t) else mem_n t) /\
  (written t e = buf_of (nvec t e + 1) ->
   written (advop_more c e m t) e = buf_of (nvec (advop_more c e m t) e + 1)).
Proof.
  induction m as [|m IH]; intros t; cbn [advop_more flips].
  - repeat split; auto. destruct (is_last_eqn c e); auto.
  - destruct (IH (write_next e (cycle c e t))) as (A & B & C & D).
    split; [|split; [|split]].
    + rewrite A. unfold write_next, cycle. cbn [nvec]. now rewrite upd_same.
    + intros x Hx. destruct (B x Hx) as [B1 B2]. rewrite B1, B2.
      unfold write_next, cycle. cbn [nvec written]. now rewrite !upd_other by auto.
    + rewrite C. unfold write_next, cycle. cbn [mem_n]. destruct (is_last_eqn c e); auto.
    + intros _. apply D. unfold write_next, cycle. cbn [nvec written]. now rewrite !upd_same.
Qed.

Lemma loop_body_spec c k t e : (0 < k)%nat ->
  let t' := loop_body_tl c k t e in
  nvec t' e = flips k (nvec t e) /\
  written t' e = buf_of (nvec t' e) /\
  (forall x, x <> e -> nvec t' x = nvec t x /\ written t' x = written t x) /\
  mem_n t' = (if is_last_eqn c e then flips k (mem_n t) else mem_n t).
Proof.
  intros Hk. destruct k as [|m]; [lia|]. unfold loop_body_tl, advop_tl.
  destruct (advop_more_spec c e m (write_next e t)) as (A & B & C & D).
  set (t1 := advop_more c e m (write_next e t)) in *.
  assert (flips_S : forall j n, flips (S j) n = cycle_n 2 (flips j n)).
  { intros j; induction j as [|j IHj]; intros n; auto. cbn [flips] in *. apply IHj. }
  cbn zeta. unfold cycle. cbn [nvec written mem_n]. rewrite !upd_same.
  split; [|split; [|split]].
  - rewrite flips_S. f_equal. rewrite A. reflexivity.
  - rewrite buf_cycle. apply D. unfold write_next; cbn [nvec written]. now rewrite upd_same.
  - intros x Hx. rewrite upd_other by auto. destruct (B x Hx) as [B1 B2].
    rewrite B1, B2. unfold write_next; cbn [nvec written]. now rewrite upd_other by auto.
  - rewrite C, flips_S. unfold write_next; cbn [mem_n]. destruct (is_last_eqn c e); auto.
Qed.

Lemma fold_bodies c k l : (0 < k)%nat -> NoDup l -> forall t,
  let t' := fold_left (loop_body_tl c k) l t in
  (forall e, In e l -> nvec t' e = flips k (nvec t e) /\ written t' e = buf_of (nvec t' e)) /\
  (forall e, ~ In e l -> nvec t' e = nvec t e /\ written t' e = written t e) /\
  (forall z, In z l -> is_last_eqn c z = true ->
     (forall e, In e l -> is_last_eqn c e = true -> e = z) -> mem_n t' = flips k (mem_n t)) /\
  ((forall e, In e l -> is_last_eqn c e = false) -> mem_n t' = mem_n t).
Proof.
  intros Hk. induction l as [|x l IH]; intros Hnd t; cbn [fold_left]; cbn zeta.
  - repeat split; intros; try contradiction; auto.
  - inversion Hnd as [|? ? Hx Hl]; subst.
    destruct (loop_body_spec c k t x Hk) as (A & B & C & D).
    set (t1 := loop_body_tl c k t x) in *.
    destruct (IH Hl t1) as (I1 & I2 & I3 & I4). cbn zeta in *.
    set (t' := fold_left (loop_body_tl c k) l t1) in *.
    split; [|split; [|split]].
    + intros e [->|He].
      * destruct (I2 e Hx) as [J1 J2]. rewrite J1, J2. auto.
      * destruct (I1 e He) as [J1 J2]. split; [|exact J2].
        rewrite J1. f_equal. apply C. intros ->. contradiction.
    + intros e He. assert (e <> x /\ ~ In e l) as [Hex Hel] by (split; intro; apply He; simpl; auto).
      destruct (I2 e Hel) as [J1 J2]. rewrite J1, J2. apply C; auto.
    + intros z Hz Hlast Huniq. destruct Hz as [<-|Hz].
      * rewrite I4, D, Hlast; auto.
        intros e He. destruct (is_last_eqn c e) eqn:E; auto.
        assert (e = x) by (apply Huniq; simpl; auto). subst. contradiction.
      * rewrite (I3 z); auto.
        -- rewrite D. destruct (is_last_eqn c x) eqn:E; auto.
           assert (x = z) by (apply Huniq; simpl; auto). subst. contradiction.
        -- intros e He. apply Huniq. simpl; auto.
    + intros Hall. rewrite I4, D; [|intros; apply Hall; simpl; auto].
      rewrite Hall by (simpl; auto). reflexivity.
Qed.

Lemma plain_delayed_perm c : Permutation (plain_eqns c ++ delayed_eqns c) (eqns c).
Proof.
  unfold plain_eqns, delayed_eqns. induction (eqns c) as [|x l IH]; simpl; auto.
  destruct (is_delayed c x); simpl.
  - rewrite <- Permutation_middle. constructor. exact IH.
  - constructor. exact IH.
Qed.

Lemma step_order_NoDup c : NoDup (plain_eqns c ++ delayed_eqns c).
Proof.
  apply (Permutation_NoDup (Permutation_sym (plain_delayed_perm c))). apply seq_NoDup.
Qed.

Definition valid_mask (c : cfg) : Prop := mask_names_existing (n_eqns c) (delayed_step c).

Lemma last_eqn_unique c : (0 < n_eqns c)%nat -> valid_mask c ->
  exists z, In z (eqns c) /\ is_last_eqn c z = true /\
            forall e, In e (eqns c) -> is_last_eqn c e = true -> e = z.
Proof.
  intros Hn Hv. unfold is_last_eqn.
  destruct (N.eq_dec (most_significant (delayed_step c)) 0) as [E|E].
  - exists (n_eqns c - 1)%nat. rewrite E. unfold eqns. setoid_rewrite in_seq.
    repeat split; try lia.
  - assert (exists k, most_significant (delayed_step c) = N.succ k) as [k Hk]
      by (exists (N.pred (most_significant (delayed_step c))); lia).
    pose proof Hk as Hk'. apply most_significant_spec in Hk'. destruct Hk' as [Hb _].
    apply Hv in Hb. exists (N.to_nat k). rewrite Hk. unfold eqns. setoid_rewrite in_seq.
    repeat split; try lia.
Qed.

Definition tl_inv (c : cfg) (t : tlev) : Prop :=
  forall e, In e (eqns c) -> written t e = advectee_buf t /\ buf_of (nvec t e) = advectee_buf t.

Lemma step_tl_inv c k t : (0 < n_eqns c)%nat -> valid_mask c -> (0 < k)%nat ->
  tl_inv c t -> tl_inv c (step_tl c k t).
Proof.
  intros Hn Hv Hk HI. unfold step_tl. rewrite <- fold_left_app.
  destruct (fold_bodies c k (plain_eqns c ++ delayed_eqns c) Hk (step_order_NoDup c) t)
    as (A & _ & B & _). cbn zeta in *.
  set (t' := fold_left _ _ t) in *.
  assert (HP : forall e, In e (plain_eqns c ++ delayed_eqns c) <-> In e (eqns c)).
  { intros e. split; apply Permutation_in; [|apply Permutation_sym]; apply plain_delayed_perm. }
  destruct (last_eqn_unique c Hn Hv) as (z & Hz & Hl & Hu).
  assert (M : mem_n t' = flips k (mem_n t)).
  { apply (B z); auto. - apply HP; auto. - intros e He. apply Hu, HP, He. }
  intros e He. destruct (A e (proj2 (HP e) He)) as [A1 A2].
  unfold advectee_buf. rewrite A2, A1, M.
  assert (Q : buf_of (flips k (nvec t e)) = buf_of (flips k (mem_n t))).
  { apply flips_cong. destruct (HI e He) as [_ H]. exact H. }
  auto.
Qed.

Lemma steps_tl_inv c ks : (0 < n_eqns c)%nat -> valid_mask c -> Forall (fun k => (0 < k)%nat) ks ->
  forall t, tl_inv c t -> tl_inv c (steps_tl c ks t).
Proof.
  intros Hn Hv. induction ks as [|k ks IH]; intros HF t HI; cbn [steps_tl fold_left]; auto.
  inversion HF; subst. apply IH; auto. apply step_tl_inv; auto.
Qed.

Lemma init_inv c : tl_inv c tlev_init.
Proof. intros e He. split; reflexivity. Qed.

(** Number of passes is positive whenever n_iters is. *)
Lemma passes_pos n f ts : (0 < n)%nat -> (0 < passes n f ts)%nat.
Proof. intros. unfold passes. destruct (_ && _); lia. Qed.

(** ** Main loop, fixed dt *)
Lemma total_cons n l : total (n :: l) = n + total l.
Proof. reflexivity. Qed.
Lemma total_nil : total [] = 0.
Proof. reflexivity. Qed.
Lemma total_nonneg l : Forall (fun n => 0 <= n) l -> 0 <= total l.
Proof. induction 1; [rewrite total_nil|rewrite total_cons]; lia. Qed.

Section FixedDtProofs.
  Context {U : Type}.
  Variable (c : cfg) (h : hooks U).

  Fixpoint iter_steps (n : nat) (s : Z * U) : Z * U :=
    match n with O => s | S m => iter_steps m (one_step c h s) end.

  Lemma one_step_ts s : fst (one_step c h s) = fst s + 1.
  Proof. destruct s. reflexivity. Qed.

  Lemma iter_steps_ts n : forall s, fst (iter_steps n s) = fst s + Z.of_nat n.
  Proof. induction n; intros s; cbn [iter_steps]; [lia|]. rewrite IHn, one_step_ts. lia. Qed.

  Lemma iter_steps_add n m s : iter_steps (n + m) s = iter_steps m (iter_steps n s).
  Proof. revert s; induction n; intros s; cbn [iter_steps Nat.add]; auto. Qed.

  (** The loop performs a whole number of steps, never out of fuel, and stops
      early only at a state whose panic flag is set. *)
  Lemma main_loop_char f nt s : (Z.to_nat (nt - fst s) < f)%nat ->
    exists k, main_loop c h f nt s = Some (iter_steps k s) /\
      (k <= Z.to_nat (nt - fst s))%nat /\
      (forall j, (j < k)%nat -> h_panic h (snd (iter_steps j s)) = false) /\
      ((k < Z.to_nat (nt - fst s))%nat -> h_panic h (snd (iter_steps k s)) = true).
  Proof.
    revert s. induction f as [|f IH]; intros s Hf; [lia|]. cbn [main_loop].
    destruct (Z.ltb_spec (fst s) nt) as [Hlt|Hge].
    - destruct (h_panic h (snd s)) eqn:Hp.
      + exists 0%nat. cbn [iter_steps]. repeat split; auto; lia.
      + destruct (IH (one_step c h s)) as (k & Hk & Hle & Hbefore & Hafter).
        { rewrite one_step_ts. lia. }
        rewrite one_step_ts in *.
        exists (S k). cbn [iter_steps]. split; [exact Hk|]. split; [lia|]. split.
        * intros [|j] Hj; cbn [iter_steps]; auto. apply Hbefore. lia.
        * intros Hlt'. apply Hafter. lia.
    - exists 0%nat. cbn [iter_steps]. repeat split; auto; lia.
  Qed.

  Lemma main_loop_nopanic f nt s : (Z.to_nat (nt - fst s) < f)%nat ->
    (forall u, h_panic h u = false) ->
    main_loop c h f nt s = Some (iter_steps (Z.to_nat (nt - fst s)) s).
  Proof.
    intros Hf Hp. destruct (main_loop_char f nt s Hf) as (k & Hk & Hle & _ & Ha).
    destruct (Nat.eq_dec k (Z.to_nat (nt - fst s))) as [->|Hne]; [exact Hk|].
    rewrite Hp in Ha. specialize (Ha ltac:(lia)). discriminate.
  Qed.

  Definition ante (nt : Z) (s : Z * U) : Z * U :=
    if fst s =? 0 then (fst s, h_ante_loop h (fst s) nt (snd s)) else s.

  Lemma ante_ts nt s : fst (ante nt s) = fst s.
  Proof. unfold ante. destruct (fst s =? 0); reflexivity. Qed.

  Lemma wrap32_id x : int_min <= x <= int_max -> wrap32 x = x.
  Proof.
    unfold wrap32, int_min, int_max. intros. rewrite Z.mod_small by lia. lia.
  Qed.

  Lemma solve_char nt s : int_min <= nt + fst s <= int_max ->
    exists k, solve c h nt s = Some (iter_steps k (ante (nt + fst s) s)) /\
      (k <= Z.to_nat nt)%nat /\
      (forall j, (j < k)%nat -> h_panic h (snd (iter_steps j (ante (nt + fst s) s))) = false) /\
      ((k < Z.to_nat nt)%nat -> h_panic h (snd (iter_steps k (ante (nt + fst s) s))) = true).
  Proof.
    intros Hr. unfold solve. rewrite wrap32_id by lia. cbn zeta.
    fold (ante (nt + fst s) s).
    destruct (main_loop_char (S (Z.to_nat (nt + fst s - fst (ante (nt + fst s) s)))) (nt + fst s)
                (ante (nt + fst s) s) ltac:(lia)) as (k & H1 & H2 & H3 & H4).
    exists k. rewrite ante_ts in *.
    replace (nt + fst s - fst s) with nt in * by lia. auto.
  Qed.

  Lemma solve_nopanic nt s : int_min <= nt + fst s <= int_max ->
    (forall u, h_panic h u = false) ->
    solve c h nt s = Some (iter_steps (Z.to_nat nt) (ante (nt + fst s) s)).
  Proof.
    intros Hr Hp. destruct (solve_char nt s Hr) as (k & Hk & Hle & _ & Ha).
    destruct (Nat.eq_dec k (Z.to_nat nt)) as [->|Hne]; [exact Hk|].
    rewrite Hp in Ha. specialize (Ha ltac:(lia)). discriminate.
  Qed.

  Lemma solve_additive a b s :
    1 <= a -> 0 <= b -> 0 <= fst s -> fst s + a + b <= int_max ->
    (forall u, h_panic h u = false) ->
    (forall ts nt nt' u, h_ante_loop h ts nt u = h_ante_loop h ts nt' u) ->
    advances c h [a; b] s = advances c h [a + b] s.
  Proof.
    intros Ha Hb Hs Hr Hp Hl. unfold int_max in *. cbn [advances].
    rewrite solve_nopanic by (unfold int_min, int_max; auto; lia).
    rewrite (solve_nopanic (a + b)) by (unfold int_min, int_max; auto; lia).
    set (s1 := iter_steps (Z.to_nat a) (ante (a + fst s) s)).
    assert (F : fst s1 = fst s + a).
    { unfold s1. rewrite iter_steps_ts, ante_ts. lia. }
    rewrite solve_nopanic by (unfold int_min, int_max; auto; lia).
    assert (An : forall x, ante x s1 = s1).
    { intros x. unfold ante. destruct (Z.eqb_spec (fst s1) 0); [lia|reflexivity]. }
    rewrite An. unfold s1. rewrite <- iter_steps_add.
    rewrite Z2Nat.inj_add by lia. do 2 f_equal.
    unfold ante. destruct (fst s =? 0); [|reflexivity]. f_equal. apply Hl.
  Qed.

  (** Histories of calls. *)
  Lemma advances_ts calls : forall s,
    Forall (fun n => 0 <= n) calls -> 0 <= fst s ->
    fst s + total calls <= int_max ->
    (forall u, h_panic h u = false) ->
    exists s', advances c h calls s = Some s' /\ fst s' = fst s + total calls.
  Proof.
    induction calls as [|n calls IH]; intros s HF Hs Hr Hp; cbn [advances] in *; rewrite ?total_cons, ?total_nil in *.
    - exists s. split; auto. lia.
    - inversion HF; subst.
      assert (0 <= total calls) by (apply total_nonneg; assumption).
      rewrite solve_nopanic by (unfold int_min, int_max in *; auto; lia).
      destruct (IH (iter_steps (Z.to_nat n) (ante (n + fst s) s))) as (s' & E & F); auto;
        rewrite ?iter_steps_ts, ?ante_ts in *; try lia.
      exists s'. split; auto. lia.
  Qed.

  Lemma solve_negative nt s : nt <= 0 -> int_min <= nt + fst s <= int_max ->
    solve c h nt s = Some (ante (nt + fst s) s).
  Proof.
    intros Hn Hr. destruct (solve_char nt s Hr) as (k & Hk & Hle & _).
    replace k with 0%nat in Hk by lia. exact Hk.
  Qed.

  (** Once the panic flag is set, nothing happens any more. *)
  Lemma solve_panicked nt s : fst s <> 0 -> h_panic h (snd s) = true ->
    int_min <= nt + fst s <= int_max -> solve c h nt s = Some s.
  Proof.
    intros H0 Hp Hr. destruct (solve_char nt s Hr) as (k & Hk & Hle & Hb & _).
    assert (An : ante (nt + fst s) s = s).
    { unfold ante. destruct (Z.eqb_spec (fst s) 0); [lia|reflexivity]. }
    rewrite An in *. destruct k as [|k]; [exact Hk|].
    specialize (Hb 0%nat ltac:(lia)). cbn [iter_steps] in Hb. congruence.
  Qed.

  Lemma advances_panicked calls : forall s, fst s <> 0 -> h_panic h (snd s) = true ->
    Forall (fun n => int_min <= n + fst s <= int_max) calls ->
    advances c h calls s = Some s.
  Proof.
    induction calls as [|n calls IH]; intros s H0 Hp HF; cbn [advances]; auto.
    inversion HF; subst. rewrite solve_panicked by auto. apply IH; auto.
  Qed.
End FixedDtProofs.

(** ** Traces *)
(** What one step must look like, stated without the loop's own fold. *)
Definition step_events (c : cfg) : list event :=
  [CalcGC; AnteStep] ++ map Adv (filter (fun e => negb (N.testbit (delayed_step c) (N.of_nat e))) (seq 0 (n_eqns c)))
  ++ [AnteDelayed] ++ map Adv (filter (fun e => N.testbit (delayed_step c) (N.of_nat e)) (seq 0 (n_eqns c)))
  ++ [PostStep].

Lemma fold_adv p l : forall ts u,
  fold_left (fun u e => h_adv (tracer p) ts e u) l u = u ++ map Adv l.
Proof.
  induction l as [|x l IH]; intros ts u; cbn [fold_left map]; [now rewrite app_nil_r|].
  rewrite IH. cbn [tracer h_adv]. now rewrite <- app_assoc.
Qed.

Lemma one_step_trace c p ts u :
  one_step c (tracer p) (ts, u) = (ts + 1, u ++ step_events c).
Proof.
  unfold one_step. rewrite !fold_adv. cbn [tracer h_calc_gc h_ante_step h_ante_delayed h_post_step].
  f_equal. unfold step_events, plain_eqns, delayed_eqns, is_delayed, eqns.
  rewrite !filter_ext with (f := fun e => isset (delayed_step c) (bit (N.of_nat e)))
                           (g := fun e => N.testbit (delayed_step c) (N.of_nat e))
    by (intros; apply isset_bit).
  rewrite !filter_ext with (f := fun e => negb (isset (delayed_step c) (bit (N.of_nat e))))
                           (g := fun e => negb (N.testbit (delayed_step c) (N.of_nat e)))
    by (intros; now rewrite isset_bit).
  rewrite <- !app_assoc. reflexivity.
Qed.

Lemma iter_steps_trace c p n : forall ts u,
  iter_steps c (tracer p) n (ts, u) = (ts + Z.of_nat n, u ++ concat (repeat (step_events c) n)).
Proof.
  induction n as [|n IH]; intros ts u; cbn [iter_steps repeat concat].
  - rewrite app_nil_r. f_equal. lia.
  - rewrite one_step_trace, IH, <- app_assoc. f_equal. lia.
Qed.

Definition no_panic : list event -> bool := fun _ => false.

Lemma advances_trace_started c calls : forall ts u,
  Forall (fun n => 0 <= n) calls -> 0 < ts ->
  ts + total calls <= int_max ->
  advances c (tracer no_panic) calls (ts, u) =
  Some (ts + total calls,
        u ++ concat (repeat (step_events c) (Z.to_nat (total calls)))).
Proof.
  induction calls as [|n calls IH]; intros ts u HF Hts Hr; cbn [advances] in *; rewrite ?total_cons, ?total_nil in *.
  - simpl. rewrite app_nil_r. do 2 f_equal. lia.
  - inversion HF; subst.
    assert (0 <= total calls) by (apply total_nonneg; assumption).
    rewrite solve_nopanic by (try reflexivity; unfold int_min, int_max in *; cbn [fst]; lia).
    unfold ante. cbn [fst snd]. destruct (Z.eqb_spec ts 0); [lia|].
    rewrite iter_steps_trace. rewrite IH by (auto; lia).
    do 2 f_equal; [lia|]. rewrite <- app_assoc. f_equal.
    rewrite Z2Nat.inj_add, repeat_app, concat_app by lia. reflexivity.
Qed.

Lemma advances_trace c z n rest :
  Forall (fun n => 0 <= n) rest -> 0 < n ->
  n + total rest <= int_max ->
  advances c (tracer no_panic) (repeat 0 z ++ n :: rest) (0, []) =
  Some (n + total rest,
        repeat (AnteLoop 0) z ++ [AnteLoop n]
        ++ concat (repeat (step_events c) (Z.to_nat (n + total rest)))).
Proof.
  intros HF Hn Hr.
  assert (0 <= total rest) by (apply total_nonneg; assumption).
  assert (G : forall u, advances c (tracer no_panic) (repeat 0 z ++ n :: rest) (0, u) =
    Some (n + total rest,
        u ++ repeat (AnteLoop 0) z ++ [AnteLoop n]
        ++ concat (repeat (step_events c) (Z.to_nat (n + total rest))))).
  { induction z as [|z IH]; intros u; cbn [repeat app advances].
    - rewrite solve_nopanic by (try reflexivity; unfold int_min, int_max in *; cbn [fst]; lia).
      unfold ante. cbn [fst snd Z.eqb]. rewrite iter_steps_trace.
      rewrite advances_trace_started by (auto; lia).
      do 2 f_equal; [lia|]. cbn [tracer h_ante_loop]. rewrite Z.add_0_r, <- !app_assoc. cbn [app].
      do 2 f_equal. rewrite Z2Nat.inj_add, repeat_app, concat_app by lia. reflexivity.
    - rewrite solve_nopanic by (try reflexivity; unfold int_min, int_max in *; cbn [fst]; lia).
      unfold ante. cbn [fst snd Z.eqb]. cbn [Z.to_nat iter_steps]. rewrite IH.
      cbn [tracer h_ante_loop]. rewrite <- !app_assoc. reflexivity. }
  apply (G []).
Qed.

(** Each equation occurs exactly once in a step. *)
Definition is_adv (e : nat) (ev : event) : bool :=
  match ev with Adv x => Nat.eqb x e | _ => false end.

Lemma filter_map_adv e l : length (filter (is_adv e) (map Adv l)) = count_occ Nat.eq_dec l e.
Proof.
  induction l as [|x l IH]; simpl; auto.
  destruct (Nat.eqb_spec x e), (Nat.eq_dec x e); simpl; congruence.
Qed.

Lemma step_events_once c e : (e < n_eqns c)%nat ->
  length (filter (is_adv e) (step_events c)) = 1%nat.
Proof.
  intros He. unfold step_events. rewrite !filter_app, !app_length. cbn [filter is_adv app length].
  rewrite !filter_map_adv.
  set (l := seq 0 (n_eqns c)).
  set (f := fun e => N.testbit (delayed_step c) (N.of_nat e)).
  assert (G : forall l, (count_occ Nat.eq_dec (filter (fun e => negb (f e)) l) e
                 + count_occ Nat.eq_dec (filter f l) e = count_occ Nat.eq_dec l e)%nat).
  { clear. induction l as [|x l IH]; cbn [filter count_occ]; auto.
    destruct (f x); cbn [negb count_occ]; destruct (Nat.eq_dec x e); lia. }
  specialize (G l).
  assert (count_occ Nat.eq_dec l e = 1%nat).
  { apply (proj1 (NoDup_count_occ' Nat.eq_dec l)); [apply seq_NoDup|]. apply in_seq. lia. }
  change (fun e0 : nat => negb (N.testbit (delayed_step c) (N.of_nat e0))) with (fun e0 => negb (f e0)). cbn [length filter is_adv app]. lia.
Qed.

(** ** Adaptive time step *)
Section VarDtProofs.
  Context {U : Type}.
  Variable (vstep : Z -> Q -> U -> Q * U) (vpanic : U -> bool).

  Lemma var_loop_reaches fuel nt : forall extra s s',
    (forall u, vpanic u = false) ->
    var_loop vstep vpanic fuel nt extra s = Some s' ->
    (nt <= v_time s')%Q /\ v_ts s + Z.max 0 extra <= v_ts s'.
  Proof.
    induction fuel as [|f IH]; intros extra s s' Hp; cbn [var_loop]; [discriminate|].
    destruct (negb (Qle_bool nt (v_time s)) || (0 <? extra)) eqn:G.
    - rewrite Hp. destruct (vstep (v_ts s) (v_time s) (v_u s)) as [dt u].
      intros H. apply IH in H; [|exact Hp]. cbn [v_ts v_time] in H.
      destruct H as [H1 H2]. split; [exact H1|].
      destruct (Qle_bool nt (v_time s + dt)); lia.
    - intros [= <-]. apply orb_false_iff in G. destruct G as [G1 G2].
      apply negb_false_iff in G1. apply Qle_bool_iff in G1. split; [exact G1|]. lia.
  Qed.

  (** Termination: if every step is at least [d > 0] long, [k] steps with
      [k*d] covering the remaining time plus the extra ones are enough. *)
  Lemma var_loop_terminates (d : Q) : (0 < d)%Q ->
    (forall ts t u, d <= fst (vstep ts t u))%Q ->
    forall k fuel nt extra s,
    (nt - v_time s <= inject_Z (Z.of_nat k) * d)%Q ->
    (k + Z.to_nat extra < fuel)%nat ->
    exists s', var_loop vstep vpanic fuel nt extra s = Some s' /\
               v_ts s' <= v_ts s + Z.of_nat k + Z.max 0 extra.
  Proof.
    intros Hd Hstep k fuel. revert k. induction fuel as [|f IH]; intros k nt extra s Hk Hf; [lia|].
    cbn [var_loop].
    destruct (negb (Qle_bool nt (v_time s)) || (0 <? extra)) eqn:G.
    - destruct (vpanic (v_u s)); [exists s; split; [reflexivity|lia]|].
      pose proof (Hstep (v_ts s) (v_time s) (v_u s)) as Hs.
      destruct (vstep (v_ts s) (v_time s) (v_u s)) as [dt u]. cbn [fst] in Hs. cbn zeta. cbn [v_time].
      destruct (Qle_bool nt (v_time s)) eqn:Hr.
      + (* already past the target: one extra step *)
        apply Qle_bool_iff in Hr. cbn [negb orb] in G.
        assert (Hr' : Qle_bool nt (v_time s + dt) = true) by (apply Qle_bool_iff; lra).
        rewrite Hr'.
        destruct (IH 0%nat nt (extra - 1) {| v_ts := v_ts s + 1; v_time := (v_time s + dt)%Q; v_u := u |})
          as (s' & E & F); cbn [v_time v_ts] in *; try lia.
        { change (inject_Z (Z.of_nat 0)) with 0%Q. lra. }
        exists s'. split; [exact E|]. lia.
      + assert (Hlt : ~ (nt <= v_time s)%Q) by (intro A; apply Qle_bool_iff in A; congruence).
        destruct k as [|k].
        { exfalso. change (inject_Z (Z.of_nat 0)) with 0%Q in Hk. apply Hlt. lra. }
        assert (Hk' : (nt - (v_time s + dt) <= inject_Z (Z.of_nat k) * d)%Q).
        { rewrite Nat2Z.inj_succ in Hk. unfold Z.succ in Hk. rewrite inject_Z_plus in Hk.
          change (inject_Z 1) with 1%Q in Hk.
          assert ((inject_Z (Z.of_nat k) + 1) * d == inject_Z (Z.of_nat k) * d + d)%Q by ring.
          lra. }
        destruct (Qle_bool nt (v_time s + dt)) eqn:Hr2.
        * destruct (IH k nt (extra - 1) {| v_ts := v_ts s + 1; v_time := (v_time s + dt)%Q; v_u := u |})
            as (s' & E & F); cbn [v_time v_ts] in *; auto; try lia.
          exists s'. split; [exact E|]. lia.
        * destruct (IH k nt extra {| v_ts := v_ts s + 1; v_time := (v_time s + dt)%Q; v_u := u |})
            as (s' & E & F); cbn [v_time v_ts] in *; auto; try lia.
          exists s'. split; [exact E|]. lia.
    - exists s. split; [reflexivity|lia].
  Qed.

  Lemma var_loop_fuel_mono fuel : forall nt extra s s',
    var_loop vstep vpanic fuel nt extra s = Some s' ->
    forall fuel', (fuel <= fuel')%nat -> var_loop vstep vpanic fuel' nt extra s = Some s'.
  Proof.
    induction fuel as [|f IH]; intros nt extra s s' H fuel' Hle; [discriminate|].
    destruct fuel' as [|f']; [lia|]. cbn [var_loop] in *.
    destruct (negb _ || _); [|exact H].
    destruct (vpanic (v_u s)); [exact H|].
    destruct (vstep _ _ _) as [dt u]. eapply IH; [exact H|lia].
  Qed.
End VarDtProofs.

(** ** Buffers *)
Lemma gc_no_alias iter : 1 <= iter -> GC_corr iter <> GC_unco iter.
Proof.
  intros H. unfold GC_corr, GC_unco.
  destruct (Z.eqb_spec iter 1) as [->|]; [discriminate|].
  destruct (negb (Z.rem iter 2 =? 0)); discriminate.
Qed.

Lemma gc_chain iter : 2 <= iter -> GC_unco iter = GC_corr (iter - 1).
Proof.
  intros H. unfold GC_corr, GC_unco.
  destruct (Z.eqb_spec iter 1) as [->|]; [lia|].
  rewrite !Z.rem_mod_nonneg by lia.
  assert (E : (iter - 1) mod 2 = 1 - iter mod 2).
  { pose proof (Z.div_mod iter 2 ltac:(lia)). pose proof (Z.mod_pos_bound iter 2 ltac:(lia)).
    symmetry. destruct (Z.eq_dec (iter mod 2) 0).
    - apply Z.mod_unique with (q := iter / 2 - 1); lia.
    - apply Z.mod_unique with (q := iter / 2); lia. }
  rewrite E. pose proof (Z.mod_pos_bound iter 2 ltac:(lia)).
  destruct (Z.eqb_spec (iter mod 2) 0), (Z.eqb_spec (1 - iter mod 2) 0); simpl; auto; lia.
Qed.

Lemma gc_in_range iter n_iters b : 1 <= iter < n_iters ->
  (GC_corr iter = TmpGC b \/ GC_unco iter = TmpGC b) -> 0 <= b < n_tmp n_iters.
Proof.
  intros H E. unfold GC_corr, GC_unco, n_tmp in *.
  destruct (Z.ltb_spec 2 n_iters).
  - destruct (Z.eqb_spec iter 1), (negb (Z.rem iter 2 =? 0));
      destruct E as [E|E]; inversion E; lia.
  - assert (iter = 1) by lia. subst. simpl in E. destruct E as [E|E]; inversion E; lia.
Qed.

(** ** Packaged statements *)
Lemma newest_state c n_iters freq t0 steps :
  (0 < n_eqns c)%nat -> valid_mask c -> (0 < n_iters)%nat ->
  let t := steps_tl c (map (fun s => passes n_iters freq (t0 + Z.of_nat s)) (seq 0 steps)) tlev_init in
  forall e, (e < n_eqns c)%nat -> advectee_buf t = written t e /\ advectee_buf t <> None.
Proof.
  intros Hn Hv Hi t e He.
  assert (I : tl_inv c t).
  { apply steps_tl_inv; auto; [|apply init_inv].
    apply Forall_forall. intros k Hk. apply in_map_iff in Hk. destruct Hk as (s & <- & _).
    now apply passes_pos. }
  split; [|unfold advectee_buf; rewrite buf_of_mod; discriminate].
  symmetry. apply I. unfold eqns. apply in_seq. lia.
Qed.

(** One explicit step: which buffer is written is determined by the number of
    passes only; the newest buffer alternates. *)
Lemma stale_state :
  exists c n_iters, (0 < n_eqns c)%nat /\ (0 < n_iters)%nat /\
    let t := steps_tl c [passes n_iters 0 0] tlev_init in
    advectee_buf t <> written t 0.
Proof.
  exists {| n_eqns := 1; delayed_step := bit 1 |}, 1%nat.
  split; [simpl; lia|]. split; [lia|]. vm_compute. intros H. discriminate H.
Qed.

Lemma nthreads_range env hw max_threads :
  1 <= max_threads <= int_max -> 1 <= hw < 2 ^ 31 ->
  (forall v, env = Some v -> v mod 2 ^ 32 <> 0) ->
  1 <= nthreads env hw max_threads <= max_threads.
Proof.
  intros Hm Hh He. unfold nthreads, int_max in *.
  rewrite (Z.mod_small max_threads) by lia.
  set (x := match env with Some v => v mod 2 ^ 32 | None => hw end).
  assert (1 <= x).
  { unfold x. destruct env as [v|]; [|lia]. specialize (He v eq_refl).
    pose proof (Z.mod_pos_bound v (2 ^ 32) ltac:(lia)). lia. }
  rewrite wrap32_id by (unfold int_min, int_max; lia). lia.
Qed.

Lemma parties_match env hw grid : (length grid < 3)%nat ->
  barrier_parties env hw grid = solver_threads env hw grid.
Proof.
  intros H. unfold barrier_parties, solver_threads.
  replace (length grid <? 3)%nat with true by lia. reflexivity.
Qed.

Lemma parties_mismatch :
  exists env hw gridA gridB, 1 <= hw /\ length gridA = 3%nat /\ length gridB = 3%nat /\
    Forall (fun n => 1 <= n) gridA /\ Forall (fun n => 1 <= n) gridB /\
    barrier_parties env hw gridA < solver_threads env hw gridA /\
    solver_threads env hw gridB < barrier_parties env hw gridB.
Proof.
  exists None, 4, [2; 16; 16], [16; 2; 16].
  repeat split; try lia; repeat constructor; lia.
Qed.

Lemma no_threads :
  exists env hw max_threads, 1 <= hw /\ 1 <= max_threads /\ nthreads env hw max_threads = 0.
Proof. exists (Some 0), 4, 16. repeat split; lia. Qed.

Lemma advance_overflow :
  exists (s : Z * list event) nt, 0 <= fst s <= int_max /\ 0 < nt <= int_max /\
    exists s', solve {| n_eqns := 1; delayed_step := 0%N |} (tracer no_panic) nt s = Some s' /\ fst s' = fst s.
Proof.
  exists (int_max, []), 1. repeat split; try (vm_compute; congruence).
  eexists. split; vm_compute; reflexivity.
Qed.

Lemma gc_buffers n_iters iter : 1 <= iter < n_iters ->
  GC_corr iter <> GC_unco iter /\
  GC_unco iter = (if iter =? 1 then MemGC else GC_corr (iter - 1)) /\
  (forall b, GC_corr iter = TmpGC b \/ GC_unco iter = TmpGC b -> 0 <= b < n_tmp n_iters).
Proof.
  intros H. split; [apply gc_no_alias; lia|]. split.
  - destruct (Z.eqb_spec iter 1) as [->|]; [reflexivity|]. apply gc_chain. lia.
  - intros b. apply gc_in_range. exact H.
Qed.

Lemma panic_stops {U} c (h : hooks U) nt s : int_min <= nt + fst s <= int_max ->
  exists k s', solve c h nt s = Some s' /\ s' = iter_steps c h k (ante h (nt + fst s) s) /\
    (k <= Z.to_nat nt)%nat /\
    (forall j, (j < k)%nat -> h_panic h (snd (iter_steps c h j (ante h (nt + fst s) s))) = false) /\
    ((k < Z.to_nat nt)%nat -> h_panic h (snd s') = true) /\
    (fst s' <> 0 -> h_panic h (snd s') = true ->
       forall calls, Forall (fun n => int_min <= n + fst s' <= int_max) calls ->
       advances c h calls s' = Some s').
Proof.
  intros Hr. destruct (solve_char c h nt s Hr) as (k & A & B & C & D).
  exists k. eexists. split; [exact A|]. split; [reflexivity|]. split; [exact B|].
  split; [exact C|]. split; [exact D|].
  intros H0 Hp calls HF. apply advances_panicked; auto.
Qed.

Section VarPack.
  Context {U : Type}.
  Variable (vstep : Z -> Q -> U -> Q * U) (vante : Q -> U -> U) (vpanic : U -> bool) (ord : Z).

  Lemma var_solve_reaches fuel T s s' :
    (forall u, vpanic u = false) -> 0 <= ord ->
    var_solve vstep vante vpanic ord fuel T s = Some s' ->
    (T + v_time s <= v_time s')%Q /\ v_ts s + ord <= v_ts s'.
  Proof.
    intros Hp Ho H. unfold var_solve in H. apply var_loop_reaches in H; [|exact Hp].
    destruct H as [A B]. split; [exact A|].
    destruct (v_ts s =? 0); cbn [v_ts] in B; lia.
  Qed.

  Lemma var_solve_terminates (d : Q) T s k :
    (0 < d)%Q -> (forall ts t u, d <= fst (vstep ts t u))%Q -> 0 <= ord ->
    (T <= inject_Z (Z.of_nat k) * d)%Q ->
    exists fuel s', var_solve vstep vante vpanic ord fuel T s = Some s' /\
      v_ts s' <= v_ts s + Z.of_nat k + ord.
  Proof.
    intros Hd Hs Ho Hk. exists (S (k + Z.to_nat ord)). unfold var_solve.
    destruct (var_loop_terminates vstep vpanic d Hd Hs k (S (k + Z.to_nat ord)) (T + v_time s)%Q ord
      (if v_ts s =? 0 then {| v_ts := v_ts s; v_time := v_time s; v_u := vante (T + v_time s)%Q (v_u s) |} else s))
      as (s' & A & B).
    - destruct (v_ts s =? 0); cbn [v_time]; lra.
    - lia.
    - exists s'. split; [exact A|]. destruct (v_ts s =? 0); cbn [v_ts] in B; lia.
  Qed.
End VarPack.
