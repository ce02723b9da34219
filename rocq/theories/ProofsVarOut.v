From Coq Require Import ZArith List Bool Reals Lia Lra Psatz.
From Verif Require Import ModelOutput SpecOutput.
Import ListNotations.
Local Open Scope R_scope.

(** ** floor *)
Lemma floor_spec : forall x, IZR (floor x) <= x < IZR (floor x) + 1.
Proof. intros x. unfold floor. pose proof (base_Int_part x). lra. Qed.
Lemma floor_unique : forall x k, IZR k <= x < IZR k + 1 -> floor x = k.
Proof.
  intros x k H. pose proof (floor_spec x) as F. apply Z.le_antisymm.
  - apply Z.lt_succ_r. apply lt_IZR. rewrite succ_IZR. lra.
  - apply Z.lt_succ_r. apply lt_IZR. rewrite succ_IZR. lra.
Qed.
Lemma floor_mono : forall x y, x <= y -> (floor x <= floor y)%Z.
Proof.
  intros x y H. pose proof (floor_spec x). pose proof (floor_spec y).
  apply Z.lt_succ_r. apply lt_IZR. rewrite succ_IZR. lra.
Qed.
Lemma floor_nonneg : forall x, 0 <= x -> (0 <= floor x)%Z.
Proof. intros x H. apply (floor_mono 0 x) in H. rewrite (floor_unique 0 0) in H; [exact H|lra]. Qed.
Lemma floor_near : forall x y, x <= y -> y <= x + 1 -> (floor y <= floor x + 1)%Z.
Proof.
  intros x y H1 H2. pose proof (floor_spec x). pose proof (floor_spec y).
  apply Z.lt_succ_r. apply lt_IZR. rewrite succ_IZR, plus_IZR. lra.
Qed.

(** ** runs *)
Definition end_time (xs : list (R * R)) : R := fold_left (fun t x => t + fst x) xs 0.
Definition end_value (y0 : R) (xs : list (R * R)) : R := fold_left (fun _ x => snd x) xs y0.
Lemma end_time_snoc : forall xs x, end_time (xs ++ [x]) = end_time xs + fst x.
Proof. intros. unfold end_time. rewrite fold_left_app. reflexivity. Qed.
Lemma end_value_snoc : forall y0 xs x, end_value y0 (xs ++ [x]) = snd x.
Proof. intros. unfold end_value. rewrite fold_left_app. reflexivity. Qed.
Lemma end_time_nonneg : forall xs, (forall x, In x xs -> 0 < fst x) -> 0 <= end_time xs.
Proof.
  intros xs. induction xs as [|x xs IH] using rev_ind; intros H; [unfold end_time; cbn; lra|].
  rewrite end_time_snoc. assert (0 < fst x) by (apply H, in_or_app; right; left; reflexivity).
  assert (0 <= end_time xs) by (apply IH; intros; apply H, in_or_app; left; assumption). lra.
Qed.

Lemma states_snoc_gen : forall xs t y x, states t y (xs ++ [x]) =
  states t y xs ++ [(fold_left (fun t x => t + fst x) xs t + fst x, snd x)].
Proof.
  induction xs as [|[d v] xs IH]; intros t y [d' v']; [reflexivity|].
  cbn [states app fold_left fst]. rewrite IH. reflexivity.
Qed.
Lemma states_snoc : forall y0 xs x, run_states y0 (xs ++ [x]) = run_states y0 xs ++ [(end_time xs + fst x, snd x)].
Proof. intros. apply states_snoc_gen. Qed.
Lemma states_len : forall xs t y, length (states t y xs) = S (length xs).
Proof. induction xs as [|[d v] xs IH]; intros; cbn; [reflexivity|]. rewrite IH. reflexivity. Qed.
Lemma states_last : forall y0 xs, nth_error (run_states y0 xs) (length xs) = Some (end_time xs, end_value y0 xs).
Proof.
  intros y0 xs. destruct xs as [|x xs] using rev_ind; [reflexivity|].
  rewrite states_snoc, end_time_snoc, end_value_snoc, app_length. cbn [length].
  rewrite nth_error_app2 by (unfold run_states; rewrite states_len; lia).
  unfold run_states. rewrite states_len. replace (length xs + 1 - S (length xs))%nat with 0%nat by lia. reflexivity.
Qed.
Lemma nth_error_snoc : forall (A : Type) (l : list A) a n x, nth_error l n = Some x -> nth_error (l ++ [a]) n = Some x.
Proof. intros A l a n x H. rewrite nth_error_app1; [exact H|]. apply nth_error_Some. congruence. Qed.

Section VarOut.
  Variable f : R.
  Hypothesis Hf : 0 < f.
  Notation idx_of t := (floor (t / f)).

  (** [crossing] facts *)
  Lemma cross_range : forall t d, 0 < d -> (idx_of t < idx_of (t + d))%Z -> t < IZR (idx_of (t + d)) * f <= t + d.
  Proof.
    intros t d Hd H. pose proof (floor_spec (t / f)) as A. pose proof (floor_spec ((t + d) / f)) as B.
    assert (C : IZR (idx_of t) + 1 <= IZR (idx_of (t + d))).
    { rewrite <- plus_IZR. apply IZR_le. lia. }
    assert (t / f * f = t) by (field; lra). assert ((t + d) / f * f = t + d) by (field; lra).
    split.
    - apply (Rlt_le_trans _ ((IZR (idx_of t) + 1) * f)); [|apply Rmult_le_compat_r; lra].
      rewrite <- H0 at 1. apply Rmult_lt_compat_r; lra.
    - rewrite <- H1 at 2. apply Rmult_le_compat_r; lra.
  Qed.
  Lemma idx_step : forall t d, 0 < d -> d <= f -> (idx_of t <= idx_of (t + d) <= idx_of t + 1)%Z.
  Proof.
    intros t d H0 H1. assert (P : 0 < / f) by (apply Rinv_0_lt_compat; exact Hf).
    assert (Q : d * / f <= 1) by (rewrite <- (Rinv_r f) by lra; apply Rmult_le_compat_r; lra).
    assert (0 < d * / f) by (apply Rmult_lt_0_compat; lra).
    unfold Rdiv. rewrite Rmult_plus_distr_r.
    split; [apply floor_mono; lra|apply floor_near; lra].
  Qed.

  (** ** first order *)
  Definition good1 (y0 : R) (st : list (R * R)) (k : nat) (e : R * R) : Prop :=
    fst e = INR k * f /\
    (k = 0%nat /\ snd e = y0 \/
     exists i a b, nth_error st i = Some a /\ nth_error st (S i) = Some b /\
       fst a < fst e <= fst b /\ snd e = linear a b (fst e)).

  Definition inv1 (y0 : R) (xs : list (R * R)) (s : ost) : Prop :=
    o_time s = end_time xs /\ o_y s = end_value y0 xs /\ (o_cnt s <= 1)%nat /\
    Z.of_nat (length (o_out s)) = (idx_of (end_time xs) + 1)%Z /\
    forall k e, nth_error (o_out s) k = Some e -> good1 y0 (run_states y0 xs) k e.

  Lemma good1_snoc : forall y0 st x k e, good1 y0 st k e -> good1 y0 (st ++ [x]) k e.
  Proof.
    intros y0 st x k e [A [B|(i & a & b & E1 & E2 & C)]]; split; auto.
    right. exists i, a, b. repeat split; try (apply nth_error_snoc; assumption); tauto.
  Qed.

  Lemma idx0 : idx_of 0 = 0%Z.
  Proof. apply floor_unique. unfold Rdiv. lra. Qed.

  Lemma inv1_run : forall y0 xs, (forall x, In x xs -> 0 < fst x <= f) -> inv1 y0 xs (out_run 1 f y0 xs).
  Proof.
    intros y0 xs. induction xs as [|x xs IH] using rev_ind; intros H.
    - unfold inv1, out_run, out_start; cbn. split; [reflexivity|]. split; [reflexivity|]. split; [lia|].
      unfold end_time. cbn. rewrite idx0. split; [reflexivity|].
      intros [|k] e E; [|destruct k; discriminate]. injection E as <-. split; [cbn; lra|]. left. auto.
    - specialize (IH (fun y Hy => H y (in_or_app _ _ _ (or_introl Hy)))).
      assert (Hx : 0 < fst x <= f) by (apply H, in_or_app; right; left; reflexivity).
      assert (Hp : 0 <= end_time xs) by (apply end_time_nonneg; intros y Hy; apply (H y); apply in_or_app; left; exact Hy).
      unfold out_run. rewrite fold_left_app. cbn [fold_left]. fold (out_run 1 f y0 xs).
      set (s := out_run 1 f y0 xs) in *. destruct IH as (A & B & C & L & G).
      unfold inv1. rewrite end_time_snoc, end_value_snoc, states_snoc.
      pose proof (idx_step (end_time xs) (fst x) (proj1 Hx) (proj2 Hx)) as I.
      unfold out_step, out_ante. rewrite A.
      replace (pred (o_cnt s)) with 0%nat by lia.
      change (Nat.ltb 0 0) with false. rewrite orb_false_r. change (Nat.eqb 0 0) with true. cbn [Nat.sub].
      destruct (Z.ltb_spec (idx_of (end_time xs)) (idx_of (end_time xs + fst x))) as [Lt|Ge].
      + unfold out_post. cbn [o_cnt o_rec o_t o_v o_time o_y o_out Nat.eqb setn].
        rewrite Rplus_comm with (r1 := end_time xs) (r2 := fst x) at 1.
        split; [lra|]. split; [reflexivity|]. split; [lia|].
        rewrite app_length. cbn [length]. split; [lia|].
        intros k e E. destruct (Nat.lt_ge_cases k (length (o_out s))) as [Lk|Lk].
        * rewrite nth_error_app1 in E by exact Lk. apply good1_snoc, G, E.
        * rewrite nth_error_app2 in E by exact Lk.
          destruct (k - length (o_out s))%nat as [|n] eqn:Ek; [|destruct n; discriminate].
          injection E as <-. assert (Kk : k = length (o_out s)) by lia.
          pose proof (cross_range _ _ (proj1 Hx) Lt) as R.
          assert (Ei : IZR (idx_of (end_time xs + fst x)) = INR k).
          { rewrite INR_IZR_INZ. apply f_equal. lia. }
          split; [cbn [fst]; rewrite Ei; reflexivity|].
          right. exists (length xs), (end_time xs, end_value y0 xs), (end_time xs + fst x, snd x).
          split; [apply nth_error_snoc, states_last|].
          split.
          { rewrite nth_error_app2 by (unfold run_states; rewrite states_len; lia).
            unfold run_states; rewrite states_len. rewrite Nat.sub_diag. reflexivity. }
          cbn [fst snd]. split; [exact R|]. rewrite B. unfold linear. cbn [fst snd].
          unfold Rdiv. field. lra.
      + unfold out_post. cbn [o_cnt o_rec o_t o_v o_time o_y o_out Nat.eqb].
        split; [reflexivity|]. split; [reflexivity|]. split; [lia|]. split; [lia|].
        intros k e E. apply good1_snoc, G, E.
  Qed.

  (** ** second order *)
  Definition good2 (y0 : R) (st : list (R * R)) (k : nat) (e : R * R) : Prop :=
    fst e = INR k * f /\
    (k = 0%nat /\ snd e = y0 \/
     exists i a b c, nth_error st i = Some a /\ nth_error st (S i) = Some b /\ nth_error st (S (S i)) = Some c /\
       fst a < fst e <= fst b /\ snd e = quadratic a b c (fst e)).
  Lemma good2_snoc : forall y0 st x k e, good2 y0 st k e -> good2 y0 (st ++ [x]) k e.
  Proof.
    intros y0 st x k e [A [B|(i & a & b & c & E1 & E2 & E3 & C)]]; split; auto.
    right. exists i, a, b, c. repeat split; try (apply nth_error_snoc; assumption); tauto.
  Qed.

  Definition inv2 (y0 : R) (xs : list (R * R)) (s : ost) : Prop :=
    o_time s = end_time xs /\ o_y s = end_value y0 xs /\
    (forall k e, nth_error (o_out s) k = Some e -> good2 y0 (run_states y0 xs) k e) /\
    ((o_cnt s <= 1)%nat /\ Z.of_nat (length (o_out s)) = (idx_of (end_time xs) + 1)%Z
     \/ o_cnt s = 2%nat /\ Z.of_nat (length (o_out s)) = idx_of (end_time xs) /\
        exists ys x, xs = ys ++ [x] /\ (idx_of (end_time ys) < idx_of (end_time ys + fst x))%Z /\
          o_rec s = IZR (idx_of (end_time xs)) * f /\ o_t s 0 = end_time ys /\ o_v s 0 = end_value y0 ys).

  Lemma pairs_snoc : forall xs x, pairs_fit f (xs ++ [x]) -> pairs_fit f xs.
  Proof.
    induction xs as [|a xs IH]; intros x H; [exact I|]. destruct xs as [|b xs]; [exact I|].
    cbn [app pairs_fit] in H |- *. split; [exact (proj1 H)|]. apply (IH x). exact (proj2 H).
  Qed.
  Lemma pairs_last : forall xs a b, pairs_fit f (xs ++ [a] ++ [b]) -> fst a + fst b <= f.
  Proof.
    induction xs as [|x xs IH]; intros a b H; [exact (proj1 H)|].
    apply IH. destruct xs as [|y xs]; [exact (proj2 H)|exact (proj2 H)].
  Qed.

  Lemma inv2_run : forall y0 xs, (forall x, In x xs -> 0 < fst x <= f) -> pairs_fit f xs -> inv2 y0 xs (out_run 2 f y0 xs).
  Proof.
    intros y0 xs. induction xs as [|x xs IH] using rev_ind; intros H HP.
    - unfold inv2, out_run, out_start; cbn. split; [reflexivity|]. split; [reflexivity|]. split.
      + intros [|k] e E; [|destruct k; discriminate]. injection E as <-. split; [cbn; lra|]. left. auto.
      + left. split; [lia|]. unfold end_time. cbn. rewrite idx0. reflexivity.
    - specialize (IH (fun y Hy => H y (in_or_app _ _ _ (or_introl Hy))) (pairs_snoc _ _ HP)).
      assert (Hx : 0 < fst x <= f) by (apply H, in_or_app; right; left; reflexivity).
      unfold out_run. rewrite fold_left_app. cbn [fold_left]. fold (out_run 2 f y0 xs).
      set (s := out_run 2 f y0 xs) in *. destruct IH as (A & B & G & D).
      unfold inv2. rewrite end_time_snoc, end_value_snoc, states_snoc.
      pose proof (idx_step (end_time xs) (fst x) (proj1 Hx) (proj2 Hx)) as I.
      unfold out_step, out_ante. rewrite A.
      destruct D as [[C L]|(C & L & ys & z & Exs & Cr & Rt & Tt & Vv)].
      + replace (pred (o_cnt s)) with 0%nat by lia.
        change (Nat.ltb 0 0) with false. rewrite orb_false_r. change (Nat.eqb 0 0) with true. cbn [Nat.sub].
        destruct (Z.ltb_spec (idx_of (end_time xs)) (idx_of (end_time xs + fst x))) as [Lt|Ge].
        * unfold out_post. cbn [o_cnt o_rec o_t o_v o_time o_y o_out Nat.eqb setn].
          split; [reflexivity|]. split; [reflexivity|]. split; [intros k e E; apply good2_snoc, G, E|].
          right. split; [reflexivity|]. split; [lia|].
          exists xs, x. repeat split; auto.
        * unfold out_post. cbn [o_cnt o_rec o_t o_v o_time o_y o_out Nat.eqb].
          split; [reflexivity|]. split; [reflexivity|]. split; [intros k e E; apply good2_snoc, G, E|].
          left. split; [lia|]. lia.
      + rewrite C. cbn [pred]. change (Nat.ltb 0 1) with true. rewrite orb_true_r. change (Nat.eqb 1 0) with false.
        cbn [Nat.sub]. unfold out_post. cbn [o_cnt o_rec o_t o_v o_time o_y o_out].
        change (Nat.eqb 1 1) with true. change (Nat.eqb 2 1) with false. cbn [o_cnt o_rec o_t o_v o_time o_y o_out].
        unfold setn. cbn [Nat.eqb]. rewrite Rt, Tt, Vv, B.
        split; [reflexivity|]. split; [reflexivity|].
        assert (Hz : 0 < fst z <= f).
        { apply H. rewrite Exs. apply in_or_app. left. apply in_or_app. right. left. reflexivity. }
        assert (Ex : end_time xs = end_time ys + fst z) by (rewrite Exs; apply end_time_snoc).
        assert (NoCross : idx_of (end_time xs + fst x) = idx_of (end_time xs)).
        { rewrite Exs, <- app_assoc in HP. pose proof (pairs_last _ _ _ HP) as Fit.
          pose proof (idx_step (end_time ys) (fst z + fst x) ltac:(lra) Fit) as J.
          rewrite Ex in *. rewrite Rplus_assoc in *. lia. }
        split.
        * intros k e E. destruct (Nat.lt_ge_cases k (length (o_out s))) as [Lk|Lk].
          -- rewrite nth_error_app1 in E by exact Lk. apply good2_snoc, G, E.
          -- rewrite nth_error_app2 in E by exact Lk.
             destruct (k - length (o_out s))%nat as [|n] eqn:Ek; [|destruct n; discriminate].
             injection E as <-. assert (Kk : k = length (o_out s)) by lia.
             pose proof (cross_range _ _ (proj1 Hz) Cr) as R.
             assert (Ei : IZR (idx_of (end_time xs)) = INR k).
             { rewrite INR_IZR_INZ. apply f_equal. lia. }
             split; [cbn [fst]; rewrite Ei; reflexivity|].
             right. exists (length ys), (end_time ys, end_value y0 ys), (end_time xs, end_value y0 xs), (end_time xs + fst x, snd x).
             assert (S1 : run_states y0 xs = run_states y0 ys ++ [(end_time xs, end_value y0 xs)]).
             { rewrite Exs at 1. rewrite states_snoc. rewrite Ex. replace (end_value y0 xs) with (snd z); [reflexivity|].
               rewrite Exs, end_value_snoc. reflexivity. }
             rewrite S1.
             assert (Ly : length (run_states y0 ys) = S (length ys)) by apply states_len.
             split; [apply nth_error_snoc, nth_error_snoc, states_last|].
             split.
             { apply nth_error_snoc. rewrite nth_error_app2 by lia. rewrite Ly, Nat.sub_diag. reflexivity. }
             split.
             { rewrite nth_error_app2 by (rewrite app_length; cbn [length]; lia).
               rewrite app_length, Ly. cbn [length]. replace (S (S (length ys)) - (S (length ys) + 1))%nat with 0%nat by lia. reflexivity. }
             cbn [fst snd]. split; [rewrite Ex; exact R|].
             unfold quadratic. cbn [fst snd].
             set (T := IZR (idx_of (end_time xs)) * f). rewrite Ex.
             field. lra.
        * left. split; [lia|]. rewrite app_length. cbn [length]. lia.
  Qed.
End VarOut.

(** ** Statements *)
Lemma first_order : forall f y0 xs, 0 < f -> (forall x, In x xs -> 0 < fst x <= f) ->
  let T := fst (last (run_states y0 xs) (0, 0)) in
  let out := o_out (out_run 1 f y0 xs) in
  Z.of_nat (length out) = (floor (T / f) + 1)%Z /\
  forall k e, nth_error out k = Some e ->
    fst e = INR k * f /\
    (k = 0%nat /\ snd e = y0 \/
     exists i a b, nth_error (run_states y0 xs) i = Some a /\ nth_error (run_states y0 xs) (S i) = Some b /\
       fst a < fst e <= fst b /\ snd e = linear a b (fst e)).
Proof.
  intros f y0 xs Hf H T out.
  assert (ET : T = end_time xs).
  { unfold T. destruct xs as [|x xs] using rev_ind; [reflexivity|].
    rewrite states_snoc, last_last, end_time_snoc. reflexivity. }
  rewrite ET. destruct (inv1_run f Hf y0 xs H) as (_ & _ & _ & L & G).
  split; [exact L|]. exact G.
Qed.

Lemma second_order : forall f y0 xs x, 0 < f -> (forall z, In z (xs ++ [x]) -> 0 < fst z <= f) ->
  pairs_fit f (xs ++ [x]) ->
  let T := fst (last (run_states y0 (xs ++ [x])) (0, 0)) in
  let out := o_out (out_run 2 f y0 (xs ++ [x])) in
  (floor ((T - fst x) / f) + 1 <= Z.of_nat (length out) <= floor (T / f) + 1)%Z /\
  forall k e, nth_error out k = Some e ->
    fst e = INR k * f /\
    (k = 0%nat /\ snd e = y0 \/
     exists i a b c, nth_error (run_states y0 (xs ++ [x])) i = Some a /\ nth_error (run_states y0 (xs ++ [x])) (S i) = Some b /\
       nth_error (run_states y0 (xs ++ [x])) (S (S i)) = Some c /\
       fst a < fst e <= fst b /\ snd e = quadratic a b c (fst e)).
Proof.
  intros f y0 xs x Hf H HP T out.
  assert (ET : T = end_time (xs ++ [x])).
  { unfold T. rewrite states_snoc, last_last, end_time_snoc. reflexivity. }
  rewrite ET. destruct (inv2_run f Hf y0 _ H HP) as (_ & _ & G & D).
  split; [|exact G].
  assert (Hx : 0 < fst x <= f) by (apply H, in_or_app; right; left; reflexivity).
  pose proof (idx_step f Hf (end_time xs) (fst x) (proj1 Hx) (proj2 Hx)) as I.
  rewrite end_time_snoc in *. replace (end_time xs + fst x - fst x) with (end_time xs) by lra.
  fold out in D. destruct D as [[_ L]|(_ & L & ys & z & E & Cr & _)]; [lia|].
  apply app_inj_tail in E. destruct E as [<- <-]. lia.
Qed.

Lemma linear_between : forall a b t, fst a < t <= fst b -> between (snd a) (snd b) (linear a b t).
Proof.
  intros [t0 y0] [t1 y1] t H. cbn [fst snd] in *. unfold linear, between. cbn [fst snd].
  assert (0 <= (t - t0) / (t1 - t0) <= 1).
  { split; [apply Rmult_le_pos; [lra|left; apply Rinv_0_lt_compat; lra]|].
    apply (Rmult_le_reg_r (t1 - t0)); [lra|]. unfold Rdiv. rewrite Rmult_assoc, Rinv_l; lra. }
  set (w := (t - t0) / (t1 - t0)) in *. destruct (Rle_dec y0 y1); [left|right]; nra.
Qed.
Lemma linear_exact : forall p q t0 t1 t, t0 <> t1 -> linear (t0, p + q * t0) (t1, p + q * t1) t = p + q * t.
Proof. intros. unfold linear. cbn [fst snd]. field. lra. Qed.
Lemma quadratic_exact : forall p q r t0 t1 t2 t, t0 <> t1 -> t1 <> t2 -> t0 <> t2 ->
  let g := fun t => p + q * t + r * (t * t) in
  quadratic (t0, g t0) (t1, g t1) (t2, g t2) t = g t.
Proof. intros. unfold quadratic, g. cbn [fst snd]. field. repeat split; lra. Qed.

(** counterexamples *)
Lemma eval_floor : forall x k, IZR k <= x < IZR k + 1 -> floor x = k.
Proof. exact floor_unique. Qed.
Ltac fl := match goal with |- context [floor ?x] =>
  let H := fresh in
  first [ assert (H : floor x = 0%Z) by (apply eval_floor; lra)
        | assert (H : floor x = 1%Z) by (apply eval_floor; lra)
        | assert (H : floor x = 2%Z) by (apply eval_floor; lra)
        | assert (H : floor x = 3%Z) by (apply eval_floor; lra) ]; rewrite H; clear H end.

(** what a step does to counter, clock and list of recorded times *)
Definition view (s : ost) := (o_cnt s, o_time s, map fst (o_out s), o_rec s).
Definition view_step (ord : nat) (f d : R) (v : nat * R * list R * R) : nat * R * list R * R :=
  let '(cnt, t, out, rc) := v in
  let next := floor ((t + d) / f) in
  let hit := (floor (t / f) <? next)%Z || Nat.ltb 0 (pred cnt) in
  let cnt' := if hit then (if Nat.eqb (pred cnt) 0 then ord else pred cnt) else pred cnt in
  let rc' := if hit then (if Nat.eqb (pred cnt) 0 then IZR next * f else rc) else rc in
  (cnt', t + d, if Nat.eqb cnt' 1 then out ++ [rc'] else out, rc').
Lemma view_ok : forall ord f s x, view (out_step ord f s x) = view_step ord f (fst x) (view s).
Proof.
  intros ord f s x. unfold view_step, view, out_step, out_ante.
  destruct ((floor (o_time s / f) <? floor ((o_time s + fst x) / f))%Z || Nat.ltb 0 (pred (o_cnt s))) eqn:E;
    unfold out_post; cbn [o_cnt o_rec o_t o_v o_time o_y o_out].
  - destruct (Nat.eqb (if Nat.eqb (pred (o_cnt s)) 0 then ord else pred (o_cnt s)) 1);
      cbn [o_cnt o_rec o_t o_v o_time o_y o_out]; [rewrite map_app|]; reflexivity.
  - destruct (Nat.eqb (pred (o_cnt s)) 1); cbn [o_cnt o_rec o_t o_v o_time o_y o_out]; [rewrite map_app|]; reflexivity.
Qed.
Lemma view_run : forall ord f y0 xs, view (out_run ord f y0 xs) = fold_left (fun v x => view_step ord f (fst x) v) xs (0%nat, 0, [0], 0).
Proof.
  intros ord f y0 xs. induction xs as [|x xs IH] using rev_ind; [reflexivity|].
  unfold out_run. rewrite !fold_left_app. cbn [fold_left]. rewrite view_ok.
  unfold out_run in IH. rewrite IH. reflexivity.
Qed.
Lemma times_of : forall ord f y0 xs, map fst (o_out (out_run ord f y0 xs)) =
  snd (fst (fold_left (fun v x => view_step ord f (fst x) v) xs (0%nat, 0, [0], 0))).
Proof. intros. rewrite <- (view_run ord f y0 xs). reflexivity. Qed.
Ltac one := unfold view_step at 1; do 2 fl; cbn [Z.ltb Z.compare Pos.compare Pos.compare_cont orb Nat.eqb Nat.ltb Nat.leb pred app].
Ltac go := rewrite times_of; cbn [fold_left fst snd];
  repeat match goal with |- context [view_step ?o ?f ?d (?c, ?t, ?l, ?r)] =>
    let E := fresh in
    eassert (E : view_step o f d (c, t, l, r) = _) by (one; reflexivity);
    rewrite E; clear E end; cbn [fst snd].

(** one step over two output times: the first of them is never recorded *)
Lemma long_step : exists f y0 xs k, 0 < f /\ (forall x, In x xs -> 0 < fst x) /\
  0 < IZR k * f <= fst (last (run_states y0 xs) (0, 0)) /\
  ~ In (IZR k * f) (map fst (o_out (out_run 1 f y0 xs))).
Proof.
  exists 1, 0, [(5 / 2, 1)], 1%Z. split; [lra|]. split; [intros x [<-|[]]; cbn; lra|].
  split; [cbn; lra|].
  go. intros H. repeat (destruct H as [H|H]; [lra|]). exact H.
Qed.
(** second order: two consecutive steps, each over one output time *)
Lemma consecutive_crossings : exists f y0 xs k, 0 < f /\ (forall x, In x xs -> 0 < fst x <= f) /\
  (3 <= length xs)%nat /\ 0 < IZR k * f /\ IZR k * f + 1 <= fst (last (run_states y0 xs) (0, 0)) /\
  ~ In (IZR k * f) (map fst (o_out (out_run 2 f y0 xs))).
Proof.
  exists 1, 0, [(1, 0); (1, 0); (3 / 4, 0); (1 / 4, 0)], 2%Z. split; [lra|].
  split; [intros x [<-|[<-|[<-|[<-|[]]]]]; cbn; lra|]. split; [cbn; lia|]. split; [lra|]. split; [cbn; lra|].
  go. intros H. repeat (destruct H as [H|H]; [lra|]). exact H.
Qed.
Lemma var_out_example :
  let xs := [(1 / 2, 1); (3 / 4, 4); (1, 5)] in
  (forall x, In x xs -> 0 < fst x <= 1) /\ map fst (o_out (out_run 1 1 0 xs)) = [0; 1 * 1; 2 * 1].
Proof.
  intros xs. split; [intros x [<-|[<-|[<-|[]]]]; cbn; lra|].
  unfold xs. go. reflexivity.
Qed.
