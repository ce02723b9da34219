(** The stop flag: threads go through the loop in step. *)
From Coq Require Import Arith List Bool Lia.
From Verif Require Import ModelPanic SpecPanic.
Import ListNotations.

Section P.
  Variables (B nt : nat).
  Hypothesis HB : 0 < B.
  Notation T f th := (advance_thread B nt f th).
  Notation adv := (advance_thread B nt).

  Definition orbit (f : bool) (q th : thread) : Prop := th = q \/ th = adv f q \/ th = adv f (adv f q).
  (** all threads are in the same stretch between two barriers; the last released
      position is [q] *)
  Definition insync (q : thread) (s : pstate) : Prop := snd q <> Work 0 /\ Forall (orbit (flag s) q) (thr s).

  Lemma wait_fix f th : waits th = true -> adv f th = th.
  Proof. destruct th as [n []]; cbn; intros; try discriminate; reflexivity. Qed.
  Lemma norun_fix f th : can_run th = false -> adv f th = th.
  Proof. destruct th as [n []]; cbn; intros; try discriminate; reflexivity. Qed.
  Lemma twice f q : snd q <> Work 0 -> can_run (adv f (adv f q)) = false.
  Proof.
    destruct q as [n p]. destruct p as [p| |k|]; cbn [fst snd]; intros H; unfold advance_thread at 2; cbn [fst snd].
    - reflexivity.
    - destruct f; [reflexivity|]. unfold advance_thread. cbn [fst snd]. destruct (Nat.ltb_spec 0 B); [reflexivity|lia].
    - destruct (k <? B); cbn; reflexivity.
    - reflexivity.
  Qed.
  Lemma orbit_adv f q th : snd q <> Work 0 -> orbit f q th -> orbit f q (adv f th).
  Proof.
    intros Hq [->|[->| ->]].
    - right; left; reflexivity.
    - right; right; reflexivity.
    - right; right. rewrite (norun_fix f (adv f (adv f q))) by (apply twice, Hq). reflexivity.
  Qed.
  Lemma orbit_last f q th : snd q <> Work 0 -> orbit f q th -> can_run th = false -> th = adv f (adv f q).
  Proof.
    intros Hq [->|[->| ->]] Hc; [|rewrite (norun_fix f (adv f q)) by exact Hc|]; try reflexivity.
    rewrite (norun_fix f q) by exact Hc. symmetry. apply norun_fix, Hc.
  Qed.
  Lemma waits_run th : waits th = true -> can_run th = false.
  Proof. destruct th as [n []]; cbn; congruence. Qed.

  Lemma Forall_set (P : thread -> Prop) l t x : Forall P l -> P x -> Forall P (set_thr l t x).
  Proof.
    intros Hl Hx. unfold set_thr. apply Forall_app. split.
    - apply Forall_forall. intros y Hy. rewrite Forall_forall in Hl. apply Hl. rewrite <- (firstn_skipn t l). apply in_or_app. auto.
    - constructor; [exact Hx|]. apply Forall_forall. intros y Hy. rewrite Forall_forall in Hl. apply Hl.
      rewrite <- (firstn_skipn (S t) l). apply in_or_app. auto.
  Qed.

  Lemma pass_not_work0 th : waits th = true -> snd (pass_barrier th) <> Work 0.
  Proof. destruct th as [n [[]| | |]]; cbn; congruence. Qed.

  Lemma sync_run q s t s' : insync q s -> pstep B nt s (Run t) = Some s' -> insync q s'.
  Proof.
    intros [Hq Hs] E. cbn [pstep] in E. destruct (nth_error (thr s) t) as [th|] eqn:N; [|discriminate].
    destruct (can_run th) eqn:C; [|discriminate]. injection E as <-. split; [exact Hq|]. cbn [flag thr].
    apply Forall_set; [exact Hs|]. apply orbit_adv; [exact Hq|]. rewrite Forall_forall in Hs. eapply Hs, nth_error_In, N.
  Qed.
  Lemma sync_release q s s' : insync q s -> thr s <> [] -> pstep B nt s Release = Some s' ->
    let w := adv (flag s) (adv (flag s) q) in waits w = true /\ insync (pass_barrier w) s' /\ Forall (eq (pass_barrier w)) (thr s').
  Proof.
    intros [Hq Hs] Hne E w. cbn [pstep] in E. destruct (forallb waits (thr s)) eqn:W; [|discriminate]. injection E as <-. cbn [flag thr].
    assert (A : Forall (eq w) (thr s)).
    { rewrite Forall_forall in *. rewrite forallb_forall in W. intros th Hin. symmetry. apply orbit_last; auto.
      apply waits_run, W, Hin. }
    assert (Ww : waits w = true).
    { destruct (thr s) as [|th l] eqn:L; [congruence|]. rewrite forallb_forall in W. inversion A; subst. apply W. left; reflexivity. }
    assert (F : Forall (eq (pass_barrier w)) (map pass_barrier (thr s))).
    { apply Forall_forall. intros x Hx. apply in_map_iff in Hx. destruct Hx as (th & <- & Hin). rewrite Forall_forall in A.
      rewrite <- (A th Hin). reflexivity. }
    split; [exact Ww|]. split; [|exact F]. split; [apply pass_not_work0, Ww|]. cbn [flag thr].
    eapply Forall_impl; [|exact F]. intros x <-. left; reflexivity.
  Qed.
  Lemma flag_free f f' q th : snd q <> Read -> orbit f q th -> orbit f' q th.
  Proof.
    intros Hq. assert (E : adv f q = adv f' q) by (destruct q as [n []]; cbn in *; congruence).
    assert (E2 : adv f (adv f q) = adv f' (adv f' q)).
    { rewrite <- E. destruct q as [n p]. destruct p as [p| |k|]; try reflexivity; [exfalso; apply Hq; reflexivity|].
      unfold advance_thread at 2 4. cbn [fst snd]. destruct (k <? B); reflexivity. }
    unfold orbit. rewrite E2, E. auto.
  Qed.
  Lemma read_orbit f n th k : orbit f (n, Read) th -> snd th <> Work (S k).
  Proof.
    intros [->|[->| ->]]; [discriminate| |]; destruct f; try discriminate.
    unfold advance_thread. cbn [fst snd]. destruct (Nat.ltb_spec 0 B); cbn; [discriminate|lia].
  Qed.
  Lemma sync_raise q s t n k s' : insync q s -> nth_error (thr s) t = Some (n, Work (S k)) -> pstep B nt s (Raise t) = Some s' ->
    insync q s' /\ thr s' = thr s /\ snd q = Work (S k) /\ fst q = n.
  Proof.
    intros [Hq Hs] N E. cbn [pstep] in E. destruct (t <? length (thr s)); [|discriminate]. injection E as <-. cbn [thr].
    assert (O : orbit (flag s) q (n, Work (S k))) by (rewrite Forall_forall in Hs; eapply Hs, nth_error_In, N).
    assert (Q : snd q = Work (S k) /\ fst q = n).
    { destruct q as [m p]. destruct p as [p| |j|].
      - destruct O as [O|[O|O]]; cbn in O; congruence.
      - exfalso. exact (read_orbit _ _ _ k O eq_refl).
      - destruct O as [O|[O|O]]; [injection O as -> ->; split; reflexivity| |];
          unfold advance_thread in O; cbn [fst snd] in O; destruct (j <? B); cbn in O; discriminate O.
      - destruct O as [O|[O|O]]; cbn in O; congruence. }
    split; [|split; [reflexivity|exact Q]]. split; [exact Hq|]. cbn [flag thr]. eapply Forall_impl; [|exact Hs].
    intros th. apply flag_free. destruct Q as [-> _]. discriminate.
  Qed.

  Lemma sync_all s es s' : safe_run B nt s es s' -> (exists q, insync q s) -> exists q, insync q s'.
  Proof.
    induction 1 as [|s t s1 es s2 E R IH|s s1 es s2 Hne E R IH|s t n k s1 es s2 N E R IH]; intros [q Hq]; [eauto| | |]; apply IH.
    - exists q. eapply sync_run; eauto.
    - eexists. apply (sync_release q s s1 Hq Hne E).
    - exists q. eapply (sync_raise q s t n k s1 Hq N E).
  Qed.
  Lemma sync_init n f : insync (start nt) (pinit nt n f).
  Proof.
    split; [cbn; discriminate|]. cbn [thr pinit flag]. apply Forall_forall. intros x Hx. apply repeat_spec in Hx. left. exact Hx.
  Qed.

  (** never more than one step apart, and threads that returned made the same number *)
  Lemma panic_agree n f es s : safe_run B nt (pinit nt n f) es s ->
    forall t u a b, nth_error (thr s) t = Some (a, Done) -> nth_error (thr s) u = Some (b, Done) -> a = b.
  Proof.
    intros R t u a b Ht Hu. destruct (sync_all _ _ _ R (ex_intro (fun q => insync q _) _ (sync_init n f))) as (q & Hq & Hs).
    rewrite Forall_forall in Hs.
    pose proof (orbit_last _ _ _ Hq (Hs _ (nth_error_In _ _ Ht)) eq_refl) as E1.
    pose proof (orbit_last _ _ _ Hq (Hs _ (nth_error_In _ _ Hu)) eq_refl) as E2. congruence.
  Qed.

  Lemma panic_progress n f es s : safe_run B nt (pinit nt n f) es s -> stuck B nt s -> all_done s.
  Proof.
    intros R [NR NT]. destruct (sync_all _ _ _ R (ex_intro (fun q => insync q _) _ (sync_init n f))) as (q & Hq & Hs).
    assert (C : Forall (fun th => can_run th = false) (thr s)).
    { apply Forall_forall. intros th Hin. destruct (In_nth_error _ _ Hin) as [t Ht]. specialize (NT t). cbn [pstep] in NT.
      rewrite Ht in NT. destruct (can_run th); [discriminate|reflexivity]. }
    assert (A : Forall (eq (adv (flag s) (adv (flag s) q))) (thr s)).
    { rewrite Forall_forall in *. intros th Hin. symmetry. apply orbit_last; auto. }
    remember (adv (flag s) (adv (flag s) q)) as w. unfold all_done.
    destruct (thr s) as [|th l] eqn:L; [constructor|].
    assert (Cw : can_run w = false) by (inversion C; inversion A; subst; assumption).
    destruct w as [m p]. destruct p as [p| |k|]; try discriminate Cw.
    - exfalso. cbn [pstep] in NR. rewrite L in NR.
      assert (W : forallb waits (th :: l) = true) by (apply forallb_forall; intros x Hx; rewrite Forall_forall in A; rewrite <- (A x Hx); reflexivity).
      rewrite W in NR. discriminate.
    - eapply Forall_impl; [|exact A]. intros x <-. reflexivity.
  Qed.

  (** positions only decrease in rank *)
  Definition rank (th : thread) : nat :=
    (nt - fst th) * (2 * B + 5) +
    match snd th with
    | Wait Head => 2 * B + 5 | Read => 2 * B + 4 | Work k => 3 + 2 * (B - k)
    | Wait (Inner k) => 2 + 2 * (B - k) | Wait Final => 1 | Done => 0
    end.
  Definition ranks (l : list thread) : nat := fold_right (fun th n => rank th + n) 0 l.
  Definition okpos (th : thread) : Prop :=
    match snd th with Wait (Inner k) => k < B | Work k => k <= B | _ => True end.

  Lemma adv_ok f th : okpos th -> okpos (adv f th).
  Proof.
    destruct th as [n p]; destruct p as [p| |k|]; unfold okpos, advance_thread; cbn [fst snd]; auto.
    - destruct f; cbn; lia.
    - intros. destruct (Nat.ltb_spec k B); cbn [snd]; [assumption|]. destruct (S n <? nt); exact I.
  Qed.
  Lemma pass_ok th : okpos th -> okpos (pass_barrier th).
  Proof. destruct th as [n [[]| | |]]; unfold okpos; cbn; lia. Qed.
  Lemma adv_rank f th : okpos th -> can_run th = true -> rank (adv f th) < rank th.
  Proof.
    destruct th as [n p]; destruct p as [p| |k|]; unfold okpos, can_run; cbn [snd]; intros Hk Hc; try discriminate;
      unfold rank, advance_thread; cbn [fst snd].
    - destruct f; cbn [fst snd]; lia.
    - destruct (Nat.ltb_spec k B); cbn [fst snd]; [lia|].
      assert (k = B) by lia. subst k. destruct (Nat.ltb_spec (S n) nt).
      + replace (nt - n) with (S (nt - S n)) by lia. rewrite Nat.mul_succ_l. lia.
      + replace (nt - S n) with 0 by lia. rewrite Nat.mul_0_l. generalize ((nt - n) * (2 * B + 5)). intros; lia.
  Qed.
  Lemma pass_rank th : okpos th -> waits th = true -> rank (pass_barrier th) < rank th.
  Proof.
    destruct th as [n p]; destruct p as [p| |k|]; unfold okpos, waits; cbn [snd]; intros Hk Hc; try discriminate.
    unfold rank, pass_barrier; destruct p; cbn [fst snd]; lia.
  Qed.
  Lemma ranks_app a b : ranks (a ++ b) = ranks a + ranks b.
  Proof. induction a as [|x a IH]; [reflexivity|]. unfold ranks in *. cbn [app fold_right]. rewrite IH. lia. Qed.
  Lemma ranks_set l t th x : nth_error l t = Some th -> rank x < rank th -> ranks (set_thr l t x) < ranks l.
  Proof.
    intros E H. destruct (nth_error_split _ _ E) as (l1 & l2 & -> & <-). unfold set_thr.
    rewrite firstn_app, Nat.sub_diag, firstn_O, app_nil_r, firstn_all.
    replace (skipn (S (length l1)) (l1 ++ th :: l2)) with l2.
    - rewrite !ranks_app. unfold ranks at 2 4. cbn [fold_right]. lia.
    - rewrite skipn_app, skipn_all2 by lia. replace (S (length l1) - length l1) with 1 by lia. reflexivity.
  Qed.
  Lemma ranks_map l : Forall okpos l -> forallb waits l = true -> l <> [] -> ranks (map pass_barrier l) < ranks l.
  Proof.
    intros Ho W Hne. assert (L : ranks (map pass_barrier l) + length l <= ranks l).
    { clear Hne. induction l as [|a l IH]; [cbn; lia|]. inversion Ho; subst. cbn [forallb] in W. apply andb_true_iff in W. destruct W as [Wa W].
      specialize (IH H2 W). pose proof (pass_rank a H1 Wa). cbn [map ranks fold_right length] in *. fold (ranks l) (ranks (map pass_barrier l)) in *. unfold ranks in *. lia. }
    destruct l; [congruence|]. cbn [length] in L. lia.
  Qed.
  Lemma run_ranks s es s' : safe_run B nt s es s' -> Forall okpos (thr s) -> moves es + ranks (thr s') <= ranks (thr s).
  Proof.
    induction 1 as [|s t s1 es s2 E R IH|s s1 es s2 Hne E R IH|s t n k s1 es s2 N E R IH]; intros Ho; [cbn; lia| | |].
    - cbn [pstep] in E. destruct (nth_error (thr s) t) as [th|] eqn:N; [|discriminate]. destruct (can_run th) eqn:C; [|discriminate].
      injection E as <-. cbn [thr] in IH.
      assert (Oth : okpos th) by (rewrite Forall_forall in Ho; eapply Ho, nth_error_In, N).
      pose proof (ranks_set _ _ _ _ N (adv_rank (flag s) th Oth C)) as Hr.
      assert (Ho' : Forall okpos (set_thr (thr s) t (adv (flag s) th))) by (apply Forall_set; [assumption|apply adv_ok; assumption]).
      specialize (IH Ho'). unfold moves in *. cbn [filter length]. lia.
    - cbn [pstep] in E. destruct (forallb waits (thr s)) eqn:W; [|discriminate]. injection E as <-. cbn [thr] in IH.
      pose proof (ranks_map _ Ho W Hne) as Hr.
      assert (Ho' : Forall okpos (map pass_barrier (thr s))).
      { rewrite Forall_forall in *. intros x Hx. apply in_map_iff in Hx. destruct Hx as (y & <- & Hy). apply pass_ok, Ho, Hy. }
      specialize (IH Ho'). unfold moves in *. cbn [filter length]. lia.
    - cbn [pstep] in E. destruct (t <? length (thr s)); [|discriminate]. injection E as <-. cbn [thr] in IH. specialize (IH Ho). unfold moves in *. cbn [filter length]. lia.
  Qed.
  Lemma ranks_repeat n th : ranks (repeat th n) = n * rank th.
  Proof. induction n; cbn in *; [reflexivity|]. unfold ranks in *. lia. Qed.
  Lemma panic_terminates n f es s : safe_run B nt (pinit nt n f) es s -> moves es <= n * ((nt + 1) * (2 * B + 5)).
  Proof.
    intros R. pose proof (run_ranks _ _ _ R) as H. cbn [thr pinit] in H. rewrite ranks_repeat in H.
    assert (Ho : Forall okpos (repeat (start nt) n)).
    { apply Forall_forall. intros x Hx. apply repeat_spec in Hx. subst. unfold okpos, start. cbn [snd]. destruct (0 <? nt); exact I. }
    specialize (H Ho). assert (rank (start nt) <= (nt + 1) * (2 * B + 5)).
    { unfold rank, start. cbn [fst snd]. rewrite Nat.sub_0_r, Nat.mul_add_distr_r. destruct (0 <? nt); lia. }
    pose proof (Nat.mul_le_mono_l _ _ n H0). lia.
  Qed.

  (** steps after the flag was set *)
  Definition late (m : nat) (th : thread) : Prop :=
    fst th < m \/ fst th = m /\ match snd th with Work _ | Wait (Inner _) => False | _ => True end.
  Lemma late_adv m th : late m th -> late m (adv true th).
  Proof.
    unfold late. destruct th as [n p]; destruct p as [p| |k|]; unfold advance_thread; cbn [fst snd]; auto.
    intros [H|[_ []]]. destruct (k <? B); cbn [fst snd]; [left; exact H|]. destruct (S n <? nt); lia.
  Qed.
  Lemma late_pass m th : late m th -> late m (pass_barrier th).
  Proof. unfold late. destruct th as [n [[]| | |]]; cbn [pass_barrier fst snd]; intuition auto. Qed.
  Lemma late_run m s es s' : safe_run B nt s es s' -> flag s = true -> Forall (late m) (thr s) -> flag s' = true /\ Forall (late m) (thr s').
  Proof.
    induction 1 as [|s t s1 es s2 E R IH|s s1 es s2 Hne E R IH|s t n k s1 es s2 N E R IH]; intros Hf Ho; [auto| | |]; cbn [pstep] in E.
    - destruct (nth_error (thr s) t) as [th|] eqn:N; [|discriminate]. destruct (can_run th) eqn:C; [|discriminate].
      injection E as <-. apply IH; [exact Hf|]. cbn [thr]. apply Forall_set; [exact Ho|]. rewrite Hf. apply late_adv.
      rewrite Forall_forall in Ho. eapply Ho, nth_error_In, N.
    - destruct (forallb waits (thr s)) eqn:W; [|discriminate]. injection E as <-. apply IH; [exact Hf|]. cbn [thr].
      rewrite Forall_forall in *. intros x Hx. apply in_map_iff in Hx. destruct Hx as (y & <- & Hy). apply late_pass, Ho, Hy.
    - destruct (t <? length (thr s)); [|discriminate]. injection E as <-. apply IH; [reflexivity|exact Ho].
  Qed.
  Lemma panic_stops n f es1 s t a k s1 es2 s2 : safe_run B nt (pinit nt n f) es1 s ->
    nth_error (thr s) t = Some (a, Work (S k)) -> pstep B nt s (Raise t) = Some s1 -> safe_run B nt s1 es2 s2 ->
    forall th, In th (thr s2) -> fst th <= S a.
  Proof.
    intros R N E R2 th Hin. destruct (sync_all _ _ _ R (ex_intro (fun q => insync q _) _ (sync_init n f))) as (q & Hq).
    destruct (sync_raise q s t a k s1 Hq N E) as ([_ Hs1] & Hthr & Qp & Qn).
    assert (F1 : flag s1 = true) by (cbn [pstep] in E; destruct (t <? length (thr s)); [injection E as <-; reflexivity|discriminate]).
    assert (L : Forall (late (S a)) (thr s1)).
    { eapply Forall_impl; [|exact Hs1]. destruct q as [m p]. cbn [fst snd] in *. subst m p. rewrite F1.
      assert (L0 : late (S a) (a, Work (S k))) by (left; cbn; lia). intros x [->|[->| ->]]; auto using late_adv. }
    destruct (late_run _ _ _ _ R2 F1 L) as [_ L2]. rewrite Forall_forall in L2. destruct (L2 _ Hin) as [H|[H _]]; lia.
  Qed.
End P.

(** a thread that raises the flag before the first barrier of a step *)
Definition early_raise : list pevent := [Release; Run 0; Raise 0; Run 0; Run 1; Release; Run 0].
Lemma early_raise_stuck : exists s, prun 2 3 (pinit 3 2 false) early_raise = Some s /\ stuck 2 3 s /\
  thr s = [(0, Wait (Inner 1)); (0, Done)].
Proof.
  eexists. split; [reflexivity|]. split; [|reflexivity]. split; [reflexivity|].
  intros [|[|t]]; [reflexivity|reflexivity|]. cbn. destruct t; reflexivity.
Qed.
