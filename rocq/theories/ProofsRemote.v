(** Exchange of halos between processes (C29). *)
From Coq Require Import ZArith List Bool Lia ZifyBool ZifyNat.
From Verif Require Import ModelIndex ModelBcond SpecBcond ProofsBcond.
Import ListNotations.
Local Open Scope Z_scope.

(** ** Messages *)
Section Messages.
  Variable V : Type.
  Implicit Types (a b c : Z -> V) (m : list V).
  Lemma unpack_nth : forall m a i d j,
    unpack V a i m j = if (i <=? j) && (j <? i + Z.of_nat (length m)) then nth (Z.to_nat (j - i)) m d else a j.
  Proof.
    induction m as [|v m IH]; intros a i d j; cbn [unpack length].
    - replace ((i <=? j) && _) with false by lia. reflexivity.
    - rewrite (IH _ _ d). destruct (Z.eq_dec j i) as [->|N].
      + replace ((i + 1 <=? i) && _) with false by lia. replace ((i <=? i) && _) with true by lia.
        rewrite upd_eq. replace (i - i) with 0 by lia. reflexivity.
      + rewrite upd_ne by assumption.
        replace ((i + 1 <=? j) && (j <? i + 1 + Z.of_nat (length m))) with ((i <=? j) && (j <? i + Z.of_nat (S (length m)))) by lia.
        destruct ((i <=? j) && _) eqn:E; [|reflexivity].
        replace (Z.to_nat (j - i)) with (S (Z.to_nat (j - (i + 1)))) by lia. reflexivity.
  Qed.
  Lemma pack_length : forall a r, length (pack V a r) = Z.to_nat (rlen r).
  Proof. intros. unfold pack. now rewrite map_length, seq_length. Qed.
  Lemma pack_nth : forall a r k d, 0 <= k < rlen r -> nth (Z.to_nat k) (pack V a r) d = a (first r + k).
  Proof.
    intros. unfold pack.
    rewrite (nth_indep _ d (a (first r + Z.of_nat 0))) by (rewrite map_length, seq_length; lia).
    rewrite (map_nth (fun k => a (first r + Z.of_nat k)) _ 0%nat). rewrite seq_nth by lia. f_equal. lia.
  Qed.
  Lemma store_pack : forall a b r r' c, store V a r (pack V b r') = Some c ->
    forall j, c j = if (first r <=? j) && (j <=? last r) then b (first r' + (j - first r)) else a j.
  Proof.
    intros a b r r' c. unfold store. rewrite pack_length.
    destruct (Nat.eqb_spec (Z.to_nat (rlen r')) (Z.to_nat (rlen r))) as [E|]; [|discriminate].
    intros H j. injection H as <-. rewrite (unpack_nth _ _ _ (b 0)). rewrite pack_length, E. unfold rlen in *.
    destruct ((first r <=? j) && (j <=? last r)) eqn:J.
    - replace ((first r <=? j) && _) with true by lia. apply pack_nth. unfold rlen. lia.
    - replace ((first r <=? j) && _) with false by lia. reflexivity.
  Qed.
  Lemma store_some : forall a b r r', Z.to_nat (rlen r') = Z.to_nat (rlen r) -> exists c, store V a r (pack V b r') = Some c.
  Proof. intros. unfold store. rewrite pack_length, H, Nat.eqb_refl. eauto. Qed.
End Messages.

(** ** Neighbours *)
Section Peers.
  Variable size : Z.
  Hypothesis Hs : 2 <= size.
  Notation peer := (peer_rght size).
  Lemma peer_val : forall r, 0 <= r < size -> peer r = if r =? size - 1 then 0 else r + 1.
  Proof.
    intros. unfold peer_rght. destruct (Z.eqb_spec r (size - 1)).
    - subst. replace (size - 1 + 1) with size by lia. apply Z.rem_same. lia.
    - apply Z.rem_small. lia.
  Qed.
  Lemma peer_range : forall r, 0 <= r < size -> 0 <= peer r < size.
  Proof. intros. rewrite peer_val by assumption. destruct (Z.eqb_spec r (size - 1)); lia. Qed.
  Lemma peer_ne : forall r, 0 <= r < size -> peer r <> r.
  Proof. intros. rewrite peer_val by assumption. destruct (Z.eqb_spec r (size - 1)); lia. Qed.
  Lemma peer_inj : forall r q, 0 <= r < size -> 0 <= q < size -> peer r = peer q -> r = q.
  Proof. intros r q Hr Hq. rewrite !peer_val by assumption. destruct (Z.eqb_spec r (size - 1)), (Z.eqb_spec q (size - 1)); lia. Qed.
  Lemma peer_inner : forall r, 0 <= r < size -> r <> size - 1 -> peer r = r + 1.
  Proof. intros. rewrite peer_val by assumption. now replace (r =? size - 1) with false by lia. Qed.
End Peers.

(** ** The protocol *)
Section Protocol.
  Variables (V : Type) (n size : Z) (cyclic : bool) (lsend lrecv rsend rrecv : Z -> rng) (keep : Z).
  Hypothesis Hs : 2 <= size.
  Notation peer := (peer_rght size).
  Notation lkr := (linked_rght size cyclic).
  Notation lkl := (linked_left cyclic).
  Notation st := (nstep V n size cyclic lsend lrecv rsend rrecv keep).
  Notation sts := (nsteps V n size cyclic lsend lrecv rsend rrecv keep).
  Definition doneR (r : Z) (k : nat) : bool := if Z.even r then (1 <=? k)%nat else (2 <=? k)%nat.
  Definition doneL (r : Z) (k : nat) : bool := if Z.even r then (2 <=? k)%nat else (1 <=? k)%nat.
  Definition sync (p : Z -> nat) : Prop :=
    (forall r, 0 <= r < size -> (p r <= 2)%nat) /\
    forall r, 0 <= r < size -> lkr r = true -> doneR r (p r) = doneL (peer r) (p (peer r)).


  Lemma action_R : forall r k, action r k = Some SideR -> doneR r k = false /\ doneR r (S k) = true /\ doneL r (S k) = doneL r k /\ (S k <= 2)%nat.
  Proof.
    unfold action, doneR, doneL. intros r k. destruct k as [|[|k]], (Z.even r); intros H; try discriminate; repeat split; auto.
  Qed.
  Lemma action_L : forall r k, action r k = Some SideL -> doneL r k = false /\ doneL r (S k) = true /\ doneR r (S k) = doneR r k /\ (S k <= 2)%nat.
  Proof.
    unfold action, doneR, doneL. intros r k. destruct k as [|[|k]], (Z.even r); intros H; try discriminate; repeat split; auto.
  Qed.

  Lemma step_pc_eq : forall p r, step_pc p r r = S (p r).
  Proof. intros. unfold step_pc. now rewrite Z.eqb_refl. Qed.
  Lemma step_pc_ne : forall p r q, q <> r -> step_pc p r q = p q.
  Proof. intros. unfold step_pc. now replace (q =? r) with false by lia. Qed.

  Lemma sync_step : forall s t, st s t -> sync (pc s) -> sync (pc t).
  Proof.
    intros s t H [B K]. destruct H as [s r a b Hr Hl A1 A2 _ _|s a Hl A _|s a Hl A _]; cbn [pc].
    - pose proof (peer_range size Hs r Hr). pose proof (peer_ne size Hs r Hr).
      apply action_R in A1. apply action_L in A2. set (q := peer r) in *.
      assert (P : forall x, step_pc (step_pc (pc s) r) q x = if (x =? r) || (x =? q) then S (pc s x) else pc s x).
      { intros x. unfold step_pc. destruct (Z.eqb_spec x q), (Z.eqb_spec x r); cbn [orb]; try reflexivity; lia. }
      split.
      + intros x Hx. rewrite P. destruct (Z.eqb_spec x r) as [->|]; [cbn; lia|]. destruct (Z.eqb_spec x q) as [->|]; [cbn; lia|]. cbn. auto.
      + intros x Hx Lx. rewrite !P. pose proof (K x Hx Lx) as Kx.
        destruct (Z.eqb_spec x r) as [->|Nr].
        * fold q in Kx |- *. replace (q =? r) with false by lia. rewrite Z.eqb_refl. cbn [orb].
          destruct A1 as (_ & -> & _), A2 as (_ & -> & _). reflexivity.
        * assert (peer x <> q) by (intros E; apply Nr; apply (peer_inj size Hs); auto).
          replace (peer x =? q) with false by lia. rewrite orb_false_r. cbn [orb].
          replace (doneR x (if x =? q then S (pc s x) else pc s x)) with (doneR x (pc s x)).
          2:{ destruct (Z.eqb_spec x q) as [->|]; [|reflexivity]. now destruct A2 as (_ & _ & -> & _). }
          replace (doneL (peer x) (if peer x =? r then S (pc s (peer x)) else pc s (peer x))) with (doneL (peer x) (pc s (peer x))); [exact Kx|].
          destruct (Z.eqb_spec (peer x) r) as [->|]; [|reflexivity]. now destruct A1 as (_ & _ & -> & _).
    - apply action_L in A. destruct A as (_ & _ & A & A'). split.
      + intros x Hx. unfold step_pc. destruct (Z.eqb_spec x 0) as [->|]; auto.
      + intros x Hx Lx. pose proof (K x Hx Lx) as Kx.
        assert (peer x <> 0).
        { rewrite (peer_val size Hs) by assumption. destruct (Z.eqb_spec x (size - 1)); [|lia].
          unfold linked_left in Hl. unfold linked_rght in Lx. subst. rewrite Z.eqb_refl in Lx. cbn in *. congruence. }
        rewrite (step_pc_ne _ _ (peer x)) by assumption. unfold step_pc.
        destruct (Z.eqb_spec x 0) as [->|]; [|exact Kx]. rewrite A. exact Kx.
    - apply action_R in A. destruct A as (_ & _ & A & A'). split.
      + intros x Hx. unfold step_pc. destruct (Z.eqb_spec x (size - 1)) as [->|]; auto.
      + intros x Hx Lx. pose proof (K x Hx Lx) as Kx.
        assert (x <> size - 1) by (intros ->; congruence). rewrite (step_pc_ne _ _ x) by assumption.
        unfold step_pc. destruct (Z.eqb_spec (peer x) (size - 1)) as [E|]; [|exact Kx].
        rewrite E in Kx |- *. rewrite A. exact Kx.
  Qed.
  Lemma sync_start : forall d, sync (pc (start V d)).
  Proof.
    intros d. cbn. split; [intros; lia|]. intros. unfold doneR, doneL. destruct (Z.even r), (Z.even (peer r)); reflexivity.
  Qed.
  Lemma sync_steps : forall s t, sts s t -> sync (pc s) -> sync (pc t).
  Proof. induction 1; auto. intros. eapply sync_step; eauto. Qed.

  Hypothesis Hlen : forall r, 0 <= r < size -> lkr r = true ->
    Z.to_nat (rlen (lsend (peer r))) = Z.to_nat (rlen (rrecv r)) /\ Z.to_nat (rlen (rsend r)) = Z.to_nat (rlen (lrecv (peer r))).

  Lemma fire : forall s r, 0 <= r < size -> lkr r = true ->
    action r (pc s r) = Some SideR -> action (peer r) (pc s (peer r)) = Some SideL -> exists t, st s t.
  Proof.
    intros s r Hr Hl A1 A2. destruct (Hlen r Hr Hl) as [E1 E2].
    destruct (store_some V (data s r) (data s (peer r)) _ _ E1) as [a Ha].
    destruct (store_some V (data s (peer r)) (data s r) _ _ E2) as [b Hb].
    eexists. eapply Exchange; eauto.
  Qed.
  Lemma range_dec : forall (P : Z -> bool) k, (exists r, 0 <= r < Z.of_nat k /\ P r = true) \/ (forall r, 0 <= r < Z.of_nat k -> P r = false).
  Proof.
    induction k; [right; intros; lia|]. destruct IHk as [(r & ? & ?)|H]; [left; exists r; split; [lia|auto]|].
    destruct (P (Z.of_nat k)) eqn:E; [left; exists (Z.of_nat k); split; [lia|auto]|].
    right. intros r Hr. destruct (Z.eq_dec r (Z.of_nat k)) as [->|]; auto. apply H. lia.
  Qed.

  Lemma even_S : forall r, Z.even (r + 1) = negb (Z.even r).
  Proof. intros. rewrite Z.even_add. cbn. now destruct (Z.even r). Qed.
  Lemma even_P : forall r, Z.even (r - 1) = negb (Z.even r).
  Proof. intros. rewrite Z.even_sub. cbn. now destruct (Z.even r). Qed.

  Lemma act_R_even : forall r k, Z.even r = true -> doneR r k = false -> action r k = Some SideR.
  Proof. unfold doneR, action. intros r k ->. destruct k as [|[|k]]; cbn; intros; auto; discriminate. Qed.
  Lemma act_L_odd : forall r k, Z.even r = false -> doneL r k = false -> action r k = Some SideL.
  Proof. unfold doneL, action. intros r k ->. destruct k as [|[|k]]; cbn; intros; auto; discriminate. Qed.
  Lemma act_R_odd : forall r k, Z.even r = false -> k <> 0%nat -> doneR r k = false -> action r k = Some SideR.
  Proof. unfold doneR, action. intros r k -> N. destruct k as [|[|k]]; cbn; intros; auto; try discriminate. congruence. Qed.
  Lemma act_L_even : forall r k, Z.even r = true -> k <> 0%nat -> doneL r k = false -> action r k = Some SideL.
  Proof. unfold doneL, action. intros r k -> N. destruct k as [|[|k]]; cbn; intros; auto; try discriminate. congruence. Qed.

  Lemma lkr_inner : forall r, r <> size - 1 -> lkr r = true.
  Proof. intros. unfold linked_rght. replace (r =? size - 1) with false by lia. reflexivity. Qed.

  Lemma sync_progress : forall s, sync (pc s) -> ~ finished V size s -> exists t, st s t.
  Proof.
    intros s [B K] NF.
    (* an even process that has not met its right neighbour, linked to an odd one *)
    assert (E1 : forall r, 0 <= r < size -> r <> size - 1 -> Z.even r = true -> doneR r (pc s r) = false -> exists t, st s t).
    { intros r Hr N E D. pose proof (lkr_inner r N) as Lr. pose proof (K r Hr Lr) as Kr.
      apply (fire s r Hr Lr); [apply act_R_even; auto|].
      rewrite (peer_inner size Hs) in * by assumption. apply act_L_odd; [rewrite even_S, E; reflexivity|congruence]. }
    destruct (range_dec (fun r => Nat.eqb (pc s r) 0) (Z.to_nat size)) as [(r & Hr & Z0)|All]; rewrite Z2Nat.id in * by lia.
    - apply Nat.eqb_eq in Z0. destruct (Z.even r) eqn:E.
      + assert (D : doneR r (pc s r) = false) by (unfold doneR; rewrite E, Z0; reflexivity).
        destruct (Z.eq_dec r (size - 1)) as [->|N]; [|eauto].
        destruct (lkr (size - 1)) eqn:Lr.
        * pose proof (K _ Hr Lr) as Kr. assert (P0 : peer (size - 1) = 0) by (rewrite (peer_val size Hs) by assumption; now rewrite Z.eqb_refl).
          rewrite D, P0 in Kr. destruct (Nat.eq_dec (pc s 0) 0) as [P|P].
          -- apply (E1 0); [lia|lia|reflexivity|]. unfold doneR. rewrite P. reflexivity.
          -- apply (fire s _ Hr Lr); [apply act_R_even; auto|]. rewrite P0. apply act_L_even; auto.
        * eexists. eapply Physical_rght; [exact Lr|apply act_R_even; auto|reflexivity].
      + assert (0 < r) by (destruct (Z.eq_dec r 0) as [->|]; [discriminate|lia]).
        apply (E1 (r - 1)); [lia|lia|rewrite even_P, E; reflexivity|].
        rewrite (K (r - 1)) by (try lia; apply lkr_inner; lia).
        rewrite (peer_inner size Hs) by lia. replace (r - 1 + 1) with r by lia. unfold doneL. rewrite E, Z0. reflexivity.
    - assert (Pz : forall r, 0 <= r < size -> pc s r <> 0%nat) by (intros r Hr; specialize (All r Hr); lia).
      destruct (range_dec (fun r => Nat.eqb (pc s r) 1) (Z.to_nat size)) as [(r & Hr & Z1)|All1]; rewrite Z2Nat.id in * by lia.
      2:{ exfalso. apply NF. intros r Hr. specialize (All r Hr). specialize (All1 r Hr). specialize (B r Hr). lia. }
      apply Nat.eqb_eq in Z1. destruct (Z.even r) eqn:E.
      + assert (D : doneL r (pc s r) = false) by (unfold doneL; rewrite E, Z1; reflexivity).
        assert (Ar : action r (pc s r) = Some SideL) by (apply act_L_even; auto).
        destruct (Z.eq_dec r 0) as [->|N].
        * destruct (lkl 0) eqn:Ll.
          -- assert (Lr : lkr (size - 1) = true) by (unfold linked_left in Ll; unfold linked_rght; cbn in Ll; rewrite Ll; now rewrite orb_true_r).
             assert (P0 : peer (size - 1) = 0) by (rewrite (peer_val size Hs) by lia; now rewrite Z.eqb_refl).
             pose proof (K (size - 1) ltac:(lia) Lr) as Kr. rewrite P0, D in Kr.
             assert (Eo : Z.even (size - 1) = false).
             { destruct (Z.even (size - 1)) eqn:Ee; auto. unfold doneR in Kr. rewrite Ee in Kr. specialize (Pz (size - 1) ltac:(lia)). lia. }
             apply (fire s (size - 1) ltac:(lia) Lr); [apply act_R_odd; auto; apply Pz; lia|]. rewrite P0. exact Ar.
          -- eexists. eapply Physical_left; [exact Ll|exact Ar|reflexivity].
        * pose proof (lkr_inner (r - 1) ltac:(lia)) as Lr. pose proof (K (r - 1) ltac:(lia) Lr) as Kr.
          assert (P1 : peer (r - 1) = r) by (rewrite (peer_inner size Hs) by lia; lia). rewrite P1, D in Kr.
          apply (fire s (r - 1) ltac:(lia) Lr); [|rewrite P1; exact Ar].
          apply act_R_odd; auto. { rewrite even_P, E. reflexivity. } apply Pz. lia.
      + assert (D : doneR r (pc s r) = false) by (unfold doneR; rewrite E, Z1; reflexivity).
        assert (Ar : action r (pc s r) = Some SideR) by (apply act_R_odd; auto).
        destruct (lkr r) eqn:Lr.
        * pose proof (K r Hr Lr) as Kr. rewrite D in Kr. apply (fire s r Hr Lr Ar).
          apply act_L_even; auto; [|apply Pz; apply (peer_range size Hs); assumption].
          rewrite (peer_val size Hs) by assumption. destruct (Z.eqb_spec r (size - 1)); [reflexivity|]. rewrite even_S, E. reflexivity.
        * assert (r = size - 1) as ->.
          { unfold linked_rght in Lr. destruct (Z.eqb_spec r (size - 1)); auto. discriminate. }
          eexists. eapply Physical_rght; [exact Lr|exact Ar|reflexivity].
  Qed.
  Lemma remote_progress : forall d s, sts (start V d) s -> finished V size s \/ exists t, st s t.
  Proof.
    intros d s H. assert (S := sync_steps _ _ H (sync_start d)).
    destruct (range_dec (fun r => negb (Nat.eqb (pc s r) 2)) (Z.to_nat size)) as [(r & Hr & N)|All]; rewrite Z2Nat.id in * by lia.
    - right. apply sync_progress; auto. intros F. specialize (F r Hr). rewrite F in N. discriminate.
    - left. intros r Hr. specialize (All r Hr). lia.
  Qed.

  (** no infinite execution *)
  Fixpoint total (p : Z -> nat) (k : nat) : nat := match k with O => O | S k => (total p k + p (Z.of_nat k))%nat end.
  Lemma total_step : forall p r k, 0 <= r -> total (step_pc p r) k = (total p k + if (r <? Z.of_nat k)%Z then 1 else 0)%nat.
  Proof.
    induction k; intros Hr; cbn [total].
    - replace (r <? Z.of_nat 0)%Z with false by lia. lia.
    - rewrite IHk by assumption. unfold step_pc at 1.
      destruct (Z.eqb_spec (Z.of_nat k) r) as [<-|].
      + replace (Z.of_nat k <? Z.of_nat k)%Z with false by lia. replace (Z.of_nat k <? Z.of_nat (S k))%Z with true by lia. lia.
      + replace (r <? Z.of_nat (S k))%Z with (r <? Z.of_nat k)%Z by lia. lia.
  Qed.
  Lemma total_bound : forall p k, (forall r, 0 <= r < Z.of_nat k -> (p r <= 2)%nat) -> (total p k <= 2 * k)%nat.
  Proof. induction k; intros H; cbn [total]; [lia|]. specialize (IHk ltac:(intros; apply H; lia)). specialize (H (Z.of_nat k) ltac:(lia)). lia. Qed.
  Lemma total_grows : forall s t, st s t -> (total (pc s) (Z.to_nat size) < total (pc t) (Z.to_nat size))%nat.
  Proof.
    intros s t H. destruct H as [s r a b Hr Hl A1 A2 _ _|s a Hl A _|s a Hl A _]; cbn [pc];
      rewrite ?total_step by (try apply (peer_range size Hs); lia).
    - replace (r <? Z.of_nat (Z.to_nat size)) with true by lia. lia.
    - replace (0 <? Z.of_nat (Z.to_nat size)) with true by lia. lia.
    - replace (size - 1 <? Z.of_nat (Z.to_nat size)) with true by lia. lia.
  Qed.
  Lemma remote_terminates : forall (f : nat -> net V) d, f O = start V d -> ~ (forall k, st (f k) (f (S k))).
  Proof.
    intros f d F0 H.
    assert (R : forall k, sts (start V d) (f k)).
    { induction k; [rewrite F0; constructor|]. econstructor; [exact IHk|apply H]. }
    assert (G : forall k, (k <= total (pc (f k)) (Z.to_nat size))%nat).
    { induction k; [lia|]. pose proof (total_grows _ _ (H k)). lia. }
    specialize (G (S (2 * Z.to_nat size))).
    destruct (sync_steps _ _ (R (S (2 * Z.to_nat size))) (sync_start d)) as [B _].
    pose proof (total_bound _ (Z.to_nat size) (fun r Hr => B r ltac:(lia))). lia.
  Qed.

  Lemma remote_completes : forall d s, sts (start V d) s -> exists t, sts s t /\ finished V size t.
  Proof.
    intros d s H. remember (2 * Z.to_nat size - total (pc s) (Z.to_nat size))%nat as m. revert s H Heqm.
    induction m as [m IH] using (well_founded_induction Wf_nat.lt_wf). intros s H ->.
    destruct (remote_progress d s H) as [F|[t St]]; [exists s; split; [constructor|exact F]|].
    assert (Ht : sts (start V d) t) by (econstructor; eauto).
    pose proof (total_grows _ _ St).
    destruct (sync_steps _ _ Ht (sync_start d)) as [B _].
    pose proof (total_bound _ (Z.to_nat size) (fun r Hr => B r ltac:(lia))).
    destruct (IH (2 * Z.to_nat size - total (pc t) (Z.to_nat size))%nat ltac:(lia) t Ht eq_refl) as (u & Su & F).
    exists u. split; [|exact F]. clear - St Su. induction Su; [econstructor; [constructor|exact St]|]. econstructor; eauto.
  Qed.

  (** values *)
  Variables (g : Z -> V) (own : Z -> rng).
  Hypothesis Hvals : forall r, 0 <= r < size -> lkr r = true ->
    (forall j, in_rng j (rrecv r) -> in_rng (first (lsend (peer r)) + (j - first (rrecv r))) (own (peer r)) /\
       g (first (lsend (peer r)) + (j - first (rrecv r))) = g j) /\
    (forall j, in_rng j (lrecv (peer r)) -> in_rng (first (rsend r) + (j - first (lrecv (peer r)))) (own r) /\
       g (first (rsend r) + (j - first (lrecv (peer r)))) = g j).
  Hypothesis Hout : forall r, 0 <= r < size ->
    first (own r) <= last (own r) /\ last (lrecv r) < first (own r) /\ last (own r) < first (rrecv r).
  Hypothesis Hends : 0 <= first (own 0) /\ last (own (size - 1)) <= n - 1 - keep.

  Definition good (s : net V) : Prop := forall r, 0 <= r < size ->
    (forall j, in_rng j (own r) -> data s r j = g j) /\
    (lkl r = true -> doneL r (pc s r) = true -> forall j, in_rng j (lrecv r) -> data s r j = g j) /\
    (lkr r = true -> doneR r (pc s r) = true -> forall j, in_rng j (rrecv r) -> data s r j = g j).

  Lemma good_step : forall s t, st s t -> good s -> good t.
  Proof.
    intros s t H G. destruct H as [s r a b Hr Hl A1 A2 Sa Sb|s a Hl A Ha|s a Hl A Ha]; intros x Hx; cbn [data pc].
    - pose proof (peer_range size Hs r Hr) as Hq. pose proof (peer_ne size Hs r Hr) as Nq.
      pose proof (store_pack _ _ _ _ _ _ Sa) as Ea. pose proof (store_pack _ _ _ _ _ _ Sb) as Eb.
      apply action_R in A1. apply action_L in A2.
      destruct (Hvals r Hr Hl) as [V1 V2]. set (q := peer r) in *.
      destruct (G x Hx) as (G1 & G2 & G3).
      pose proof (Hout x Hx) as Ox. unfold put.
      destruct (Z.eqb_spec x q) as [->|Nxq].
      + rewrite step_pc_eq, step_pc_ne by assumption. destruct A2 as (_ & _ & A2 & _).
        unfold in_rng in *. repeat split.
        * intros j Hj. rewrite Eb. replace ((first (lrecv q) <=? j) && _) with false by lia. auto.
        * intros _ _ j Hj. rewrite Eb. replace ((first (lrecv q) <=? j) && _) with true by lia.
          destruct (V2 j Hj) as [I E]. rewrite <- E. apply (proj1 (G r Hr)). exact I.
        * intros Lx Dx j Hj. rewrite A2 in Dx. rewrite Eb. replace ((first (lrecv q) <=? j) && _) with false by lia. auto.
      + destruct (Z.eqb_spec x r) as [->|Nxr].
        * rewrite step_pc_ne, step_pc_eq by assumption. destruct A1 as (_ & _ & A1 & _).
          unfold in_rng in *. repeat split.
          -- intros j Hj. rewrite Ea. replace ((first (rrecv r) <=? j) && _) with false by lia. auto.
          -- intros Lx Dx j Hj. rewrite A1 in Dx. rewrite Ea. replace ((first (rrecv r) <=? j) && _) with false by lia. auto.
          -- intros _ _ j Hj. rewrite Ea. replace ((first (rrecv r) <=? j) && _) with true by lia.
             destruct (V1 j Hj) as [I E]. rewrite <- E. apply (proj1 (G q Hq)). exact I.
        * rewrite !step_pc_ne by assumption. auto.
    - destruct (G x Hx) as (G1 & G2 & G3). pose proof (Hout x Hx) as Ox. apply action_L in A. destruct A as (_ & _ & A & _).
      unfold put. destruct (Z.eqb_spec x 0) as [->|N].
      + rewrite step_pc_eq. unfold in_rng in *. repeat split.
        * intros j Hj. rewrite Ha by lia. auto.
        * congruence.
        * intros Lx Dx j Hj. rewrite A in Dx. rewrite Ha by lia. auto.
      + rewrite step_pc_ne by assumption. auto.
    - destruct (G x Hx) as (G1 & G2 & G3). pose proof (Hout x Hx) as Ox. apply action_R in A. destruct A as (_ & _ & A & _).
      unfold put. destruct (Z.eqb_spec x (size - 1)) as [->|N].
      + rewrite step_pc_eq. unfold in_rng in *. repeat split.
        * intros j Hj. rewrite Ha by lia. auto.
        * intros Lx Dx j Hj. rewrite A in Dx. rewrite Ha by lia. auto.
        * congruence.
      + rewrite step_pc_ne by assumption. auto.
  Qed.
  Lemma good_steps : forall s t, sts s t -> good s -> good t.
  Proof. induction 1; auto. intros. eapply good_step; eauto. Qed.
  Lemma remote_values : forall d s, (forall r j, 0 <= r < size -> in_rng j (own r) -> d r j = g j) ->
    sts (start V d) s -> finished V size s -> forall r j, 0 <= r < size ->
    in_rng j (own r) \/ (lkl r = true /\ in_rng j (lrecv r)) \/ (lkr r = true /\ in_rng j (rrecv r)) ->
    data s r j = g j.
  Proof.
    intros d s Hd H F r j Hr Hj.
    assert (G : good s).
    { eapply good_steps; eauto.
      intros x Hx. cbn. repeat split; [auto|..]; unfold doneL, doneR; destruct (Z.even x); discriminate. }
    destruct (G r Hr) as (G1 & G2 & G3). specialize (F r Hr). rewrite F in *.
    assert (doneL r 2 = true /\ doneR r 2 = true) as [D1 D2] by (unfold doneL, doneR; now destruct (Z.even r)).
    destruct Hj as [|[[]|[]]]; auto.
  Qed.
End Protocol.

(** ** Parts of the grid *)
Lemma part_first0 : forall n size, 0 < size -> first (part n size 0) = 0.
Proof. intros. unfold part, slab, dd_min, first, rlen. cbn [fst snd]. rewrite Z.mul_0_l, Z.quot_0_l by lia. lia. Qed.
Lemma part_last : forall n size, 0 < size -> last (part n size (size - 1)) = n - 1.
Proof.
  intros. unfold part, slab, dd_max, dd_min, rlen, first, last; cbn [fst snd].
  replace (size - 1 + 1) with size by lia. rewrite Z.mul_comm, Z.quot_mul by lia. lia.
Qed.
Lemma part_next : forall n size r, first (part n size (r + 1)) = last (part n size r) + 1.
Proof. intros. unfold part, slab, dd_max, first, last; cbn [fst snd]. lia. Qed.

Section Instances.
  Variables (V : Type) (halo n size : Z) (cyclic : bool).
  Hypothesis Hs : 2 <= size.
  Hypothesis Hh : 1 <= halo.
  (** every process holds at least [halo] points, one more if the ends of the domain are joined *)
  Hypothesis Hp : forall r, 0 <= r < size -> (if cyclic then halo + 1 else halo) <= rlen (part n size r).
  Notation peer := (peer_rght size).

  Lemma link_cases : forall r, 0 <= r < size -> linked_rght size cyclic r = true ->
    (r <> size - 1 /\ peer r = r + 1 /\ first (part n size (peer r)) = last (part n size r) + 1 /\ is_cyclic_left (peer r) = false /\ is_cyclic_rght size r = false) \/
    (r = size - 1 /\ peer r = 0 /\ cyclic = true /\ first (part n size 0) = 0 /\ last (part n size (size - 1)) = n - 1).
  Proof.
    intros r Hr Hl. destruct (Z.eq_dec r (size - 1)) as [->|N].
    - right. split; [reflexivity|]. split; [rewrite (peer_val size Hs) by lia; now rewrite Z.eqb_refl|].
      split; [unfold linked_rght in Hl; rewrite Z.eqb_refl in Hl; exact Hl|]. split; [apply part_first0; lia|apply part_last; lia].
    - left. rewrite (peer_inner size Hs) by (assumption || lia). unfold is_cyclic_left, is_cyclic_rght.
      split; [assumption|]. split; [reflexivity|]. split; [apply part_next|]. split; lia.
  Qed.
  Lemma part_len : forall r, 0 <= r < size -> (if cyclic then halo + 1 else halo) <= last (part n size r) - first (part n size r) + 1.
  Proof. intros r Hr. exact (Hp r Hr). Qed.

  Notation lss := (left_send_sclr halo n size). Notation lrs := (left_recv_sclr halo n size).
  Notation rss := (rght_send_sclr halo n size). Notation rrs := (rght_recv_sclr halo n size).
  Notation lsv := (left_send_vctr halo n size). Notation lrv := (left_recv_vctr halo n size).
  Notation rsv := (rght_send_vctr halo n size). Notation rrv := (rght_recv_vctr halo n size).

  Lemma len_sclr : forall r, 0 <= r < size -> linked_rght size cyclic r = true ->
    Z.to_nat (rlen (lss (peer r))) = Z.to_nat (rlen (rrs r)) /\ Z.to_nat (rlen (rss r)) = Z.to_nat (rlen (lrs (peer r))).
  Proof. intros. unfold left_send_sclr, rght_recv_sclr, rght_send_sclr, left_recv_sclr. ranges. lia. Qed.
  Lemma len_vctr : forall r, 0 <= r < size -> linked_rght size cyclic r = true ->
    Z.to_nat (rlen (lsv (peer r))) = Z.to_nat (rlen (rrv r)) /\ Z.to_nat (rlen (rsv r)) = Z.to_nat (rlen (lrv (peer r))).
  Proof.
    intros r Hr Hl. destruct (link_cases r Hr Hl) as [(N & P & F & C1 & C2)|(-> & P & C & F & L)].
    - unfold left_send_vctr, rght_recv_vctr, rght_send_vctr, left_recv_vctr. rewrite C1, C2. ranges. lia.
    - rewrite P. unfold left_send_vctr, rght_recv_vctr, rght_send_vctr, left_recv_vctr, is_cyclic_left, is_cyclic_rght.
      rewrite !Z.eqb_refl. ranges. lia.
  Qed.

  Variable g : Z -> V.
  Hypothesis Hg : cyclic = true -> periodic n g.
  Lemma per : forall j k, cyclic = true -> k = j + (n - 1) -> g k = g j.
  Proof. intros j k C ->. now apply Hg. Qed.

  Lemma sclr_values : forall d s,
    (forall r j, 0 <= r < size -> in_rng j (part n size r) -> d r j = g j) ->
    nsteps V n size cyclic lss lrs rss rrs 0 (start V d) s -> finished V size s ->
    forall r j, 0 <= r < size -> in_rng j (rng_ext (part n size r) halo) -> cyclic = true \/ 0 <= j <= n - 1 ->
    data s r j = g j.
  Proof.
    intros d s Hd H F r j Hr Hj Hc.
    refine (remote_values V n size cyclic lss lrs rss rrs 0 Hs len_sclr g (fun r => part n size r) _ _ _ d s Hd H F r j Hr _).
    - clear dependent r; clear j Hc. intros r Hr Hl. pose proof (part_len r Hr) as Lr. pose proof (part_len (peer r) (peer_range size Hs r Hr)) as Lq.
      destruct (link_cases r Hr Hl) as [(N & P & Fq & C1 & C2)|(-> & P & C & Fq & L)].
      + unfold left_send_sclr, rght_recv_sclr, rght_send_sclr, left_recv_sclr. rewrite C1, C2. unfold in_rng.
        split; intros j Hj; (split; [|f_equal]); ranges; destruct cyclic; lia.
      + rewrite P in *. rewrite C in Lr, Lq. unfold left_send_sclr, rght_recv_sclr, rght_send_sclr, left_recv_sclr, is_cyclic_left, is_cyclic_rght.
        rewrite !Z.eqb_refl. unfold in_rng. split; intros j Hj; split.
        * ranges. lia.
        * symmetry. apply per; [exact C|]. ranges. lia.
        * ranges. lia.
        * apply per; [exact C|]. ranges. lia.
    - clear dependent r; clear j Hc. intros r Hr. pose proof (part_len r Hr). unfold left_recv_sclr, rght_recv_sclr. ranges. destruct cyclic; lia.
    - cbv beta. rewrite part_first0, part_last by lia. lia.
    - assert (X : in_rng j (part n size r) \/ in_rng j (lrs r) \/ in_rng j (rrs r)).
      { unfold left_recv_sclr, rght_recv_sclr, in_rng in *. ranges. lia. }
      destruct X as [X|[X|X]]; [now left|right; left|right; right]; (split; [|exact X]).
      + unfold linked_left. destruct Hc as [->|Hc]; [apply orb_true_r|]. apply orb_true_iff. left.
        destruct (Z.eq_dec r 0) as [->|]; [|lia]. pose proof (part_first0 n size ltac:(lia)). unfold left_recv_sclr, in_rng in X. ranges. lia.
      + unfold linked_rght. destruct Hc as [->|Hc]; [apply orb_true_r|]. apply orb_true_iff. left.
        destruct (Z.eq_dec r (size - 1)) as [->|]; [|lia]. pose proof (part_last n size ltac:(lia)). unfold rght_recv_sclr, in_rng in X. ranges. lia.
  Qed.

  (** faces computed by a process: between its points, and the one before *)
  Lemma vctr_values : forall d s,
    2 <= rlen (part n size 0) ->
    (forall r j, 0 <= r < size -> in_rng j (own_faces n size r) -> d r j = g j) ->
    nsteps V n size cyclic lsv lrv rsv rrv 1 (start V d) s -> finished V size s ->
    forall r j, 0 <= r < size -> first (part n size r) - halo <= j < last (part n size r) + halo -> cyclic = true \/ 0 <= j < n - 1 ->
    data s r j = g j.
  Proof.
    intros d s H0 Hd H F r j Hr Hj Hc.
    pose proof (part_first0 n size ltac:(lia)) as F0.
    refine (remote_values V n size cyclic lsv lrv rsv rrv 1 Hs len_vctr g (own_faces n size) _ _ _ d s Hd H F r j Hr _).
    - clear dependent r; clear j Hc. intros r Hr Hl. pose proof (part_len r Hr) as Lr. pose proof (part_len (peer r) (peer_range size Hs r Hr)) as Lq.
      destruct (link_cases r Hr Hl) as [(N & P & Fq & C1 & C2)|(-> & P & C & Fq & L)].
      + unfold left_send_vctr, rght_recv_vctr, rght_send_vctr, left_recv_vctr. rewrite C1, C2. unfold in_rng, own_faces.
        unfold is_cyclic_left in C1. rewrite C1. destruct (Z.eqb_spec r 0) as [->|];
        split; intros j Hj; (split; [|f_equal]); ranges; destruct cyclic; lia.
      + rewrite P in *. rewrite C in Lr, Lq. unfold own_faces. replace (size - 1 =? 0) with false by lia.
        unfold left_send_vctr, rght_recv_vctr, rght_send_vctr, left_recv_vctr, is_cyclic_left, is_cyclic_rght.
        rewrite !Z.eqb_refl. unfold in_rng. split; intros j Hj; split.
        * ranges. lia.
        * symmetry. apply per; [exact C|]. ranges. lia.
        * ranges. lia.
        * apply per; [exact C|]. ranges. lia.
    - clear dependent r; clear j Hc. intros r Hr. pose proof (part_len r Hr). unfold left_recv_vctr, rght_recv_vctr, own_faces, is_cyclic_left.
      destruct (Z.eqb_spec r 0) as [->|]; ranges; destruct cyclic; lia.
    - unfold own_faces. rewrite Z.eqb_refl. replace (size - 1 =? 0) with false by lia.
      pose proof (part_last n size ltac:(lia)) as PL. ranges. lia.
    - assert (X : in_rng j (own_faces n size r) \/ in_rng j (lrv r) \/ in_rng j (rrv r)).
      { unfold left_recv_vctr, rght_recv_vctr, in_rng, own_faces, is_cyclic_left in *. destruct (Z.eqb_spec r 0) as [->|]; ranges; lia. }
      destruct X as [X|[X|X]]; [now left|right; left|right; right]; (split; [|exact X]).
      + unfold linked_left. destruct Hc as [->|Hc]; [apply orb_true_r|]. apply orb_true_iff. left.
        destruct (Z.eq_dec r 0) as [->|]; [|lia]. unfold left_recv_vctr, in_rng, is_cyclic_left in X. rewrite Z.eqb_refl in X. ranges. lia.
      + unfold linked_rght. destruct Hc as [->|Hc]; [apply orb_true_r|]. apply orb_true_iff. left.
        destruct (Z.eq_dec r (size - 1)) as [->|]; [|lia]. pose proof (part_last n size ltac:(lia)). unfold rght_recv_vctr, in_rng in X. ranges. lia.
  Qed.
  Lemma sclr_progress : forall d s, nsteps V n size cyclic lss lrs rss rrs 0 (start V d) s ->
    finished V size s \/ exists t, nstep V n size cyclic lss lrs rss rrs 0 s t.
  Proof. exact (remote_progress V n size cyclic lss lrs rss rrs 0 Hs len_sclr). Qed.
  Lemma vctr_progress : forall d s, nsteps V n size cyclic lsv lrv rsv rrv 1 (start V d) s ->
    finished V size s \/ exists t, nstep V n size cyclic lsv lrv rsv rrv 1 s t.
  Proof. exact (remote_progress V n size cyclic lsv lrv rsv rrv 1 Hs len_vctr). Qed.
  Lemma sclr_completes : forall d s, nsteps V n size cyclic lss lrs rss rrs 0 (start V d) s ->
    exists t, nsteps V n size cyclic lss lrs rss rrs 0 s t /\ finished V size t.
  Proof. exact (remote_completes V n size cyclic lss lrs rss rrs 0 Hs len_sclr). Qed.
  Lemma vctr_completes : forall d s, nsteps V n size cyclic lsv lrv rsv rrv 1 (start V d) s ->
    exists t, nsteps V n size cyclic lsv lrv rsv rrv 1 s t /\ finished V size t.
  Proof. exact (remote_completes V n size cyclic lsv lrv rsv rrv 1 Hs len_vctr). Qed.
End Instances.

(** ** Collecting an array *)
Lemma part_mono : forall n size r, 0 <= n -> 0 < size -> 0 <= r -> first (part n size r) <= last (part n size r) + 1.
Proof.
  intros. unfold part, slab, dd_max, dd_min, rlen, first, last; cbn [fst snd].
  assert (Z.quot (r * (n - 1 - 0 + 1)) size <= Z.quot ((r + 1) * (n - 1 - 0 + 1)) size) by (apply Z.quot_le_mono; nia). lia.
Qed.
Lemma displ_first : forall n size r, 0 <= n -> 0 < size -> 0 <= r -> displ n size r = first (part n size r).
Proof.
  intros n size r Hn Hs Hr. rewrite <- (Z2Nat.id r) by lia. unfold displ. rewrite Nat2Z.id. generalize (Z.to_nat r) as k.
  induction k.
  - cbn. symmetry. apply (part_first0 n size). lia.
  - rewrite seq_S, fold_left_app. cbn [fold_left plus]. rewrite IHk.
    replace (Z.of_nat (S k)) with (Z.of_nat k + 1) by lia. rewrite part_next. unfold rlen. lia.
Qed.
Lemma gather_spec : forall V n size (d : Z -> Z -> V) (g : Z -> V) out, 0 <= n -> 0 < size ->
  (forall r j, 0 <= r < size -> in_rng j (part n size r) -> d r j = g j) ->
  forall j, gather V n size d out j = if (0 <=? j) && (j <? n) then g j else out j.
Proof.
  intros V n size d g out Hn Hs Hd. unfold gather.
  assert (G : forall k, Z.of_nat k <= size -> forall j,
    fold_left (fun o k => unpack V o (displ n size (Z.of_nat k)) (pack V (d (Z.of_nat k)) (part n size (Z.of_nat k)))) (seq 0 k) out j
    = if (0 <=? j) && (j <? first (part n size (Z.of_nat k))) then g j else out j).
  { induction k; intros Hk j.
    - cbn [seq fold_left]. rewrite part_first0 by lia. replace ((0 <=? j) && _) with false by lia. reflexivity.
    - rewrite seq_S, fold_left_app. cbn [fold_left plus]. rewrite (unpack_nth _ _ _ _ (g 0)), pack_length, IHk by lia.
      rewrite displ_first by lia. pose proof (part_mono n size (Z.of_nat k) Hn Hs ltac:(lia)) as M.
      replace (Z.of_nat (S k)) with (Z.of_nat k + 1) by lia. rewrite part_next.
      assert (F : 0 <= first (part n size (Z.of_nat k))).
      { unfold part, slab, dd_min, rlen, first, last; cbn [fst snd]. apply Z.add_nonneg_nonneg; [lia|]. apply Z.quot_pos; [apply Z.mul_nonneg_nonneg; lia|lia]. }
      destruct ((first (part n size (Z.of_nat k)) <=? j) && _) eqn:E.
      + unfold rlen in E. replace ((0 <=? j) && _) with true by lia. rewrite pack_nth by (unfold rlen; lia).
        replace (first (part n size (Z.of_nat k)) + (j - first (part n size (Z.of_nat k)))) with j by lia.
        apply Hd; [lia|]. unfold in_rng. lia.
      + unfold rlen in E. replace (j <? last (part n size (Z.of_nat k)) + 1) with (j <? first (part n size (Z.of_nat k))) by lia. reflexivity. }
  intros j. rewrite G by lia. rewrite Z2Nat.id by lia.
  replace (first (part n size size)) with n; [reflexivity|].
  pose proof (part_next n size (size - 1)) as P. replace (size - 1 + 1) with size in P by lia. rewrite P, part_last by lia. lia.
Qed.
