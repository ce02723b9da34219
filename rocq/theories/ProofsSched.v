(** Executable interleavings: between barriers, a list of acts says which
    thread carries out its next assignments, and which thread only reads the
    operands of its next assignment (and will write later). *)
From Coq Require Import ZArith List Bool Lia.
From Verif Require Import ModelIndex Lang ProofsLang Stencil ProofsStencil Exec ProofsExec SpecThreads.
Import ListNotations.

Inductive act := Run (t k : nat) | Hold (t : nat).

Section Sched.
  Variable ar : arith.
  Notation V := (car ar).
  Notation mem := (loc -> V).
  Notation asg := (loc * expr (loc + V))%type.

  (** assignments of one thread in one phase *)
  Definition queues := nat -> list asg.
  Definition asgs (ph : list (stmt loc)) : queues := fun t =>
    flat_map (fun s => map (fun l => (l, emap inl (s_rhs s l))) (s_el s t)) ph.
  Definition fill (m : mem) (x : loc + V) : V := match x with inl l => m l | inr v => v end.

  (** tables instead of memories, so that it can be computed *)
  Variable m0 : mem.
  Notation table := (list (loc * V)).
  Definition assignT (T : table) (a : asg) : table := (fst a, ev ar (fill (look ar m0 T)) (snd a)) :: T.
  Definition qset (Q : queues) (t : nat) (x : list asg) : queues := fun u => if Nat.eqb u t then x else Q u.
  Definition do_act (n : nat) (c : table * queues) (a : act) : table * queues :=
    let (T, Q) := c in
    match a with
    | Run t k => if Nat.ltb t n then (fold_left assignT (firstn k (Q t)) T, qset Q t (skipn k (Q t))) else (T, Q)
    | Hold t => if Nat.ltb t n then
        match Q t with
        | (l, e) :: rest => (T, qset Q t ((l, emap (fun x => inr (fill (look ar m0 T) x)) e) :: rest))
        | [] => (T, Q)
        end else (T, Q)
    end.
  Definition empty (n : nat) (Q : queues) : bool := forallb (fun t => match Q t with [] => true | _ => false end) (seq 0 n).
  Fixpoint run_sched (n : nat) (k : nat) (sch : nat -> list act) (phs : list (list (stmt loc))) (T : table) : option table :=
    match phs with
    | [] => Some T
    | ph :: rest =>
        let (T', Q) := fold_left (do_act n) (sch k) (T, asgs ph) in
        if empty n Q then run_sched n (S k) sch rest T' else None
    end.

  (** ** These are interleavings *)
  Definition reps (T : table) (m : mem) : Prop := forall l, look ar m0 T l = m l.
  Variable n : nat.
  Notation stps := (steps loc_eq_dec ar n).
  Notation codes := (nat -> list (@cinstr loc ar)).

  Lemma steps_app c1 c2 c3 : stps c1 c2 -> stps c2 c3 -> stps c1 c3.
  Proof. induction 1; auto. intros. econstructor; eauto. Qed.
  Lemma read_cval (m : mem) e e' : read_one ar m e e' -> cval ar e m = cval ar e' m.
  Proof. unfold cval. induction 1; cbn; try rewrite IHread_one; reflexivity. Qed.

  Definition filled (m : mem) (e : expr (loc + V)) : expr (loc + V) := emap (fun x => inr (fill m x)) e.
  Lemma filled_read m e e' : read_one ar m e e' -> filled m e = filled m e'.
  Proof. unfold filled. induction 1; cbn; try rewrite IHread_one; reflexivity. Qed.
  Lemma filled_closed m e : closed ar e -> filled m e = e.
  Proof.
    unfold closed, filled. induction e as [[l|v]| | | |]; cbn; intros C; auto.
    - exfalso. apply (C l). auto.
    - rewrite IHe; auto.
    - rewrite IHe1, IHe2; auto; intros l H; apply (C l); apply in_app_iff; auto.
    - rewrite IHe1, IHe2, IHe3, IHe4; auto; intros l H; apply (C l); rewrite !in_app_iff; auto.
  Qed.
  Lemma closed_filled m e : closed ar (filled m e).
  Proof.
    intros l H. unfold filled in H. rewrite leaves_emap in H. apply in_map_iff in H. destruct H as (x & E & _). discriminate.
  Qed.
  Lemma cval_filled m m' e : cval ar (filled m e) m' = ev ar (fill m) e.
  Proof. unfold cval, filled. rewrite ev_emap. apply ev_ext. auto. Qed.

  Lemma run_reads t l rest (m : mem) : (t < n)%nat -> forall k e (c : codes), (pending ar e <= k)%nat -> c t = Asg ar l e :: rest ->
    exists c' : codes, stps (m, c) (m, c') /\ c' t = Asg ar l (filled m e) :: rest /\ forall u, u <> t -> c' u = c u.
  Proof.
    intros Ht. induction k as [|k IH]; intros e c Hk Hc; destruct (read_or_closed ar m e) as [C|(e' & R)].
    1, 3: (exists c; split; [constructor|split; auto]; rewrite filled_closed; auto).
    - pose proof (read_pending ar m e e' R). lia.
    - pose proof (read_pending ar m e e' R).
      destruct (IH e' (tset ar c t (Asg ar l e' :: rest))) as (c' & S1 & S2 & S3).
      + lia.
      + unfold tset. rewrite Nat.eqb_refl. auto.
      + exists c'. split; [|split].
        * econstructor; [eapply StepRead; eauto|]. exact S1.
        * rewrite (filled_read m e e' R). exact S2.
        * intros u N. rewrite S3 by auto. unfold tset. destruct (Nat.eqb_spec u t); congruence.
  Qed.

  Definition assign (m : mem) (a : asg) : mem := upd1 loc_eq_dec ar m (fst a) (ev ar (fill m) (snd a)).
  Lemma assignT_reps T m a : reps T m -> reps (assignT T a) (assign m a).
  Proof.
    intros H l. unfold assignT, assign, upd1. cbn [look]. destruct (loc_eq_dec l (fst a)) as [->|N].
    - rewrite (proj2 (loc_eqb_eq _ _) eq_refl). apply ev_ext. intros [x|v] _; cbn; auto.
    - destruct (loc_eqb (fst a) l) eqn:E; [apply loc_eqb_eq in E; congruence|]. apply H.
  Qed.

  Definition acode (l : list asg) : list (@cinstr loc ar) := map (fun a => Asg ar (fst a) (snd a)) l.
  Lemma run_asgs t rest : (t < n)%nat -> forall l T m (c : codes), reps T m -> c t = acode l ++ rest ->
    exists m' (c' : codes), stps (m, c) (m', c') /\ reps (fold_left assignT l T) m' /\ c' t = rest /\
      forall u, u <> t -> c' u = c u.
  Proof.
    intros Ht. induction l as [|a l IH]; intros T m c HT Hc.
    - exists m, c. split; [constructor|auto].
    - cbn in Hc. destruct (run_reads t (fst a) (acode l ++ rest) m Ht _ _ c (le_n _) Hc) as (c1 & S1 & S2 & S3).
      destruct (IH (assignT T a) (assign m a) (tset ar c1 t (acode l ++ rest))) as (m2 & c2 & S4 & S5 & S6 & S7).
      { apply assignT_reps. auto. }
      { unfold tset. rewrite Nat.eqb_refl. auto. }
      exists m2, c2. split; [|split; [exact S5|split; [exact S6|]]].
      + eapply steps_app; [exact S1|]. econstructor; [|exact S4].
        replace (assign m a) with (upd1 loc_eq_dec ar m (fst a) (cval ar (filled m (snd a)) m)).
        * eapply StepWrite; eauto. apply closed_filled.
        * unfold assign. rewrite cval_filled. reflexivity.
      + intros u N. rewrite S7 by auto. unfold tset. destruct (Nat.eqb_spec u t); [congruence|auto].
  Qed.

  (** queues and what follows them in the code *)
  Definition queued (Q : queues) (R c : codes) : Prop := forall t, (t < n)%nat -> c t = acode (Q t) ++ R t.

  Lemma run_act R a T Q m (c : codes) : reps T m -> queued Q R c ->
    exists m' (c' : codes), stps (m, c) (m', c') /\ reps (fst (do_act n (T, Q) a)) m' /\
      queued (snd (do_act n (T, Q) a)) R c'.
  Proof.
    intros HT HQ. destruct a as [t k|t]; cbn [do_act].
    - destruct (Nat.ltb_spec t n) as [Ht|]; [|exists m, c; split; [constructor|auto]].
      destruct (run_asgs t (acode (skipn k (Q t)) ++ R t) Ht (firstn k (Q t)) T m c HT) as (m' & c' & S1 & S2 & S3 & S4).
      { rewrite (HQ t Ht), app_assoc. f_equal. unfold acode. rewrite <- map_app, firstn_skipn. reflexivity. }
      exists m', c'. split; [exact S1|]. split; [exact S2|]. intros u Hu. unfold qset. cbn [fst snd].
      destruct (Nat.eqb_spec u t) as [->|N]; auto. rewrite S4; auto.
    - destruct (Nat.ltb_spec t n) as [Ht|]; [|exists m, c; split; [constructor|auto]].
      destruct (Q t) as [|[l e] rest] eqn:E; [exists m, c; split; [constructor|auto]|].
      destruct (run_reads t l (acode rest ++ R t) m Ht _ e c (le_n _)) as (c' & S1 & S2 & S3).
      { rewrite (HQ t Ht), E. reflexivity. }
      exists m, c'. split; [exact S1|]. split; [exact HT|]. intros u Hu. unfold qset. cbn [fst snd].
      destruct (Nat.eqb_spec u t) as [->|N]; [|rewrite S3; auto]. rewrite S2. cbn [acode map app fst snd]. f_equal. f_equal.
      unfold filled. apply emap_ext. intros [x|v] _; cbn; [rewrite HT|]; reflexivity.
  Qed.
  Lemma run_acts R acts : forall T Q m (c : codes), reps T m -> queued Q R c ->
    exists m' (c' : codes), stps (m, c) (m', c') /\ reps (fst (fold_left (do_act n) acts (T, Q))) m' /\
      queued (snd (fold_left (do_act n) acts (T, Q))) R c'.
  Proof.
    induction acts as [|a acts IH]; intros T Q m c HT HQ.
    - exists m, c. split; [constructor|auto].
    - destruct (run_act R a T Q m c HT HQ) as (m1 & c1 & S1 & S2 & S3).
      cbn [fold_left]. destruct (do_act n (T, Q) a) as [T1 Q1]. cbn [fst snd] in *.
      destruct (IH T1 Q1 m1 c1 S2 S3) as (m2 & c2 & S4 & S5 & S6).
      exists m2, c2. split; [eapply steps_app; eauto|auto].
  Qed.
  Lemma pcode_acode ph t : pcode ar ph t = acode (asgs ph t).
  Proof.
    unfold pcode, acode, asgs. induction ph as [|s ph IH]; [reflexivity|]. cbn [flat_map].
    rewrite map_app, IH, map_map. reflexivity.
  Qed.

  Hypothesis Hn : (0 < n)%nat.
  Lemma run_all sch : forall rest ph k T T' m (c : codes), reps T m ->
    (forall t, (t < n)%nat -> c t = pcode ar ph t ++ tail_code ar rest t) ->
    run_sched n k sch (ph :: rest) T = Some T' ->
    exists m' (c' : codes), stps (m, c) (m', c') /\ reps T' m' /\ forall t, (t < n)%nat -> c' t = [].
  Proof.
    induction rest as [|ph' rest IH]; intros ph k T T' m c HT Hc E; cbn [run_sched] in E.
    - destruct (run_acts (tail_code ar []) (sch k) T (asgs ph) m c HT) as (m1 & c1 & S1 & S2 & S3).
      { intros t Ht. rewrite (Hc t Ht), pcode_acode. reflexivity. }
      destruct (fold_left (do_act n) (sch k) (T, asgs ph)) as [T1 Q1]. cbn [fst snd] in *.
      destruct (empty n Q1) eqn:EM; [|discriminate]. inversion E; subst. exists m1, c1. split; [exact S1|]. split; [exact S2|].
      intros t Ht. rewrite (S3 t Ht). unfold empty in EM. rewrite forallb_forall in EM.
      specialize (EM t ltac:(apply in_seq; lia)). destruct (Q1 t); [reflexivity|discriminate].
    - destruct (run_acts (tail_code ar (ph' :: rest)) (sch k) T (asgs ph) m c HT) as (m1 & c1 & S1 & S2 & S3).
      { intros t Ht. rewrite (Hc t Ht), pcode_acode. reflexivity. }
      destruct (fold_left (do_act n) (sch k) (T, asgs ph)) as [T1 Q1]. cbn [fst snd] in *.
      destruct (empty n Q1) eqn:EM; [|discriminate].
      destruct (IH ph' (S k) T1 T' m1 (fun t => pcode ar ph' t ++ tail_code ar rest t)) as (m2 & c2 & S4 & S5 & S6); auto.
      exists m2, c2. split; auto. eapply steps_app; [exact S1|]. econstructor; [|exact S4].
      apply StepBar; auto. intros t Ht. rewrite (S3 t Ht). unfold empty in EM. rewrite forallb_forall in EM.
      specialize (EM t ltac:(apply in_seq; lia)). destruct (Q1 t); [reflexivity|discriminate].
  Qed.

  Lemma can_end_sched sch p T : run_sched n 0 sch (phases p) [] = Some T ->
    exists m', can_end loc_eq_dec ar n p m0 m' /\ forall l, m' l = look ar m0 T l.
  Proof.
    pose proof (phases_nonempty p) as NE. destruct (phases p) as [|ph rest] eqn:E; [congruence|]. intros HR.
    destruct (run_all sch rest ph 0%nat [] T m0 (code ar p)) as (m' & c & S1 & S2 & S3); auto.
    { intros x. reflexivity. }
    { intros t _. apply code_phases. auto. }
    exists m'. split; [exists c; split; auto|]. intros l. symmetry. apply S2.
  Qed.
End Sched.
