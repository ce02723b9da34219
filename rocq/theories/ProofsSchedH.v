(** The executable interleavings of ProofsSched.v with hashed tables, for larger runs. *)
From Coq Require Import ZArith List Bool Lia FMapPositive.
From Verif Require Import ModelIndex Lang ProofsLang Stencil ProofsStencil FormCommon Exec ProofsExec SpecThreads ProofsSched.
Import ListNotations.

Definition arr_num (a : arr) : Z :=
  let dn d := match d with DX => 0 | DY => 1 | DZ => 2 end%Z in
  let bn (b : bool) := (if b then 1 else 0)%Z in
  match a with
  | Psi b => bn b | GC d => 2 + dn d | Cor b d => 5 + 3 * bn b + dn d | Mono d => 11 + dn d | Flux d => 14 + dn d
  | PsiMin => 17 | PsiMax => 18 | BetaUp => 19 | BetaDn => 20 | Gf => 21 | _ => 22
  end%Z.
Definition hash (l : loc) : positive :=
  match snd l with (x, y, z) => Z.to_pos (1 + arr_num (snd (fst l)) + 32 * (Z.abs (x + 7) + 32 * (Z.abs (y + 7) + 32 * Z.abs (z + 7))))%Z end.

Section SchedH.
  Variable ar : arith.
  Notation V := (car ar).
  Notation mem := (loc -> V).
  Notation asg := (loc * expr (loc + V))%type.
  Variable m0 : mem.
  Definition tab := PositiveMap.t (list (loc * V)).
  Definition bucket (M : tab) (k : positive) : list (loc * V) :=
    match PositiveMap.find k M with Some l => l | None => [] end.
  Definition lookH (M : tab) (l : loc) : V := look ar m0 (bucket M (hash l)) l.
  Definition putH (M : tab) (l : loc) (v : V) : tab := PositiveMap.add (hash l) ((l, v) :: bucket M (hash l)) M.
  Definition assignH (M : tab) (a : asg) : tab := putH M (fst a) (ev ar (fill ar (lookH M)) (snd a)).
  Definition do_actH (n : nat) (c : tab * queues ar) (a : act) : tab * queues ar :=
    let (T, Q) := c in
    match a with
    | Run t k => if Nat.ltb t n then (fold_left assignH (firstn k (Q t)) T, qset ar Q t (skipn k (Q t))) else (T, Q)
    | Hold t => if Nat.ltb t n then
        match Q t with
        | (l, e) :: rest => (T, qset ar Q t ((l, emap (fun x => inr (fill ar (lookH T) x)) e) :: rest))
        | [] => (T, Q)
        end else (T, Q)
    end.
  Fixpoint run_schedH (n : nat) (k : nat) (sch : nat -> list act) (phs : list (list (stmt loc))) (T : tab) : option tab :=
    match phs with
    | [] => Some T
    | ph :: rest =>
        let (T', Q) := fold_left (do_actH n) (sch k) (T, asgs ar ph) in
        if empty ar n Q then run_schedH n (S k) sch rest T' else None
    end.

  Definition sameH (M : tab) (T : list (loc * V)) : Prop := forall l, lookH M l = look ar m0 T l.
  Lemma putH_look M T l v : sameH M T -> sameH (putH M l v) ((l, v) :: T).
  Proof.
    intros S l'. unfold lookH, bucket, putH. cbn [look]. destruct (loc_eqb l l') eqn:E.
    - apply loc_eqb_eq in E. subst l'. rewrite PositiveMap.gss. cbn [look]. rewrite (proj2 (loc_eqb_eq _ _) eq_refl). reflexivity.
    - destruct (Pos.eq_dec (hash l') (hash l)) as [EH|NH].
      + rewrite EH, PositiveMap.gss. cbn [look]. rewrite E, <- EH. apply S.
      + rewrite PositiveMap.gso by auto. apply S.
  Qed.
  Lemma assignH_ok M T a : sameH M T -> sameH (assignH M a) (assignT ar m0 T a).
  Proof.
    intros S. unfold assignH, assignT.
    replace (ev ar (fill ar (lookH M)) (snd a)) with (ev ar (fill ar (look ar m0 T)) (snd a)); [apply putH_look; auto|].
    apply ev_ext. intros [x|v] _; cbn; auto.
  Qed.
  Lemma assignsH_ok l : forall M T, sameH M T -> sameH (fold_left assignH l M) (fold_left (assignT ar m0) l T).
  Proof. induction l as [|a l IH]; intros M T S; cbn; auto. apply IH. apply assignH_ok. exact S. Qed.

  Definition sameQ (Q Q' : queues ar) : Prop := forall t, Q t = Q' t.
  Lemma do_actH_ok n a M T Q Q' : sameH M T -> sameQ Q Q' ->
    sameH (fst (do_actH n (M, Q) a)) (fst (do_act ar m0 n (T, Q') a)) /\
    sameQ (snd (do_actH n (M, Q) a)) (snd (do_act ar m0 n (T, Q') a)).
  Proof.
    intros S SQ. destruct a as [t k|t]; cbn [do_actH do_act]; destruct (Nat.ltb t n); cbn [fst snd]; auto.
    - rewrite (SQ t). split; [apply assignsH_ok; auto|]. intros u. unfold qset. destruct (Nat.eqb u t); auto.
    - rewrite (SQ t). destruct (Q' t) as [|[l e] rest]; cbn [fst snd]; auto. split; auto.
      intros u. unfold qset. destruct (Nat.eqb u t); auto. f_equal. f_equal. apply emap_ext. intros [x|v] _; cbn; [rewrite S|]; reflexivity.
  Qed.
  Lemma actsH_ok n acts : forall M T Q Q', sameH M T -> sameQ Q Q' ->
    sameH (fst (fold_left (do_actH n) acts (M, Q))) (fst (fold_left (do_act ar m0 n) acts (T, Q'))) /\
    sameQ (snd (fold_left (do_actH n) acts (M, Q))) (snd (fold_left (do_act ar m0 n) acts (T, Q'))).
  Proof.
    induction acts as [|a acts IH]; intros M T Q Q' S SQ; cbn [fold_left]; auto.
    destruct (do_actH_ok n a M T Q Q' S SQ) as [S1 S2].
    destruct (do_actH n (M, Q) a) as [M1 Q1], (do_act ar m0 n (T, Q') a) as [T1 Q1']. apply IH; auto.
  Qed.
  Lemma run_schedH_ok n sch : forall phs k M T M', sameH M T -> run_schedH n k sch phs M = Some M' ->
    exists T', run_sched ar m0 n k sch phs T = Some T' /\ sameH M' T'.
  Proof.
    induction phs as [|ph phs IH]; intros k M T M' S E; cbn [run_schedH run_sched] in *.
    - inversion E; subst. eauto.
    - destruct (actsH_ok n (sch k) M T (asgs ar ph) (asgs ar ph) S ltac:(intros t; reflexivity)) as [S1 S2].
      destruct (fold_left (do_actH n) (sch k) (M, asgs ar ph)) as [M1 Q1], (fold_left (do_act ar m0 n) (sch k) (T, asgs ar ph)) as [T1 Q1'].
      cbn [fst snd] in *.
      assert (EQ : empty ar n Q1 = empty ar n Q1').
      { unfold empty. induction (seq 0 n) as [|t l IHl]; cbn; auto. rewrite (S2 t), IHl. reflexivity. }
      rewrite <- EQ. destruct (empty ar n Q1); [|discriminate]. eapply IH; eauto.
  Qed.

  Lemma can_end_schedH n sch p M : (0 < n)%nat -> run_schedH n 0 sch (phases p) (PositiveMap.empty _) = Some M ->
    exists m', can_end loc_eq_dec ar n p m0 m' /\ forall l, m' l = lookH M l.
  Proof.
    intros Hn E. assert (S0 : sameH (PositiveMap.empty _) []).
    { intros l. unfold lookH, bucket. rewrite PositiveMap.gempty. reflexivity. }
    destruct (run_schedH_ok n sch (phases p) 0 _ _ M S0 E) as (T & ET & ST).
    destruct (can_end_sched ar m0 n Hn sch p T ET) as (m' & C & L). exists m'. split; auto.
    intros l. rewrite ST. apply L.
  Qed.
End SchedH.
