(** Generic theorems about array programs: every interleaving of a program
    whose phases are well-formed ends in the memory computed by sequential
    whole-array execution; executions cannot get stuck and terminate. *)

From Coq Require Import ZArith List Bool Lia Arith.
From Verif Require Import Lang.
Import ListNotations.

(** ** Expressions *)
Lemma ev_ext ar {A} (env env' : A -> car ar) e :
  (forall a, In a (leaves e) -> env a = env' a) -> ev ar env e = ev ar env' e.
Proof.
  induction e; cbn; intros H; auto.
  - rewrite IHe; auto.
  - rewrite IHe1, IHe2; auto; intros; apply H; rewrite in_app_iff; auto.
  - rewrite IHe1, IHe2, IHe3, IHe4; auto; intros; apply H; rewrite !in_app_iff; auto.
Qed.

Lemma ev_emap ar {A B} (f : A -> B) (env : B -> car ar) e :
  ev ar env (emap f e) = ev ar (fun a => env (f a)) e.
Proof.
  induction e; cbn; auto; rewrite ?IHe, ?IHe1, ?IHe2, ?IHe3, ?IHe4; auto.
Qed.

Lemma leaves_emap {A B} (f : A -> B) e : leaves (emap f e) = map f (leaves e).
Proof.
  induction e; cbn; auto; rewrite ?map_app, ?IHe, ?IHe1, ?IHe2, ?IHe3, ?IHe4; auto.
Qed.

Lemma emap_emap {A B C} (f : A -> B) (g : B -> C) e :
  emap g (emap f e) = emap (fun a => g (f a)) e.
Proof. induction e; cbn; congruence. Qed.

Lemma emap_ext {A B} (f g : A -> B) e :
  (forall a, In a (leaves e) -> f a = g a) -> emap f e = emap g e.
Proof.
  induction e; cbn; intros H; auto.
  - rewrite H; auto.
  - rewrite IHe; auto.
  - rewrite IHe1, IHe2; auto; intros; apply H; rewrite in_app_iff; auto.
  - rewrite IHe1, IHe2, IHe3, IHe4; auto; intros; apply H; rewrite !in_app_iff; auto.
Qed.

Section P.
  Context {L : Type} (leq : forall x y : L, {x = y} + {x <> y}).
  Variable ar : arith.
  Notation V := (car ar).
  Notation memory := (@memory L ar).
  Notation stmt := (stmt L).
  Notation phase := (list stmt).
  Notation run_stmt := (run_stmt leq ar).
  Notation run_prog := (run_prog leq ar).

  Lemma domb_true n (s : stmt) l :
    domb leq n s l = true <-> exists t, t < n /\ In l (s_el s t).
  Proof.
    unfold domb. rewrite existsb_exists. split.
    - intros (t & Ht & H). apply in_seq in Ht. exists t. split; [lia|].
      destruct in_dec; auto; discriminate.
    - intros (t & Ht & H). exists t. split; [apply in_seq; lia|].
      destruct in_dec; auto.
  Qed.

  Lemma run_stmt_in n s (m : memory) t l :
    t < n -> In l (s_el s t) -> run_stmt n s m l = ev ar m (s_rhs s l).
  Proof.
    intros. unfold Lang.run_stmt.
    replace (domb leq n s l) with true; auto. symmetry. apply domb_true. eauto.
  Qed.

  Lemma run_stmt_out n s (m : memory) l :
    (forall t, t < n -> ~ In l (s_el s t)) -> run_stmt n s m l = m l.
  Proof.
    intros H. unfold Lang.run_stmt.
    destruct (domb leq n s l) eqn:E; auto.
    apply domb_true in E. destruct E as (t & ? & ?). exfalso. eapply H; eauto.
  Qed.

  Lemma run_stmt_ext n s (m m' : memory) :
    (forall l, m l = m' l) -> forall l, run_stmt n s m l = run_stmt n s m' l.
  Proof.
    intros H l. unfold Lang.run_stmt. destruct domb; auto. apply ev_ext; auto.
  Qed.

  Lemma run_prog_ext n p : forall (m m' : memory),
    (forall l, m l = m' l) -> forall l, run_prog n p m l = run_prog n p m' l.
  Proof.
    induction p as [|i p IH]; cbn; intros m m' H l; auto.
    apply IH. destruct i; cbn; auto. apply run_stmt_ext; auto.
  Qed.

  Lemma run_prog_app n p q (m : memory) : run_prog n (p ++ q) m = run_prog n q (run_prog n p m).
  Proof. unfold Lang.run_prog. apply fold_left_app. Qed.

  (** sequential execution of a phase *)
  Definition run_phase n (ph : phase) (m : memory) : memory :=
    fold_left (fun m s => run_stmt n s m) ph m.

  Lemma phases_nonempty (p : list (instr L)) : phases p <> [].
  Proof. destruct p as [|[s|] p]; cbn; try discriminate. destruct (phases p); discriminate. Qed.

  Lemma run_prog_phases n p : forall m,
    run_prog n p m = fold_left (fun m ph => run_phase n ph m) (phases p) m.
  Proof.
    induction p as [|[s|] p IH]; intros m; auto.
    - cbn [phases]. pose proof (phases_nonempty p) as NE.
      change (run_prog n (Do s :: p) m) with (run_prog n p (run_stmt n s m)).
      rewrite IH. destruct (phases p) as [|ph rest]; [congruence|]. reflexivity.
    - change (run_prog n (Bar :: p) m) with (run_prog n p m). rewrite IH. reflexivity.
  Qed.

  (** ** Code of phases *)
  Definition pcode (ph : phase) (t : nat) : list (cinstr ar) :=
    flat_map (fun s => map (fun l => Asg ar l (emap inl (s_rhs s l))) (s_el s t)) ph.

  Definition tail_code (phs : list phase) (t : nat) : list (cinstr ar) :=
    flat_map (fun ph => CBar ar :: pcode ph t) phs.

  Lemma code_phases p t ph rest :
    phases p = ph :: rest -> code ar p t = pcode ph t ++ tail_code rest t.
  Proof.
    revert ph rest. induction p as [|[s|] p IH]; intros ph rest E.
    - inversion E; subst. reflexivity.
    - cbn [phases] in E. pose proof (phases_nonempty p) as NE.
      destruct (phases p) as [|ph' rest'] eqn:E'; [congruence|].
      inversion E; subst. cbn [code flat_map]. unfold code in IH.
      rewrite (IH _ _ eq_refl). cbn. rewrite app_assoc. reflexivity.
    - cbn [phases] in E. inversion E; subst. cbn.
      pose proof (phases_nonempty p) as NE.
      destruct (phases p) as [|ph' rest'] eqn:E'; [congruence|].
      unfold code in IH. rewrite (IH _ _ eq_refl). reflexivity.
  Qed.

  (** items of a phase for one thread: (statement number, element) *)
  Fixpoint items (k : nat) (ph : phase) (t : nat) : list (nat * L) :=
    match ph with
    | [] => []
    | s :: ph' => map (pair k) (s_el s t) ++ items (S k) ph' t
    end.

  Lemma items_ge k ph t j x : In (j, x) (items k ph t) -> k <= j.
  Proof.
    revert k. induction ph as [|s ph IH]; cbn; intros k H; [contradiction|].
    apply in_app_iff in H. destruct H as [H|H].
    - apply in_map_iff in H. destruct H as (y & E & _). inversion E; lia.
    - apply IH in H. lia.
  Qed.

  Lemma in_items k ph t j x :
    In (j, x) (items k ph t) <->
    exists s, k <= j /\ nth_error ph (j - k) = Some s /\ In x (s_el s t).
  Proof.
    revert k. induction ph as [|s ph IH]; cbn; intros k.
    - split; [tauto|]. intros (s & _ & H & _). destruct (j - k); discriminate.
    - rewrite in_app_iff, IH. split.
      + intros [H|H].
        * apply in_map_iff in H. destruct H as (y & E & Hy). inversion E; subst.
          exists s. rewrite Nat.sub_diag. auto.
        * destruct H as (s' & H1 & H2 & H3). exists s'. split; [lia|].
          replace (j - k) with (S (j - S k)) by lia. auto.
      + intros (s' & H1 & H2 & H3). destruct (Nat.eq_dec j k) as [->|NE].
        * rewrite Nat.sub_diag in H2. cbn in H2. inversion H2; subst.
          left. apply in_map_iff. eauto.
        * right. exists s'. split; [lia|].
          replace (j - k) with (S (j - S k)) in H2 by lia. auto.
  Qed.

  Lemma items_sorted k0 ph t : forall dn k l rest,
    items k0 ph t = dn ++ (k, l) :: rest ->
    (forall j x, In (j, x) dn -> j <= k) /\ (forall j x, In (j, x) rest -> k <= j).
  Proof.
    revert k0. induction ph as [|s ph IH]; cbn; intros k0 dn k l rest E.
    - destruct dn; discriminate.
    - set (a := map (pair k0) (s_el s t)) in *.
      assert (Ha : forall j x, In (j, x) a -> j = k0).
      { intros j x H. apply in_map_iff in H. destruct H as (y & E' & _). inversion E'; auto. }
      clearbody a. revert dn E. induction a as [|[k' x'] a IHa]; intros dn E.
      + cbn in E. eauto.
      + destruct dn as [|d dn].
        * cbn in E. inversion E; subst.
          assert (k = k0) by (apply (Ha k l); left; auto). subst.
          split; [intros ? ? []|].
          intros j x H. apply in_app_iff in H. destruct H as [H|H].
          -- assert (j = k0) by (apply (Ha j x); right; auto). lia.
          -- apply items_ge in H. lia.
        * cbn in E. inversion E as [[E1 E2]]. subst d.
          destruct (IHa (fun j x H => Ha j x (or_intror H)) dn E2) as [I1 I2].
          split; auto. intros j x [H|H]; [|eauto].
          inversion H; subst.
          assert (j = k0) by (apply (Ha j x); left; auto). subst j.
          assert (In (k, l) (a ++ items (S k0) ph t)) as Hin.
          { rewrite E2. apply in_app_iff. right. left. auto. }
          apply in_app_iff in Hin. destruct Hin as [Hin|Hin].
          -- rewrite (Ha k l (or_intror Hin)). lia.
          -- apply items_ge in Hin. lia.
  Qed.

  Lemma nodup_map_pair (k : nat) (l : list L) : NoDup l -> NoDup (map (pair k) l).
  Proof.
    induction 1; cbn; constructor; auto.
    intros H'. apply in_map_iff in H'. destruct H' as (y & E & ?). inversion E; subst. auto.
  Qed.

  Lemma nodup_app {A} (a b : list A) :
    NoDup a -> NoDup b -> (forall x, In x a -> ~ In x b) -> NoDup (a ++ b).
  Proof.
    induction 1; cbn; auto. intros Hb Hd. constructor.
    - rewrite in_app_iff. intros [?|?]; auto. eapply Hd; eauto; now left.
    - apply IHNoDup; auto.
  Qed.

  Lemma items_nodup k ph t :
    (forall s, In s ph -> NoDup (s_el s t)) -> NoDup (items k ph t).
  Proof.
    revert k. induction ph as [|s ph IH]; cbn; intros k H; [constructor|].
    apply nodup_app; auto.
    - apply nodup_map_pair; auto.
    - intros [j x] H1 H2. apply in_map_iff in H1. destruct H1 as (y & E & _).
      inversion E; subst. apply items_ge in H2. lia.
  Qed.

  Definition rhs_at (k0 : nat) (ph : phase) (k : nat) (l : L) : expr L :=
    match nth_error ph (k - k0) with Some s => s_rhs s l | None => Leaf l end.

  Lemma pcode_items_gen t ph : forall k0 ph0,
    (forall j, nth_error ph0 (k0 + j) = nth_error ph j) ->
    pcode ph t = map (fun kl => Asg ar (snd kl) (emap inl (rhs_at 0 ph0 (fst kl) (snd kl)))) (items k0 ph t).
  Proof.
    induction ph as [|s ph IH]; intros k0 ph0 H; auto.
    cbn [pcode flat_map items]. rewrite map_app, map_map. cbn [fst snd]. f_equal.
    - apply map_ext. intros l. unfold rhs_at. rewrite Nat.sub_0_r.
      specialize (H 0). rewrite Nat.add_0_r in H. rewrite H. reflexivity.
    - apply IH. intros j. specialize (H (S j)). cbn in H. rewrite <- H. f_equal. lia.
  Qed.

  Lemma pcode_items t ph :
    pcode ph t = map (fun kl => Asg ar (snd kl) (emap inl (rhs_at 0 ph (fst kl) (snd kl)))) (items 0 ph t).
  Proof. apply pcode_items_gen. auto. Qed.

  (** ** Partial evaluation *)
  Inductive partial (m : memory) : expr L -> expr (L + V) -> Prop :=
  | PL l : partial m (Leaf l) (Leaf (inl l))
  | PV l : partial m (Leaf l) (Leaf (inr (m l)))
  | PC c : partial m (Cst c) (Cst c)
  | PU o e e' : partial m e e' -> partial m (Un o e) (Un o e')
  | PB o a a' b b' : partial m a a' -> partial m b b' -> partial m (Bin o a b) (Bin o a' b')
  | PI c e1 e2 e3 e4 f1 f2 f3 f4 :
      partial m e1 f1 -> partial m e2 f2 -> partial m e3 f3 -> partial m e4 f4 ->
      partial m (Ite c e1 e2 e3 e4) (Ite c f1 f2 f3 f4).

  Lemma partial_start m e : partial m e (emap inl e).
  Proof. induction e; cbn; constructor; auto. Qed.

  Lemma partial_read m m' e e' e'' :
    partial m e e' -> read_one ar m' e' e'' ->
    (forall l, In l (leaves e) -> m' l = m l) -> partial m e e''.
  Proof.
    intros P. revert e''. induction P; intros e'' R H; inversion R; subst; cbn in H.
    - rewrite H by auto. constructor.
    - constructor. auto.
    - constructor; auto. apply IHP1; auto. intros; apply H; rewrite in_app_iff; auto.
    - constructor; auto. apply IHP2; auto. intros; apply H; rewrite in_app_iff; auto.
    - constructor; auto. apply IHP1; auto. intros; apply H; rewrite !in_app_iff; auto.
    - constructor; auto. apply IHP2; auto. intros; apply H; rewrite !in_app_iff; auto.
    - constructor; auto. apply IHP3; auto. intros; apply H; rewrite !in_app_iff; auto.
    - constructor; auto. apply IHP4; auto. intros; apply H; rewrite !in_app_iff; auto.
  Qed.

  Lemma partial_closed m m' e e' :
    partial m e e' -> closed ar e' -> cval ar e' m' = ev ar m e.
  Proof.
    unfold closed, cval. induction 1; cbn; intros C; auto.
    - exfalso. eapply C. left. reflexivity.
    - rewrite IHpartial; auto.
    - rewrite IHpartial1, IHpartial2; auto; intros l Hl; apply (C l); rewrite in_app_iff; auto.
    - rewrite IHpartial1, IHpartial2, IHpartial3, IHpartial4; auto;
        intros l Hl; apply (C l); rewrite !in_app_iff; auto.
  Qed.

  Lemma read_or_closed m (e : expr (L + V)) : closed ar e \/ exists e', read_one ar m e e'.
  Proof.
    unfold closed. induction e as [[l|v]|c|o e IH|o e1 IH1 e2 IH2|c e1 IH1 e2 IH2 e3 IH3 e4 IH4]; cbn.
    - right. eexists. constructor.
    - left. intros l [H|[]]. discriminate.
    - left. intros l [].
    - destruct IH as [|(e' & ?)]; [left; auto|right; eexists; econstructor; eauto].
    - destruct IH1 as [H1|(e' & ?)]; [|right; eexists; econstructor; eauto].
      destruct IH2 as [H2|(e' & ?)]; [|right; eexists; eapply R_bin2; eauto].
      left. intros l H. apply in_app_iff in H. destruct H; [eapply H1|eapply H2]; eauto.
    - destruct IH1 as [H1|(e' & ?)]; [|right; eexists; econstructor; eauto].
      destruct IH2 as [H2|(e' & ?)]; [|right; eexists; eapply R_ite2; eauto].
      destruct IH3 as [H3|(e' & ?)]; [|right; eexists; eapply R_ite3; eauto].
      destruct IH4 as [H4|(e' & ?)]; [|right; eexists; eapply R_ite4; eauto].
      left. intros l H. rewrite !in_app_iff in H.
      destruct H as [|[|[|]]]; [eapply H1|eapply H2|eapply H3|eapply H4]; eauto.
  Qed.

  (** ** One phase *)
  Section Phase.
    Variable n : nat.
    Variable ph : phase.
    Hypothesis OK : phase_ok n ph.
    Variable m0 : memory.

    Definition M (k : nat) : memory := run_phase n (firstn k ph) m0.

    Lemma M_S k s : nth_error ph k = Some s -> M (S k) = run_stmt n s (M k).
    Proof.
      intros H. unfold M, run_phase.
      assert (firstn (S k) ph = firstn k ph ++ [s]) as ->.
      { revert k H. clear. induction ph as [|a ph' IH]; intros [|k] H; try discriminate; cbn in *.
        - inversion H; auto.
        - rewrite (IH k); auto. }
      rewrite fold_left_app. reflexivity.
    Qed.

    Lemma M_S_none k : nth_error ph k = None -> M (S k) = M k.
    Proof.
      intros H. apply nth_error_None in H. unfold M. rewrite !firstn_all2 by lia. reflexivity.
    Qed.

    (* some thread assigns [l] in statement [k] *)
    Definition assigned (k : nat) (l : L) : Prop :=
      exists s t, t < n /\ nth_error ph k = Some s /\ In l (s_el s t).

    Lemma M_unchanged a b l :
      a <= b -> (forall k, a <= k < b -> ~ assigned k l) -> M b l = M a l.
    Proof.
      induction 1 as [|b Hab IH]; auto. intros H.
      destruct (nth_error ph b) as [s|] eqn:E.
      - rewrite (M_S _ _ E). rewrite run_stmt_out.
        + apply IH. intros; apply H; lia.
        + intros t Ht Hin. apply (H b); [lia|]. exists s, t. auto.
      - rewrite (M_S_none _ E). apply IH. intros; apply H; lia.
    Qed.

    Lemma M_0 l : M 0 l = m0 l. Proof. reflexivity. Qed.

    Definition it (t : nat) := items 0 ph t.

    Lemma in_it t k l : In (k, l) (it t) <-> exists s, nth_error ph k = Some s /\ In l (s_el s t).
    Proof.
      unfold it. rewrite in_items. rewrite Nat.sub_0_r. split.
      - intros (s & _ & ? & ?); eauto.
      - intros (s & ? & ?). exists s. repeat split; auto. lia.
    Qed.

    Definition asg (kl : nat * L) : cinstr ar :=
      Asg ar (snd kl) (emap inl (rhs_at 0 ph (fst kl) (snd kl))).

    (** Position of a thread inside the phase: [dn] items done. *)
    Definition at_pos (c : list (cinstr ar)) (tl : list (cinstr ar)) (t : nat) (dn : list (nat * L)) : Prop :=
      (c = tl /\ it t = dn) \/
      (exists k l rest e', it t = dn ++ (k, l) :: rest /\
         c = Asg ar l e' :: map asg rest ++ tl /\ partial (M k) (rhs_at 0 ph k l) e').

    Record inv (m : memory) (c : nat -> list (cinstr ar)) (tl : nat -> list (cinstr ar))
      (dn : nat -> list (nat * L)) : Prop := {
      i_pos : forall t, t < n -> at_pos (c t) (tl t) t (dn t);
      i_old : forall l, (forall t k, t < n -> ~ In (k, l) (dn t)) -> m l = m0 l;
      i_new : forall t k l, t < n -> In (k, l) (dn t) ->
                (forall k', In (k', l) (dn t) -> k' <= k) -> m l = M (S k) l
    }.

    Lemma dn_in_it c tl t dn k l : at_pos c tl t dn -> In (k, l) dn -> In (k, l) (it t).
    Proof.
      intros [[_ E]|(k' & l' & r & e & E & _)] H; rewrite E; auto.
      apply in_app_iff; auto.
    Qed.

    Lemma it_nodup t : t < n -> NoDup (it t).
    Proof. intros Ht. apply items_nodup. intros. eapply ok_nodup; eauto. Qed.

    (* greatest statement of [dn] that assigns [l] *)
    Lemma latest (dn : list (nat * L)) l k :
      In (k, l) dn ->
      exists k', In (k', l) dn /\ k <= k' /\ (forall k2, In (k2, l) dn -> k2 <= k').
    Proof.
      revert k. induction dn as [|[a x] dn IH]; intros k H; [contradiction|].
      assert (D : (exists k1, In (k1, l) dn) \/ (forall k1, ~ In (k1, l) dn)).
      { clear -leq. induction dn as [|[a x] dn [(k1 & ?)|IH]].
        - right; auto.
        - left; exists k1; right; auto.
        - destruct (leq x l) as [->|NE].
          + left; exists a; left; auto.
          + right. intros k1 [E|E]; [inversion E; congruence|eapply IH; eauto]. }
      destruct D as [(k1 & H1)|D].
      - destruct (IH k1 H1) as (k' & A & B & C).
        destruct H as [H|H].
        + inversion H; subst. exists (Nat.max k k'). destruct (Nat.max_spec k k') as [[? ->]|[? ->]].
          * split; [right; auto|]. split; [lia|]. intros k2 [E|E]; [inversion E; lia|auto].
          * split; [left; auto|]. split; [lia|]. intros k2 [E|E]; [inversion E; lia|].
            apply C in E; lia.
        + destruct (leq x l) as [->|NE].
          * exists (Nat.max a k'). pose proof (C k H).
            destruct (Nat.max_spec a k') as [[? ->]|[? ->]].
            -- split; [right; auto|]. split; [lia|]. intros k2 [E|E]; [inversion E; lia|auto].
            -- split; [left; auto|]. split; [lia|]. intros k2 [E|E]; [inversion E; lia|].
               apply C in E; lia.
          * exists k'. split; [right; auto|]. split; [auto|].
            intros k2 [E|E]; [inversion E; congruence|auto].
      - destruct H as [H|H]; [|exfalso; eapply D; eauto].
        inversion H; subst. exists k. split; [left; auto|]. split; auto.
        intros k2 [E|E]; [inversion E; lia|exfalso; eapply D; eauto].
    Qed.

    Lemma in_dec_k (dn : list (nat * L)) l : (exists k, In (k, l) dn) \/ (forall k, ~ In (k, l) dn).
    Proof.
      induction dn as [|[a x] dn [(k1 & ?)|IH]].
      - right; auto.
      - left; exists k1; right; auto.
      - destruct (leq x l) as [->|NE].
        + left; exists a; left; auto.
        + right. intros k1 [E|E]; [inversion E; congruence|eapply IH; eauto].
    Qed.

    Lemma read_value m c tl dn t k l rest e' l' :
      inv m c tl dn -> t < n -> it t = dn t ++ (k, l) :: rest ->
      partial (M k) (rhs_at 0 ph k l) e' -> In l' (leaves (rhs_at 0 ph k l)) ->
      m l' = M k l'.
    Proof.
      intros I Ht E P Hl'.
      assert (Hk : In (k, l) (it t)) by (rewrite E, in_app_iff; right; left; auto).
      pose proof Hk as Hk'. apply in_it in Hk'. destruct Hk' as (sk & Hsk & Hlk).
      unfold rhs_at in Hl'. rewrite Nat.sub_0_r, Hsk in Hl'.
      destruct (items_sorted 0 ph t _ _ _ _ E) as [Sd Sr].
      assert (Nd : ~ In (k, l) (dn t)).
      { pose proof (it_nodup t Ht) as ND. rewrite E in ND. apply NoDup_remove_2 in ND.
        rewrite in_app_iff in ND. tauto. }
      destruct (in_dec_k (dn t) l') as [(j0 & Hj0)|No].
      - destruct (latest _ _ _ Hj0) as (j & Hj & _ & Hmax).
        rewrite (i_new _ _ _ _ I t j l' Ht Hj Hmax).
        assert (Hjit : In (j, l') (it t)) by (rewrite E, in_app_iff; auto).
        apply in_it in Hjit. destruct Hjit as (sj & Hsj & Hlj).
        assert (Hjk : j < k).
        { pose proof (Sd _ _ Hj). destruct (Nat.eq_dec j k) as [->|]; [|lia].
          rewrite Hsk in Hsj. inversion Hsj; subst sj.
          destruct (ok_reads _ _ OK k k sk sk t t l l' Ht Ht Hsk Hsk Hlk Hl' Hlj) as [[_ H']|[H' _]]; [|lia].
          rewrite H' in Hj by auto. contradiction. }
        symmetry. apply M_unchanged; [lia|].
        intros i Hi (si & t' & Ht' & Hsi & Hli).
        assert (In l' (s_el si t)) as Hin.
        { destruct (ok_reads _ _ OK k i sk si t t' l l' Ht Ht' Hsk Hsi Hlk Hl' Hli) as [[-> _]|[_ ?]]; auto. }
        assert (In (i, l') (it t)) as Hit by (apply in_it; eauto).
        rewrite E in Hit. apply in_app_iff in Hit. destruct Hit as [Hit|[Hit|Hit]].
        + apply Hmax in Hit. lia.
        + inversion Hit. lia.
        + apply Sr in Hit. lia.
      - assert (Only : forall j sj t', t' < n -> nth_error ph j = Some sj -> In l' (s_el sj t') ->
                  t' = t /\ k <= j).
        { intros j sj t' Ht' Hsj Hlj.
          assert (Hself : In l' (s_el sj t) -> k <= j).
          { intros Hin. assert (In (j, l') (it t)) as Hit by (apply in_it; eauto).
            rewrite E in Hit. apply in_app_iff in Hit. destruct Hit as [Hit|[Hit|Hit]].
            - exfalso. eapply No; eauto.
            - inversion Hit. lia.
            - apply Sr in Hit. lia. }
          destruct (ok_reads _ _ OK k j sk sj t t' l l' Ht Ht' Hsk Hsj Hlk Hl' Hlj) as [[-> _]|[Hjk Hin]]; auto.
          apply Hself in Hin. lia. }
        rewrite (i_old _ _ _ _ I).
        + rewrite <- (M_0 l'). symmetry. apply M_unchanged; [lia|].
          intros i Hi (si & t' & Ht' & Hsi & Hli).
          destruct (Only _ _ _ Ht' Hsi Hli). lia.
        + intros t' k' Ht' Hin.
          pose proof (dn_in_it _ _ _ _ _ _ (i_pos _ _ _ _ I t' Ht') Hin) as Hit.
          apply in_it in Hit. destruct Hit as (s' & Hs' & Hl'').
          destruct (Only _ _ _ Ht' Hs' Hl'') as [-> _]. eapply No; eauto.
    Qed.

    Lemma rhs_at_eq k s l : nth_error ph k = Some s -> rhs_at 0 ph k l = s_rhs s l.
    Proof. intros H. unfold rhs_at. rewrite Nat.sub_0_r, H. reflexivity. Qed.

    Lemma rest_code t dn k l rest :
      it t = dn ++ (k, l) :: rest ->
      forall tl, at_pos (map asg rest ++ tl) tl t (dn ++ [(k, l)]).
    Proof.
      intros E tl. destruct rest as [|[k2 l2] rest].
      - left. split; auto.
      - right. exists k2, l2, rest, (emap inl (rhs_at 0 ph k2 l2)).
        rewrite E, <- app_assoc. cbn. repeat split; auto. apply partial_start.
    Qed.

    Lemma inv_init (c : nat -> list (cinstr ar)) tl :
      (forall t, t < n -> c t = pcode ph t ++ tl t) ->
      inv m0 c tl (fun _ => []).
    Proof.
      intros H. constructor.
      - intros t Ht. rewrite (H t Ht), pcode_items.
        change (items 0 ph t) with (it t).
        destruct (it t) as [|[k l] rest] eqn:E.
        + left. split; auto.
        + right. exists k, l, rest, (emap inl (rhs_at 0 ph k l)).
          rewrite E. repeat split; auto. apply partial_start.
      - auto.
      - intros t k l _ [].
    Qed.

    Lemma inv_read m c tl dn t l e e' rest :
      inv m c tl dn -> t < n -> (forall u, u < n -> tl u = [] \/ exists x, tl u = CBar ar :: x) ->
      c t = Asg ar l e :: rest -> read_one ar m e e' ->
      inv m (tset ar c t (Asg ar l e' :: rest)) tl dn.
    Proof.
      intros I Ht TL Hc R. constructor; [|exact (i_old _ _ _ _ I)|exact (i_new _ _ _ _ I)].
      intros u Hu. unfold tset. destruct (Nat.eqb_spec u t) as [->|NE]; [|apply (i_pos _ _ _ _ I); auto].
      destruct (i_pos _ _ _ _ I t Ht) as [[Ec _]|(k & l1 & rest1 & e1 & E & Ec & P)].
      - destruct (TL t Ht) as [E|(x & E)]; rewrite Ec, E in Hc; discriminate.
      - rewrite Ec in Hc. inversion Hc; subst.
        right. exists k, l, rest1, e'. repeat split; auto.
        eapply partial_read; eauto. intros l' Hl'. eapply read_value; eauto.
    Qed.

    Lemma inv_write m c tl dn t l e rest :
      inv m c tl dn -> t < n -> (forall u, u < n -> tl u = [] \/ exists x, tl u = CBar ar :: x) ->
      c t = Asg ar l e :: rest -> closed ar e ->
      exists dn', inv (upd1 leq ar m l (cval ar e m)) (tset ar c t rest) tl dn'.
    Proof.
      intros I Ht TL Hc C.
      destruct (i_pos _ _ _ _ I t Ht) as [[Ec _]|(k & l1 & rest1 & e1 & E & Ec & P)].
      { destruct (TL t Ht) as [E|(x & E)]; rewrite Ec, E in Hc; discriminate. }
      rewrite Ec in Hc. inversion Hc; subst l1 e1 rest. clear Hc.
      assert (Hk : In (k, l) (it t)) by (rewrite E, in_app_iff; right; left; auto).
      pose proof Hk as Hk'. apply in_it in Hk'. destruct Hk' as (sk & Hsk & Hlk).
      rewrite (partial_closed _ _ _ _ P C). rewrite (rhs_at_eq _ _ _ Hsk).
      assert (HM : ev ar (M k) (s_rhs sk l) = M (S k) l).
      { rewrite (M_S _ _ Hsk). symmetry. eapply run_stmt_in; eauto. }
      rewrite HM.
      destruct (items_sorted 0 ph t _ _ _ _ E) as [Sd Sr].
      exists (fun u => if Nat.eqb u t then dn t ++ [(k, l)] else dn u).
      constructor.
      - intros u Hu. unfold tset. destruct (Nat.eqb_spec u t) as [->|NE].
        + eapply rest_code; eauto.
        + apply (i_pos _ _ _ _ I); auto.
      - intros l' H. unfold upd1. destruct (leq l' l) as [->|NE].
        + exfalso. specialize (H t k Ht). rewrite Nat.eqb_refl in H. apply H.
          apply in_app_iff. right. left. auto.
        + apply (i_old _ _ _ _ I). intros u k' Hu Hin. apply (H u k' Hu).
          destruct (Nat.eqb_spec u t) as [->|]; auto. apply in_app_iff; auto.
      - intros u k' l' Hu Hin Hmax. unfold upd1. destruct (leq l' l) as [->|NE].
        + destruct (Nat.eqb_spec u t) as [->|NEt].
          * assert (k' = k) as ->; auto.
            assert (k <= k'). { apply Hmax. apply in_app_iff. right; left; auto. }
            apply in_app_iff in Hin. destruct Hin as [Hin|[Hin|[]]].
            -- apply Sd in Hin. lia.
            -- inversion Hin; auto.
          * pose proof (dn_in_it _ _ _ _ _ _ (i_pos _ _ _ _ I u Hu) Hin) as Hit.
            apply in_it in Hit. destruct Hit as (s' & Hs' & Hl').
            rewrite (ok_writes _ _ OK k k' sk s' t u l Ht Hu Hsk Hs' Hlk Hl'); auto.
        + destruct (Nat.eqb_spec u t) as [->|NEt].
          * apply in_app_iff in Hin. destruct Hin as [Hin|[Hin|[]]].
            -- apply (i_new _ _ _ _ I t k' l' Ht Hin). intros k2 H2. apply Hmax.
               apply in_app_iff. auto.
            -- inversion Hin; congruence.
          * apply (i_new _ _ _ _ I u k' l' Hu Hin Hmax).
    Qed.

    Lemma inv_end m c tl dn :
      inv m c tl dn -> (forall t, t < n -> c t = tl t) ->
      (forall u, u < n -> tl u = [] \/ exists x, tl u = CBar ar :: x) ->
      forall l, m l = run_phase n ph m0 l.
    Proof.
      intros I Hc TL l.
      assert (Hd : forall t, t < n -> dn t = it t).
      { intros t Ht. destruct (i_pos _ _ _ _ I t Ht) as [[_ E]|(k & l1 & r & e & E & Ec & _)]; auto.
        rewrite (Hc t Ht) in Ec. destruct (TL t Ht) as [E'|(x & E')]; rewrite E' in Ec; discriminate. }
      assert (EM : run_phase n ph m0 = M (length ph)) by (unfold M; rewrite firstn_all; auto).
      rewrite EM.
      assert (D : (exists t k, t < n /\ In (k, l) (it t)) \/ (forall t k, t < n -> ~ In (k, l) (it t))).
      { clear -leq. induction n as [|n' IH].
        - right. intros; lia.
        - destruct IH as [(t & k & ? & ?)|IH]; [left; exists t, k; split; auto; lia|].
          destruct (in_dec_k (it n') l) as [(k & H)|H].
          + left. exists n', k. auto.
          + right. intros t k Ht. destruct (Nat.eq_dec t n') as [->|]; auto. apply IH. lia. }
      destruct D as [(t & k0 & Ht & Hin)|D].
      - destruct (latest _ _ _ Hin) as (k & Hk & _ & Hmax).
        rewrite <- (Hd t Ht) in Hk, Hmax.
        rewrite (i_new _ _ _ _ I t k l Ht Hk Hmax). symmetry.
        rewrite (Hd t Ht) in Hk, Hmax.
        pose proof Hk as Hk'. apply in_it in Hk'. destruct Hk' as (sk & Hsk & Hlk).
        assert (k < length ph) by (apply nth_error_Some; congruence).
        apply M_unchanged; [lia|].
        intros i Hi (si & t' & Ht' & Hsi & Hli).
        destruct (Nat.eq_dec t t') as [<-|NE].
        + assert (i <= k) by (apply Hmax; apply in_it; eauto). lia.
        + pose proof (ok_writes _ _ OK k i sk si t t' l Ht Ht' Hsk Hsi Hlk Hli NE). lia.
      - rewrite (i_old _ _ _ _ I).
        + rewrite <- (M_0 l). symmetry. apply M_unchanged; [lia|].
          intros i Hi (si & t' & Ht' & Hsi & Hli). apply (D t' i Ht'). apply in_it. eauto.
        + intros t k Ht. rewrite Hd by auto. apply D; auto.
    Qed.
  End Phase.

  (** ** Whole programs *)
  Definition tails (phs : list phase) : nat -> list (cinstr ar) := tail_code phs.

  Lemma tails_shape phs u : tails phs u = [] \/ exists x, tails phs u = CBar ar :: x.
  Proof. destruct phs; [left|right]; cbn; eauto. Qed.

  Definition run_phases n (phs : list phase) (m : memory) : memory :=
    fold_left (fun m ph => run_phase n ph m) phs m.

  Lemma run_phase_ext n ph : forall (m m' : memory),
    (forall l, m l = m' l) -> forall l, run_phase n ph m l = run_phase n ph m' l.
  Proof.
    induction ph as [|s ph IH]; cbn; intros m m' H; auto.
    apply IH. apply run_stmt_ext; auto.
  Qed.

  Lemma run_phases_ext n phs : forall (m m' : memory),
    (forall l, m l = m' l) -> forall l, run_phases n phs m l = run_phases n phs m' l.
  Proof.
    induction phs as [|s ph IH]; cbn; intros m m' H; auto.
    apply IH. apply run_phase_ext; auto.
  Qed.

  Section Prog.
    Variable n : nat.
    Variable goal : memory.   (* what the remaining phases must produce *)

    Definition pinv (c : config ar) : Prop :=
      exists ph rest m0 dn,
        phase_ok n ph /\ (forall q, In q rest -> phase_ok n q) /\
        inv n ph m0 (fst c) (snd c) (tails rest) dn /\
        forall l, run_phases n rest (run_phase n ph m0) l = goal l.

    Lemma pinv_step c c' : pinv c -> step leq ar n c c' -> pinv c'.
    Proof.
      intros (ph & rest & m0 & dn & OK & OKs & I & G) S.
      pose proof (fun u (_ : u < n) => tails_shape rest u) as TL.
      inversion S; subst; cbn in *.
      - exists ph, rest, m0, dn. split; [auto|]. split; [auto|]. split; [|auto]. eapply inv_read; eauto.
      - destruct (inv_write n ph OK m0 _ _ _ _ _ _ _ _ I H TL H0 H1) as (dn' & I').
        exists ph, rest, m0, dn'. auto.
      - assert (Hc : forall t, t < n -> c0 t = tails rest t).
        { intros t Ht. destruct (i_pos _ _ _ _ _ _ _ I t Ht) as [[E _]|(k & l & r & e & _ & E & _)]; auto.
          rewrite (H0 t Ht) in E. discriminate. }
        destruct rest as [|ph2 rest].
        + specialize (Hc 0 H). rewrite (H0 0 H) in Hc. discriminate.
        + exists ph2, rest, m, (fun _ => []). split; [apply OKs; left; auto|].
          split; [intros; apply OKs; right; auto|]. split.
          * pose proof (inv_end n ph OK m0 _ _ _ _ I Hc TL) as E.
            apply inv_init. intros t Ht. specialize (Hc t Ht). rewrite (H0 t Ht) in Hc.
            cbn in Hc. inversion Hc as [Hc']. cbn. rewrite Hc'. reflexivity.
          * intros l. rewrite <- G. cbn. apply run_phases_ext. apply run_phase_ext.
            apply (inv_end n ph OK m0 _ _ _ _ I Hc TL).
    Qed.

    Lemma pinv_steps c c' : pinv c -> steps leq ar n c c' -> pinv c'.
    Proof. intros I S. induction S; auto. apply IHS. eapply pinv_step; eauto. Qed.

    Lemma pinv_finished m c : 0 < n -> pinv (m, c) -> finished ar n (m, c) -> forall l, m l = goal l.
    Proof.
      intros Hn (ph & rest & m0 & dn & OK & OKs & I & G) F l. cbn in *.
      assert (Hc : forall t, t < n -> tails rest t = [] /\ c t = tails rest t).
      { intros t Ht. pose proof (F t Ht) as E. cbn in E.
        destruct (i_pos _ _ _ _ _ _ _ I t Ht) as [[E' _]|(k & l0 & r & e & _ & E' & _)].
        - split; congruence.
        - rewrite E in E'. discriminate. }
      destruct rest as [|ph2 rest].
      - rewrite <- G. cbn. apply (inv_end n ph OK m0 _ _ _ _ I).
        + intros t Ht. apply Hc; auto.
        + intros u Hu. left. reflexivity.
      - destruct (Hc 0 Hn) as [E _]. discriminate.
    Qed.

    Lemma pinv_progress c : 0 < n -> pinv c -> finished ar n c \/ exists c', step leq ar n c c'.
    Proof.
      intros Hn (ph & rest & m0 & dn & OK & OKs & I & G). destruct c as [m c]. cbn in *.
      assert (D : (exists t, t < n /\ exists l e r, c t = Asg ar l e :: r) \/
                  (forall t, t < n -> c t = tails rest t)).
      { assert (H : forall t, t < n -> (exists l e r, c t = Asg ar l e :: r) \/ c t = tails rest t).
        { intros t Ht. destruct (i_pos _ _ _ _ _ _ _ I t Ht) as [[E _]|(k & l & r & e & _ & E & _)]; auto.
          left. eauto. }
        clear -H. induction n as [|n' IH].
        - right. intros; lia.
        - destruct IH as [(t & ? & ?)|IH]; [intros; apply H; lia|left; exists t; split; auto; lia|].
          destruct (H n') as [?|E]; [lia|left; exists n'; auto|].
          right. intros t Ht. destruct (Nat.eq_dec t n') as [->|]; auto. apply IH. lia. }
      destruct D as [(t & Ht & l & e & r & E)|D].
      - right. destruct (read_or_closed m e) as [C|(e' & R)].
        + eexists. eapply StepWrite; eauto.
        + eexists. eapply StepRead; eauto.
      - destruct rest as [|ph2 rest].
        + left. intros t Ht. cbn. rewrite D by auto. reflexivity.
        + right. exists (m, fun t => pcode ph2 t ++ tail_code rest t). apply StepBar; auto.
    Qed.
  End Prog.

  Definition prog_ok (n : nat) (p : list (instr L)) : Prop := forall ph, In ph (phases p) -> phase_ok n ph.

  Lemma pinv_start n p m : prog_ok n p -> pinv n (run_prog n p m) (m, code ar p).
  Proof.
    intros H. destruct (phases p) as [|ph rest] eqn:E; [exfalso; eapply phases_nonempty; eauto|].
    unfold prog_ok in H. rewrite E in H.
    exists ph, rest, m, (fun _ => []). split; [apply H; left; auto|].
    split; [intros; apply H; right; auto|]. split.
    - cbn. apply inv_init. intros t Ht. unfold tails. erewrite code_phases; eauto.
    - intros l. rewrite run_prog_phases, E. reflexivity.
  Qed.

  (** Every finished interleaving has the sequential result. *)
  Theorem interleaving_deterministic n p m m' c' :
    0 < n -> prog_ok n p -> steps leq ar n (m, code ar p) (m', c') -> finished ar n (m', c') ->
    forall l, m' l = run_prog n p m l.
  Proof.
    intros Hn H S F. eapply pinv_finished; eauto. eapply pinv_steps; eauto. apply pinv_start; auto.
  Qed.

  (** No reachable configuration is stuck. *)
  Theorem interleaving_progress n p m c :
    0 < n -> prog_ok n p -> steps leq ar n (m, code ar p) c ->
    finished ar n c \/ exists c', step leq ar n c c'.
  Proof.
    intros Hn H S. eapply pinv_progress; eauto. eapply pinv_steps; eauto. apply pinv_start; auto.
  Qed.

  (** ** Termination *)
  Definition pending (e : expr (L + V)) : nat :=
    length (filter (fun x => match x with inl _ => true | inr _ => false end) (leaves e)).

  Definition cweight (i : cinstr ar) : nat :=
    match i with Asg _ _ e => S (pending e) | CBar _ => 1 end.

  Definition weight (c : list (cinstr ar)) : nat := list_sum (map cweight c).

  Definition total (n : nat) (c : nat -> list (cinstr ar)) : nat :=
    list_sum (map (fun t => weight (c t)) (seq 0 n)).

  Lemma filter_app_len {A} (f : A -> bool) a b :
    length (filter f (a ++ b)) = length (filter f a) + length (filter f b).
  Proof. rewrite filter_app, app_length. reflexivity. Qed.

  Lemma read_pending m e e' : read_one ar m e e' -> pending e = S (pending e').
  Proof.
    unfold pending. induction 1; cbn; auto; rewrite ?filter_app_len in *; lia.
  Qed.

  Lemma total_update n c t x :
    t < n -> total n (tset ar c t x) + weight (c t) = total n c + weight x.
  Proof.
    unfold total. induction n as [|n' IH]; intros Ht; [lia|].
    rewrite !seq_S, !map_app, !list_sum_app. cbn [map list_sum fold_right].
    unfold tset at 2. cbn [Nat.add].
    destruct (Nat.eq_dec t n') as [->|NE].
    - rewrite Nat.eqb_refl.
      assert (map (fun t0 => weight (tset ar c n' x t0)) (seq 0 n') = map (fun t0 => weight (c t0)) (seq 0 n')) as ->.
      { apply map_ext_in. intros a Ha. apply in_seq in Ha. unfold tset.
        destruct (Nat.eqb_spec a n'); [lia|auto]. }
      lia.
    - destruct (Nat.eqb_spec n' t); [lia|]. specialize (IH ltac:(lia)). lia.
  Qed.

  Lemma total_bar n c c' : 0 < n -> (forall t, t < n -> c t = CBar ar :: c' t) ->
    total n c = total n c' + n.
  Proof.
    unfold total. intros _. induction n as [|n' IH]; intros H; [reflexivity|].
    rewrite !seq_S, !map_app, !list_sum_app. cbn [map list_sum fold_right Nat.add].
    rewrite (H n') by lia. rewrite IH by (intros; apply H; lia).
    change (weight (CBar ar :: c' n')) with (S (weight (c' n'))). lia.
  Qed.

  Lemma step_total n c c' : step leq ar n c c' -> total n (snd c') < total n (snd c).
  Proof.
    intros St. inversion St; subst; cbn [snd].
    - pose proof (total_update n c0 t (Asg ar l e' :: rest) H) as E. rewrite H0 in E.
      apply read_pending in H1.
      change (weight (Asg ar l e' :: rest)) with (S (pending e') + weight rest) in E.
      change (weight (Asg ar l e :: rest)) with (S (pending e) + weight rest) in E. lia.
    - pose proof (total_update n c0 t rest H) as E. rewrite H0 in E.
      change (weight (Asg ar l e :: rest)) with (S (pending e) + weight rest) in E. lia.
    - rewrite (total_bar _ _ _ H H0). lia.
  Qed.

  Inductive stepsk (n : nat) : nat -> config ar -> config ar -> Prop :=
  | stepsk_O c : stepsk n 0 c c
  | stepsk_S k c1 c2 c3 : step leq ar n c1 c2 -> stepsk n k c2 c3 -> stepsk n (S k) c1 c3.

  (** Every execution of a program takes at most [total] steps. *)
  Theorem interleaving_terminates n p m k c :
    stepsk n k (m, code ar p) c -> k <= total n (code ar p).
  Proof.
    intros St.
    assert (G : forall k c1 c2, stepsk n k c1 c2 -> k <= total n (snd c1)).
    { induction 1 as [|k1 c1 c2 c3 H St' IH]; [lia|]. apply step_total in H. lia. }
    apply (G _ _ _ St).
  Qed.

  (** A finished execution exists. *)
  Theorem interleaving_completes n p m :
    0 < n -> prog_ok n p ->
    exists c, steps leq ar n (m, code ar p) c /\ finished ar n c.
  Proof.
    intros Hn H.
    assert (G : forall w c, total n (snd c) <= w -> pinv n (run_prog n p m) c ->
              exists c', steps leq ar n c c' /\ finished ar n c').
    { induction w; intros c Hw I.
      - destruct (pinv_progress n _ c Hn I) as [F|(c' & S)].
        + exists c. split; [constructor|auto].
        + apply step_total in S. lia.
      - destruct (pinv_progress n _ c Hn I) as [F|(c' & S)].
        + exists c. split; [constructor|auto].
        + destruct (IHw c') as (c2 & S2 & F2).
          * apply step_total in S. lia.
          * eapply pinv_step; eauto.
          * exists c2. split; auto. econstructor; eauto. }
    eapply G; eauto. apply pinv_start; auto.
  Qed.
End P.
