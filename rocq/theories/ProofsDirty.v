(** Programs whose phases contain unordered accesses that do not matter: some
    elements may be computed from operands that another thread is changing,
    and what they hold afterwards is not known, but every such element is
    assigned again before anything that is ordered reads it.  Every
    interleaving of such a program still ends in the memory computed by
    sequential whole-array execution. *)
From Coq Require Import ZArith List Bool Lia Arith.
From Verif Require Import Lang ProofsLang.
Import ListNotations.

Section D.
  Context {L : Type} (leq : forall x y : L, {x = y} + {x <> y}).
  Variable ar : arith.
  Notation V := (car ar).
  Notation memory := (@memory L ar).
  Notation stmt := (stmt L).
  Notation phase := (list stmt).
  Notation run_stmt := (run_stmt leq ar).
  Notation run_prog := (run_prog leq ar).
  Notation run_phase := (run_phase leq ar).
  Notation run_phases := (run_phases leq ar).
  Notation pcode := (@pcode L ar).
  Notation tails := (@tails L ar).
  Notation M := (M leq ar).
  Notation it := (@it L).
  Notation asg := (@asg L ar).
  Notation partial := (partial ar).

  (** [D] : locations whose content is not determined before the phase,
      [D'] : after it; [G k l] : the element [l] assigned by statement [k]
      is determined. *)
  Record phase_okD (n : nat) (ph : phase) (D D' : L -> Prop) (G : nat -> L -> Prop) : Prop := {
    okd_reads : forall k j sk sj t t' l l', t < n -> t' < n ->
      nth_error ph k = Some sk -> nth_error ph j = Some sj -> G k l ->
      In l (s_el sk t) -> In l' (leaves (s_rhs sk l)) -> In l' (s_el sj t') ->
      ((t' = t /\ (j = k -> l' = l)) \/ (j < k /\ In l' (s_el sj t))) /\ (j < k -> G j l');
    okd_clean : forall k sk t l l', t < n -> nth_error ph k = Some sk -> G k l ->
      In l (s_el sk t) -> In l' (leaves (s_rhs sk l)) ->
      ~ D l' \/ exists j sj, j < k /\ nth_error ph j = Some sj /\ In l' (s_el sj t);
    okd_writes : forall k j sk sj t t' l, t < n -> t' < n ->
      nth_error ph k = Some sk -> nth_error ph j = Some sj ->
      In l (s_el sk t) -> In l (s_el sj t') -> t <> t' -> k = j;
    okd_nodup : forall s t, In s ph -> t < n -> NoDup (s_el s t);
    okd_last : forall k sk t l, t < n -> nth_error ph k = Some sk -> In l (s_el sk t) -> ~ D' l ->
      (forall j sj, nth_error ph j = Some sj -> In l (s_el sj t) -> j <= k) -> G k l;
    okd_kept : forall l, ~ D' l ->
      (forall k sk t, t < n -> nth_error ph k = Some sk -> ~ In l (s_el sk t)) -> ~ D l
  }.

  Lemma phase_ok_D n ph : phase_ok n ph -> phase_okD n ph (fun _ => False) (fun _ => False) (fun _ _ => True).
  Proof.
    intros OK. constructor; intros; try exact I.
    - split; [|auto]. eapply (ok_reads _ _ OK); [exact H|exact H0|exact H1|exact H2|exact H4|exact H5|exact H6].
    - left. intros [].
    - eapply (ok_writes _ _ OK); [exact H|exact H0|exact H1|exact H2|exact H3|exact H4|exact H5].
    - eapply (ok_nodup _ _ OK); eauto.
    - intros [].
  Qed.

  Section Phase.
    Variable n : nat.
    Variable ph : phase.
    Variables D D' : L -> Prop.
    Variable G : nat -> L -> Prop.
    Hypothesis OK : phase_okD n ph D D' G.
    Variable m0 : memory.
    Notation M := (M n ph m0).
    Notation it := (it ph).
    Notation asg := (asg ph).

    Definition at_posD (c : list (cinstr ar)) (tl : list (cinstr ar)) (t : nat) (dn : list (nat * L)) : Prop :=
      (c = tl /\ it t = dn) \/
      (exists k l rest e', it t = dn ++ (k, l) :: rest /\
         c = Asg ar l e' :: map asg rest ++ tl /\ (G k l -> partial (M k) (rhs_at 0 ph k l) e')).

    Record invD (m : memory) (c : nat -> list (cinstr ar)) (tl : nat -> list (cinstr ar))
      (dn : nat -> list (nat * L)) : Prop := {
      d_pos : forall t, t < n -> at_posD (c t) (tl t) t (dn t);
      d_old : forall l, ~ D l -> (forall t k, t < n -> ~ In (k, l) (dn t)) -> m l = m0 l;
      d_new : forall t k l, t < n -> In (k, l) (dn t) -> G k l ->
                (forall k', In (k', l) (dn t) -> k' <= k) -> m l = M (S k) l
    }.

    Lemma dnD_in_it c tl t dn k l : at_posD c tl t dn -> In (k, l) dn -> In (k, l) (it t).
    Proof.
      intros [[_ E]|(k' & l' & r & e & E & _)] H; rewrite E; auto.
      apply in_app_iff; auto.
    Qed.

    Lemma it_nodupD t : t < n -> NoDup (it t).
    Proof. intros Ht. apply items_nodup. intros. eapply okd_nodup; eauto. Qed.

    Lemma readD_value m c tl dn t k l rest l' :
      invD m c tl dn -> t < n -> it t = dn t ++ (k, l) :: rest -> G k l ->
      In l' (leaves (rhs_at 0 ph k l)) ->
      m l' = M k l'.
    Proof.
      intros I Ht E Gk Hl'.
      assert (Hk : In (k, l) (it t)) by (rewrite E, in_app_iff; right; left; auto).
      pose proof Hk as Hk'. apply in_it in Hk'. destruct Hk' as (sk & Hsk & Hlk).
      unfold rhs_at in Hl'. rewrite Nat.sub_0_r, Hsk in Hl'.
      destruct (items_sorted 0 ph t _ _ _ _ E) as [Sd Sr].
      assert (Nd : ~ In (k, l) (dn t)).
      { pose proof (it_nodupD t Ht) as ND. rewrite E in ND. apply NoDup_remove_2 in ND.
        rewrite in_app_iff in ND. tauto. }
      destruct (in_dec_k leq (dn t) l') as [(j0 & Hj0)|No].
      - destruct (latest leq _ _ _ Hj0) as (j & Hj & _ & Hmax).
        assert (Hjit : In (j, l') (it t)) by (rewrite E, in_app_iff; auto).
        apply in_it in Hjit. destruct Hjit as (sj & Hsj & Hlj).
        assert (Hjk : j < k).
        { pose proof (Sd _ _ Hj). destruct (Nat.eq_dec j k) as [->|]; [|lia].
          rewrite Hsk in Hsj. inversion Hsj; subst sj.
          destruct (okd_reads _ _ _ _ _ OK k k sk sk t t l l' Ht Ht Hsk Hsk Gk Hlk Hl' Hlj) as [[[_ H']|[H' _]] _]; [|lia].
          rewrite H' in Hj by auto. contradiction. }
        destruct (okd_reads _ _ _ _ _ OK k j sk sj t t l l' Ht Ht Hsk Hsj Gk Hlk Hl' Hlj) as [_ Gj].
        rewrite (d_new _ _ _ _ I t j l' Ht Hj (Gj Hjk) Hmax).
        symmetry. apply M_unchanged; [lia|].
        intros i Hi (si & t' & Ht' & Hsi & Hli).
        assert (In l' (s_el si t)) as Hin.
        { destruct (okd_reads _ _ _ _ _ OK k i sk si t t' l l' Ht Ht' Hsk Hsi Gk Hlk Hl' Hli) as [[[-> _]|[_ ?]] _]; auto. }
        assert (In (i, l') (it t)) as Hit by (apply in_it; eauto).
        rewrite E in Hit. apply in_app_iff in Hit. destruct Hit as [Hit|[Hit|Hit]].
        + apply Hmax in Hit. lia.
        + inversion Hit. lia.
        + apply Sr in Hit. lia.
      - assert (Only : forall j sj t', t' < n -> nth_error ph j = Some sj -> In l' (s_el sj t') ->
                  t' = t /\ k <= j).
        { intros j sj t' Ht' Hsj Hlj.
          assert (Hself : In l' (s_el sj t) -> k <= j).
          { intros Hin. assert (In (j, l') (it t)) as Hit by (apply in_it; eauto).
            rewrite E in Hit. apply in_app_iff in Hit. destruct Hit as [Hit|[Hit|Hit]].
            - exfalso. eapply No; eauto.
            - inversion Hit. lia.
            - apply Sr in Hit. lia. }
          destruct (okd_reads _ _ _ _ _ OK k j sk sj t t' l l' Ht Ht' Hsk Hsj Gk Hlk Hl' Hlj) as [[[-> _]|[Hjk Hin]] _]; auto.
          apply Hself in Hin. lia. }
        rewrite (d_old _ _ _ _ I).
        + rewrite <- (M_0 leq ar n ph m0 l'). symmetry. apply M_unchanged; [lia|].
          intros i Hi (si & t' & Ht' & Hsi & Hli).
          destruct (Only _ _ _ Ht' Hsi Hli). lia.
        + destruct (okd_clean _ _ _ _ _ OK k sk t l l' Ht Hsk Gk Hlk Hl') as [C|(j & sj & Hj & Hsj & Hlj)]; auto.
          destruct (Only _ _ _ Ht Hsj Hlj). lia.
        + intros t' k' Ht' Hin.
          pose proof (dnD_in_it _ _ _ _ _ _ (d_pos _ _ _ _ I t' Ht') Hin) as Hit.
          apply in_it in Hit. destruct Hit as (s' & Hs' & Hl'').
          destruct (Only _ _ _ Ht' Hs' Hl'') as [-> _]. eapply No; eauto.
    Qed.

    Lemma restD_code t dn k l rest :
      it t = dn ++ (k, l) :: rest ->
      forall tl, at_posD (map asg rest ++ tl) tl t (dn ++ [(k, l)]).
    Proof.
      intros E tl. destruct rest as [|[k2 l2] rest].
      - left. split; auto.
      - right. exists k2, l2, rest, (emap inl (rhs_at 0 ph k2 l2)).
        rewrite E, <- app_assoc. cbn. repeat split; auto. intros _. apply partial_start.
    Qed.

    Lemma invD_init m (c : nat -> list (cinstr ar)) tl :
      (forall l, ~ D l -> m l = m0 l) ->
      (forall t, t < n -> c t = pcode ph t ++ tl t) ->
      invD m c tl (fun _ => []).
    Proof.
      intros A H. constructor.
      - intros t Ht. rewrite (H t Ht), pcode_items.
        change (items 0 ph t) with (it t).
        destruct (it t) as [|[k l] rest] eqn:E.
        + left. split; auto.
        + right. exists k, l, rest, (emap inl (rhs_at 0 ph k l)).
          rewrite E. repeat split; auto. intros _. apply partial_start.
      - auto.
      - intros t k l _ [].
    Qed.

    Lemma invD_read m c tl dn t l e e' rest :
      invD m c tl dn -> t < n -> (forall u, u < n -> tl u = [] \/ exists x, tl u = CBar ar :: x) ->
      c t = Asg ar l e :: rest -> read_one ar m e e' ->
      invD m (tset ar c t (Asg ar l e' :: rest)) tl dn.
    Proof.
      intros I Ht TL Hc R. constructor; [|exact (d_old _ _ _ _ I)|exact (d_new _ _ _ _ I)].
      intros u Hu. unfold tset. destruct (Nat.eqb_spec u t) as [->|NE]; [|apply (d_pos _ _ _ _ I); auto].
      destruct (d_pos _ _ _ _ I t Ht) as [[Ec _]|(k & l1 & rest1 & e1 & E & Ec & P)].
      - destruct (TL t Ht) as [E|(x & E)]; rewrite Ec, E in Hc; discriminate.
      - rewrite Ec in Hc. inversion Hc; subst.
        right. exists k, l, rest1, e'. repeat split; auto. intros Gk.
        eapply partial_read; eauto. intros l' Hl'. eapply readD_value; eauto.
    Qed.

    Lemma invD_write m c tl dn t l e rest :
      invD m c tl dn -> t < n -> (forall u, u < n -> tl u = [] \/ exists x, tl u = CBar ar :: x) ->
      c t = Asg ar l e :: rest -> closed ar e ->
      exists dn', invD (upd1 leq ar m l (cval ar e m)) (tset ar c t rest) tl dn'.
    Proof.
      intros I Ht TL Hc C.
      destruct (d_pos _ _ _ _ I t Ht) as [[Ec _]|(k & l1 & rest1 & e1 & E & Ec & P)].
      { destruct (TL t Ht) as [E|(x & E)]; rewrite Ec, E in Hc; discriminate. }
      rewrite Ec in Hc. inversion Hc; subst l1 e1 rest. clear Hc.
      assert (Hk : In (k, l) (it t)) by (rewrite E, in_app_iff; right; left; auto).
      pose proof Hk as Hk'. apply in_it in Hk'. destruct Hk' as (sk & Hsk & Hlk).
      assert (HV : G k l -> cval ar e m = M (S k) l).
      { intros Gk. rewrite (partial_closed ar _ _ _ _ (P Gk) C). rewrite (rhs_at_eq _ _ _ _ Hsk).
        rewrite (M_S _ _ _ _ _ _ _ Hsk). symmetry. eapply run_stmt_in; eauto. }
      destruct (items_sorted 0 ph t _ _ _ _ E) as [Sd Sr].
      exists (fun u => if Nat.eqb u t then dn t ++ [(k, l)] else dn u).
      constructor.
      - intros u Hu. unfold tset. destruct (Nat.eqb_spec u t) as [->|NE].
        + eapply restD_code; eauto.
        + apply (d_pos _ _ _ _ I); auto.
      - intros l' HD H. unfold upd1. destruct (leq l' l) as [->|NE].
        + exfalso. specialize (H t k Ht). rewrite Nat.eqb_refl in H. apply H.
          apply in_app_iff. right. left. auto.
        + apply (d_old _ _ _ _ I); auto. intros u k' Hu Hin. apply (H u k' Hu).
          destruct (Nat.eqb_spec u t) as [->|]; auto. apply in_app_iff; auto.
      - intros u k' l' Hu Hin Gk' Hmax. unfold upd1. destruct (leq l' l) as [->|NE].
        + destruct (Nat.eqb_spec u t) as [->|NEt].
          * assert (k' = k) as ->; auto.
            assert (k <= k'). { apply Hmax. apply in_app_iff. right; left; auto. }
            apply in_app_iff in Hin. destruct Hin as [Hin|[Hin|[]]].
            -- apply Sd in Hin. lia.
            -- inversion Hin; auto.
          * pose proof (dnD_in_it _ _ _ _ _ _ (d_pos _ _ _ _ I u Hu) Hin) as Hit.
            apply in_it in Hit. destruct Hit as (s' & Hs' & Hl').
            pose proof (okd_writes _ _ _ _ _ OK k k' sk s' t u l Ht Hu Hsk Hs' Hlk Hl'
                          (fun H => NEt (eq_sym H))) as Ek. subst k'. auto.
        + destruct (Nat.eqb_spec u t) as [->|NEt].
          * apply in_app_iff in Hin. destruct Hin as [Hin|[Hin|[]]].
            -- apply (d_new _ _ _ _ I t k' l' Ht Hin Gk'). intros k2 H2. apply Hmax.
               apply in_app_iff. auto.
            -- inversion Hin; congruence.
          * apply (d_new _ _ _ _ I u k' l' Hu Hin Gk' Hmax).
    Qed.

    Lemma invD_end m c tl dn :
      invD m c tl dn -> (forall t, t < n -> c t = tl t) ->
      (forall u, u < n -> tl u = [] \/ exists x, tl u = CBar ar :: x) ->
      forall l, ~ D' l -> m l = run_phase n ph m0 l.
    Proof.
      intros I Hc TL l HD'.
      assert (Hd : forall t, t < n -> dn t = it t).
      { intros t Ht. destruct (d_pos _ _ _ _ I t Ht) as [[_ E]|(k & l1 & r & e & E & Ec & _)]; auto.
        rewrite (Hc t Ht) in Ec. destruct (TL t Ht) as [E'|(x & E')]; rewrite E' in Ec; discriminate. }
      assert (EM : run_phase n ph m0 = M (length ph)) by (unfold ProofsLang.M; rewrite firstn_all; auto).
      rewrite EM.
      assert (DD : (exists t k, t < n /\ In (k, l) (it t)) \/ (forall t k, t < n -> ~ In (k, l) (it t))).
      { clear -leq. induction n as [|n' IH].
        - right. intros; lia.
        - destruct IH as [(t & k & ? & ?)|IH]; [left; exists t, k; split; auto; lia|].
          destruct (in_dec_k leq (it n') l) as [(k & H)|H].
          + left. exists n', k. auto.
          + right. intros t k Ht. destruct (Nat.eq_dec t n') as [->|]; auto. apply IH. lia. }
      destruct DD as [(t & k0 & Ht & Hin)|DD].
      - destruct (latest leq _ _ _ Hin) as (k & Hk & _ & Hmax).
        pose proof Hk as Hk'. apply in_it in Hk'. destruct Hk' as (sk & Hsk & Hlk).
        assert (Gk : G k l).
        { apply (okd_last _ _ _ _ _ OK k sk t l Ht Hsk Hlk HD'). intros j sj Hj Hlj. apply Hmax. apply in_it. eauto. }
        rewrite <- (Hd t Ht) in Hk, Hmax.
        rewrite (d_new _ _ _ _ I t k l Ht Hk Gk Hmax). symmetry.
        rewrite (Hd t Ht) in Hk, Hmax.
        assert (k < length ph) by (apply nth_error_Some; congruence).
        apply M_unchanged; [lia|].
        intros i Hi (si & t' & Ht' & Hsi & Hli).
        destruct (Nat.eq_dec t t') as [<-|NE].
        + assert (i <= k) by (apply Hmax; apply in_it; eauto). lia.
        + pose proof (okd_writes _ _ _ _ _ OK k i sk si t t' l Ht Ht' Hsk Hsi Hlk Hli NE). lia.
      - rewrite (d_old _ _ _ _ I).
        + rewrite <- (M_0 leq ar n ph m0 l). symmetry. apply M_unchanged; [lia|].
          intros i Hi (si & t' & Ht' & Hsi & Hli). apply (DD t' i Ht'). apply in_it. eauto.
        + apply (okd_kept _ _ _ _ _ OK l HD'). intros k sk t Ht Hsk Hl. apply (DD t k Ht). apply in_it. eauto.
        + intros t k Ht. rewrite Hd by auto. apply DD; auto.
    Qed.
  End Phase.

  (** A sequence of phases: undetermined locations before and after. *)
  Inductive phases_okD (n : nat) : (L -> Prop) -> list phase -> (L -> Prop) -> Prop :=
  | pd_nil D : phases_okD n D [] D
  | pd_cons D D1 D2 G ph rest : phase_okD n ph D D1 G -> phases_okD n D1 rest D2 -> phases_okD n D (ph :: rest) D2.

  Definition none : L -> Prop := fun _ => False.

  Lemma phases_okD_app n D p D1 q D2 : phases_okD n D p D1 -> phases_okD n D1 q D2 -> phases_okD n D (p ++ q) D2.
  Proof. induction 1; cbn; auto. intros H1. econstructor; eauto. Qed.

  Lemma phases_ok_D n phs : (forall ph, In ph phs -> phase_ok n ph) -> phases_okD n none phs none.
  Proof.
    induction phs as [|ph phs IH]; intros H; [constructor|].
    econstructor; [apply phase_ok_D; apply H; left; auto|]. apply IH. intros; apply H; right; auto.
  Qed.


  Section Prog.
    Variable n : nat.
    Variable goal : memory.
    Variable De : L -> Prop.

    Definition pinvD (c : config ar) : Prop :=
      exists ph rest D D1 G m0 dn,
        phase_okD n ph D D1 G /\ phases_okD n D1 rest De /\
        invD n ph D G m0 (fst c) (snd c) (tails rest) dn /\
        forall l, run_phases n rest (run_phase n ph m0) l = goal l.

    Lemma pinvD_step c c' : pinvD c -> step leq ar n c c' -> pinvD c'.
    Proof.
      intros (ph & rest & D & D1 & G & m0 & dn & OK & OKs & I & Gl) S.
      pose proof (fun u (_ : u < n) => tails_shape ar rest u) as TL.
      inversion S; subst; cbn [fst snd] in *.
      - exists ph, rest, D, D1, G, m0, dn. split; [auto|]. split; [auto|]. split; [|auto]. eapply invD_read; eauto.
      - destruct (invD_write n ph D D1 G OK m0 _ _ _ _ _ _ _ _ I H TL H0 H1) as (dn' & I').
        exists ph, rest, D, D1, G, m0, dn'. auto.
      - assert (Hc : forall t, t < n -> c0 t = tails rest t).
        { intros t Ht. destruct (d_pos _ _ _ _ _ _ _ _ _ I t Ht) as [[E _]|(k & l & r & e & _ & E & _)]; auto.
          rewrite (H0 t Ht) in E. discriminate. }
        inversion OKs; subst.
        + specialize (Hc 0 H). rewrite (H0 0 H) in Hc. discriminate.
        + exists ph0, rest0, D1, D2, G0, (run_phase n ph m0), (fun _ => []). split; [auto|].
          split; [auto|]. split.
          * cbn [fst snd]. apply invD_init.
            -- exact (invD_end n ph D D1 G OK m0 _ _ _ _ I Hc TL).
            -- intros t Ht. specialize (Hc t Ht). rewrite (H0 t Ht) in Hc.
               cbn in Hc. inversion Hc as [Hc']. cbn. rewrite Hc'. reflexivity.
          * intros l. rewrite <- Gl. reflexivity.
    Qed.

    Lemma pinvD_steps c c' : pinvD c -> steps leq ar n c c' -> pinvD c'.
    Proof. intros I S. induction S; auto. apply IHS. eapply pinvD_step; eauto. Qed.

    Lemma pinvD_finished m c : 0 < n -> pinvD (m, c) -> finished ar n (m, c) -> forall l, ~ De l -> m l = goal l.
    Proof.
      intros Hn (ph & rest & D & D1 & G & m0 & dn & OK & OKs & I & Gl) F l ND. cbn [fst snd] in *.
      assert (Hc : forall t, t < n -> tails rest t = [] /\ c t = tails rest t).
      { intros t Ht. pose proof (F t Ht) as E. cbn in E.
        destruct (d_pos _ _ _ _ _ _ _ _ _ I t Ht) as [[E' _]|(k & l0 & r & e & _ & E' & _)].
        - split; congruence.
        - rewrite E in E'. discriminate. }
      inversion OKs; subst.
      - rewrite <- Gl. cbn. apply (invD_end n ph D De G OK m0 _ _ _ _ I).
        + intros t Ht. apply Hc; auto.
        + intros u Hu. left. reflexivity.
        + exact ND.
      - destruct (Hc 0 Hn) as [E _]. discriminate.
    Qed.

    Lemma pinvD_progress c : 0 < n -> pinvD c -> finished ar n c \/ exists c', step leq ar n c c'.
    Proof.
      intros Hn (ph & rest & D & D1 & G & m0 & dn & OK & OKs & I & Gl). destruct c as [m c]. cbn [fst snd] in *.
      assert (DD : (exists t, t < n /\ exists l e r, c t = Asg ar l e :: r) \/
                  (forall t, t < n -> c t = tails rest t)).
      { assert (H : forall t, t < n -> (exists l e r, c t = Asg ar l e :: r) \/ c t = tails rest t).
        { intros t Ht. destruct (d_pos _ _ _ _ _ _ _ _ _ I t Ht) as [[E _]|(k & l & r & e & _ & E & _)]; auto.
          left. eauto. }
        clear -H. induction n as [|n' IH].
        - right. intros; lia.
        - destruct IH as [(t & ? & ?)|IH]; [intros; apply H; lia|left; exists t; split; auto; lia|].
          destruct (H n') as [?|E]; [lia|left; exists n'; auto|].
          right. intros t Ht. destruct (Nat.eq_dec t n') as [->|]; auto. apply IH. lia. }
      destruct DD as [(t & Ht & l & e & r & E)|DD].
      - right. destruct (read_or_closed ar m e) as [C|(e' & R)].
        + eexists. eapply StepWrite; eauto.
        + eexists. eapply StepRead; eauto.
      - destruct rest as [|ph2 rest].
        + left. intros t Ht. cbn. rewrite DD by auto. reflexivity.
        + right. exists (m, fun t => pcode ph2 t ++ tail_code ar rest t). apply StepBar; auto.
    Qed.
  End Prog.

  Definition prog_okD (n : nat) (p : list (instr L)) (D D' : L -> Prop) : Prop := phases_okD n D (phases p) D'.

  Lemma pinvD_start n p D0 De m : prog_okD n p D0 De -> pinvD n (run_prog n p m) De (m, code ar p).
  Proof.
    intros H. unfold prog_okD in H. destruct (phases p) as [|ph rest] eqn:E; [exfalso; eapply phases_nonempty; eauto|].
    inversion H; subst.
    exists ph, rest, D0, D1, G, m, (fun _ => []). split; [auto|]. split; [auto|]. split.
    - cbn [fst snd]. apply invD_init; auto. intros t Ht. unfold ProofsLang.tails. erewrite code_phases; eauto.
    - intros l. rewrite run_prog_phases, E. reflexivity.
  Qed.

  Theorem dirty_deterministic n p D0 De m m' c' :
    0 < n -> prog_okD n p D0 De -> steps leq ar n (m, code ar p) (m', c') -> finished ar n (m', c') ->
    forall l, ~ De l -> m' l = run_prog n p m l.
  Proof.
    intros Hn H S F. eapply pinvD_finished; eauto. eapply pinvD_steps; eauto. eapply pinvD_start; eauto.
  Qed.

  Theorem dirty_progress n p D0 De m c :
    0 < n -> prog_okD n p D0 De -> steps leq ar n (m, code ar p) c ->
    finished ar n c \/ exists c', step leq ar n c c'.
  Proof.
    intros Hn H S. eapply pinvD_progress; eauto. eapply pinvD_steps; eauto. eapply pinvD_start; eauto.
  Qed.

  Theorem dirty_completes n p D0 De m :
    0 < n -> prog_okD n p D0 De ->
    exists c, steps leq ar n (m, code ar p) c /\ finished ar n c.
  Proof.
    intros Hn H.
    assert (G : forall w c, total ar n (snd c) <= w -> pinvD n (run_prog n p m) De c ->
              exists c', steps leq ar n c c' /\ finished ar n c').
    { induction w; intros c Hw I.
      - destruct (pinvD_progress n _ _ c Hn I) as [F|(c' & S)].
        + exists c. split; [constructor|auto].
        + apply (step_total leq) in S. lia.
      - destruct (pinvD_progress n _ _ c Hn I) as [F|(c' & S)].
        + exists c. split; [constructor|auto].
        + pose proof (step_total leq ar n c c' S). destruct (IHw c') as (c2 & S2 & F); [lia|eapply pinvD_step; eauto|].
          exists c2. split; auto. econstructor; eauto. }
    eapply G; eauto. eapply pinvD_start; eauto.
  Qed.
End D.
