(** One thread: any program whose statements do not read other elements of
    the array they assign is free of ordering constraints. *)
From Coq Require Import ZArith List Bool Lia ZifyBool.
From Verif Require Import SpecIndex ModelIndex ProofsIndex ModelRun Lang ProofsLang Stencil ProofsStencil
  FormCommon Form2D Solver1D Solver2D Macro ProofsMacro Foot1D Foot2D Proofs1D Proofs2D SpecThreads ProofsThread1D ProofsThread2D
  ProofsValid ProofsValid1D Boxes ProofsBoxes ProofsValid2D ProofsRef2D.
Import ListNotations.
Local Open Scope Z_scope.

Section Self.
  Variable g : geom.
  Definition self1 (s : desc) : Prop := forall t l l', (t < g_n g)%nat ->
    In l (s_el (stmt_of g s) t) -> In l' (leaves (s_rhs (stmt_of g s) l)) -> In l' (s_el (stmt_of g s) t) -> l' = l.

  Lemma in_dphases p : forall s, In (DDo s) p -> exists ph, In ph (dphases p) /\ In s ph.
  Proof.
    induction p as [|[s'|] p IH]; intros s H; [destruct H| |].
    - cbn [dphases]. destruct H as [H|H].
      + inversion H; subst. pose proof (dphases_nonempty p). destruct (dphases p) as [|ph rest]; [congruence|].
        exists (s :: ph). cbn. auto.
      + destruct (IH s H) as (ph & H1 & H2). destruct (dphases p) as [|ph0 rest]; [destruct H1|].
        destruct H1 as [->|H1]; [exists (s' :: ph); cbn; auto|exists ph; cbn; auto].
    - cbn [dphases]. destruct H as [H|H]; [discriminate|]. destruct (IH s H) as (ph & H1 & H2). exists ph; cbn; auto.
  Qed.
  Lemma dphases_in p : forall ph s, In ph (dphases p) -> In s ph -> In (DDo s) p.
  Proof.
    induction p as [|[s'|] p IH]; intros ph s H1 H2; cbn [dphases] in H1.
    - destruct H1 as [<-|[]]. destruct H2.
    - pose proof (dphases_nonempty p). destruct (dphases p) as [|ph0 rest]; [congruence|].
      destruct H1 as [<-|H1].
      + destruct H2 as [->|H2]; [left; auto|]. right. apply (IH ph0); cbn; auto.
      + right. apply (IH ph); cbn; auto.
    - destruct H1 as [<-|H1]; [destruct H2|]. right. eapply IH; eauto.
  Qed.

  Lemma self_of p s : dprog_ok g p -> In (DDo s) p -> self1 s.
  Proof.
    intros D H. destruct (in_dphases p s H) as (ph & H1 & H2). specialize (D ph H1).
    intros t l l' Ht Hl Hl' Hl''. apply In_nth_error in H2. destruct H2 as [k Hk].
    assert (E : nth_error (map (stmt_of g) ph) k = Some (stmt_of g s)) by (rewrite nth_error_map, Hk; reflexivity).
    destruct (ok_reads _ _ D k k _ _ t t l l' Ht Ht E E Hl Hl' Hl'') as [[_ Q]|[Q _]]; [auto|lia].
  Qed.

  Lemma one_of_self p : g_n g = 1%nat -> (forall s, In (DDo s) p -> self1 s) -> dprog_ok g p.
  Proof.
    intros H1 H ph Hph. constructor.
    - intros k j sk sj t t' l l' Ht Ht' Hk Hj Hl Hl' Hl''. left. split; [lia|]. intros ->.
      rewrite nth_error_map in Hk, Hj. destruct (nth_error ph k) as [s|] eqn:E; [|discriminate].
      inversion Hk; subst. inversion Hj; subst. assert (t' = t) by lia. subst t'.
      apply (H s) with (t := t); auto. apply (dphases_in p ph s Hph). eapply nth_error_In; eauto.
    - intros; lia.
    - intros s t Hin Ht. apply in_map_iff in Hin. destruct Hin as (d & <- & _). apply nodup_el.
  Qed.
End Self.

Section One.
  Variable r : run2.
  Hypothesis RK : run2_ok r.
  Notation o := (s_o r).

  Definition xv (p : list minstr) : bool := forallb xvecb p.
  Lemma xv_app p q : xv (p ++ q) = xv p && xv q.
  Proof. apply forallb_app. Qed.
  Lemma xv_scale a k : xv (scale2 a k) = true.
  Proof. unfold scale2. destruct (k =? 0); [reflexivity|]. destruct (0 <? k); reflexivity. Qed.
  Lemma xv_halo a : xvecb (MXS a (halo o)) = true.
  Proof. pose proof (halo_pos o). cbn. lia. Qed.
  Lemma xv_passes lasteq b more : forall j, xv (passes2 o (s_forms r) (s_nit r) lasteq b j more) = true.
  Proof.
    induction more as [|k IH]; intros j; [reflexivity|]. cbn [passes2]. rewrite !xv_app, IH.
    unfold GC_corr. unfold xv at 3. rewrite xvec_co. cbn [xv forallb]. rewrite xv_halo. destruct lasteq; reflexivity.
  Qed.
  Lemma xv_body k exq lasteq b : xv (body2 o (s_forms r) (s_nit r) k exq lasteq b) = true.
  Proof.
    rewrite body2_split. rewrite xv_app, xv_scale. cbn [andb xv forallb]. rewrite xv_halo. cbn [andb].
    fold (xv (mid2 r k lasteq b ++ (if lasteq then [MBar; MBar] else [MBar]) ++ scale2 (Psi (lev b k)) (- exq))).
    rewrite !xv_app, xv_scale. unfold mid2. rewrite app_assoc, xv_app, xv_passes. unfold xv at 1.
    rewrite xvec_up. destruct lasteq; reflexivity.
  Qed.
  Lemma xv_ante : xv (ante2 o) = true.
  Proof.
    assert (H1 : (0 <=? halo o - 1) = true) by (pose proof (halo_pos o); lia).
    assert (H2 : (0 <=? halo o) = true) by (pose proof (halo_pos o); lia).
    unfold ante2, xv. destruct (nug o), (div3dt o || div3 o); cbn [app forallb xvecb]; rewrite ?H1, ?H2; reflexivity.
  Qed.

  Definition fine (ep : nat * list minstr) : Prop := shape2b (snd ep) = true /\ xv (snd ep) = true.
  Lemma eqs_fine k es : forall lv, Forall fine (eqs_macro2 r k es lv).
  Proof.
    induction es as [|e es IH]; intros lv; cbn [eqs_macro2]; constructor; auto.
    split; cbn [snd]; [apply shape_body; exact RK|apply xv_body].
  Qed.
  Lemma steps_fine nt : forall ts lv, Forall fine (steps_macro2 r nt ts lv).
  Proof.
    induction nt as [|k IH]; intros ts lv; cbn [steps_macro2]; [constructor|].
    constructor; [split; reflexivity|]. apply Forall_app. split; [apply eqs_fine|apply IH].
  Qed.
  Lemma run_fine nt : Forall fine (run_macro2 r nt).
  Proof.
    unfold run_macro2. constructor; [split; [apply shape_ante; exact RK|apply xv_ante]|].
    apply Forall_app. split; [apply steps_fine|]. constructor; [split; reflexivity|constructor].
  Qed.

  Variable n : nat.
  Hypothesis Hn : (0 < n)%nat.
  Hypothesis Hs : Z.of_nat n <= s_hi r DX - s_lo r DX + 1.
  Notation g := (geom2 r n).
  Notation ex := (expand2 (s_halo r) (s_per r) (s_bl r) (s_br r)).

  Lemma fine_slabs ep : fine ep -> slabs_ok g (expand_eq2 r (fst ep) (snd ep)).
  Proof.
    intros [H1 H2]. unfold shape2b in H1. apply andb_true_iff in H1. destruct H1 as [H1 _].
    unfold xv in H2. rewrite forallb_forall in H2.
    change (expand_eq2 r (fst ep) (snd ep)) with (expand ex (fst ep) (snd ep)). apply mslabs_ok; auto.
    intros x s Hin Hx Hi. apply (exch2_slab r n RK Hn x s Hx (H2 x Hin) Hi).
  Qed.
  Lemma fine_self ep s : fine ep -> In (DDo s) (expand_eq2 r (fst ep) (snd ep)) -> self1 g s.
  Proof.
    intros [H1 H2] Hin. unfold shape2b in H1. apply andb_true_iff in H1. destruct H1 as [_ H1].
    unfold xv in H2. rewrite forallb_forall in H1, H2.
    unfold expand_eq2 in Hin. apply in_map_iff in Hin. destruct Hin as (t & E & Hin).
    apply in_flat_map in Hin. destruct Hin as (x & Hx & Hin).
    destruct (is_exch x) eqn:Ix.
    - destruct (exch2_ok r n RK Hn Hs (fst ep) x Ix (H2 x Hx)) as (X & EX & D).
      rewrite EX in Hin. apply (self_of g (map (inst_i (fst ep)) X) s D).
      destruct Hin as [<-|Hin]; [discriminate|]. apply in_app_iff in Hin. destruct Hin as [Hin|[<-|[]]]; [|discriminate].
      apply in_map_iff. exists t. auto.
    - destruct x as [s0| | | | |]; try discriminate; cbn [expand2] in Hin; destruct Hin as [<-|[]]; [|discriminate].
      inversion E; subst. specialize (H1 _ Hx). cbn [selfb] in H1. rewrite forallb_forall in H1.
      intros t l l' Ht Hl Hl' Hl''. apply in_el in Hl. apply in_el in Hl''. destruct Hl as [A _], Hl'' as [A' _].
      cbn [stmt_of s_rhs] in Hl'. rewrite leaves_emap in Hl'. apply in_map_iff in Hl'. destruct Hl' as (ao & <- & Hao).
      rewrite leaves_inst in Hao. apply in_map_iff in Hao. destruct Hao as (bo & <- & Hbo).
      specialize (H1 bo Hbo). cbn [sh fst snd] in *. cbn [inst d_arr] in A, A'. apply tag_inj in A'.
      rewrite (proj2 (arr_eqb_eq _ _) A') in H1. cbn in H1. apply idx_eqb_eq in H1. unfold sh. cbn [fst snd]. rewrite H1, iadd_0_r, A'.
      destruct l as [la li]. cbn [fst snd] in *. congruence.
  Qed.

  Lemma run2_slabs nt : slabs_ok g (run_prog2 r nt).
  Proof.
    intros s Hin. rewrite run_expands2 in Hin. unfold expands2 in Hin. apply in_flat_map in Hin.
    destruct Hin as (ep & Hep & Hin). pose proof (run_fine nt) as F. rewrite Forall_forall in F.
    exact (fine_slabs ep (F ep Hep) s Hin).
  Qed.
  Lemma one_thread_ok nt : n = 1%nat -> dprog_ok g (run_prog2 r nt).
  Proof.
    intros N1. apply one_of_self; [cbn; exact N1|]. intros s Hin. rewrite run_expands2 in Hin.
    unfold expands2 in Hin. apply in_flat_map in Hin. destruct Hin as (ep & Hep & Hin).
    pose proof (run_fine nt) as F. rewrite Forall_forall in F. exact (fine_self ep s (F ep Hep) Hin).
  Qed.

  (** when the outcome of a run is determined *)
  Definition settled : Prop := n = 1%nat \/ fct o && negb (iga o) = false.
  Lemma settled_ok nt : settled -> dprog_ok g (run_prog2 r nt).
  Proof. intros [H|H]; [apply one_thread_ok; exact H|apply (run2_fine r n RK H Hn Hs nt)]. Qed.

  Lemma can_end_run2 ar nt (m m' : loc -> car ar) : settled ->
    can_end loc_eq_dec ar n (program2 r n nt) m m' ->
    forall l, m' l = run_prog loc_eq_dec ar n (program2 r n nt) m l.
  Proof.
    intros T (c & St & F). apply (interleaving_deterministic loc_eq_dec ar n (program2 r n nt) m m' c); auto.
    change n with (g_n g) at 1. apply prog_ok_of. apply settled_ok. exact T.
  Qed.
  Lemma finish2 ar nt (m : loc -> car ar) : settled ->
    (exists m', can_end loc_eq_dec ar n (program2 r n nt) m m') /\
    never_stuck loc_eq_dec ar n (program2 r n nt) m.
  Proof.
    intros T. pose proof (settled_ok nt T) as A. apply prog_ok_of in A. split.
    - destruct (interleaving_completes loc_eq_dec ar n (program2 r n nt) m Hn A) as ([m' c] & St & F).
      exists m', c. auto.
    - intros c St. eapply interleaving_progress; eauto.
  Qed.
End One.
