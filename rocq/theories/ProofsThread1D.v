(** 1D solver: any interleaving of the threads computes what the serial program computes. *)
From Coq Require Import ZArith List Bool Lia ZifyBool.
From Verif Require Import SpecIndex ModelIndex ProofsIndex ModelRun Lang ProofsLang Stencil ProofsStencil
  FormCommon Form1D Solver1D Macro ProofsMacro Foot1D Proofs1D SpecThreads.
Import ListNotations.
Local Open Scope Z_scope.

(** ** The decomposition used by the library *)
Definition cut1 (lo hi : Z) (n : nat) : cut :=
  {| c_n := n; c_sub := fun t => slab (lo, hi) (Z.of_nat t) (Z.of_nat n) |}.
Definition geom1 (lo hi : Z) (n : nat) : geom :=
  {| g_dd := DX; g_cut := cut1 lo hi n; g_grid := fun _ => (0, 0) |}.

Section Geom1.
  Variables (lo hi : Z) (n : nat).
  Hypothesis Hn : (0 < n)%nat.
  Hypothesis Hs : Z.of_nat n <= hi - lo + 1.

  Lemma cut1_lo : c_lo (cut1 lo hi n) = lo.
  Proof. unfold c_lo, cut1; cbn. apply (slab_first (lo, hi) (Z.of_nat n)). lia. Qed.
  Lemma cut1_hi : c_hi (cut1 lo hi n) = hi.
  Proof.
    unfold c_hi, cut1; cbn. rewrite Nat2Z.inj_sub by lia. apply (slab_last (lo, hi) (Z.of_nat n)); cbn; lia.
  Qed.
  Lemma cut1_ok : cut_ok (cut1 lo hi n).
  Proof.
    constructor; cbn.
    - auto.
    - intros t Ht. apply (proj2 (slab_nonempty_iff (lo, hi) (Z.of_nat n) ltac:(lia) ltac:(cbn; lia))).
      + unfold rlen; cbn. lia.
      + lia.
    - intros t Ht. rewrite Zpos_P_of_succ_nat. apply (slab_adjacent (lo, hi) (Z.of_nat t) (Z.of_nat n)).
  Qed.
  Lemma geom1_ok : geom_ok (geom1 lo hi n).
  Proof. constructor; [apply cut1_ok|]. cbn. intros. lia. Qed.
End Geom1.

(** ** Well-formedness of the run *)
Record run_ok (r : run1) : Prop := {
  ok_fl : fl_ok (r_o r) = true;
  ok_nit : (0 < r_nit r)%nat;
  ok_grid : halo (r_o r) <= r_hi r - r_lo r
}.

Lemma halo_pos o : 1 <= halo o <= 2.
Proof. unfold halo. destruct (_ || _); lia. Qed.

Section Threads.
  Variables (r : run1) (n : nat).
  Hypothesis RK : run_ok r.
  Hypothesis Hn : (0 < n)%nat.
  Hypothesis Hs : Z.of_nat n <= r_hi r - r_lo r + 1.
  Notation g := (geom1 (r_lo r) (r_hi r) n).
  Notation ex := (expand1 (r_halo r) (r_hi r - r_lo r) (r_bl r) (r_br r)).
  Let OK : geom_ok g := geom1_ok _ _ _ Hn Hs.

  Lemma inst_fill e a rr off : inst e (at1 a rr (Leaf (a, off))) =
    {| d_arr := tag e a; d_x := rr; d_y := Ext 0 0; d_z := Ext 0 0; d_exp := Leaf (tag e a, off) |}.
  Proof. reflexivity. Qed.

  Lemma edge_first e a x y k : y - x < Z.abs k ->
    edge_stmt true DX (inst e (at1 a (AtFirst x y) (Leaf (a, x1 k)))).
  Proof.
    intros H. rewrite inst_fill. unfold edge_stmt; cbn. split; auto. intros ao [<-|[]] _. cbn. auto.
  Qed.
  Lemma edge_last e a x y k : y - x < Z.abs k ->
    edge_stmt false DX (inst e (at1 a (AtLast x y) (Leaf (a, x1 k)))).
  Proof.
    intros H. rewrite inst_fill. unfold edge_stmt; cbn. split; auto. intros ao [<-|[]] _. cbn. auto.
  Qed.

  Lemma halo_le : 1 <= r_halo r <= 2 /\ r_halo r <= r_hi r - r_lo r.
  Proof. split; [apply halo_pos|apply RK]. Qed.

  Lemma fills_edge e :
    (forall a, Forall (edge_stmt true DX) (map (inst e) (fill_sclr_left (r_halo r) (r_hi r - r_lo r) (r_bl r) a))) /\
    (forall a, Forall (edge_stmt false DX) (map (inst e) (fill_sclr_rght (r_halo r) (r_hi r - r_lo r) (r_br r) a))) /\
    (forall a ad, Forall (edge_stmt true DX) (map (inst e) (fill_vctr_left (r_halo r) (r_hi r - r_lo r) (r_bl r) a ad))) /\
    (forall a ad, Forall (edge_stmt false DX) (map (inst e) (fill_vctr_rght (r_halo r) (r_hi r - r_lo r) (r_br r) a ad))).
  Proof.
    pose proof halo_le as [H1 H2].
    repeat split; intros; apply Forall_forall; intros s Hin; apply in_map_iff in Hin;
      destruct Hin as (t & <- & Hin); revert Hin.
    - unfold fill_sclr_left. destruct (r_bl r).
      + intros [<-|[]]. apply edge_first. lia.
      + intros Hin. apply in_map_iff in Hin. destruct Hin as (k & <- & Hk). apply in_zseq in Hk.
        unfold in_rng in Hk; cbn in Hk. apply edge_first. lia.
    - unfold fill_sclr_rght. destruct (r_br r).
      + intros [<-|[]]. apply edge_last. lia.
      + intros Hin. apply in_map_iff in Hin. destruct Hin as (k & <- & Hk). apply in_zseq in Hk.
        unfold in_rng in Hk; cbn in Hk. apply edge_last. lia.
    - unfold fill_vctr_left. destruct (r_bl r).
      + intros [<-|[]]. apply edge_first. lia.
      + intros Hin. apply in_map_iff in Hin. destruct Hin as (k & <- & Hk). apply in_zseq in Hk.
        unfold in_rng in Hk; cbn in Hk. apply edge_first. destruct ad; cbn in Hk; lia.
    - unfold fill_vctr_rght. destruct (r_br r).
      + intros [<-|[]]. apply edge_last. lia.
      + intros Hin. apply in_map_iff in Hin. destruct Hin as (k & <- & Hk). apply in_zseq in Hk.
        unfold in_rng in Hk; cbn in Hk. apply edge_last. destruct ad; cbn in Hk; lia.
  Qed.

  Lemma exchange1_ok e fr fl :
    Forall (edge_stmt false DX) (map (inst e) fr) -> Forall (edge_stmt true DX) (map (inst e) fl) ->
    exists X, exchange1 fr fl = TBar :: X ++ [TBar] /\ dprog_ok g (map (inst_i e) X).
  Proof.
    intros Hr Hl. exists (map TDo fr ++ [TBar] ++ map TDo fl ++ [TBar]). split.
    - unfold exchange1. cbn [app]. f_equal. rewrite <- !app_assoc. f_equal. cbn [app]. f_equal.
      rewrite <- app_assoc. reflexivity.
    - assert (M : forall l, map (inst_i e) (map TDo l) = map DDo (map (inst e) l)).
      { intros l. rewrite !map_map. reflexivity. }
      rewrite !map_app, !M. cbn [map inst_i app].
      intros ph Hin. rewrite dphases_do, dphases_do in Hin. cbn in Hin.
      destruct Hin as [<-|[<-|[<-|[]]]].
      + eapply edge_ok; exact Hr.
      + eapply edge_ok; exact Hl.
      + apply (edge_ok g true []). constructor.
  Qed.

  Lemma exch1_ok e x : is_exch x = true -> exch_ok g ex e x.
  Proof.
    intros Hx. destruct (fills_edge e) as (A & B & C & D).
    destruct x; cbn in Hx; try discriminate; unfold exch_ok; cbn [expand1]; apply exchange1_ok; auto; constructor.
  Qed.

  Lemma exch1_slab x s : is_exch x = true -> In (TDo s) (ex x) -> slab_okb true (t_r s DX) = true.
  Proof.
    intros Hx Hin.
    assert (G : forall (fr fl : list tdesc), In (TDo s) (exchange1 fr fl) -> In s fr \/ In s fl).
    { intros fr fl H. unfold exchange1 in H. cbn in H. destruct H as [H|H]; [discriminate|].
      apply in_app_iff in H. destruct H as [H|H].
      - apply in_map_iff in H. destruct H as (x0 & E & H). inversion E; subst; auto.
      - cbn in H. destruct H as [H|H]; [discriminate|]. apply in_app_iff in H. destruct H as [H|H].
        + apply in_map_iff in H. destruct H as (x0 & E & H). inversion E; subst; auto.
        + cbn in H. intuition discriminate. }
    assert (E : forall f e, edge_stmt f DX (inst e s) -> slab_okb true (t_r s DX) = true).
    { intros f e. unfold edge_stmt. rewrite d_r_inst. destruct (t_r s DX); cbn; tauto. }
    destruct (fills_edge 0) as (A & B & C & D).
    destruct x; cbn in Hx; try discriminate; cbn [expand1] in Hin; apply G in Hin; destruct Hin as [Hin|Hin].
    - apply (E false 0%nat). specialize (B a). rewrite Forall_forall in B. apply B. apply in_map; auto.
    - apply (E true 0%nat). specialize (A a). rewrite Forall_forall in A. apply A. apply in_map; auto.
    - apply (E false 0%nat). specialize (D (v DX) ad). rewrite Forall_forall in D. apply D. apply in_map; auto.
    - apply (E true 0%nat). specialize (C (v DX) ad). rewrite Forall_forall in C. apply C. apply in_map; auto.
    - destruct Hin.
    - destruct Hin.
    - destruct Hin.
    - destruct Hin.
  Qed.

  (** *** Parts of a step *)
  Lemma checked1 (b : bool) :
    let up := fct_init1 (r_o r) (r_forms r) (Psi b) ++ upstream1 (r_o r) (r_forms r) (Psi b) (Psi (negb b)) in
    (mphases_check DX up = true /\ mslab_check DX up = true) /\
    forall j last, (0 < j)%nat ->
      let co := corrective1 (r_o r) (r_forms r) (Psi b) (Psi (negb b)) (GC_unco j) (GC_corr j) last in
      mphases_check DX co = true /\ mslab_check DX co = true.
  Proof.
    pose proof (all_fl8_sound _ phases1_check_all (r_o r)) as C.
    assert (EQ : phases1_check (keep1 (r_o r)) = phases1_check (r_o r)) by reflexivity.
    rewrite EQ in C. clear EQ. unfold phases1_check in C. rewrite forallb_forall in C.
    specialize (C b (in_bools b)). cbv zeta in C.
    apply andb_true_iff in C. destruct C as [C1 C2]. apply andb_true_iff in C1. destruct C1 as [C1 C3].
    pose proof (forms1_cov (r_o r) (r_sp r) (r_tp r) (ok_fl _ RK)) as FC.
    cbv zeta. split.
    - assert (CV := Forall2_app (fct_init1_cov (r_o r) _ _ FC b) (upstream1_cov (r_o r) _ _ FC b (Psi (negb b)))).
      split; [eapply mphases_check_cov; [exact CV|exact C1]|eapply mslab_check_cov; [exact CV|exact C3]].
    - intros j last Hj. rewrite forallb_forall in C2. specialize (C2 _ (kinds_of j Hj)).
      rewrite forallb_forall in C2. specialize (C2 last (in_bools last)). cbn [fst snd] in C2.
      apply andb_true_iff in C2. destruct C2 as [C4 C5].
      assert (CV : Forall2 mcov
        (corrective1 (r_o r) (r_forms r) (Psi b) (Psi (negb b)) (GC_unco j) (GC_corr j) last)
        (corrective1 (r_o r) (canon1 (r_o r)) (Psi b) (Psi (negb b)) (GC_unco j) (GC_corr j) last)).
      { pose proof (kinds_of j Hj) as K. apply corrective1_cov; [exact FC| |];
          unfold kinds in K; cbn [In] in K; unfold vecs; cbn [In];
          destruct K as [K|[K|[K|[]]]]; inversion K; auto. }
      split; [eapply mphases_check_cov; [exact CV|exact C4]|eapply mslab_check_cov; [exact CV|exact C5]].
  Qed.

  Definition good (p : list minstr) : Prop := mphases_check DX p = true /\ mslab_check DX p = true.

  (** [p] followed by a barrier or exchange followed by [q] *)
  Lemma mphases_app p x q : match x with MDo _ => False | _ => True end ->
    mphases (p ++ x :: q) = mphases p ++ mphases q.
  Proof.
    intros Hx. induction p as [|i p IH].
    - cbn [app]. destruct x; cbn; tauto.
    - cbn [app mphases]. destruct i; rewrite ?IH; cbn; auto.
      destruct (mphases_nonempty p) as (ph & rest & ->). reflexivity.
  Qed.
  Lemma good_app p x q : match x with MDo _ => False | _ => True end -> good p -> good q -> good (p ++ x :: q).
  Proof.
    intros Hx [P1 P2] [Q1 Q2]. split.
    - unfold mphases_check in *. rewrite mphases_app by auto. rewrite forallb_app. lia.
    - unfold mslab_check in *. rewrite forallb_app. cbn [forallb]. destruct x; lia.
  Qed.
  Lemma good_cons x q : match x with MDo _ => False | _ => True end -> good q -> good (x :: q).
  Proof. intros Hx Hq. apply (good_app [] x q); auto. split; reflexivity. Qed.

  Lemma good_expand e p : good p -> dprog_ok g (expand ex e p) /\ slabs_ok g (expand ex e p).
  Proof.
    intros [P1 P2]. split.
    - apply mprog_ok; auto. intros x _ Hx. apply exch1_ok; auto.
    - apply mslabs_ok; auto. intros x s _ Hx. apply exch1_slab; auto.
  Qed.

  Lemma lev_S b j : lev b (S j) = negb (lev b j).
  Proof. unfold lev. rewrite Nat.odd_succ, <- Nat.negb_odd. destruct b, (Nat.odd j); reflexivity. Qed.

  Lemma good_passes lasteq b nit j more p : (0 < j)%nat -> good p ->
    good (p ++ passes1 (r_o r) (r_forms r) nit lasteq b j more).
  Proof.
    revert j p. induction more as [|m IH]; intros j p Hj Hp; cbn [passes1].
    - rewrite app_nil_r. auto.
    - set (co := corrective1 _ _ _ _ _ _ _).
      assert (Hco : good co).
      { destruct (checked1 (lev b j)) as [_ HC]. unfold co. rewrite lev_S. apply HC; auto. }
      rewrite !app_assoc. apply IH; auto. rewrite <- !app_assoc. cbn [app].
      destruct lasteq; cbn [cyc_bars app].
      + apply good_app; [exact I|auto|]. apply good_cons; [exact I|]. apply good_cons; [exact I|]. exact Hco.
      + apply good_app; auto.
  Qed.

  Definition mid1 (k : nat) (lasteq b : bool) : list minstr :=
    fct_init1 (r_o r) (r_forms r) (Psi b) ++ upstream1 (r_o r) (r_forms r) (Psi b) (Psi (lev b 1)) ++
    passes1 (r_o r) (r_forms r) (r_nit r) lasteq b 1 (k - 1).

  Lemma good_mid k lasteq b : good (mid1 k lasteq b).
  Proof.
    unfold mid1. rewrite app_assoc. apply good_passes; [lia|].
    replace (lev b 1) with (negb b) by (unfold lev; destruct b; reflexivity). apply checked1.
  Qed.

  Lemma body1_split k exq lasteq b :
    body1 (r_o r) (r_forms r) (r_nit r) k exq lasteq b =
    scale1 (Psi b) exq ++ MXS (Psi b) 0 :: mid1 k lasteq b ++
      (if lasteq then [MBar; MBar] else [MBar]) ++ scale1 (Psi (lev b k)) (- exq).
  Proof.
    unfold body1, mid1. rewrite <- !app_assoc. cbn [app]. do 4 f_equal. f_equal. destruct lasteq; reflexivity.
  Qed.

  Lemma scale1_light e a k : exists l, expand ex e (scale1 a k) = map DDo l /\ Forall (light DX) l.
  Proof.
    unfold scale1. destruct (k =? 0); [exists []; split; [reflexivity|constructor]|].
    destruct (0 <? k); cbn; eexists [_]; (split; [reflexivity|]);
      repeat constructor; cbn; intros ao H; intuition subst; auto.
  Qed.

  Definition lights (l : list desc) : list dinstr := map DDo l.
  Lemma lights_slab l : Forall (light DX) l -> slabs_ok g (lights l).
  Proof.
    intros H s Hin. unfold lights in Hin. apply in_map_iff in Hin. destruct Hin as (x & E & Hin).
    inversion E; subst. rewrite Forall_forall in H. destruct (H _ Hin) as [R _].
    unfold slab_ok. cbn [g_dd]. change (g_dd g) with DX. rewrite R. reflexivity.
  Qed.
  Lemma slabs_app p q : slabs_ok g p -> slabs_ok g q -> slabs_ok g (p ++ q).
  Proof. intros A B s H. apply in_app_iff in H. destruct H; auto. Qed.
  Lemma slabs_bar p : slabs_ok g p -> slabs_ok g (DBar :: p).
  Proof. intros A s [H|H]; [discriminate|auto]. Qed.

  (** a continuation that tolerates light statements in front of it *)
  Definition cont (q : list dinstr) : Prop :=
    slabs_ok g q /\ forall l, Forall (light DX) l -> dprog_ok g (lights l ++ q).

  Lemma cont_bar q : dprog_ok g q -> slabs_ok g q -> cont (DBar :: q).
  Proof.
    intros Hq Hq'. split; [apply slabs_bar; auto|]. intros l Hl. apply dprog_ok_bar; auto.
    intros ph Hin. unfold lights in Hin. rewrite <- (app_nil_r (map DDo l)) in Hin.
    rewrite (dphases_pre _ _ [] []) in Hin by reflexivity. destruct Hin as [<-|[]].
    rewrite app_nil_r. apply (light_ok g); auto.
  Qed.
  Lemma cont_ok q : cont q -> dprog_ok g q.
  Proof. intros [_ H]. apply (H []). constructor. Qed.
  Lemma cont_lights l q : Forall (light DX) l -> cont q -> cont (lights l ++ q).
  Proof.
    intros Hl [S1 D]. split; [apply slabs_app; auto using lights_slab|].
    intros l' Hl'. rewrite app_assoc. unfold lights. rewrite <- map_app. apply D. apply Forall_app; auto.
  Qed.
  Lemma cont_good e p q : good p -> cont q -> cont (DBar :: expand ex e p ++ DBar :: q).
  Proof.
    intros Hp Hq. destruct (good_expand e p Hp) as [A B]. apply cont_bar.
    - apply dprog_ok_bar; auto. apply cont_ok; auto.
    - apply slabs_app; auto. apply slabs_bar. apply Hq.
  Qed.
  Lemma cont_bar' q : cont q -> cont (DBar :: q).
  Proof. intros H. apply cont_bar; [apply cont_ok; auto|apply H]. Qed.

  Lemma cont_exch e x q : is_exch x = true -> cont q -> cont (expand ex e [x] ++ q).
  Proof.
    intros Hx Hq. unfold expand. cbn [flat_map]. rewrite app_nil_r.
    destruct (exch1_ok e x Hx) as (X & EX & HX).
    assert (SX : slabs_ok g (map (inst_i e) X)).
    { intros s Hin. apply in_map_iff in Hin. destruct Hin as (t & E & Hin). destruct t as [s'|]; [|discriminate].
      inversion E; subst. unfold slab_ok. rewrite d_r_inst. apply (exch1_slab x); auto.
      rewrite EX. right. apply in_app_iff. auto. }
    rewrite EX. cbn [map inst_i]. rewrite map_app. cbn [map inst_i app]. rewrite <- app_assoc. cbn [app].
    apply cont_bar.
    - apply dprog_ok_bar; auto. apply cont_ok; auto.
    - apply slabs_app; auto. apply slabs_bar. apply Hq.
  Qed.

  Lemma cont_body e k exq lasteq b q : cont q ->
    cont (expand ex e (body1 (r_o r) (r_forms r) (r_nit r) k exq lasteq b) ++ q).
  Proof.
    intros Hq. rewrite body1_split. rewrite (expand_app ex e (scale1 _ _)).
    destruct (scale1_light e (Psi b) exq) as (l1 & -> & L1). rewrite <- app_assoc. apply cont_lights; auto.
    change (MXS (Psi b) 0 :: mid1 k lasteq b ++ (if lasteq then [MBar; MBar] else [MBar]) ++ scale1 (Psi (lev b k)) (- exq))
      with (([MXS (Psi b) 0] ++ mid1 k lasteq b ++ (if lasteq then [MBar; MBar] else [MBar]) ++ scale1 (Psi (lev b k)) (- exq))).
    rewrite !(expand_app ex e). rewrite <- !app_assoc.
    destruct (scale1_light e (Psi (lev b k)) (- exq)) as (l2 & -> & L2).
    set (tail := map DDo l2 ++ q).
    assert (Ht : cont tail) by (apply cont_lights; auto).
    assert (Hg : good (MXS (Psi b) 0 :: mid1 k lasteq b)) by (apply good_cons; [exact I|apply good_mid]).
    destruct (exch1_ok e (MXS (Psi b) 0) eq_refl) as (X & EX & HX).
    assert (E1 : expand ex e [MXS (Psi b) 0] = DBar :: map (inst_i e) X ++ [DBar]).
    { unfold expand. cbn [flat_map]. rewrite app_nil_r, EX. cbn [map inst_i]. rewrite map_app. reflexivity. }
    assert (SX : slabs_ok g (map (inst_i e) X)).
    { intros s Hin. apply in_map_iff in Hin. destruct Hin as (t & E & Hin). destruct t as [s'|]; [|discriminate].
      inversion E; subst. unfold slab_ok. rewrite d_r_inst. apply (exch1_slab (MXS (Psi b) 0)); auto.
      rewrite EX. right. apply in_app_iff. auto. }
    rewrite E1. cbn [app]. rewrite <- app_assoc. cbn [app].
    destruct (good_expand e (mid1 k lasteq b) (good_mid k lasteq b)) as [A B].
    apply cont_bar.
    - apply dprog_ok_bar; auto. destruct lasteq; cbn [expand flat_map expand1 app map inst_i];
        apply dprog_ok_bar; auto; apply cont_ok; auto. apply cont_bar'. auto.
    - apply slabs_app; auto. apply slabs_bar. apply slabs_app; auto.
      destruct lasteq; cbn [expand flat_map expand1 app map inst_i]; repeat apply slabs_bar; apply Ht.
  Qed.

  Lemma cont_eqs k es lv q : cont q -> cont (eqs_prog r k es lv ++ q).
  Proof.
    revert lv. induction es as [|e es IH]; intros lv Hq; cbn [eqs_prog app]; auto.
    rewrite <- app_assoc. apply cont_body. auto.
  Qed.

  Lemma cont_steps nt ts lv q : cont q -> cont (steps_prog r nt ts lv ++ q).
  Proof.
    revert ts lv. induction nt as [|m IH]; intros ts lv Hq; cbn [steps_prog app]; auto.
    rewrite <- app_assoc. apply cont_bar'. apply cont_eqs. auto.
  Qed.

  Lemma good_ante : good (ante1 (r_o r)).
  Proof.
    split; unfold ante1; destruct (nug (r_o r)), (div3dt (r_o r) || div3 (r_o r)); reflexivity.
  Qed.

  Lemma ante_bar : exists p, ante1 (r_o r) = p ++ [MBar] /\ good p.
  Proof.
    unfold ante1. exists ([MBar; MXVA GC false] ++ (if nug (r_o r) then [MXS Gf 0] else []) ++
      (if div3dt (r_o r) || div3 (r_o r) then
       [ MDo (at1 (NdtGC DX) rIM (q 0)); MDo (at1 (NdttGC DX) rIM (q 0));
         MXVA NdtGC false; MXVA NdttGC false ] else [])). split.
    - rewrite <- !app_assoc. reflexivity.
    - split; destruct (nug (r_o r)), (div3dt (r_o r) || div3 (r_o r)); reflexivity.
  Qed.

  Lemma run1_ok nt : dprog_ok g (run_prog1 r nt) /\ slabs_ok g (run_prog1 r nt).
  Proof.
    unfold run_prog1. destruct ante_bar as (p & -> & Hp).
    change (expand_eq r 0 (p ++ [MBar])) with (expand ex 0 (p ++ [MBar])).
    rewrite (expand_app ex). change (expand ex 0 [MBar]) with [DBar]. rewrite <- app_assoc. cbn [app].
    destruct (good_expand 0 p Hp) as [A B].
    assert (Q : cont (steps_prog r nt 0 (fun _ => false) ++ [DBar])).
    { apply cont_steps. apply cont_bar.
      - intros ph [<-|[]]. apply (light_ok g); auto.
      - intros s []. }
    split; [apply dprog_ok_bar; auto; apply cont_ok; auto|apply slabs_app; auto; apply slabs_bar; apply Q].
  Qed.

  Theorem run1_deterministic ar nt m m' c' :
    steps loc_eq_dec ar n (m, code ar (prog_of g (run_prog1 r nt))) (m', c') ->
    finished ar n (m', c') ->
    forall l, m' l = run_prog loc_eq_dec ar 1 (prog_of (serial g) (run_prog1 r nt)) m l.
  Proof.
    intros St Fi. destruct (run1_ok nt) as [A B]. exact (threads_equal_serial g ar _ _ _ _ OK A B St Fi).
  Qed.
End Threads.

(** ** Statements used by the property file *)
Definition program1 (r : run1) (n nt : nat) : list (instr loc) :=
  prog_of (geom1 (r_lo r) (r_hi r) n) (run_prog1 r nt).

Lemma serial_geom1 lo hi n : (0 < n)%nat -> Z.of_nat n <= hi - lo + 1 ->
  serial (geom1 lo hi n) = {| g_dd := DX; g_cut := whole lo hi; g_grid := fun _ => (0, 0) |}.
Proof.
  intros. unfold serial, geom1; cbn [g_dd g_cut g_grid]. rewrite cut1_lo, cut1_hi by auto. reflexivity.
Qed.

Lemma size_pos r : run_ok r -> 1 <= r_hi r - r_lo r + 1.
Proof. intros [_ _ H]. pose proof (halo_pos (r_o r)). lia. Qed.

Lemma threads_agree r n1 n2 nt ar m m1 m2 : run_ok r ->
  (0 < n1)%nat -> Z.of_nat n1 <= r_hi r - r_lo r + 1 ->
  (0 < n2)%nat -> Z.of_nat n2 <= r_hi r - r_lo r + 1 ->
  can_end loc_eq_dec ar n1 (program1 r n1 nt) m m1 ->
  can_end loc_eq_dec ar n2 (program1 r n2 nt) m m2 ->
  forall l, m1 l = m2 l.
Proof.
  intros RK P1 S1 P2 S2 (c1 & St1 & F1) (c2 & St2 & F2) l.
  rewrite (run1_deterministic r n1 RK P1 S1 ar nt m m1 c1 St1 F1).
  rewrite (run1_deterministic r n2 RK P2 S2 ar nt m m2 c2 St2 F2).
  rewrite !serial_geom1; auto.
Qed.

Lemma threads_finish r n nt ar m : run_ok r -> (0 < n)%nat -> Z.of_nat n <= r_hi r - r_lo r + 1 ->
  (exists m', can_end loc_eq_dec ar n (program1 r n nt) m m') /\
  never_stuck loc_eq_dec ar n (program1 r n nt) m.
Proof.
  intros RK Hn Hs. destruct (run1_ok r n RK Hn Hs nt) as [A B]. apply prog_ok_of in A. split.
  - destruct (interleaving_completes loc_eq_dec ar n (program1 r n nt) m Hn A) as ([m' c] & St & F).
    exists m', c. auto.
  - intros c St. eapply interleaving_progress; eauto.
Qed.

(** *** Races *)
Lemma in_dphases s p : In (DDo s) p -> exists ph, In ph (dphases p) /\ In s ph.
Proof.
  induction p as [|i p IH]; [intros []|]. intros [->|H].
  - cbn. destruct (dphases p) as [|ph rest]; (eexists; split; [left; reflexivity|left; reflexivity]).
  - destruct (IH H) as (ph & H1 & H2). destruct i as [s'|]; cbn; [|exists ph; auto].
    destruct (dphases p) as [|ph0 rest]; [destruct H1|]. destruct H1 as [->|H1].
    + exists (s' :: ph). split; [left; auto|right; auto].
    + exists ph. split; [right; auto|auto].
Qed.

Lemma flux_race lo hi n p e ex : (2 <= n)%nat -> Z.of_nat n <= hi - lo + 1 ->
  In (DDo (inst e (at1 (Flux DX) rIM ex))) p ->
  exists ph, In ph (phases (prog_of (geom1 lo hi n) p)) /\ race n ph.
Proof.
  intros Hn Hs Hin. apply in_dphases in Hin. destruct Hin as (ph & H1 & H2).
  set (g := geom1 lo hi n) in *.
  assert (OK : geom_ok g) by (apply geom1_ok; lia).
  exists (map (stmt_of g) ph). split.
  - rewrite phases_prog_of. apply in_map. auto.
  - apply In_nth_error in H2. destruct H2 as (k & Hk).
    set (s := inst e (at1 (Flux DX) rIM ex)) in *.
    exists k, k, (stmt_of g s), (stmt_of g s), 0%nat, 1%nat, (tag e (Flux DX), x1 (last (slab (lo, hi) 0 (Z.of_nat n)))).
    assert (N : nth_error (map (stmt_of g) ph) k = Some (stmt_of g s)) by (apply map_nth_error; auto).
    pose proof (cut_nonempty _ (geom_cut _ OK) 0%nat ltac:(cbn; lia)) as E0.
    pose proof (cut_nonempty _ (geom_cut _ OK) 1%nat ltac:(cbn; lia)) as E1.
    pose proof (cut_next _ (geom_cut _ OK) 0%nat ltac:(cbn; lia)) as E2.
    cbn [g geom1 g_cut cut1 c_sub c_n] in E0, E1, E2.
    change (Z.of_nat 0) with 0 in *. change (Z.of_nat 1) with 1 in *.
    split; [lia|]. split; [lia|]. split; [lia|]. split; [auto|]. split; [auto|]. split.
    + apply in_el. split; [reflexivity|]. intros [| |]; [|cbn; unfold in_rng; cbn; lia|cbn; unfold in_rng; cbn; lia].
      change (in_rng (last (slab (lo, hi) 0 (Z.of_nat n)))
        (first (slab (lo, hi) 0 (Z.of_nat n)) - 1, last (slab (lo, hi) 0 (Z.of_nat n)) + (if Nat.eqb 0 (n - 1) then 0 else 0))).
      unfold in_rng, first, last in *. cbn [fst snd]. destruct (Nat.eqb 0 (n - 1)); lia.
    + left. apply in_el. split; [reflexivity|]. intros [| |]; [|cbn; unfold in_rng; cbn; lia|cbn; unfold in_rng; cbn; lia].
      change (in_rng (last (slab (lo, hi) 0 (Z.of_nat n)))
        (first (slab (lo, hi) 1 (Z.of_nat n)) - 1, last (slab (lo, hi) 1 (Z.of_nat n)) + (if Nat.eqb 1 (n - 1) then 0 else 0))).
      unfold in_rng, first, last in *. cbn [fst snd]. destruct (Nat.eqb 1 (n - 1)); lia.
Qed.

Lemma threads_race r n nt : run_ok r -> (2 <= n)%nat -> Z.of_nat n <= r_hi r - r_lo r + 1 ->
  (0 < nt)%nat -> eq_order r <> [] ->
  exists ph, In ph (phases (program1 r n nt)) /\ race n ph.
Proof.
  intros RK Hn Hs Hnt He. destruct (eq_order r) as [|e es] eqn:E; [congruence|].
  unfold program1. apply flux_race with (e := e) (ex := f_flux (r_forms r) DX (Psi false) (GC DX)); auto.
  unfold run_prog1. apply in_app_iff. right. apply in_app_iff. left.
  destruct nt as [|nt]; [lia|]. cbn [steps_prog app In]. rewrite E. right. apply in_app_iff. left. cbn [eqs_prog].
  apply in_app_iff. left. unfold expand_eq.
  apply (in_map (inst_i e) _ (TDo (at1 (Flux DX) rIM (f_flux (r_forms r) DX (Psi false) (GC DX))))).
  apply in_flat_map.
  exists (MDo (at1 (Flux DX) rIM (f_flux (r_forms r) DX (Psi false) (GC DX)))). split; [|cbn; auto].
  unfold body1. apply in_app_iff. right. apply in_app_iff. right. apply in_app_iff. right. apply in_app_iff. left.
  unfold upstream1. left. reflexivity.
Qed.
