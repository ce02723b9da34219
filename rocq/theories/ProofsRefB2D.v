(** 2D solver in a box closed by rigid walls: a whole run agrees with a run on a lattice
    mirrored at the walls (as ProofsRefI2D.v). *)
From Coq Require Import ZArith List Bool Lia ZifyBool Reals.
From Verif Require Import SpecIndex ModelIndex ProofsIndex ModelRun Lang ProofsLang Stencil ProofsStencil
  FormCommon Form2D Solver1D Solver2D Macro ProofsMacro Foot1D Foot2D Proofs1D Proofs2D ProofsThread1D ProofsThread2D Arith SpecReal
  ProofsValid ProofsValid1D ProofsRef1D Boxes ProofsBoxes ProofsValid2D ProofsValidC2D ProofsValidI2D ProofsRef2D ProofsExch2D ProofsExchC2D Lattice ProofsLattice
  ProofsCyclic2D FunN ProofsFunN ProofsFun2D ProofsSymN ProofsSymRun2D ProofsImgPt ProofsImages2D ProofsImgPtX ProofsValidB2D ProofsExchB2D ProofsKeepB2D.
Import ListNotations.
Local Open Scope Z_scope.

Section Shapes.
  Variable r : run2.
  Hypothesis RK : run2_ok r.
  Notation o := (s_o r).
  Lemma checksb2 : validb2_check o = true.
  Proof. apply validb2_ok. apply RK. Qed.
  Lemma upb2_check b : vokb2 (halo o) (up2c r b) (vinv2 o b) (vpassb2 o (negb b) None) = true /\ shape2b (up2c r b) = true.
  Proof.
    pose proof checksb2 as C. unfold validb2_check in C. cbv zeta in C.
    apply andb_true_iff in C. destruct C as [_ C]. rewrite forallb_forall in C. specialize (C b (in_bools b)).
    apply andb_true_iff in C. destruct C as [C _]. apply andb_true_iff in C. exact C.
  Qed.
  Lemma cob2_check b j last : (0 < j)%nat -> shape2b (co2c r b j last) = true /\
    (no_stale_b o (s_nit r) = true -> (S j <= s_nit r)%nat -> (last = false -> S j < s_nit r)%nat ->
     vokb2 (halo o) (co2c r b j last) (vpassb2 o b (kind j)) (if last then vinv2 o (negb b) else vpassb2 o (negb b) (kind (S j))) = true).
  Proof.
    intros Hj. pose proof checksb2 as C. unfold validb2_check in C. cbv zeta in C.
    apply andb_true_iff in C. destruct C as [_ C]. rewrite forallb_forall in C. specialize (C b (in_bools b)).
    apply andb_true_iff in C. destruct C as [_ C]. rewrite forallb_forall in C. specialize (C _ (in_kopts2 (kind j))).
    rewrite forallb_forall in C. specialize (C last (in_bools last)). apply andb_true_iff in C. destruct C as [C0 C].
    rewrite <- kind_unco2, <- kind_corr2 in C0, C. rewrite <- kind_next2 in C by auto. split; [exact C0|].
    intros NS Hn Hl. apply orb_true_iff in C. destruct C as [C|C]; [|exact C].
    exfalso.
    assert (N3 : (2 < s_nit r)%nat -> no_stale_b o 3 = true).
    { intros H3. unfold no_stale_b, no_stale2 in *. destruct (Nat.leb_spec (s_nit r) 2); [lia|]. exact NS. }
    assert (N0 : no_stale_b o 0 = true).
    { unfold no_stale_b, no_stale2. cbn [Nat.leb]. rewrite !orb_true_r. reflexivity. }
    apply negb_true_iff in C. unfold kind in C. destruct (Nat.eqb_spec j 1) as [->|].
    - destruct last; [congruence|]. rewrite N3 in C; [discriminate|]. apply Hl. reflexivity.
    - rewrite N3 in C by lia. discriminate.
  Qed.
End Shapes.

Lemma in_arrs2_passb o b k a : vpassb2 o b k a <> [] -> In a arrs2.
Proof.
  unfold vpassb2. destruct k as [c|]; [|apply in_arrs2_pass].
  destruct (fct o && arr_eqb a (Cor c DX)) eqn:E0.
  { apply andb_true_iff in E0. destruct E0 as [_ E0]. apply arr_eqb_eq in E0. subst a. intros _. destruct c; unfold arrs2; cbn; tauto. }
  destruct (fct o && arr_eqb a (Cor c DY)) eqn:E; [|apply in_arrs2_pass].
  apply andb_true_iff in E. destruct E as [_ E]. apply arr_eqb_eq in E. subst a. intros _. destruct c; unfold arrs2; cbn; tauto.
Qed.

Section Assemble.
  Variables (r : run2) (n : nat).
  Hypothesis RK : run2_ok r.
  Hypothesis Hn : (0 < n)%nat.
  Hypothesis Hs : Z.of_nat n <= s_hi r DX - s_lo r DX + 1.
  Hypothesis HST : no_stale_b (s_o r) (s_nit r) = true.
  Notation g := (geom2 r n).
  Notation ex := (expand2 (s_halo r) (s_per r) (s_bl r) (s_br r)).
  Notation o := (s_o r).
  Let OK : geom_ok g := geom2_ok r n RK Hn Hs.
  Variables eps tiny : R.
  Notation AR := (arithR eps tiny).
  Notation mem := (loc -> R).
  Hypothesis CL : forall d, d = DX \/ d = DY -> s_bl r d = Rigid2.
  Hypothesis CR : forall d, d = DX \/ d = DY -> s_br r d = Rigid2.
  Notation runp e p := (run_prog loc_eq_dec AR n (prog_of g (expand ex e p))).
  Notation rrun e := (lat_prog AR e).
  Notation agr e := (bagree g AR e).
  Notation good := (symB r eps tiny).
  Notation inv2 := (inv2 r n AR).
  Notation inv0_2 := (inv0_2 r n AR).
  Notation runs2 := (runs2 r n AR).
  Notation rruns2 := (lat_progs AR).
  Notation in_box := (in_box g).

  Lemma in_cands4 E B i : In B (cands4 E) -> in_box B i -> in_box E i.
  Proof.
    unfold cands4. intros H. apply in_app_or in H. destruct H as [H|[<-|[]]]; [apply in_cands; exact H|].
    intros H d; specialize (H d); destruct d; cbn [shrink e_d fst snd] in *; lia.
  Qed.
  Lemma bdo4_cov s s' V V' : tcov s s' -> bdo4 s' V = Some V' -> exists W', bdo4 s V = Some W' /\ bincl V' W'.
  Proof.
    intros C. unfold bdo4. rewrite (s_ext_cov _ _ C). destruct (s_ext s') as [E|]; [|discriminate].
    intros K. apply some_inj in K. subst V'. eexists. split; [reflexivity|].
    destruct C as (EA & _ & _ & _ & IL). intros a B. unfold bset. rewrite EA.
    destruct (arr_eqb a (t_arr s')); [|auto].
    intros K. apply filter_In in K. destruct K as [HB L]. apply filter_In. split; auto. rewrite forallb_forall in *. intros ao Hao.
    apply L. apply IL. exact Hao.
  Qed.
  Lemma bdo4_agree e s V V' (m m' m1 m1' : mem) : bdo4 s V = Some V' -> agr e V m m' ->
    ref_do g AR e s m m1 -> ref_do g AR e s m' m1' -> agr e V' m1 m1'.
  Proof.
    unfold bdo4. intros HV A [R1 R2] [R1' R2']. destruct (s_ext s) as [E|] eqn:HE; [|discriminate].
    apply some_inj in HV. subst V'. intros a B i Ha Hi. unfold bset in Ha. destruct (arr_eqb a (t_arr s)) eqn:Ea.
    - apply arr_eqb_eq in Ea. subst a. apply filter_In in Ha. destruct Ha as [HB C].
      pose proof (in_cands4 E B i HB Hi) as HEi. rewrite (R1 _ _ eq_refl HEi), (R1' _ _ eq_refl HEi).
      apply ev_ext. intros ao Hao. rewrite leaves_inst in Hao. apply in_map_iff in Hao.
      destruct Hao as (bo & <- & Hbo). rewrite forallb_forall in C. specialize (C _ Hbo).
      unfold bget in C. apply existsb_exists in C. destruct C as (B' & HB' & L).
      unfold sh. cbn [fst snd]. eapply A; eauto. eapply in_box_leb; eauto.
    - assert (NE : tag e a <> tag e (t_arr s)).
      { intros H. apply tag_inj in H. apply arr_eqb_eq in H. congruence. }
      rewrite R2, R2' by auto. eapply A; eauto.
  Qed.
  Lemma bx_agree e p p' : Forall2 mcov p p' -> forall V V' (m f : mem), mslab_check DX p = true ->
    bxrun4 (vxb2 (s_halo r)) p' V = Some V' -> agr e V m f -> along eps tiny r e p f -> agr e V' (runp e p m) (rrun e p f).
  Proof.
    induction 1 as [|i i' p p' Hc F IH]; intros V V' m f S0 HV A AL.
    - cbn in HV. inversion HV; subst. exact A.
    - unfold mslab_check in S0. cbn [forallb] in S0. apply andb_true_iff in S0. destruct S0 as [Hi S0].
      assert (RC : runp e (i :: p) m = runp e p (runp e [i] m)).
      { change (i :: p) with ([i] ++ p). rewrite (expand_app ex e). unfold prog_of. rewrite map_app. apply run_prog_app. }
      rewrite RC. cbn [along] in AL. destruct AL as [AX AL]. cbn [lat_prog fold_left].
      assert (X : forall V1, agr e V1 (runp e [i] m) (lat_instr AR e i f) -> bxrun4 (vxb2 (s_halo r)) p' V1 = Some V' ->
                 agr e V' (runp e p (runp e [i] m)) (lat_prog AR e p (lat_instr AR e i f))).
      { intros V1 A1 H1. eapply IH; eauto. }
      assert (DO : forall s, i = MDo s -> slab_okb true (t_r s (g_dd g)) = true -> ref_do g AR e s m (runp e [i] m)).
      { intros s -> S1. unfold expand. cbn [flat_map expand2].
        cbn [app map inst_i prog_of instr_of run_prog fold_left run_instr]. apply run_ref; auto. }
      destruct Hc as [s s' Hc|i].
      + cbn [bxrun4] in HV. destruct (bdo4 s' V) as [V1|] eqn:E1; [|discriminate].
        destruct (bdo4_cov s s' V V1 Hc E1) as (W & EW & IW). apply (X V1); auto.
        apply (bagree_incl g AR e V1 W); auto. cbn [lat_instr]. eapply bdo4_agree; eauto. apply lat_ref2.
      + destruct i as [s| |a ext|v ad|v ext|v]; cbn [bxrun4] in HV.
        * destruct (bdo4 s V) as [V1|] eqn:E1; [|discriminate]. apply (X V1); auto.
          cbn [lat_instr]. eapply bdo4_agree; eauto. apply lat_ref2.
        * apply (X V); auto.
        * destruct (vxb2 _ (MXS a ext) V) as [V1|] eqn:E1; [|discriminate]. destruct (AX eq_refl) as [OX SY]. apply (X V1); auto.
          cbn [lat_instr]. eapply box_vx2; eauto.
        * destruct (vxb2 _ (MXVA v ad) V) as [V1|] eqn:E1; [|discriminate]. destruct (AX eq_refl) as [OX SY]. apply (X V1); auto.
          cbn [lat_instr]. eapply box_vx2; eauto.
        * destruct (vxb2 _ (MXVN v ext) V) as [V1|] eqn:E1; [|discriminate]. destruct (AX eq_refl) as [OX SY]. apply (X V1); auto.
          cbn [lat_instr]. eapply box_vx2; eauto.
        * destruct (vxb2 _ (MXF v) V) as [V1|] eqn:E1; [|discriminate]. destruct (AX eq_refl) as [OX SY]. apply (X V1); auto.
          cbn [lat_instr]. eapply box_vx2; eauto.
  Qed.

  Lemma bb_runp_app2 e p q m : runp e (p ++ q) m = runp e q (runp e p m).
  Proof. rewrite (expand_app ex e). unfold prog_of. rewrite map_app. apply run_prog_app. Qed.
  Lemma bb_rrun_app2 e p q m : rrun e (p ++ q) m = rrun e q (rrun e p m).
  Proof. apply fold_left_app. Qed.

  Lemma bb_vokb2_agree e p p' V W (m m' : mem) :
    (forall a, W a <> [] -> In a arrs2) -> keepB eps tiny r e p ->
    Forall2 mcov p p' -> shape2b p' = true -> vokb2 (s_halo r) p' V W = true ->
    agr e V m m' -> good m' -> agr e W (runp e p m) (rrun e p m') /\ good (rrun e p m').
  Proof.
    intros HW KB C S0 K A G. unfold vokb2 in K. destruct (bxrun4 (vxb2 (s_halo r)) p' V) as [V'|] eqn:EV; [|discriminate].
    pose proof (shape_slab _ (shape2b_cov _ _ C S0)) as S1. destruct (KB m' G) as [AL G'].
    pose proof (bx_agree e p p' C V V' m m' S1 EV A AL) as A'.
    split; auto. eapply bagree_covers; eauto.
  Qed.

  (** a program that only touches [Psi b] at the element itself *)
  Lemma bb_scale_agree2 e b k V (m m' : mem) : V (Psi b) = [b2 0 0 0 0] ->
    agr e V m m' -> good m' ->
    agr e V (runp e (scale2 (Psi b) k) m) (rrun e (scale2 (Psi b) k) m') /\ good (rrun e (scale2 (Psi b) k) m').
  Proof.
    intros HV A G.
    assert (E : exists V', bxrun4 (vxb2 (s_halo r)) (scale2 (Psi b) k) V = Some V' /\ bincl V V').
    { unfold scale2. destruct (k =? 0); [exists V; split; auto; intros a; apply incl_refl|].
      destruct (0 <? k); cbn [bxrun4]; unfold bdo4;
        (eexists; split; [reflexivity|]; intros a B HB; unfold bset; cbn [t_arr at2];
         destruct (arr_eqb a (Psi b)) eqn:Ea; [|exact HB]; apply arr_eqb_eq in Ea; subst a;
         rewrite HV in HB; destruct HB as [<-|[]]; apply filter_In; split; [left; reflexivity|];
         cbn; unfold bget; cbn [fst snd]; rewrite HV; reflexivity). }
    destruct E as (V' & EV & E). destruct (keepB_scale eps tiny r e b k m' G) as [AL G'].
    pose proof (bx_agree e _ _ (mcovs_refl2 _) V V' m m' (shape_slab _ (shape_scale (Psi b) k)) EV A AL) as A'.
    split; auto. eapply bagree_incl; eauto.
  Qed.

  Lemma bb_bars_agree2 e p V m m' : Forall (fun i => i = MBar) p ->
    agr e V m m' -> good m' -> agr e V (runp e p m) (rrun e p m') /\ good (rrun e p m').
  Proof.
    intros H A G. revert m m' A G. induction H as [|i p -> H IH]; intros m m' A G; [cbn; auto|].
    change (MBar :: p) with ([MBar] ++ p). rewrite bb_runp_app2, bb_rrun_app2. apply IH; auto.
  Qed.

  Lemma bb_up_agree2 e b m m' : agr e (vinv2 o b) m m' -> good m' ->
    agr e (vpassb2 o (negb b) None) (runp e (up2 r b) m) (rrun e (up2 r b) m') /\ good (rrun e (up2 r b) m').
  Proof.
    intros A G. destruct (upb2_check r RK b) as [C S0].
    eapply bb_vokb2_agree; [apply in_arrs2_passb|apply (keepB_app eps tiny r e [_]); [apply keepB_x; split; reflexivity|apply keepB_app; [apply keepB_init; exact RK|apply keepB_up; exact RK]]|apply up2_cov; exact RK|exact S0|exact C|exact A|exact G].
  Qed.
  Lemma keep_co e b j last : (0 < j)%nat -> keepB eps tiny r e (co2 r b j last).
  Proof.
    intros Hj. unfold co2. apply (keepB_app eps tiny r e [_]); [apply keepB_x; split; reflexivity|]. unfold GC_corr. apply keepB_corr; [exact RK|].
    unfold GC_unco. destruct (Nat.eqb j 1); [cbn; auto|]. unfold GC_corr; match goal with |- context [Nat.odd ?q] => destruct (Nat.odd q) end; cbn; auto 10.
  Qed.
  Lemma bb_co_agree2 e b j (last : bool) m m' : (0 < j)%nat -> (S j <= s_nit r)%nat -> (last = false -> S j < s_nit r)%nat ->
    agr e (vpassb2 o b (kind j)) m m' -> good m' ->
    agr e (if last then vinv2 o (negb b) else vpassb2 o (negb b) (kind (S j))) (runp e (co2 r b j last) m) (rrun e (co2 r b j last) m') /\
    good (rrun e (co2 r b j last) m').
  Proof.
    intros Hj Hj2 Hj3 A G. destruct (cob2_check r RK b j last Hj) as [S0 C]. specialize (C HST Hj2 Hj3).
    eapply bb_vokb2_agree; [|apply keep_co; exact Hj|apply co2_cov; [exact RK|exact Hj]|exact S0|exact C|exact A|exact G].
    destruct last; [apply in_arrs2_inv|apply in_arrs2_passb].
  Qed.

  Lemma bb_pass_inv2 e b k m m' : agr e (vpassb2 o b k) m m' -> agr e (vinv2 o b) m m'.
  Proof.
    intros A a E i Ha Hi. apply (A a E i); auto. unfold vpassb2, vpass2. cbv zeta.
    assert (NE : forall x, arr_eqb a x = true -> vinv2 o b x = [] -> False).
    { intros x Hx N. apply arr_eqb_eq in Hx. subst a. rewrite N in Ha. destruct Ha. }
    assert (R : In E (if fct o && (arr_eqb a PsiMin || arr_eqb a PsiMax) then [b2 1 1 1 1]
              else if arr_eqb a (Psi (negb b)) then [b2 (halo o) (halo o) (halo o) (halo o)] else vinv2 o b a)).
    { destruct (fct o && _) eqn:E2.
      - exfalso. apply andb_true_iff in E2. destruct E2 as [_ E2]. apply orb_true_iff in E2.
        destruct E2 as [E2|E2]; apply (NE _ E2); reflexivity.
      - destruct (arr_eqb a (Psi (negb b))) eqn:E3; auto. exfalso. apply (NE _ E3). destruct b; reflexivity. }
    destruct k as [c|]; auto.
    destruct (fct o && arr_eqb a (Cor c DX)) eqn:E9; [exfalso; apply andb_true_iff in E9; apply (NE _ (proj2 E9)); reflexivity|].
    destruct (fct o && arr_eqb a (Cor c DY)) eqn:E0; [exfalso; apply andb_true_iff in E0; apply (NE _ (proj2 E0)); reflexivity|].
    destruct (arr_eqb a (Cor c DX)) eqn:E1; [exfalso; apply (NE _ E1); reflexivity|].
    destruct (arr_eqb a (Cor c DY)) eqn:E2; [exfalso; apply (NE _ E2); reflexivity|]. auto.
  Qed.

  Lemma bb_passes_agree2 e lasteq b more : forall j m m', (0 < j)%nat -> (j + more <= s_nit r)%nat ->
    agr e (vpassb2 o (lev b j) (kind j)) m m' -> good m' ->
    let p := passes2 o (s_forms r) (s_nit r) lasteq b j more in
    agr e (vinv2 o (lev b (j + more))) (runp e p m) (rrun e p m') /\ good (rrun e p m').
  Proof.
    induction more as [|k IH]; intros j m m' Hj Hle A G; cbv zeta.
    - rewrite Nat.add_0_r. cbn. split; auto. apply (bb_pass_inv2 e _ (kind j)). exact A.
    - cbn [passes2]. rewrite bb_runp_app2, bb_rrun_app2.
      destruct (bb_bars_agree2 e (cyc_bars lasteq) _ m m' ltac:(destruct lasteq; cbn; auto) A G) as [A1 G1].
      set (m1 := runp e (cyc_bars lasteq) m) in *. set (m1' := rrun e (cyc_bars lasteq) m') in *.
      rewrite (lev_S b j).
      change ([MXS (Psi (lev b j)) (halo o)] ++
        corrective2 o (s_forms r) (Psi (lev b j)) (Psi (negb (lev b j))) (GC_unco j) (GC_corr j) (Nat.eqb (S j) (s_nit r)) ++
           passes2 o (s_forms r) (s_nit r) lasteq b (S j) k) with
        (co2 r (lev b j) j (Nat.eqb (S j) (s_nit r)) ++ passes2 o (s_forms r) (s_nit r) lasteq b (S j) k).
      rewrite bb_runp_app2, bb_rrun_app2.
      destruct (bb_co_agree2 e (lev b j) j (Nat.eqb (S j) (s_nit r)) m1 m1' Hj ltac:(lia) ltac:(intros H; apply Nat.eqb_neq in H; lia) A1 G1) as [A2 G2].
      destruct (Nat.eqb_spec (S j) (s_nit r)) as [L|L].
      + assert (k = 0)%nat by lia. subst k. cbn [passes2]. replace (j + 1)%nat with (S j) by lia. rewrite lev_S.
        split; [exact A2|exact G2].
      + rewrite <- (lev_S b j) in *.
        destruct (IH (S j) _ _ ltac:(lia) ltac:(lia) A2 G2) as [A3 G3].
        replace (j + S k)%nat with (S j + k)%nat by lia. split; [exact A3|exact G3].
  Qed.

  Lemma bb_body_agree2 e k exq lasteq b m m' : (0 < k <= s_nit r)%nat ->
    agr e (vinv2 o b) m m' -> good m' ->
    let p := body2 o (s_forms r) (s_nit r) k exq lasteq b in
    agr e (vinv2 o (lev b k)) (runp e p m) (rrun e p m') /\ good (rrun e p m').
  Proof.
    intros Hk A G. cbv zeta. rewrite body2_split. rewrite bb_runp_app2, bb_rrun_app2.
    destruct (bb_scale_agree2 e b exq (vinv2 o b) m m' (vinv2_psi r b) A G) as [A1 G1].
    unfold mid2. assert (L1 : lev b 1 = negb b) by (unfold lev; destruct b; reflexivity). rewrite L1.
    rewrite (app_assoc (fct_init2 _ _ _)). rewrite <- app_assoc. rewrite app_comm_cons.
    change (MXS (Psi b) (halo o) :: fct_init2 o (s_forms r) (Psi b) ++ upstream2 o (s_forms r) (Psi b) (Psi (negb b)))
      with (up2 r b). rewrite !bb_runp_app2, !bb_rrun_app2.
    destruct (bb_up_agree2 e b _ _ A1 G1) as [A2 G2]. rewrite <- L1 in A2.
    destruct (bb_passes_agree2 e lasteq b (k - 1) 1 _ _ ltac:(lia) ltac:(lia) A2 G2) as [A3 G3].
    replace (1 + (k - 1))%nat with k in A3 by lia.
    destruct (bb_bars_agree2 e (if lasteq then [MBar; MBar] else [MBar]) _ _ _
       ltac:(destruct lasteq; repeat constructor) A3 G3) as [A4 G4].
    apply bb_scale_agree2; auto. apply vinv2_psi.
  Qed.

  (** *** Frame *)
  Lemma bb_runp_frame2 e p m e' b i : e' <> e -> runp e p m ((e', Psi b), i) = m ((e', Psi b), i).
  Proof.
    intros NE. unfold expand. generalize (flat_map ex p). intros l. revert m.
    induction l as [|t l IH]; intros m; [reflexivity|].
    cbn [map prog_of]. destruct t as [s|]; cbn [inst_i instr_of run_prog fold_left run_instr].
    - etransitivity; [apply IH|]. apply run_stmt_out. intros t Ht Hin. apply in_el in Hin. destruct Hin as [Ha _].
      cbn in Ha. unfold tag in Ha. destruct (t_arr s); inversion Ha. congruence.
    - apply IH.
  Qed.
  Lemma bb_rrun_frame2 e p m e' b i : mslab_check DX p = true -> e' <> e ->
    rrun e p m ((e', Psi b), i) = m ((e', Psi b), i).
  Proof.
    intros _ NE. apply (frame_prog AR). auto.
  Qed.

  (** *** All equations, all steps *)
  Lemma bb_runs_expands2 l m : run_prog loc_eq_dec AR n (prog_of g (expands2 r l)) m = runs2 l m.
  Proof.
    revert m. induction l as [|[e p] l IH]; intros m; [reflexivity|].
    cbn [expands2 flat_map fst snd]. unfold prog_of. rewrite map_app, run_prog_app. apply IH.
  Qed.

  Lemma bb_inv_psi2 e e' b b' m m' m1 m1' :
    agr e (vinv2 o b) m m' ->
    (forall b i, m ((e', Psi b), i) = m1 ((e', Psi b), i)) -> (forall b i, m' ((e', Psi b), i) = m1' ((e', Psi b), i)) ->
    (forall i, in_box (b2 0 0 0 0) i -> m1 ((e', Psi b'), i) = m1' ((e', Psi b'), i)) -> agr e' (vinv2 o b') m m'.
  Proof.
    intros A F F' A1 a E i Ha Hi. unfold vinv2 in Ha. destruct (arr_eqb a (Psi b')) eqn:Ea.
    - apply arr_eqb_eq in Ea. subst a. cbn [tag]. rewrite F, F'. destruct Ha as [<-|[]]. apply A1; auto.
    - assert (T : tag e' a = tag e a) by (destruct a; cbn in *; tauto || reflexivity).
      rewrite T. apply (A a E i); auto. unfold vinv2. destruct (arr_eqb a (Psi b)) eqn:Eb; auto.
      apply arr_eqb_eq in Eb. subst a. cbn in Ha. tauto.
  Qed.

  Lemma bb_eqs_agree2 k es : forall lv m m', (0 < k <= s_nit r)%nat -> NoDup es -> incl es (eq_order2 r) ->
    inv2 lv m m' -> good m' ->
    inv2 (fun e => if existsb (Nat.eqb e) es then lev (lv e) k else lv e) (runs2 (eqs_macro2 r k es lv) m) (rruns2 (eqs_macro2 r k es lv) m')
    /\ good (rruns2 (eqs_macro2 r k es lv) m').
  Proof.
    induction es as [|e es IH]; intros lv m m' Hk ND HI A G.
    - cbn. auto.
    - inversion ND; subst. cbn [eqs_macro2 runs2 lat_progs fold_left fst snd].
      set (p := body2 _ _ _ _ _ _ _).
      destruct (bb_body_agree2 e k (s_scale r e) (is_last_eqn (s_cfg r) e) (lv e) m m' Hk (A e (HI e (or_introl eq_refl))) G) as [A1 G1].
      fold p in A1, G1.
      set (m1 := runp e p m) in *. set (m1' := rrun e p m') in *.
      assert (I1 : inv2 (upd lv e (lev (lv e) k)) m1 m1').
      { intros e' He'. unfold upd. destruct (Nat.eqb_spec e' e) as [->|NE]; [exact A1|].
        eapply bb_inv_psi2; [exact A1| | |].
        - intros b i. apply bb_runp_frame2; auto.
        - intros b i. apply bb_rrun_frame2; auto. apply shape_slab. apply shape_body. exact RK.
        - intros i Hi. apply (A e' He' (Psi (lv e')) (b2 0 0 0 0) i); auto. rewrite vinv2_psi. left. reflexivity. }
      destruct (IH _ m1 m1' Hk ltac:(auto) ltac:(intros x Hx; apply HI; right; auto) I1 G1) as [A2 G2].
      split; [|exact G2]. intros e' He'. specialize (A2 e' He'). cbn beta in A2.
      cbn [existsb]. unfold upd in A2.
      destruct (Nat.eq_dec e' e) as [Ee|NE].
      + rewrite Ee in *. rewrite Nat.eqb_refl in *. cbn [orb].
        replace (existsb (Nat.eqb e) es) with false in A2; [exact A2|].
        symmetry. apply not_true_is_false. intros H. apply existsb_exists in H. destruct H as (x & Hx & Ex).
        apply Nat.eqb_eq in Ex. rewrite <- Ex in Hx. contradiction.
      + rewrite (proj2 (Nat.eqb_neq e' e) NE) in *. exact A2.
  Qed.

  Lemma bb_passes_pos2 ts : (0 < passes (s_nit r) (s_freq r) ts <= s_nit r)%nat.
  Proof. pose proof (ok2_nit _ RK). unfold passes. destruct (_ && _); lia. Qed.

  Lemma bb_steps_agree2 nt : forall ts lv m m', inv2 lv m m' -> good m' ->
    inv2 (lv_after2 r nt ts lv) (runs2 (steps_macro2 r nt ts lv) m) (rruns2 (steps_macro2 r nt ts lv) m') /\
    good (rruns2 (steps_macro2 r nt ts lv) m').
  Proof.
    induction nt as [|k IH]; intros ts lv m m' A G; [cbn; auto|].
    cbn [steps_macro2 lv_after2 runs2 lat_progs fold_left fst snd].
    change (runp 0 [MBar] m) with m. change (rrun 0%nat [MBar] m') with m'.
    rewrite !fold_left_app.
    destruct (bb_eqs_agree2 _ (eq_order2 r) lv m m' (bb_passes_pos2 ts) (eq_order_nodup2 r) (incl_refl _) A G) as [A1 G1].
    apply IH; auto.
  Qed.

  Lemma bb_ante_agree2 m m' : inv0_2 m m' -> good m' -> (0 < n_eqns (s_cfg r))%nat ->
    inv2 (fun _ => false) (runp 0%nat (ante2 o) m) (rrun 0%nat (ante2 o) m') /\ good (rrun 0%nat (ante2 o) m').
  Proof.
    intros A G NE. pose proof (checksb2 r RK) as C. unfold validb2_check in C. cbv zeta in C.
    apply andb_true_iff in C. destruct C as [C _]. apply andb_true_iff in C. destruct C as [C S0].
    assert (Z0 : In 0%nat (eq_order2 r)) by (apply in_eq_order2; auto).
    destruct (bb_vokb2_agree 0%nat (ante2 o) (ante2 o) (vuser2 o) (vinv2 o false) m m' (in_arrs2_inv o false) (keepB_ante eps tiny r 0%nat)
                (mcovs_refl2 _) S0 C (A _ Z0) G) as [A1 G1].
    split; auto. intros e He. destruct (Nat.eq_dec e 0) as [->|NE0]; auto.
    eapply bb_inv_psi2; [exact A1| | |].
    - intros b i. apply bb_runp_frame2. auto.
    - intros b i. apply bb_rrun_frame2; auto. apply shape_slab. exact S0.
    - intros i Hi. apply (A e He (Psi false) (b2 0 0 0 0) i); auto. left. reflexivity.
  Qed.

  Theorem bb_run_agree2 nt m m' : (0 < n_eqns (s_cfg r))%nat -> inv0_2 m m' -> good m' ->
    inv2 (fun e => level_after2 r nt 0 false) (run_prog loc_eq_dec AR n (prog_of g (run_prog2 r nt)) m)
      (rruns2 (run_macro2 r nt) m') /\ good (rruns2 (run_macro2 r nt) m').
  Proof.
    intros NE A G. rewrite run_expands2, bb_runs_expands2. unfold run_macro2, runs2, lat_progs. cbn [fold_left fst snd].
    rewrite !fold_left_app. cbn [fold_left fst snd].
    destruct (bb_ante_agree2 m m' A G NE) as [A1 G1].
    destruct (bb_steps_agree2 nt 0 (fun _ => false) _ _ A1 G1) as [A2 G2].
    split; [|exact G2]. intros e He. specialize (A2 e He). rewrite lv_after_eq2 in A2 by auto. exact A2.
  Qed.
End Assemble.
