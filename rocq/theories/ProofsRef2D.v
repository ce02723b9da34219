(** 2D solver: a whole run agrees with a reference execution. *)
From Coq Require Import ZArith List Bool Lia ZifyBool.
From Verif Require Import SpecIndex ModelIndex ProofsIndex ModelRun Lang ProofsLang Stencil ProofsStencil
  FormCommon Form2D Solver1D Solver2D Macro ProofsMacro Foot1D Foot2D Proofs1D Proofs2D ProofsThread1D ProofsThread2D
  ProofsValid ProofsValid1D ProofsRef1D Boxes ProofsBoxes ProofsValid2D.
Import ListNotations.
Local Open Scope Z_scope.

(** ** The run as a list of one-equation programs *)
Section Macros.
  Variable r : run2.
  Fixpoint eqs_macro2 (k : nat) (es : list nat) (lv : nat -> bool) : list (nat * list minstr) :=
    match es with
    | [] => []
    | e :: es' =>
        (e, body2 (s_o r) (s_forms r) (s_nit r) k (s_scale r e) (is_last_eqn (s_cfg r) e) (lv e)) ::
        eqs_macro2 k es' (upd lv e (lev (lv e) k))
    end.
  Definition next_lv2 (ts : Z) (lv : nat -> bool) : nat -> bool :=
    fun e => if existsb (Nat.eqb e) (eq_order2 r) then lev (lv e) (passes (s_nit r) (s_freq r) ts) else lv e.
  Fixpoint steps_macro2 (nt : nat) (ts : Z) (lv : nat -> bool) : list (nat * list minstr) :=
    match nt with
    | O => []
    | S n =>
        (O, [MBar]) :: eqs_macro2 (passes (s_nit r) (s_freq r) ts) (eq_order2 r) lv ++
        steps_macro2 n (ts + 1) (next_lv2 ts lv)
    end.
  Definition expands2 (l : list (nat * list minstr)) : list dinstr :=
    flat_map (fun ep => expand_eq2 r (fst ep) (snd ep)) l.

  Lemma eqs_expands2 k es lv : eqs_prog2 r k es lv = expands2 (eqs_macro2 k es lv).
  Proof. revert lv. induction es as [|e es IH]; intros lv; cbn; auto. rewrite IH. reflexivity. Qed.
  Lemma steps_expands2 nt ts lv : steps_prog2 r nt ts lv = expands2 (steps_macro2 nt ts lv).
  Proof.
    revert ts lv. induction nt as [|m IH]; intros ts lv; [reflexivity|].
    cbn [steps_prog2 steps_macro2 expands2 flat_map fst snd]. rewrite eqs_expands2, IH.
    unfold expands2. rewrite flat_map_app. reflexivity.
  Qed.
  Definition run_macro2 (nt : nat) : list (nat * list minstr) :=
    (O, ante2 (s_o r)) :: steps_macro2 nt 0 (fun _ => false) ++ [(O, [MBar])].
  Lemma run_expands2 nt : run_prog2 r nt = expands2 (run_macro2 nt).
  Proof.
    unfold run_prog2, run_macro2, expands2. cbn [flat_map fst snd]. rewrite flat_map_app, steps_expands2. reflexivity.
  Qed.

  (** levels after a number of steps *)
  Fixpoint lv_after2 (nt : nat) (ts : Z) (lv : nat -> bool) : nat -> bool :=
    match nt with O => lv | S n => lv_after2 n (ts + 1) (next_lv2 ts lv) end.

  Lemma lv_after_eq2 nt : forall ts lv e, In e (eq_order2 r) ->
    lv_after2 nt ts lv e = level_after2 r nt ts (lv e).
  Proof.
    induction nt as [|m IH]; intros ts lv e He; cbn; auto. rewrite IH by auto. unfold next_lv2.
    replace (existsb (Nat.eqb e) (eq_order2 r)) with true; auto. symmetry. apply existsb_exists.
    exists e. split; auto. apply Nat.eqb_refl.
  Qed.
End Macros.

Lemma in_kopts2 k : In k kopts.
Proof. destruct k as [[]|]; cbn; auto. Qed.
Lemma kind_unco2 j : GC_unco j = unco_of (kind j).
Proof. unfold GC_unco, kind. destruct (Nat.eqb j 1); reflexivity. Qed.
Lemma kind_corr2 j : GC_corr j = Cor (corr_of (kind j)).
Proof.
  unfold GC_corr, kind. destruct (Nat.eqb_spec j 1) as [->|]; [reflexivity|]. cbn. rewrite negb_involutive. reflexivity.
Qed.
Lemma kind_next2 j : (0 < j)%nat -> kind (S j) = Some (corr_of (kind j)).
Proof.
  intros H. unfold kind. destruct (Nat.eqb_spec (S j) 1); [lia|]. rewrite Nat.odd_succ, <- Nat.negb_odd, negb_involutive.
  destruct (Nat.eqb_spec j 1) as [->|]; [reflexivity|]. cbn. rewrite negb_involutive. reflexivity.
Qed.

(** ** Shapes of the statements, whatever the options *)
Lemma selfb_cov i i' : mcov i i' -> selfb i' = true -> selfb i = true.
Proof.
  intros [s s' (E & _ & _ & _ & I)|x] H; auto. cbn [selfb] in *. rewrite forallb_forall in *.
  intros ao Hao. rewrite E. apply H. auto.
Qed.
Lemma shape2b_cov p p' : Forall2 mcov p p' -> shape2b p' = true -> shape2b p = true.
Proof.
  intros C. unfold shape2b. rewrite !andb_true_iff. intros [A B]. split; [eapply mslab_check_cov; eauto|].
  clear A. induction C as [|i i' p p' Hc C IH]; auto. cbn [forallb] in *. apply andb_true_iff in B. destruct B as [B1 B2].
  rewrite IH by auto. rewrite (selfb_cov _ _ Hc B1). reflexivity.
Qed.
Lemma shape2b_app p q : shape2b (p ++ q) = shape2b p && shape2b q.
Proof. unfold shape2b, mslab_check. rewrite !forallb_app. destruct (forallb _ p), (forallb _ q), (forallb selfb p); reflexivity. Qed.
Lemma shape2b_x x p : match x with MDo _ => False | _ => True end -> shape2b (x :: p) = shape2b p.
Proof. intros H. unfold shape2b, mslab_check. cbn [forallb]. destruct x; try tauto; reflexivity. Qed.

Section Shapes.
  Variable r : run2.
  Hypothesis RK : run2_ok r.
  Notation o := (s_o r).
  Lemma checks2 : valid2_check o = true.
  Proof. apply valid2_ok. apply RK. Qed.

  Definition up2 (b : bool) : list minstr :=
    MXS (Psi b) (halo o) :: fct_init2 o (s_forms r) (Psi b) ++ upstream2 o (s_forms r) (Psi b) (Psi (negb b)).
  Definition up2c (b : bool) : list minstr :=
    MXS (Psi b) (halo o) :: fct_init2 o (canon2 o) (Psi b) ++ upstream2 o (canon2 o) (Psi b) (Psi (negb b)).
  Definition co2 (b : bool) (j : nat) (last : bool) : list minstr :=
    MXS (Psi b) (halo o) :: corrective2 o (s_forms r) (Psi b) (Psi (negb b)) (GC_unco j) (GC_corr j) last.
  Definition co2c (b : bool) (j : nat) (last : bool) : list minstr :=
    MXS (Psi b) (halo o) :: corrective2 o (canon2 o) (Psi b) (Psi (negb b)) (GC_unco j) (GC_corr j) last.

  Lemma up2_cov b : Forall2 mcov (up2 b) (up2c b).
  Proof.
    pose proof (forms2_cov o (s_sp r) (s_tp r) (ok2_fl _ RK)) as FC.
    constructor; [apply mcov_refl|]. apply Forall2_app; [apply fct_init2_cov; exact FC|apply upstream2_cov; exact FC].
  Qed.
  Lemma co2_cov b j last : (0 < j)%nat -> Forall2 mcov (co2 b j last) (co2c b j last).
  Proof.
    intros Hj. pose proof (forms2_cov o (s_sp r) (s_tp r) (ok2_fl _ RK)) as FC.
    constructor; [apply mcov_refl|]. pose proof (kinds_of j Hj) as K. apply corrective2_cov; [exact FC| |];
      unfold kinds in K; cbn [In] in K; unfold vecs; cbn [In];
      destruct K as [K|[K|[K|[]]]]; inversion K; auto.
  Qed.

  Lemma up2_check b : vok2 (halo o) (up2c b) (vinv2 o b) (vpass2 o (negb b) None) = true /\ shape2b (up2c b) = true.
  Proof.
    pose proof checks2 as C. unfold valid2_check in C. cbv zeta in C.
    apply andb_true_iff in C. destruct C as [_ C]. rewrite forallb_forall in C. specialize (C b (in_bools b)).
    apply andb_true_iff in C. destruct C as [C _]. apply andb_true_iff in C. exact C.
  Qed.
  Lemma co2_check b j last : (0 < j)%nat -> shape2b (co2c b j last) = true /\
    (no_stale2 o (s_nit r) = true -> (S j <= s_nit r)%nat ->
     vok2 (halo o) (co2c b j last) (vpass2 o b (kind j)) (if last then vinv2 o (negb b) else vpass2 o (negb b) (kind (S j))) = true).
  Proof.
    intros Hj. pose proof checks2 as C. unfold valid2_check in C. cbv zeta in C.
    apply andb_true_iff in C. destruct C as [_ C]. rewrite forallb_forall in C. specialize (C b (in_bools b)).
    apply andb_true_iff in C. destruct C as [_ C]. rewrite forallb_forall in C. specialize (C _ (in_kopts2 (kind j))).
    rewrite forallb_forall in C. specialize (C last (in_bools last)). apply andb_true_iff in C. destruct C as [C0 C].
    rewrite <- kind_unco2, <- kind_corr2 in C0, C. rewrite <- kind_next2 in C by auto. split; [exact C0|].
    intros NS Hn. apply orb_true_iff in C. destruct C as [C|C]; [|exact C].
    exfalso. unfold no_stale2, kind in *. destruct (Nat.eqb_spec j 1) as [->|].
    - apply negb_true_iff in C. cbn in C. rewrite orb_true_r in C. discriminate.
    - destruct (Nat.leb_spec (s_nit r) 2); [lia|]. cbn [Nat.leb] in C. rewrite NS in C. discriminate.
  Qed.

  Lemma shape_scale a k : shape2b (scale2 a k) = true.
  Proof.
    unfold scale2. destruct (k =? 0); [reflexivity|].
    destruct (0 <? k); cbn [shape2b forallb selfb]; unfold shape2b; cbn -[arr_eqb]; rewrite orb_true_r; reflexivity.
  Qed.
  Lemma shape_bars p : Forall (fun i => i = MBar) p -> shape2b p = true.
  Proof. induction 1 as [|i p -> H IH]; [reflexivity|]. rewrite shape2b_x by exact I. exact IH. Qed.

  Lemma shape_passes lasteq b more : forall j, (0 < j)%nat ->
    shape2b (passes2 o (s_forms r) (s_nit r) lasteq b j more) = true.
  Proof.
    induction more as [|k IH]; intros j Hj; [reflexivity|]. cbn [passes2].
    rewrite shape2b_app. rewrite (shape_bars (cyc_bars lasteq)) by (destruct lasteq; cbn; auto).
    cbn [app andb]. rewrite shape2b_x by exact I. rewrite shape2b_app. rewrite IH by lia.
    pose proof (shape2b_cov _ _ (co2_cov (lev b j) j (Nat.eqb (S j) (s_nit r)) Hj)
                  (proj1 (co2_check (lev b j) j _ Hj))) as S1.
    unfold co2 in S1. rewrite shape2b_x in S1 by exact I. rewrite lev_S. rewrite S1. reflexivity.
  Qed.
  Lemma shape_body k exq lasteq b : shape2b (body2 o (s_forms r) (s_nit r) k exq lasteq b) = true.
  Proof.
    rewrite body2_split. rewrite shape2b_app, shape_scale. cbn [andb]. rewrite shape2b_x by exact I.
    rewrite !shape2b_app. rewrite shape_scale.
    rewrite (shape_bars (if lasteq then [MBar; MBar] else [MBar])) by (destruct lasteq; repeat constructor).
    rewrite !andb_true_r. unfold mid2. rewrite app_assoc, shape2b_app.
    replace (lev b 1) with (negb b) by (unfold lev; destruct b; reflexivity).
    rewrite shape_passes by lia.
    pose proof (shape2b_cov _ _ (up2_cov b) (proj2 (up2_check b))) as S1. unfold up2 in S1.
    rewrite shape2b_x in S1 by exact I. rewrite S1. reflexivity.
  Qed.
  Lemma shape_ante : shape2b (ante2 o) = true.
  Proof.
    pose proof checks2 as C. unfold valid2_check in C. cbv zeta in C.
    apply andb_true_iff in C. destruct C as [C _]. apply andb_true_iff in C. apply C.
  Qed.
End Shapes.

  Lemma in_eq_order2 (r : run2) e : In e (eq_order2 r) <-> (e < n_eqns (s_cfg r))%nat.
  Proof.
    unfold eq_order2, plain_eqns, delayed_eqns, eqns. rewrite in_app_iff, !filter_In, !in_seq.
    destruct (is_delayed (s_cfg r) e); cbn; intuition lia.
  Qed.

Section Assemble.
  Variables (r : run2) (n : nat).
  Hypothesis RK : run2_ok r.
  Hypothesis Hn : (0 < n)%nat.
  Hypothesis Hs : Z.of_nat n <= s_hi r DX - s_lo r DX + 1.
  Hypothesis HST : no_stale2 (s_o r) (s_nit r) = true.
  Notation g := (geom2 r n).
  Notation ex := (expand2 (s_halo r) (s_per r) (s_bl r) (s_br r)).
  Notation o := (s_o r).
  Let OK : geom_ok g := geom2_ok r n RK Hn Hs.
  Variable ar : arith.
  Notation mem := (loc -> car ar).
  Notation runp e p := (run_prog loc_eq_dec ar n (prog_of g (expand ex e p))).

  Variable refd : nat -> tdesc -> mem -> mem.
  Variable refx : nat -> minstr -> mem -> mem.
  Variable good : mem -> Prop.
  Hypothesis refd_ok : forall e s m, slab_okb true (t_x s) = true -> ref_do g ar e s m (refd e s m).
  Hypothesis good_do : forall e s m, good m -> good (refd e s m).
  Hypothesis good_x : forall e x m, is_exch x = true -> good m -> good (refx e x m).
  Hypothesis vx_ok : forall e x V V' m m', is_exch x = true -> vx2 (s_halo r) x V = Some V' ->
    bagree g ar e V m m' -> good m' -> bagree g ar e V' (runp e [x] m) (refx e x m').
  Hypothesis refx_frame : forall e x m e' b i, is_exch x = true -> e' <> e ->
    refx e x m ((e', Psi b), i) = m ((e', Psi b), i).

  Notation rrun e := (ref_run ar (refx e) (refd e)).
  Notation agr e := (bagree g ar e).

  Lemma runp_app2 e p q m : runp e (p ++ q) m = runp e q (runp e p m).
  Proof. rewrite (expand_app ex e). unfold prog_of. rewrite map_app. apply run_prog_app. Qed.
  Lemma rrun_app2 e p q m : rrun e (p ++ q) m = rrun e q (rrun e p m).
  Proof. apply fold_left_app. Qed.

  Lemma shape_slab p : shape2b p = true -> mslab_check DX p = true.
  Proof. unfold shape2b. intros H. apply andb_true_iff in H. apply H. Qed.

  Lemma vok2_agree e p p' V W m m' :
    (forall a, W a <> [] -> In a arrs2) ->
    Forall2 mcov p p' -> shape2b p' = true -> vok2 (s_halo r) p' V W = true ->
    agr e V m m' -> good m' -> agr e W (runp e p m) (rrun e p m') /\ good (rrun e p m').
  Proof.
    intros HW C S0 K A G. unfold vok2 in K. destruct (bxrun (vx2 (s_halo r)) p' V) as [V'|] eqn:EV; [|discriminate].
    pose proof (shape_slab _ (shape2b_cov _ _ C S0)) as S1.
    destruct (bxrun_agree g OK ar e ex (fun s => eq_refl) eq_refl (vx2 (s_halo r)) (refx e) (refd e)
      (refd_ok e) good (good_do e) (good_x e) (vx_ok e) p p' C V V' m m' S1 EV A G) as [A' G'].
    split; auto. eapply bagree_covers; eauto.
  Qed.

  Lemma mcovs_refl2 p : Forall2 mcov p p.
  Proof. induction p as [|a p IH]; constructor; auto. apply mcov_refl. Qed.

  (** a program that only touches [Psi b] at the element itself *)
  Lemma scale_agree2 e b k V m m' : V (Psi b) = [b2 0 0 0 0] ->
    agr e V m m' -> good m' ->
    agr e V (runp e (scale2 (Psi b) k) m) (rrun e (scale2 (Psi b) k) m') /\ good (rrun e (scale2 (Psi b) k) m').
  Proof.
    intros HV A G.
    assert (E : exists V', bxrun (vx2 (s_halo r)) (scale2 (Psi b) k) V = Some V' /\ bincl V V').
    { unfold scale2. destruct (k =? 0); [exists V; split; auto; intros a; apply incl_refl|].
      destruct (0 <? k); cbn [bxrun]; unfold bdo2;
        (eexists; split; [reflexivity|]; intros a B HB; unfold bset; cbn [t_arr at2];
         destruct (arr_eqb a (Psi b)) eqn:Ea; [|exact HB]; apply arr_eqb_eq in Ea; subst a;
         rewrite HV in HB; destruct HB as [<-|[]]; apply filter_In; split; [left; reflexivity|];
         cbn; unfold bget; cbn [fst snd]; rewrite HV; reflexivity). }
    destruct E as (V' & EV & E).
    destruct (bxrun_agree g OK ar e ex (fun s => eq_refl) eq_refl (vx2 (s_halo r)) (refx e) (refd e)
      (refd_ok e) good (good_do e) (good_x e) (vx_ok e) _ _ (mcovs_refl2 _) V V' m m' (shape_slab _ (shape_scale (Psi b) k)) EV A G) as [A' G'].
    split; auto. eapply bagree_incl; eauto.
  Qed.

  Lemma bars_agree2 e p V m m' : Forall (fun i => i = MBar) p ->
    agr e V m m' -> good m' -> agr e V (runp e p m) (rrun e p m') /\ good (rrun e p m').
  Proof.
    intros H A G. revert m m' A G. induction H as [|i p -> H IH]; intros m m' A G; [cbn; auto|].
    change (MBar :: p) with ([MBar] ++ p). rewrite runp_app2, rrun_app2. apply IH; auto.
  Qed.

  Lemma up_agree2 e b m m' : agr e (vinv2 o b) m m' -> good m' ->
    agr e (vpass2 o (negb b) None) (runp e (up2 r b) m) (rrun e (up2 r b) m') /\ good (rrun e (up2 r b) m').
  Proof.
    intros A G. destruct (up2_check r RK b) as [C S0].
    eapply vok2_agree; [apply in_arrs2_pass|apply up2_cov; exact RK|exact S0|exact C|exact A|exact G].
  Qed.
  Lemma co_agree2 e b j (last : bool) m m' : (0 < j)%nat -> (S j <= s_nit r)%nat ->
    agr e (vpass2 o b (kind j)) m m' -> good m' ->
    agr e (if last then vinv2 o (negb b) else vpass2 o (negb b) (kind (S j))) (runp e (co2 r b j last) m) (rrun e (co2 r b j last) m') /\
    good (rrun e (co2 r b j last) m').
  Proof.
    intros Hj Hj2 A G. destruct (co2_check r RK b j last Hj) as [S0 C]. specialize (C HST Hj2).
    eapply vok2_agree; [|apply co2_cov; [exact RK|exact Hj]|exact S0|exact C|exact A|exact G].
    destruct last; [apply in_arrs2_inv|apply in_arrs2_pass].
  Qed.

  Lemma pass_inv2 e b k m m' : agr e (vpass2 o b k) m m' -> agr e (vinv2 o b) m m'.
  Proof.
    intros A a E i Ha Hi. apply (A a E i); auto. unfold vpass2. cbv zeta.
    assert (NE : forall x, arr_eqb a x = true -> vinv2 o b x = [] -> False).
    { intros x Hx N. apply arr_eqb_eq in Hx. subst a. rewrite N in Ha. destruct Ha. }
    assert (R : In E (if fct o && (arr_eqb a PsiMin || arr_eqb a PsiMax) then [b2 1 1 1 1]
              else if arr_eqb a (Psi (negb b)) then [b2 (halo o) (halo o) (halo o) (halo o)] else vinv2 o b a)).
    { destruct (fct o && _) eqn:E2.
      - exfalso. apply andb_true_iff in E2. destruct E2 as [_ E2]. apply orb_true_iff in E2.
        destruct E2 as [E2|E2]; apply (NE _ E2); reflexivity.
      - destruct (arr_eqb a (Psi (negb b))) eqn:E3; auto. exfalso. apply (NE _ E3). destruct b; reflexivity. }
    destruct k as [c|]; auto.
    destruct (arr_eqb a (Cor c DX)) eqn:E1; [exfalso; apply (NE _ E1); reflexivity|].
    destruct (arr_eqb a (Cor c DY)) eqn:E2; [exfalso; apply (NE _ E2); reflexivity|]. auto.
  Qed.

  Lemma passes_agree2 e lasteq b more : forall j m m', (0 < j)%nat -> (j + more <= s_nit r)%nat ->
    agr e (vpass2 o (lev b j) (kind j)) m m' -> good m' ->
    let p := passes2 o (s_forms r) (s_nit r) lasteq b j more in
    agr e (vinv2 o (lev b (j + more))) (runp e p m) (rrun e p m') /\ good (rrun e p m').
  Proof.
    induction more as [|k IH]; intros j m m' Hj Hle A G; cbv zeta.
    - rewrite Nat.add_0_r. cbn. split; auto. apply (pass_inv2 e _ (kind j)). exact A.
    - cbn [passes2]. rewrite runp_app2, rrun_app2.
      destruct (bars_agree2 e (cyc_bars lasteq) _ m m' ltac:(destruct lasteq; cbn; auto) A G) as [A1 G1].
      set (m1 := runp e (cyc_bars lasteq) m) in *. set (m1' := rrun e (cyc_bars lasteq) m') in *.
      rewrite (lev_S b j).
      change ([MXS (Psi (lev b j)) (halo o)] ++
        corrective2 o (s_forms r) (Psi (lev b j)) (Psi (negb (lev b j))) (GC_unco j) (GC_corr j) (Nat.eqb (S j) (s_nit r)) ++
           passes2 o (s_forms r) (s_nit r) lasteq b (S j) k) with
        (co2 r (lev b j) j (Nat.eqb (S j) (s_nit r)) ++ passes2 o (s_forms r) (s_nit r) lasteq b (S j) k).
      rewrite runp_app2, rrun_app2.
      destruct (co_agree2 e (lev b j) j (Nat.eqb (S j) (s_nit r)) m1 m1' Hj ltac:(lia) A1 G1) as [A2 G2].
      destruct (Nat.eqb_spec (S j) (s_nit r)) as [L|L].
      + assert (k = 0)%nat by lia. subst k. cbn [passes2]. replace (j + 1)%nat with (S j) by lia. rewrite lev_S.
        split; [exact A2|exact G2].
      + rewrite <- (lev_S b j) in *.
        destruct (IH (S j) _ _ ltac:(lia) ltac:(lia) A2 G2) as [A3 G3].
        replace (j + S k)%nat with (S j + k)%nat by lia. split; [exact A3|exact G3].
  Qed.

  Lemma vinv2_psi b : vinv2 o b (Psi b) = [b2 0 0 0 0].
  Proof. unfold vinv2. rewrite (proj2 (arr_eqb_eq _ _) eq_refl). reflexivity. Qed.

  Lemma body_agree2 e k exq lasteq b m m' : (0 < k <= s_nit r)%nat ->
    agr e (vinv2 o b) m m' -> good m' ->
    let p := body2 o (s_forms r) (s_nit r) k exq lasteq b in
    agr e (vinv2 o (lev b k)) (runp e p m) (rrun e p m') /\ good (rrun e p m').
  Proof.
    intros Hk A G. cbv zeta. rewrite body2_split. rewrite runp_app2, rrun_app2.
    destruct (scale_agree2 e b exq (vinv2 o b) m m' (vinv2_psi b) A G) as [A1 G1].
    unfold mid2. assert (L1 : lev b 1 = negb b) by (unfold lev; destruct b; reflexivity). rewrite L1.
    rewrite (app_assoc (fct_init2 _ _ _)). rewrite <- app_assoc. rewrite app_comm_cons.
    change (MXS (Psi b) (halo o) :: fct_init2 o (s_forms r) (Psi b) ++ upstream2 o (s_forms r) (Psi b) (Psi (negb b)))
      with (up2 r b). rewrite !runp_app2, !rrun_app2.
    destruct (up_agree2 e b _ _ A1 G1) as [A2 G2]. rewrite <- L1 in A2.
    destruct (passes_agree2 e lasteq b (k - 1) 1 _ _ ltac:(lia) ltac:(lia) A2 G2) as [A3 G3].
    replace (1 + (k - 1))%nat with k in A3 by lia.
    destruct (bars_agree2 e (if lasteq then [MBar; MBar] else [MBar]) _ _ _
       ltac:(destruct lasteq; repeat constructor) A3 G3) as [A4 G4].
    apply scale_agree2; auto. apply vinv2_psi.
  Qed.

  (** *** Frame *)
  Lemma runp_frame2 e p m e' b i : e' <> e -> runp e p m ((e', Psi b), i) = m ((e', Psi b), i).
  Proof.
    intros NE. unfold expand. generalize (flat_map ex p). intros l. revert m.
    induction l as [|t l IH]; intros m; [reflexivity|].
    cbn [map prog_of]. destruct t as [s|]; cbn [inst_i instr_of run_prog fold_left run_instr].
    - etransitivity; [apply IH|]. apply run_stmt_out. intros t Ht Hin. apply in_el in Hin. destruct Hin as [Ha _].
      cbn in Ha. unfold tag in Ha. destruct (t_arr s); inversion Ha. congruence.
    - apply IH.
  Qed.
  Lemma rrun_frame2 e p m e' b i : mslab_check DX p = true -> e' <> e ->
    rrun e p m ((e', Psi b), i) = m ((e', Psi b), i).
  Proof.
    intros S0 NE. revert m S0. induction p as [|x p IH]; intros m S0; [reflexivity|].
    unfold mslab_check in S0. cbn [forallb] in S0. apply andb_true_iff in S0. destruct S0 as [Sx S0].
    cbn [ref_run fold_left]. etransitivity; [apply IH; exact S0|].
    destruct x as [s| | | | |]; cbn [ref_instr]; auto.
    apply (refd_ok e s m); auto. unfold tag. destruct (t_arr s); intros H; inversion H. congruence.
  Qed.

  (** *** All equations, all steps *)
  Definition runs2 (l : list (nat * list minstr)) (m : mem) : mem :=
    fold_left (fun m ep => runp (fst ep) (snd ep) m) l m.
  Definition rruns2 (l : list (nat * list minstr)) (m : mem) : mem :=
    fold_left (fun m ep => rrun (fst ep) (snd ep) m) l m.
  Lemma runs_expands2 l m : run_prog loc_eq_dec ar n (prog_of g (expands2 r l)) m = runs2 l m.
  Proof.
    revert m. induction l as [|[e p] l IH]; intros m; [reflexivity|].
    cbn [expands2 flat_map fst snd]. unfold prog_of. rewrite map_app, run_prog_app. apply IH.
  Qed.

  Definition inv2 (lv : nat -> bool) (m m' : mem) : Prop :=
    forall e, In e (eq_order2 r) -> agr e (vinv2 o (lv e)) m m'.

  Lemma inv_psi2 e e' b b' m m' m1 m1' :
    agr e (vinv2 o b) m m' ->
    (forall b i, m ((e', Psi b), i) = m1 ((e', Psi b), i)) -> (forall b i, m' ((e', Psi b), i) = m1' ((e', Psi b), i)) ->
    (forall i, in_box g (b2 0 0 0 0) i -> m1 ((e', Psi b'), i) = m1' ((e', Psi b'), i)) -> agr e' (vinv2 o b') m m'.
  Proof.
    intros A F F' A1 a E i Ha Hi. unfold vinv2 in Ha. destruct (arr_eqb a (Psi b')) eqn:Ea.
    - apply arr_eqb_eq in Ea. subst a. cbn [tag]. rewrite F, F'. destruct Ha as [<-|[]]. apply A1; auto.
    - assert (T : tag e' a = tag e a) by (destruct a; cbn in *; tauto || reflexivity).
      rewrite T. apply (A a E i); auto. unfold vinv2. destruct (arr_eqb a (Psi b)) eqn:Eb; auto.
      apply arr_eqb_eq in Eb. subst a. cbn in Ha. tauto.
  Qed.

  Lemma eqs_agree2 k es : forall lv m m', (0 < k <= s_nit r)%nat -> NoDup es -> incl es (eq_order2 r) ->
    inv2 lv m m' -> good m' ->
    inv2 (fun e => if existsb (Nat.eqb e) es then lev (lv e) k else lv e) (runs2 (eqs_macro2 r k es lv) m) (rruns2 (eqs_macro2 r k es lv) m')
    /\ good (rruns2 (eqs_macro2 r k es lv) m').
  Proof.
    induction es as [|e es IH]; intros lv m m' Hk ND HI A G.
    - cbn. auto.
    - inversion ND; subst. cbn [eqs_macro2 runs2 rruns2 fold_left fst snd].
      set (p := body2 _ _ _ _ _ _ _).
      destruct (body_agree2 e k (s_scale r e) (is_last_eqn (s_cfg r) e) (lv e) m m' Hk (A e (HI e (or_introl eq_refl))) G) as [A1 G1].
      fold p in A1, G1.
      set (m1 := runp e p m) in *. set (m1' := rrun e p m') in *.
      assert (I1 : inv2 (upd lv e (lev (lv e) k)) m1 m1').
      { intros e' He'. unfold upd. destruct (Nat.eqb_spec e' e) as [->|NE]; [exact A1|].
        eapply inv_psi2; [exact A1| | |].
        - intros b i. apply runp_frame2; auto.
        - intros b i. apply rrun_frame2; auto. apply shape_slab. apply shape_body. exact RK.
        - intros i Hi. apply (A e' He' (Psi (lv e')) (b2 0 0 0 0) i); auto. rewrite vinv2_psi. left. reflexivity. }
      destruct (IH _ m1 m1' Hk ltac:(auto) ltac:(intros x Hx; apply HI; right; auto) I1 G1) as [A2 G2].
      split; [|exact G2]. intros e' He'. specialize (A2 e' He'). cbn beta in A2.
      cbn [existsb]. unfold upd in A2.
      destruct (Nat.eq_dec e' e) as [Ee|NE].
      + rewrite Ee in *. rewrite Nat.eqb_refl in *. cbn [orb].
        replace (existsb (Nat.eqb e) es) with false in A2; [exact A2|].
        symmetry. apply not_true_is_false. intros H. apply existsb_exists in H. destruct H as (x & Hx & Ex).
        apply Nat.eqb_eq in Ex. rewrite <- Ex in Hx. contradiction.
      + rewrite (proj2 (Nat.eqb_neq e' e) NE) in *. exact A2.
  Qed.

  Lemma eq_order_nodup2 : NoDup (eq_order2 r).
  Proof.
    unfold eq_order2, plain_eqns, delayed_eqns. unfold eqns.
    assert (N : NoDup (seq 0 (n_eqns (s_cfg r)))) by apply seq_NoDup.
    induction (seq 0 (n_eqns (s_cfg r))) as [|x l IH]; cbn; [constructor|].
    inversion N; subst. destruct (is_delayed (s_cfg r) x); cbn.
    - apply NoDup_Add with (a := x) (l := filter (fun e => negb (is_delayed (s_cfg r) e)) l ++ filter (is_delayed (s_cfg r)) l).
      + apply Add_app.
      + split; auto. intros H. apply in_app_iff in H. rewrite !filter_In in H. tauto.
    - constructor; auto. intros H. apply in_app_iff in H. rewrite !filter_In in H. tauto.
  Qed.

  Lemma passes_pos2 ts : (0 < passes (s_nit r) (s_freq r) ts <= s_nit r)%nat.
  Proof. pose proof (ok2_nit _ RK). unfold passes. destruct (_ && _); lia. Qed.

  Lemma steps_agree2 nt : forall ts lv m m', inv2 lv m m' -> good m' ->
    inv2 (lv_after2 r nt ts lv) (runs2 (steps_macro2 r nt ts lv) m) (rruns2 (steps_macro2 r nt ts lv) m') /\
    good (rruns2 (steps_macro2 r nt ts lv) m').
  Proof.
    induction nt as [|k IH]; intros ts lv m m' A G; [cbn; auto|].
    cbn [steps_macro2 lv_after2 runs2 rruns2 fold_left fst snd].
    change (runp 0 [MBar] m) with m. change (rrun 0%nat [MBar] m') with m'.
    rewrite !fold_left_app.
    destruct (eqs_agree2 _ (eq_order2 r) lv m m' (passes_pos2 ts) eq_order_nodup2 (incl_refl _) A G) as [A1 G1].
    apply IH; auto.
  Qed.

  (** before the first step *)
  Definition inv0_2 (m m' : mem) : Prop := forall e, In e (eq_order2 r) -> agr e (vuser2 o) m m'.

  Lemma ante_agree2 m m' : inv0_2 m m' -> good m' -> (0 < n_eqns (s_cfg r))%nat ->
    inv2 (fun _ => false) (runp 0%nat (ante2 o) m) (rrun 0%nat (ante2 o) m') /\ good (rrun 0%nat (ante2 o) m').
  Proof.
    intros A G NE. pose proof (checks2 r RK) as C. unfold valid2_check in C. cbv zeta in C.
    apply andb_true_iff in C. destruct C as [C _]. apply andb_true_iff in C. destruct C as [C S0].
    assert (Z0 : In 0%nat (eq_order2 r)) by (apply in_eq_order2; auto).
    destruct (vok2_agree 0%nat (ante2 o) (ante2 o) (vuser2 o) (vinv2 o false) m m' (in_arrs2_inv o false)
                (mcovs_refl2 _) S0 C (A _ Z0) G) as [A1 G1].
    split; auto. intros e He. destruct (Nat.eq_dec e 0) as [->|NE0]; auto.
    eapply inv_psi2; [exact A1| | |].
    - intros b i. apply runp_frame2. auto.
    - intros b i. apply rrun_frame2; auto. apply shape_slab. exact S0.
    - intros i Hi. apply (A e He (Psi false) (b2 0 0 0 0) i); auto. left. reflexivity.
  Qed.

  Theorem run_agree2 nt m m' : (0 < n_eqns (s_cfg r))%nat -> inv0_2 m m' -> good m' ->
    inv2 (fun e => level_after2 r nt 0 false) (run_prog loc_eq_dec ar n (prog_of g (run_prog2 r nt)) m)
      (rruns2 (run_macro2 r nt) m') /\ good (rruns2 (run_macro2 r nt) m').
  Proof.
    intros NE A G. rewrite run_expands2, runs_expands2. unfold run_macro2, runs2, rruns2. cbn [fold_left fst snd].
    rewrite !fold_left_app. cbn [fold_left fst snd].
    destruct (ante_agree2 m m' A G NE) as [A1 G1].
    destruct (steps_agree2 nt 0 (fun _ => false) _ _ A1 G1) as [A2 G2].
    split; [|exact G2]. intros e He. specialize (A2 e He). rewrite lv_after_eq2 in A2 by auto. exact A2.
  Qed.
End Assemble.
