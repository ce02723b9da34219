(** 1D solver: a whole run agrees with a reference execution. *)
From Coq Require Import ZArith List Bool Lia ZifyBool.
From Verif Require Import SpecIndex ModelIndex ProofsIndex ModelRun Lang ProofsLang Stencil ProofsStencil
  FormCommon Form1D Solver1D Macro ProofsMacro Foot1D Proofs1D ProofsThread1D ProofsValid ProofsValid1D ProofsExch1D.
Import ListNotations.
Local Open Scope Z_scope.

(** ** The run as a list of one-equation programs *)
Section Macros.
  Variable r : run1.
  Fixpoint eqs_macro (k : nat) (es : list nat) (lv : nat -> bool) : list (nat * list minstr) :=
    match es with
    | [] => []
    | e :: es' =>
        (e, body1 (r_o r) (r_forms r) (r_nit r) k (r_scale r e) (is_last_eqn (r_cfg r) e) (lv e)) ::
        eqs_macro k es' (upd lv e (lev (lv e) k))
    end.
  Definition next_lv (ts : Z) (lv : nat -> bool) : nat -> bool :=
    fun e => if existsb (Nat.eqb e) (eq_order r) then lev (lv e) (passes (r_nit r) (r_freq r) ts) else lv e.
  Fixpoint steps_macro (nt : nat) (ts : Z) (lv : nat -> bool) : list (nat * list minstr) :=
    match nt with
    | O => []
    | S n =>
        (O, [MBar]) :: eqs_macro (passes (r_nit r) (r_freq r) ts) (eq_order r) lv ++
        steps_macro n (ts + 1) (next_lv ts lv)
    end.
  Definition expands (l : list (nat * list minstr)) : list dinstr :=
    flat_map (fun ep => expand_eq r (fst ep) (snd ep)) l.

  Lemma eqs_expands k es lv : eqs_prog r k es lv = expands (eqs_macro k es lv).
  Proof. revert lv. induction es as [|e es IH]; intros lv; cbn; auto. rewrite IH. reflexivity. Qed.
  Lemma steps_expands nt ts lv : steps_prog r nt ts lv = expands (steps_macro nt ts lv).
  Proof.
    revert ts lv. induction nt as [|m IH]; intros ts lv; [reflexivity|].
    cbn [steps_prog steps_macro expands flat_map fst snd]. rewrite eqs_expands, IH.
    unfold expands. rewrite flat_map_app. reflexivity.
  Qed.
  Definition run_macro (nt : nat) : list (nat * list minstr) :=
    (O, ante1 (r_o r)) :: steps_macro nt 0 (fun _ => false) ++ [(O, [MBar])].
  Lemma run_expands nt : run_prog1 r nt = expands (run_macro nt).
  Proof.
    unfold run_prog1, run_macro, expands. cbn [flat_map fst snd]. rewrite flat_map_app, steps_expands. reflexivity.
  Qed.

  (** levels after a number of steps *)
  Fixpoint lv_after (nt : nat) (ts : Z) (lv : nat -> bool) : nat -> bool :=
    match nt with O => lv | S n => lv_after n (ts + 1) (next_lv ts lv) end.

  Lemma lv_after_eq nt : forall ts lv e, In e (eq_order r) ->
    lv_after nt ts lv e = level_after r nt ts (lv e).
  Proof.
    induction nt as [|m IH]; intros ts lv e He; cbn; auto. rewrite IH by auto. unfold next_lv.
    replace (existsb (Nat.eqb e) (eq_order r)) with true; auto. symmetry. apply existsb_exists.
    exists e. split; auto. apply Nat.eqb_refl.
  Qed.
End Macros.

Section Assemble.
  Variables (r : run1) (n : nat).
  Hypothesis RK : run_ok r.
  Hypothesis Hn : (0 < n)%nat.
  Hypothesis Hs : Z.of_nat n <= r_hi r - r_lo r + 1.
  Hypothesis HST : no_stale (r_o r) (r_nit r) = true.
  Notation g := (geom1 (r_lo r) (r_hi r) n).
  Notation ex := (expand1 (r_halo r) (r_hi r - r_lo r) (r_bl r) (r_br r)).
  Notation o := (r_o r).
  Let OK : geom_ok g := geom1_ok _ _ _ Hn Hs.
  Variable ar : arith.
  Notation mem := (loc -> car ar).
  Notation runp e p := (run_prog loc_eq_dec ar n (prog_of g (expand ex e p))).

  Variable refd : nat -> tdesc -> mem -> mem.
  Variable refx : nat -> minstr -> mem -> mem.
  Variable good : mem -> Prop.
  Hypothesis refd_ok : forall e s m, slab_okb true (t_x s) = true -> ref_do g ar e s m (refd e s m).
  Hypothesis good_do : forall e s m, good m -> good (refd e s m).
  Hypothesis good_x : forall e x m, is_exch x = true -> good m -> good (refx e x m).
  Hypothesis vx_ok : forall e x V V' m m', is_exch x = true -> vx1 (r_halo r) x V = Some V' ->
    agree g ar e V m m' -> good m' -> agree g ar e V' (runp e [x] m) (refx e x m').
  Hypothesis refx_frame : forall e x m e' b i, is_exch x = true -> e' <> e ->
    refx e x m ((e', Psi b), i) = m ((e', Psi b), i).

  Notation rrun e := (ref_run ar (refx e) (refd e)).
  Notation agr e := (agree g ar e).

  Lemma runp_app e p q m : runp e (p ++ q) m = runp e q (runp e p m).
  Proof. rewrite (expand_app ex e). unfold prog_of. rewrite map_app. apply run_prog_app. Qed.
  Lemma rrun_app e p q m : rrun e (p ++ q) m = rrun e q (rrun e p m).
  Proof. apply fold_left_app. Qed.

  Lemma vok_agree e p p' V W m m' :
    (forall a, W a <> None -> In a arrs) ->
    Forall2 mcov p p' -> mslab_check DX p = true -> vok (r_halo r) p' V W = true ->
    agr e V m m' -> good m' -> agr e W (runp e p m) (rrun e p m') /\ good (rrun e p m').
  Proof.
    intros HW C S0 K A G. unfold vok in K. destruct (vrun (vx1 (r_halo r)) p' V) as [V'|] eqn:EV; [|discriminate].
    apply (vrun_cov _ _ _ _ _ C) in EV.
    destruct (vrun_agree g OK ar e ex (fun s => eq_refl) eq_refl (vx1 (r_halo r)) (refx e) (refd e)
      (refd_ok e) good (good_do e) (good_x e) (vx_ok e) p V V' m m' S0 EV A G) as [A' G'].
    split; auto. eapply agree_covers; eauto.
  Qed.

  Lemma mcovs_refl p : Forall2 mcov p p.
  Proof. induction p as [|a p IH]; constructor; auto. apply mcov_refl. Qed.

  (** a program that only touches [Psi b] at the element itself *)
  Lemma scale_agree e b k V m m' : V (Psi b) = Some (bx 0 0) ->
    agr e V m m' -> good m' ->
    agr e V (runp e (scale1 (Psi b) k) m) (rrun e (scale1 (Psi b) k) m') /\ good (rrun e (scale1 (Psi b) k) m').
  Proof.
    intros HV A G.
    assert (E : exists V', vrun (vx1 (r_halo r)) (scale1 (Psi b) k) V = Some V' /\ forall a, V' a = V a).
    { unfold scale1. destruct (k =? 0); [exists V; split; auto|].
      assert (S1 : forall a, vset V (Psi b) ((0,0),(0,0),(0,0)) a = V a).
      { intros a. unfold vset. destruct (arr_eqb a (Psi b)) eqn:Ea; auto. apply arr_eqb_eq in Ea. subst. auto. }
      destruct (0 <? k); cbn; unfold vdo, s_ext; cbn; unfold vget; cbn [fst snd]; rewrite HV;
        (eexists; split; [reflexivity|exact S1]). }
    destruct E as (V' & EV & E).
    assert (S0 : mslab_check DX (scale1 (Psi b) k) = true).
    { unfold scale1. destruct (k =? 0); [reflexivity|]. destruct (0 <? k); reflexivity. }
    destruct (vrun_agree g OK ar e ex (fun s => eq_refl) eq_refl (vx1 (r_halo r)) (refx e) (refd e)
      (refd_ok e) good (good_do e) (good_x e) (vx_ok e) _ V V' m m' S0 EV A G) as [A' G'].
    split; auto. intros a B i Ha. rewrite <- E in Ha. apply A'; auto.
  Qed.

  Lemma bars_agree e p V m m' : Forall (fun i => i = MBar) p ->
    agr e V m m' -> good m' -> agr e V (runp e p m) (rrun e p m') /\ good (rrun e p m').
  Proof.
    intros H A G. revert m m' A G. induction H as [|i p -> H IH]; intros m m' A G; [cbn; auto|].
    change (MBar :: p) with ([MBar] ++ p). rewrite runp_app, rrun_app. apply IH; auto.
  Qed.

  Lemma checks : valid1_check o = true.
  Proof. exact (all_flv_sound _ valid1_check_all o). Qed.

  Lemma up_agree e b m m' : agr e (vinv o b) m m' -> good m' ->
    let p := MXS (Psi b) 0 :: fct_init1 o (r_forms r) (Psi b) ++ upstream1 o (r_forms r) (Psi b) (Psi (negb b)) in
    agr e (vpass o (negb b) None) (runp e p m) (rrun e p m') /\ good (rrun e p m').
  Proof.
    intros A G p. pose proof checks as C. unfold valid1_check in C.
    apply andb_true_iff in C. destruct C as [_ C]. rewrite forallb_forall in C. specialize (C b (in_bools b)).
    apply andb_true_iff in C. destruct C as [C _]. apply andb_true_iff in C. destruct C as [C _].
    pose proof (forms1_cov o (r_sp r) (r_tp r) (ok_fl _ RK)) as FC.
    eapply vok_agree; [apply in_arrs_pass| | |exact C|exact A|exact G].
    - constructor; [apply mcov_refl|]. apply Forall2_app; [apply fct_init1_cov; exact FC|apply upstream1_cov; exact FC].
    - destruct (checked1 r RK b) as [[_ S1] _]. exact S1.
  Qed.

  Definition kind (j : nat) : option bool := if Nat.eqb j 1 then None else Some (negb (Nat.odd j)).
  Lemma kind_unco j : GC_unco j = unco_of (kind j).
  Proof. unfold GC_unco, kind. destruct (Nat.eqb j 1); reflexivity. Qed.
  Lemma kind_corr j : GC_corr j = Cor (corr_of (kind j)).
  Proof.
    unfold GC_corr, kind. destruct (Nat.eqb_spec j 1) as [->|]; [reflexivity|]. cbn. rewrite negb_involutive. reflexivity.
  Qed.
  Lemma kind_next j : (0 < j)%nat -> kind (S j) = Some (corr_of (kind j)).
  Proof.
    intros H. unfold kind. destruct (Nat.eqb_spec (S j) 1); [lia|]. rewrite Nat.odd_succ, <- Nat.negb_odd, negb_involutive.
    destruct (Nat.eqb_spec j 1) as [->|]; [reflexivity|]. cbn. rewrite negb_involutive. reflexivity.
  Qed.
  Lemma in_kopts k : In k kopts.
  Proof. destruct k as [[]|]; cbn; auto. Qed.

  Lemma co_agree e b j last m m' : (0 < j)%nat -> (S j <= r_nit r)%nat ->
    agr e (vpass o b (kind j)) m m' -> good m' ->
    let p := MXS (Psi b) 0 :: corrective1 o (r_forms r) (Psi b) (Psi (negb b)) (GC_unco j) (GC_corr j) last in
    agr e (if last then vinv o (negb b) else vpass o (negb b) (kind (S j))) (runp e p m) (rrun e p m') /\
    good (rrun e p m').
  Proof.
    intros Hj Hj2 A G p. pose proof checks as C. unfold valid1_check in C.
    apply andb_true_iff in C. destruct C as [_ C]. rewrite forallb_forall in C. specialize (C b (in_bools b)).
    apply andb_true_iff in C. destruct C as [_ C]. rewrite forallb_forall in C. specialize (C _ (in_kopts (kind j))).
    rewrite forallb_forall in C. specialize (C last (in_bools last)). apply andb_true_iff in C. destruct C as [_ C].
    rewrite <- kind_unco, <- kind_corr, <- kind_next in C by auto.
    apply orb_true_iff in C. destruct C as [C|C].
    - exfalso. unfold no_stale in HST. unfold kind in C. destruct (Nat.eqb_spec j 1); [lia|].
      apply orb_true_iff in HST. destruct HST as [H|H]; [|apply Nat.leb_le in H; lia].
      destruct (fct o), (div2 o); cbn in *; try discriminate.
    - pose proof (forms1_cov o (r_sp r) (r_tp r) (ok_fl _ RK)) as FC.
      eapply vok_agree; [| | |exact C|exact A|exact G].
      + destruct last; [apply in_arrs_inv|apply in_arrs_pass].
      + constructor; [apply mcov_refl|]. pose proof (kinds_of j Hj) as K. apply corrective1_cov; [exact FC| |];
          unfold kinds in K; cbn [In] in K; unfold vecs; cbn [In];
          destruct K as [K|[K|[K|[]]]]; inversion K; auto.
      + destruct (checked1 r RK b) as [_ S1]. exact (proj2 (S1 j last Hj)).
  Qed.

  Lemma pass_inv e b k m m' : agr e (vpass o b k) m m' -> agr e (vinv o b) m m'.
  Proof.
    intros A a E i Ha Hi. apply (A a E i); auto. unfold vpass.
    assert (N : forall x, arr_eqb a x = true -> vinv o b x = None -> vinv o b a = vinv o b a) by auto.
    destruct k as [c|].
    - destruct (arr_eqb a (Cor c DX)) eqn:E1.
      + apply arr_eqb_eq in E1. subst. unfold vinv in Ha. cbn in Ha. discriminate.
      + destruct (fct o && _) eqn:E2; auto. apply andb_true_iff in E2. destruct E2 as [_ E2].
        apply orb_true_iff in E2. destruct E2 as [E2|E2]; apply arr_eqb_eq in E2; subst; cbn in Ha; discriminate.
    - destruct (fct o && _) eqn:E2; auto. apply andb_true_iff in E2. destruct E2 as [_ E2].
      apply orb_true_iff in E2. destruct E2 as [E2|E2]; apply arr_eqb_eq in E2; subst; cbn in Ha; discriminate.
  Qed.

  Lemma passes_agree e lasteq b more : forall j m m', (0 < j)%nat -> (j + more <= r_nit r)%nat ->
    agr e (vpass o (lev b j) (kind j)) m m' -> good m' ->
    let p := passes1 o (r_forms r) (r_nit r) lasteq b j more in
    agr e (vinv o (lev b (j + more))) (runp e p m) (rrun e p m') /\ good (rrun e p m').
  Proof.
    induction more as [|k IH]; intros j m m' Hj Hle A G; cbv zeta.
    - rewrite Nat.add_0_r. cbn. split; auto. apply (pass_inv e _ (kind j)). exact A.
    - cbn [passes1]. rewrite runp_app, rrun_app.
      destruct (bars_agree e (cyc_bars lasteq) _ m m' ltac:(destruct lasteq; cbn; auto) A G) as [A1 G1].
      set (m1 := runp e (cyc_bars lasteq) m) in *. set (m1' := rrun e (cyc_bars lasteq) m') in *.
      cbn [app].
      change (MXS (Psi (lev b j)) 0
        :: corrective1 o (r_forms r) (Psi (lev b j)) (Psi (lev b (S j))) (GC_unco j) (GC_corr j) (Nat.eqb (S j) (r_nit r)) ++
           passes1 o (r_forms r) (r_nit r) lasteq b (S j) k) with
        ((MXS (Psi (lev b j)) 0
        :: corrective1 o (r_forms r) (Psi (lev b j)) (Psi (lev b (S j))) (GC_unco j) (GC_corr j) (Nat.eqb (S j) (r_nit r))) ++
           passes1 o (r_forms r) (r_nit r) lasteq b (S j) k).
      rewrite runp_app, rrun_app. rewrite (lev_S b j).
      destruct (co_agree e (lev b j) j (Nat.eqb (S j) (r_nit r)) m1 m1' Hj ltac:(lia) A1 G1) as [A2 G2].
      destruct (Nat.eqb_spec (S j) (r_nit r)) as [L|L].
      + assert (k = 0)%nat by lia. subst k. cbn [passes1]. replace (j + 1)%nat with (S j) by lia. rewrite lev_S.
        cbn. split; [exact A2|exact G2].
      + rewrite <- (lev_S b j) in *.
        destruct (IH (S j) _ _ ltac:(lia) ltac:(lia) A2 G2) as [A3 G3].
        replace (j + S k)%nat with (S j + k)%nat by lia. split; [exact A3|exact G3].
  Qed.

  Lemma body_agree e k exq lasteq b m m' : (0 < k <= r_nit r)%nat ->
    agr e (vinv o b) m m' -> good m' ->
    let p := body1 o (r_forms r) (r_nit r) k exq lasteq b in
    agr e (vinv o (lev b k)) (runp e p m) (rrun e p m') /\ good (rrun e p m').
  Proof.
    intros Hk A G. cbv zeta. rewrite body1_split. rewrite runp_app, rrun_app.
    destruct (scale_agree e b exq (vinv o b) m m' ltac:(unfold vinv; rewrite (proj2 (arr_eqb_eq _ _) eq_refl); reflexivity) A G) as [A1 G1].
    unfold mid1.
    change (MXS (Psi b) 0 :: (fct_init1 o (r_forms r) (Psi b) ++ upstream1 o (r_forms r) (Psi b) (Psi (lev b 1)) ++
       passes1 o (r_forms r) (r_nit r) lasteq b 1 (k - 1)) ++ (if lasteq then [MBar; MBar] else [MBar]) ++
       scale1 (Psi (lev b k)) (- exq)) with
      ((MXS (Psi b) 0 :: fct_init1 o (r_forms r) (Psi b) ++ upstream1 o (r_forms r) (Psi b) (Psi (lev b 1)) ++
       passes1 o (r_forms r) (r_nit r) lasteq b 1 (k - 1)) ++ (if lasteq then [MBar; MBar] else [MBar]) ++
       scale1 (Psi (lev b k)) (- exq)).
    rewrite (app_assoc (fct_init1 _ _ _)), app_comm_cons.
    rewrite <- app_assoc. rewrite !runp_app, !rrun_app.
    assert (L1 : lev b 1 = negb b) by (unfold lev; destruct b; reflexivity). rewrite L1.
    destruct (up_agree e b _ _ A1 G1) as [A2 G2]. rewrite <- L1 in *.
    destruct (passes_agree e lasteq b (k - 1) 1 _ _ ltac:(lia) ltac:(lia) A2 G2) as [A3 G3].
    replace (1 + (k - 1))%nat with k in A3 by lia.
    destruct (bars_agree e (if lasteq then [MBar; MBar] else [MBar]) _ _ _
       ltac:(destruct lasteq; repeat constructor) A3 G3) as [A4 G4].
    apply scale_agree; auto. unfold vinv. rewrite (proj2 (arr_eqb_eq _ _) eq_refl). reflexivity.
  Qed.

  (** *** Frame *)
  Lemma runp_frame e p m e' b i : e' <> e -> runp e p m ((e', Psi b), i) = m ((e', Psi b), i).
  Proof.
    intros NE. unfold expand. generalize (flat_map ex p). intros l. revert m.
    induction l as [|t l IH]; intros m; [reflexivity|].
    cbn [map prog_of]. destruct t as [s|]; cbn [inst_i instr_of run_prog fold_left run_instr].
    - etransitivity; [apply IH|]. apply run_stmt_out. intros t Ht Hin. apply in_el in Hin. destruct Hin as [Ha _].
      cbn in Ha. unfold tag in Ha. destruct (t_arr s); inversion Ha. congruence.
    - apply IH.
  Qed.
  Lemma rrun_frame e p m e' b i : mslab_check DX p = true -> e' <> e ->
    rrun e p m ((e', Psi b), i) = m ((e', Psi b), i).
  Proof.
    intros S0 NE. revert m S0. induction p as [|x p IH]; intros m S0; [reflexivity|].
    unfold mslab_check in S0. cbn [forallb] in S0. apply andb_true_iff in S0. destruct S0 as [Sx S0].
    cbn [ref_run fold_left]. etransitivity; [apply IH; exact S0|].
    destruct x as [s| | | | |]; cbn [ref_instr]; auto.
    apply (refd_ok e s m); auto. unfold tag. destruct (t_arr s); intros H; inversion H. congruence.
  Qed.

  Lemma body_slab k exq lasteq b : mslab_check DX (body1 o (r_forms r) (r_nit r) k exq lasteq b) = true.
  Proof.
    rewrite body1_split. destruct (good_mid r n RK Hn k lasteq b) as [_ S1]. unfold mslab_check in *.
    rewrite forallb_app. cbn [forallb]. rewrite !forallb_app, S1.
    assert (SC : forall a k, forallb (fun i => match i with MDo s => slab_okb true (t_r s DX) | _ => true end) (scale1 a k) = true).
    { intros a k'. unfold scale1. destruct (k' =? 0); [reflexivity|]. destruct (0 <? k'); reflexivity. }
    rewrite !SC. destruct lasteq; reflexivity.
  Qed.

  (** *** All equations, all steps *)
  Definition runs (l : list (nat * list minstr)) (m : mem) : mem :=
    fold_left (fun m ep => runp (fst ep) (snd ep) m) l m.
  Definition rruns (l : list (nat * list minstr)) (m : mem) : mem :=
    fold_left (fun m ep => rrun (fst ep) (snd ep) m) l m.
  Lemma runs_expands l m : run_prog loc_eq_dec ar n (prog_of g (expands r l)) m = runs l m.
  Proof.
    revert m. induction l as [|[e p] l IH]; intros m; [reflexivity|].
    cbn [expands flat_map fst snd]. unfold prog_of. rewrite map_app, run_prog_app. apply IH.
  Qed.

  Definition inv (lv : nat -> bool) (m m' : mem) : Prop :=
    forall e, In e (eq_order r) -> agr e (vinv o (lv e)) m m'.

  Lemma inv_shared e e' b b' m m' m1 m1' :
    agr e (vinv o b) m m' ->
    (forall b i, m ((e', Psi b), i) = m1 ((e', Psi b), i)) -> (forall b i, m' ((e', Psi b), i) = m1' ((e', Psi b), i)) ->
    agr e' (vinv o b') m1 m1' -> agr e' (vinv o b') m m'.
  Proof.
    intros A F F' A1 a E i Ha Hi. unfold vinv in Ha. destruct (arr_eqb a (Psi b')) eqn:Ea.
    - apply arr_eqb_eq in Ea. subst a. cbn [tag]. rewrite F, F'. apply (A1 (Psi b') E i); auto.
      unfold vinv. rewrite (proj2 (arr_eqb_eq _ _) eq_refl). auto.
    - assert (T : tag e' a = tag e a) by (destruct a; cbn in *; try discriminate; reflexivity).
      rewrite T. apply (A a E i); auto. unfold vinv. destruct (arr_eqb a (Psi b)) eqn:Eb; auto.
      apply arr_eqb_eq in Eb. subst a. cbn in Ha. discriminate.
  Qed.

  Lemma eqs_agree k es : forall lv m m', (0 < k <= r_nit r)%nat -> NoDup es -> incl es (eq_order r) ->
    inv lv m m' -> good m' ->
    inv (fun e => if existsb (Nat.eqb e) es then lev (lv e) k else lv e) (runs (eqs_macro r k es lv) m) (rruns (eqs_macro r k es lv) m')
    /\ good (rruns (eqs_macro r k es lv) m').
  Proof.
    induction es as [|e es IH]; intros lv m m' Hk ND HI A G.
    - cbn. auto.
    - inversion ND; subst. cbn [eqs_macro runs rruns fold_left fst snd].
      set (p := body1 _ _ _ _ _ _ _).
      destruct (body_agree e k (r_scale r e) (is_last_eqn (r_cfg r) e) (lv e) m m' Hk (A e (HI e (or_introl eq_refl))) G) as [A1 G1].
      fold p in A1, G1.
      set (m1 := runp e p m) in *. set (m1' := rrun e p m') in *.
      assert (I1 : inv (upd lv e (lev (lv e) k)) m1 m1').
      { intros e' He'. unfold upd. destruct (Nat.eqb_spec e' e) as [->|NE]; [exact A1|].
        eapply inv_shared; [exact A1| | |exact (A e' He')].
        - intros b i. apply runp_frame; auto.
        - intros b i. apply rrun_frame; auto. apply body_slab. }
      destruct (IH _ m1 m1' Hk ltac:(auto) ltac:(intros x Hx; apply HI; right; auto) I1 G1) as [A2 G2].
      split; [|exact G2]. intros e' He'. specialize (A2 e' He'). cbn beta in A2.
      cbn [existsb]. unfold upd in A2.
      destruct (Nat.eq_dec e' e) as [Ee|NE].
      + rewrite Ee in *. rewrite Nat.eqb_refl in *. cbn [orb].
        replace (existsb (Nat.eqb e) es) with false in A2; [exact A2|].
        symmetry. apply not_true_is_false. intros H. apply existsb_exists in H. destruct H as (x & Hx & Ex).
        apply Nat.eqb_eq in Ex. rewrite <- Ex in Hx. contradiction.
      + rewrite (proj2 (Nat.eqb_neq e' e) NE) in *. exact A2.
  Qed.

  Lemma eq_order_nodup : NoDup (eq_order r).
  Proof.
    unfold eq_order, plain_eqns, delayed_eqns. unfold eqns.
    assert (N : NoDup (seq 0 (n_eqns (r_cfg r)))) by apply seq_NoDup.
    induction (seq 0 (n_eqns (r_cfg r))) as [|x l IH]; cbn; [constructor|].
    inversion N; subst. destruct (is_delayed (r_cfg r) x); cbn.
    - apply NoDup_Add with (a := x) (l := filter (fun e => negb (is_delayed (r_cfg r) e)) l ++ filter (is_delayed (r_cfg r)) l).
      + apply Add_app.
      + split; auto. intros H. apply in_app_iff in H. rewrite !filter_In in H. tauto.
    - constructor; auto. intros H. apply in_app_iff in H. rewrite !filter_In in H. tauto.
  Qed.

  Lemma passes_pos ts : (0 < passes (r_nit r) (r_freq r) ts <= r_nit r)%nat.
  Proof. pose proof (ok_nit _ RK). unfold passes. destruct (_ && _); lia. Qed.

  Lemma steps_agree nt : forall ts lv m m', inv lv m m' -> good m' ->
    inv (lv_after r nt ts lv) (runs (steps_macro r nt ts lv) m) (rruns (steps_macro r nt ts lv) m') /\
    good (rruns (steps_macro r nt ts lv) m').
  Proof.
    induction nt as [|k IH]; intros ts lv m m' A G; [cbn; auto|].
    cbn [steps_macro lv_after runs rruns fold_left fst snd].
    change (runp 0 [MBar] m) with m. change (rrun 0%nat [MBar] m') with m'.
    rewrite !fold_left_app.
    destruct (eqs_agree _ (eq_order r) lv m m' (passes_pos ts) eq_order_nodup (incl_refl _) A G) as [A1 G1].
    apply IH; auto.
  Qed.

  (** before the first step *)
  Definition inv0 (m m' : mem) : Prop := forall e, In e (eq_order r) -> agr e (vuser o) m m'.

  Lemma in_eq_order e : In e (eq_order r) <-> (e < n_eqns (r_cfg r))%nat.
  Proof.
    unfold eq_order, plain_eqns, delayed_eqns, eqns. rewrite in_app_iff, !filter_In, !in_seq.
    destruct (is_delayed (r_cfg r) e); cbn; intuition lia.
  Qed.

  Lemma inv_psi e e' b b' m m' m1 m1' :
    agr e (vinv o b) m m' ->
    (forall b i, m ((e', Psi b), i) = m1 ((e', Psi b), i)) -> (forall b i, m' ((e', Psi b), i) = m1' ((e', Psi b), i)) ->
    (forall i, in_box g (bx 0 0) i -> m1 ((e', Psi b'), i) = m1' ((e', Psi b'), i)) -> agr e' (vinv o b') m m'.
  Proof.
    intros A F F' A1 a E i Ha Hi. unfold vinv in Ha. destruct (arr_eqb a (Psi b')) eqn:Ea.
    - apply arr_eqb_eq in Ea. subst a. cbn [tag]. rewrite F, F'. inversion Ha; subst. apply A1; auto.
    - assert (T : tag e' a = tag e a) by (destruct a; cbn in *; try discriminate; reflexivity).
      rewrite T. apply (A a E i); auto. unfold vinv. destruct (arr_eqb a (Psi b)) eqn:Eb; auto.
      apply arr_eqb_eq in Eb. subst a. cbn in Ha. discriminate.
  Qed.

  Lemma ante_agree m m' : inv0 m m' -> good m' -> (0 < n_eqns (r_cfg r))%nat ->
    inv (fun _ => false) (runp 0%nat (ante1 o) m) (rrun 0%nat (ante1 o) m') /\ good (rrun 0%nat (ante1 o) m').
  Proof.
    intros A G NE. pose proof checks as C. unfold valid1_check in C.
    apply andb_true_iff in C. destruct C as [C _]. apply andb_true_iff in C. destruct C as [C _].
    assert (S0 : mslab_check DX (ante1 o) = true) by apply (good_ante r).
    assert (Z0 : In 0%nat (eq_order r)) by (apply in_eq_order; auto).
    destruct (vok_agree 0%nat (ante1 o) (ante1 o) (vuser o) (vinv o false) m m' (in_arrs_inv o false)
                (mcovs_refl _) S0 C (A _ Z0) G) as [A1 G1].
    split; auto. intros e He. destruct (Nat.eq_dec e 0) as [->|NE0]; auto.
    eapply inv_psi; [exact A1| | |].
    - intros b i. apply runp_frame. auto.
    - intros b i. apply rrun_frame; auto.
    - intros i Hi. apply (A e He (Psi false) (bx 0 0) i); auto.
  Qed.

  Theorem run_agree nt m m' : (0 < n_eqns (r_cfg r))%nat -> inv0 m m' -> good m' ->
    inv (fun e => level_after r nt 0 false) (run_prog loc_eq_dec ar n (prog_of g (run_prog1 r nt)) m)
      (rruns (run_macro r nt) m') /\ good (rruns (run_macro r nt) m').
  Proof.
    intros NE A G. rewrite run_expands, runs_expands. unfold run_macro, runs, rruns. cbn [fold_left fst snd].
    rewrite !fold_left_app. cbn [fold_left fst snd].
    destruct (ante_agree m m' A G NE) as [A1 G1].
    destruct (steps_agree nt 0 (fun _ => false) _ _ A1 G1) as [A2 G2].
    split; [|exact G2]. intros e He. specialize (A2 e He). rewrite lv_after_eq in A2 by auto. exact A2.
  Qed.
End Assemble.
