(** A finished run of the 1D solver holds the fields computed by the functions
    of Fun1D.v. *)
From Coq Require Import ZArith List Bool Lia ZifyBool.
From Verif Require Import SpecIndex ModelIndex ProofsIndex ModelRun Lang ProofsLang Stencil ProofsStencil
  FormCommon Form1D Solver1D Macro ProofsMacro Foot1D Proofs1D ProofsThread1D ProofsValid ProofsValid1D
  ProofsExch1D ProofsRef1D Lattice ProofsLattice ProofsLattice1D SpecThreads SpecFields ProofsCyclic1D
  Fun1D ProofsFun1D.
Import ListNotations.
Local Open Scope Z_scope.

Notation "f == g" := (forall x : Z, f x = g x) (at level 70).

(** ** The lattice with folding exchanges *)
Section Fold.
  Variable ar : arith.
  Variables (rs : Z -> Z) (rv : bool -> Z -> Z).
  Notation mem := (loc -> car ar).

  Definition foldx (e : nat) (x : minstr) (f : mem) : mem :=
    match x with
    | MXS a _ => fun l => if garr_eqb (fst l) (tag e a) then f (fst l, reix rs (snd l)) else f l
    | MXVA v ad => fun l => if garr_eqb (fst l) (tag e (v DX)) then f (fst l, reix (rv ad) (snd l)) else f l
    | _ => f
    end.
  Notation rrun e := (ref_run ar (foldx e) (lat_do ar e)).

  (** fields that do not depend on the other two indices *)
  Definition flat (f : mem) : Prop := forall a x y z, f (a, (x, y, z)) = f (a, (x, 0, 0)).
  Lemma flat_do e s f : flat f -> flat (lat_do ar e s f).
  Proof.
    intros H a x y z. unfold lat_do. cbn [fst snd]. destruct garr_eqb; [|apply H].
    apply ev_ext. intros [b [[u v] w]] _. unfold iadd. cbn [fst snd]. rewrite H. symmetry. apply H.
  Qed.
  Lemma flat_x e x f : flat f -> flat (foldx e x f).
  Proof.
    intros H a i y z. destruct x; cbn [foldx]; try apply H; cbn [fst snd]; destruct garr_eqb; try apply H;
      unfold reix; cbn [comp fst snd]; apply H.
  Qed.

  Definition view (e : nat) (f : mem) : arr -> Z -> car ar := fun a x => f (tag e a, (x, 0, 0)).

  Lemma tag_eqb e a b : garr_eqb (tag e a) (tag e b) = arr_eqb a b.
  Proof.
    destruct (arr_eqb a b) eqn:E.
    - apply arr_eqb_eq in E. subst. apply garr_eqb_eq. reflexivity.
    - apply not_true_is_false. intros H. apply garr_eqb_eq in H. apply tag_inj in H.
      apply arr_eqb_eq in H. congruence.
  Qed.

  Definition veq (g g' : arr -> Z -> car ar) : Prop := forall a x, g a x = g' a x.
  Lemma l1_instr_ext g g' i : veq g g' -> veq (l1_instr ar rs rv g i) (l1_instr ar rs rv g' i).
  Proof.
    intros H a x. destruct i; cbn [l1_instr]; try apply H.
    - unfold l1_do. destruct arr_eqb; [|apply H]. apply evx_ext. apply H.
    - destruct arr_eqb; apply H.
    - destruct arr_eqb; apply H.
  Qed.
  Lemma l1_prog_ext p : forall g g', veq g g' -> veq (l1_prog ar rs rv p g) (l1_prog ar rs rv p g').
  Proof.
    induction p as [|i p IH]; intros g g' H; [exact H|]. cbn [l1_prog fold_left]. apply IH. apply l1_instr_ext. exact H.
  Qed.

  Lemma view_instr e i f : flat f ->
    veq (view e (ref_instr ar (foldx e) (lat_do ar e) i f)) (l1_instr ar rs rv (view e f) i).
  Proof.
    intros Hf a x. unfold view. destruct i as [s| |b ext|v ad|v ext|v]; cbn [ref_instr l1_instr foldx]; auto.
    - unfold lat_do, l1_do. cbn [fst snd]. rewrite tag_eqb. destruct arr_eqb; auto. unfold evx.
      apply ev_ext. intros [b [[u v] w]] _. unfold iadd. cbn [fst snd comp]. apply Hf.
    - cbn [fst snd]. rewrite tag_eqb. destruct arr_eqb; auto.
    - cbn [fst snd]. rewrite tag_eqb. destruct arr_eqb; auto.
  Qed.
  Lemma flat_run e p : forall f, flat f -> flat (rrun e p f).
  Proof.
    induction p as [|i p IH]; intros f Hf; [exact Hf|]. cbn [ref_run fold_left]. apply IH.
    destruct i; cbn [ref_instr]; auto; try (apply flat_x; auto). apply flat_do; auto.
  Qed.
  Lemma view_run e p : forall f, flat f -> veq (view e (rrun e p f)) (l1_prog ar rs rv p (view e f)).
  Proof.
    induction p as [|i p IH]; intros f Hf; [intros a x; reflexivity|].
    intros a x. cbn [ref_run fold_left].
    change (fold_left (fun m i => ref_instr ar (foldx e) (lat_do ar e) i m) p ?z) with (rrun e p z).
    rewrite IH.
    - cbn [l1_prog fold_left]. apply l1_prog_ext. apply view_instr. exact Hf.
    - destruct i; cbn [ref_instr]; auto; try (apply flat_x; auto). apply flat_do; auto.
  Qed.

  (** other equations *)
  Lemma frame_run e p e' b : e' <> e -> forall f i, rrun e p f ((e', Psi b), i) = f ((e', Psi b), i).
  Proof.
    intros NE. induction p as [|x p IH]; intros f i; [reflexivity|]. cbn [ref_run fold_left].
    etransitivity; [apply IH|].
    assert (T : forall a, garr_eqb (e', Psi b) (tag e a) = false).
    { intros a. apply not_true_is_false. intros H. apply garr_eqb_eq in H. destruct a; inversion H. congruence. }
    destruct x; cbn [ref_instr foldx]; auto; unfold lat_do; cbn [fst snd]; rewrite T; reflexivity.
  Qed.
End Fold.

Section RunF.
  Variables (r : run1) (n : nat).
  Hypothesis RK : run_ok r.
  Hypothesis Hn : (0 < n)%nat.
  Hypothesis Hs : Z.of_nat n <= r_hi r - r_lo r + 1.
  Variable ar : arith.
  Notation mem := (loc -> car ar).
  Notation g := (geom1 (r_lo r) (r_hi r) n).
  Notation ex := (expand1 (r_halo r) (r_hi r - r_lo r) (r_bl r) (r_br r)).
  Notation o := (r_o r).
  Notation sp := (r_sp r).
  Notation tp := (r_tp r).
  Notation runp e p := (run_prog loc_eq_dec ar n (prog_of g (expand ex e p))).
  (** [rs], [rv]: on the halos, where the boundary conditions take values from *)
  Variables (rs : Z -> Z) (rv : bool -> Z -> Z).
  Hypothesis Hrs : forall i, r_lo r - r_halo r <= i <= r_hi r + r_halo r ->
    rs i = src_s (r_lo r) (r_hi r) (r_bl r) (r_br r) i.
  Hypothesis Hrv : forall ad i, r_lo r - r_halo r <= i <= r_hi r + r_halo r - 1 ->
    rv ad i = src_v (r_lo r) (r_hi r) (r_halo r) (r_bl r) (r_br r) ad i.
  Notation fx := (foldx ar rs rv).

  Lemma fold_vx e x V V' (m f : mem) : is_exch x = true -> vx1 (r_halo r) x V = Some V' ->
    agree g ar e V m f -> flat ar f -> agree g ar e V' (runp e [x] m) (fx e x f).
  Proof.
    intros Hx HV A _. pose proof (halo_le r RK) as [H1 H2].
    destruct x as [s| |a ext|v ad|v ext|v]; try discriminate; cbn [vx1] in HV; cbn [foldx].
    - destruct (V a) as [B|] eqn:EB; [|discriminate]. destruct (ext3_leb _ _ _) eqn:L; [|discriminate].
      inversion HV; subst. intros b E i Hb Hi. cbn [fst snd]. rewrite tag_eqb.
      apply vset_cases in Hb. destruct Hb as [[-> ->]|[NE Hb]].
      + rewrite arr_eqb_refl. rewrite (proj2 (xs_run r n RK Hn Hs ar e a ext _ (tag e a) i) Hi).
        rewrite (A a B); auto; [|eapply leb_bx; eauto; apply src_s_in; auto].
        unfold reix. rewrite Hrs; auto. apply in_bx' in Hi; auto. lia.
      + rewrite arr_eqb_ne by auto. rewrite (proj1 (xs_run r n RK Hn Hs ar e a ext _ (tag e b) i) (tag_neq e a b NE)). apply (A b E); auto.
    - destruct (V (v DX)) as [B|] eqn:EB; [|discriminate]. destruct (ext3_leb _ _ _) eqn:L; [|discriminate].
      inversion HV; subst. intros b E i Hb Hi. cbn [fst snd]. rewrite tag_eqb.
      apply vset_cases in Hb. destruct Hb as [[-> ->]|[NE Hb]].
      + rewrite arr_eqb_refl. rewrite (proj2 (xv_run r n RK Hn Hs ar e v ad _ (tag e (v DX)) i) Hi).
        pose proof (src_v_in r n RK Hn Hs ad i Hi) as SI. rewrite (A (v DX) B); auto;
          [|eapply in_box_sub; [exact L|]; destruct ad; exact SI].
        unfold reix. rewrite Hrv; auto. apply in_bx' in Hi; auto. lia.
      + rewrite arr_eqb_ne by auto. rewrite (proj1 (xv_run r n RK Hn Hs ar e v ad _ (tag e b) i) (tag_neq e (v DX) b NE)). apply (A b E); auto.
  Qed.

  Notation rrun e := (ref_run ar (fx e) (lat_do ar e)).
  Notation rr := (rruns ar (fun e s => lat_do ar e s) fx).
  Notation stF X := (stepF ar o sp tp rs rv X).

  (** the reference holds fields [psi e] at levels [lv e], and the constant fields *)
  Definition holds (X : fixed ar) (lv : nat -> bool) (psi : nat -> Z -> car ar) (f : mem) : Prop :=
    flat ar f /\ forall e, has ar X (view ar e f) /\ view ar e f (Psi (lv e)) == psi e.

  Lemma kept_tag e e' a : kept a = true -> tag e a = tag e' a.
  Proof. destruct a; try discriminate; reflexivity. Qed.

  Lemma holds_eqs X k es : (0 < k)%nat -> NoDup es -> forall lv psi f, holds X lv psi f ->
    holds X (fun e => if existsb (Nat.eqb e) es then lev (lv e) k else lv e)
      (fun e => if existsb (Nat.eqb e) es then stF X (r_nit r) k (r_scale r e) (psi e) else psi e)
      (rr (eqs_macro r k es lv) f).
  Proof.
    intros Hk ND. induction es as [|e es IH]; intros lv psi f H; [exact H|].
    inversion ND as [|? ? NI ND']; subst. cbn [eqs_macro rruns fold_left fst snd].
    set (p := body1 _ _ _ _ _ _ _).
    destruct H as [Hf Hh]. destruct (Hh e) as [HX HP].
    destruct (body_l1 ar rs rv o sp tp X (r_nit r) k (r_scale r e) (is_last_eqn (r_cfg r) e) (lv e) (view ar e f) Hk HX) as [A K].
    cbv zeta in A, K. fold (r_forms r) in A, K. fold p in A, K.
    pose proof (view_run ar rs rv e p f Hf) as VR.
    assert (H1 : holds X (upd lv e (lev (lv e) k)) (upd psi e (stF X (r_nit r) k (r_scale r e) (psi e))) (rrun e p f)).
    { split; [apply flat_run; auto|]. intros e'. split.
      - assert (HK : has ar X (view ar e (rrun e p f))).
        { revert HX. apply has_kept. intros a Ha x. rewrite VR. apply K. exact Ha. }
        revert HK. apply has_kept. intros a Ha x. unfold view. rewrite (kept_tag e e' a Ha). reflexivity.
      - intros x. unfold upd. destruct (Nat.eqb_spec e' e) as [->|NE].
        + rewrite VR, A. apply stepF_ext. exact HP.
        + unfold view. cbn [tag]. rewrite frame_run by auto. apply (proj2 (Hh e')). }
    specialize (IH ND' _ _ _ H1). destruct IH as [I1 I2]. split; [exact I1|].
    intros e'. destruct (I2 e') as [I3 I4]. split; [exact I3|].
    assert (NE : existsb (Nat.eqb e) es = false).
    { apply not_true_is_false. intros H. apply existsb_exists in H. destruct H as (x & Hx & Ex).
      apply Nat.eqb_eq in Ex. subst x. contradiction. }
    intros x. specialize (I4 x). cbn beta in I4. unfold upd in I4. cbn [existsb].
    destruct (Nat.eqb_spec e' e) as [Ee|Ne].
    - subst e'. rewrite NE in I4. cbn [orb]. exact I4.
    - cbn [orb]. exact I4.
  Qed.

  Lemma npasses ts : (0 < passes (r_nit r) (r_freq r) ts)%nat.
  Proof. pose proof (ok_nit _ RK). unfold passes. destruct (_ && _); lia. Qed.
  Lemma eq_nodup : NoDup (eq_order r).
  Proof. eapply eq_order_nodup; eauto. Qed.

  Lemma holds_steps X nt : forall ts lv psi f, holds X lv psi f ->
    holds X (lv_after r nt ts lv)
      (fun e => if existsb (Nat.eqb e) (eq_order r)
                then stepsF ar o sp tp rs rv X (r_nit r) (r_freq r) (r_scale r e) nt ts (psi e) else psi e)
      (rr (steps_macro r nt ts lv) f).
  Proof.
    induction nt as [|k IH]; intros ts lv psi f H.
    - cbn. destruct H as [H1 H2]. split; auto. intros e. destruct (H2 e) as [H3 H4]. split; auto.
      intros x. rewrite H4. destruct existsb; reflexivity.
    - cbn [steps_macro lv_after rruns fold_left fst snd].
      change (rrun 0%nat [MBar] f) with f. rewrite fold_left_app.
      pose proof (holds_eqs X (passes (r_nit r) (r_freq r) ts) (eq_order r)
        (npasses ts) (eq_nodup) lv psi f H) as H1.
      specialize (IH (ts + 1) _ _ _ H1). destruct IH as [I1 I2]. split; [exact I1|].
      intros e. destruct (I2 e) as [I3 I4]. split; [exact I3|].
      intros x. specialize (I4 x). cbn beta in I4. etransitivity; [exact I4|]. cbn [stepsF].
      destruct (existsb (Nat.eqb e) (eq_order r)); reflexivity.
  Qed.

  Theorem fold_run nt (m f : mem) : no_stale o (r_nit r) = true -> flat ar f ->
    same_data (r_lo r) (r_hi r) (n_eqns (r_cfg r)) (nug o) m f ->
    forall m', can_end loc_eq_dec ar n (program1 r n nt) m m' ->
    forall e i, (e < n_eqns (r_cfg r))%nat -> r_lo r <= i <= r_hi r ->
      cell m' e (newest r nt) i =
      stepsF ar o sp tp rs rv
        (anteF ar rs rv o (face f) (gfac f) (fun x => f (tag 0 (NdtGC DX), (x, 0, 0))) (fun x => f (tag 0 (NdttGC DX), (x, 0, 0))))
        (r_nit r) (r_freq r) (r_scale r e) nt 0 (cell f e false) i.
  Proof.
    intros NS FL SD m' CE e i He Hi.
    unfold cell at 1. rewrite (can_end_run r RK ar n nt m m' Hn Hs CE).
    destruct (run_agree r n RK Hn Hs NS ar (fun e s => lat_do ar e s) fx (flat ar)
      ltac:(intros; apply lat_ref) ltac:(intros; apply flat_do; auto) ltac:(intros; apply flat_x; auto)
      fold_vx ltac:(intros e0 x f0 e' b i0 Hx NE; pose proof (frame_run ar rs rv e0 [x] e' b NE f0 i0) as Q; destruct x; try discriminate; exact Q) nt m f ltac:(lia)
      (inv0_same r ar n m f Hn Hs SD) FL) as [A' _].
    pose proof (inv_cell r ar n _ _ (newest r nt) e i Hn Hs A' He Hi) as E. unfold cell in E.
    unfold program1. rewrite E. clear E A'.
    unfold run_macro, rruns. cbn [fold_left fst snd]. rewrite fold_left_app. cbn [fold_left fst snd].
    set (f1 := rrun 0%nat (ante1 o) f).
    set (X := anteF _ _ _ _ _ _ _ _).
    assert (H1 : holds X (fun _ => false) (fun e => cell f e false) f1).
    { split; [apply flat_run; auto|].
      destruct (ante_l1 ar rs rv o (view ar 0 f)) as [HX HP]. cbv zeta in HX, HP.
      pose proof (view_run ar rs rv 0 (ante1 o) f FL) as VR. fold f1 in VR.
      intros e'. split.
      - assert (HK : has ar X (view ar 0 f1)).
        { revert HX. apply has_kept. intros a Ha x. apply VR. }
        revert HK. apply has_kept. intros a Ha x. unfold view. rewrite (kept_tag 0 e' a Ha). reflexivity.
      - intros x. destruct e' as [|e'].
        + rewrite VR. apply HP.
        + unfold view. cbn [tag]. unfold f1. rewrite frame_run by discriminate. reflexivity. }
    destruct (holds_steps X nt 0 _ _ f1 H1) as [_ H2]. destruct (H2 e) as [_ H3]. specialize (H3 i).
    unfold view in H3. cbn [tag] in H3.
    rewrite (lv_after_eq r nt 0 (fun _ => false) e (proj2 (in_order r e) He)) in H3. fold (newest r nt) in H3.
    assert (IE : existsb (Nat.eqb e) (eq_order r) = true).
    { apply existsb_exists. exists e. split; [apply in_order; auto|apply Nat.eqb_refl]. }
    cbn beta in H3. rewrite IE in H3. exact H3.
  Qed.
End RunF.
