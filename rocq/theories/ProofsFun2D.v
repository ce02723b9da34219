(** A finished run of the 2D solver on a doubly cyclic grid holds the fields
    computed by the functions of FunN.v. *)
From Coq Require Import ZArith List Bool Lia ZifyBool.
From Verif Require Import SpecIndex ModelIndex ProofsIndex ModelRun Lang ProofsLang Stencil ProofsStencil
  FormCommon Form2D Solver1D Solver2D Macro ProofsMacro Foot1D Foot2D Proofs1D Proofs2D ProofsThread1D ProofsThread2D
  ProofsValid ProofsValid1D Boxes ProofsBoxes ProofsValid2D ProofsExch2D ProofsRef1D ProofsRef2D ProofsOne2D
  Lattice ProofsLattice SpecThreads SpecFields2 ProofsCyclic2D Fun1D ProofsFun1D ProofsFold1D FunN ProofsFunN ProofsRen2D ProofsNat2D.
Import ListNotations.
Local Open Scope Z_scope.

Local Notation "f == g" := (forall x : idx, f x = g x) (at level 70).

(** ** Lattice executions seen by one equation *)
Section View.
  Variable ar : arith.
  Notation mem := (loc -> car ar).
  Definition viewN (e : nat) (f : mem) : arr -> idx -> car ar := fun a x => f (tag e a, x).
  Definition veqN (g g' : arr -> idx -> car ar) : Prop := forall a x, g a x = g' a x.

  Lemma ln_prog_ext l : forall g g', veqN g g' -> veqN (ln_prog ar l g) (ln_prog ar l g').
  Proof.
    induction l as [|s l IH]; intros g g' H; [exact H|]. cbn [ln_prog fold_left]. apply IH.
    intros a x. unfold ln_do. destruct arr_eqb; [apply evd_ext|]; apply H.
  Qed.
  Lemma viewN_do e s f : veqN (viewN e (lat_do ar e s f)) (ln_do ar (viewN e f) (t_arr s, t_exp s)).
  Proof.
    intros a x. unfold viewN, lat_do, ln_do. cbn [fst snd]. rewrite tag_eqb. destruct arr_eqb; reflexivity.
  Qed.
  Lemma viewN_prog e p : forall f, veqN (viewN e (lat_prog ar e p f)) (ln_prog ar (ess p) (viewN e f)).
  Proof.
    induction p as [|i p IH]; intros f; [intros a x; reflexivity|]. intros a x. cbn [lat_prog fold_left].
    change (fold_left _ p ?z) with (lat_prog ar e p z). rewrite IH. cbn [ess flat_map]. fold (ess p).
    destruct i as [s| | | | |]; cbn [app lat_instr]; try reflexivity.
    cbn [ln_prog fold_left]. apply ln_prog_ext. apply viewN_do.
  Qed.
  Lemma frame_prog e p e' b : e' <> e -> forall f i, lat_prog ar e p f ((e', Psi b), i) = f ((e', Psi b), i).
  Proof.
    intros NE. induction p as [|x p IH]; intros f i; [reflexivity|]. cbn [lat_prog fold_left].
    etransitivity; [apply IH|].
    assert (T : forall a, garr_eqb (e', Psi b) (tag e a) = false).
    { intros a. apply not_true_is_false. intros H. apply garr_eqb_eq in H. destruct a; inversion H. congruence. }
    destruct x; cbn [lat_instr]; auto; unfold lat_do; cbn [fst snd]; rewrite T; reflexivity.
  Qed.
End View.

(** ** The programs without ranges *)
Lemma ess_map ts : ess (map MDo ts) = map (fun s => (t_arr s, t_exp s)) ts.
Proof. induction ts as [|s ts IH]; [reflexivity|]. cbn. f_equal. exact IH. Qed.

Section Ess.
  Variables (o : fl) (F : forms).
  Notation ds := [DX; DY].
  Lemma ess_sum2 psi psi' v : ess (sum2 o F psi psi' v) = sumE o F psi psi' v.
  Proof.
    unfold sum2, sumE. destruct (khn o); [|reflexivity]. rewrite ess_map, map_app. f_equal.
    induction (f_terms F psi v) as [|e l IH]; [reflexivity|]. cbn [flat_map]. rewrite map_app, IH. reflexivity.
  Qed.
  Lemma ess_fct2 psi corr : ess (fct_adjust2 o F psi corr) = fctE o F ds psi corr.
  Proof. unfold fct_adjust2, fctE. destruct (fct o); [|reflexivity]. destruct (iga o); reflexivity. Qed.
  Lemma ess_init2 psi : ess (fct_init2 o F psi) = fct_initE o F psi.
  Proof. unfold fct_init2, fct_initE. destruct (fct o); reflexivity. Qed.
  Lemma ess_up2 psi psi' : ess (upstream2 o F psi psi') = upE o F ds psi psi'.
  Proof. unfold upstream2, upE. rewrite !ess_app, ess_sum2. reflexivity. Qed.
  Lemma ess_scale2 psi ex : ess (scale2 psi ex) = scaleE psi ex.
  Proof. unfold scale2, scaleE. destruct (ex =? 0); [reflexivity|]. destruct (0 <? ex); reflexivity. Qed.
  Lemma ess_corr2 psi psi' u c (last : bool) : ess (corrective2 o F psi psi' u c last) = corrE o F ds psi psi' u c.
  Proof.
    unfold corrective2, corrE. rewrite !ess_app, ess_fct2.
    replace (ess (if div3dt o then [MBar] else [])) with (@nil (arr * sexpr)) by (destruct (div3dt o); reflexivity).
    replace (ess (if negb (fct o) && negb last then _ else _)) with (@nil (arr * sexpr))
      by (destruct (negb (fct o) && negb last); [destruct (dfl o)|]; reflexivity).
    cbn [app]. cbv zeta. f_equal. f_equal. destruct (iga o).
    - exact (ess_sum2 psi psi' _).
    - rewrite ess_app. f_equal. exact (ess_sum2 psi psi' Flux).
  Qed.
  Lemma ess_bars b : ess (cyc_bars b) = [].
  Proof. destruct b; reflexivity. Qed.
  Lemma ess_passes2 nit le b more : forall j, ess (passes2 o F nit le b j more) = passesE o F ds b j more.
  Proof.
    induction more as [|k IH]; intros j; [reflexivity|]. cbn [passes2 passesE].
    rewrite !ess_app, IH, ess_corr2, ess_bars. reflexivity.
  Qed.
  Lemma ess_body2 nit k ex le b : ess (body2 o F nit k ex le b) = bodyE o F ds k ex b.
  Proof.
    unfold body2, bodyE. rewrite !ess_app, !ess_scale2, ess_init2, ess_up2, ess_passes2, ess_bars.
    replace (ess (if le then [] else [MBar])) with (@nil (arr * sexpr)) by (destruct le; reflexivity).
    reflexivity.
  Qed.
End Ess.

(** ** Runs *)
Section Run.
  Variable r : run2.
  Hypothesis RK : run2_ok r.
  Variable ar : arith.
  Notation mem := (loc -> car ar).
  Notation o := (s_o r).
  Notation F := (s_forms r).
  Notation ds := [DX; DY].
  Notation stN X := (stepN ar o F X).
  Notation stsN X := (stepsN ar o F X).

  Definition holdsN (X : fixedN ar) (lv : nat -> bool) (psi : nat -> idx -> car ar) (f : mem) : Prop :=
    forall e, hasN ar ds X (viewN ar e f) /\ viewN ar e f (Psi (lv e)) == psi e.

  Lemma holdsN_eqs X k es : (0 < k)%nat -> NoDup es -> forall lv psi f, holdsN X lv psi f ->
    holdsN X (fun e => if existsb (Nat.eqb e) es then lev (lv e) k else lv e)
      (fun e => if existsb (Nat.eqb e) es then stN X k (s_scale r e) (psi e) else psi e)
      (lat_progs ar (eqs_macro2 r k es lv) f).
  Proof.
    pose proof (natural2 ar o (s_sp r) (s_tp r) (ok2_fl r RK)) as NAT. fold F in NAT.
    intros Hk ND. induction es as [|e es IH]; intros lv psi f Hh; [exact Hh|].
    inversion ND as [|? ? NI ND']; subst. cbn [eqs_macro2 lat_progs fold_left fst snd].
    set (p := body2 _ _ _ _ _ _ _).
    destruct (Hh e) as [HX HP].
    destruct (body_ln ar o F ds NAT X k (s_scale r e) (lv e) (viewN ar e f) Hk HX) as [A K].
    cbv zeta in A, K.
    pose proof (viewN_prog ar e p f) as VR. unfold p in VR at 2. rewrite ess_body2 in VR.
    assert (H1 : holdsN X (upd lv e (lev (lv e) k)) (upd psi e (stN X k (s_scale r e) (psi e))) (lat_prog ar e p f)).
    { intros e'. split.
      - assert (HK : hasN ar ds X (viewN ar e (lat_prog ar e p f))).
        { revert HX. apply hasN_kept. intros a Ha x. rewrite VR. apply K. exact Ha. }
        revert HK. apply hasN_kept. intros a Ha x. unfold viewN. rewrite (kept_tag e e' a Ha). reflexivity.
      - intros x. unfold upd. destruct (Nat.eqb_spec e' e) as [->|NE].
        + rewrite VR, A. apply (stepN_ext ar o F ds NAT). exact HP.
        + unfold viewN. cbn [tag]. rewrite frame_prog by auto. apply (proj2 (Hh e')). }
    specialize (IH ND' _ _ _ H1).
    intros e'. destruct (IH e') as [I3 I4]. split; [exact I3|].
    assert (NE : existsb (Nat.eqb e) es = false).
    { apply not_true_is_false. intros H. apply existsb_exists in H. destruct H as (x & Hx & Ex).
      apply Nat.eqb_eq in Ex. subst x. contradiction. }
    intros x. specialize (I4 x). cbn beta in I4. unfold upd in I4. cbn [existsb].
    destruct (Nat.eqb_spec e' e) as [Ee|Ne].
    - subst e'. rewrite NE in I4. cbn [orb]. exact I4.
    - cbn [orb]. exact I4.
  Qed.

  Lemma npasses2 ts : (0 < passes (s_nit r) (s_freq r) ts)%nat.
  Proof. pose proof (ok2_nit _ RK). unfold passes. destruct (_ && _); lia. Qed.
  Lemma eq_nodup2 : NoDup (eq_order2 r).
  Proof. eapply eq_order_nodup2; eauto. Qed.

  Lemma holdsN_steps X nt : forall ts lv psi f, holdsN X lv psi f ->
    holdsN X (lv_after2 r nt ts lv)
      (fun e => if existsb (Nat.eqb e) (eq_order2 r)
                then stsN X (s_nit r) (s_freq r) (s_scale r e) nt ts (psi e) else psi e)
      (lat_progs ar (steps_macro2 r nt ts lv) f).
  Proof.
    induction nt as [|k IH]; intros ts lv psi f H.
    - cbn. intros e. destruct (H e) as [H3 H4]. split; auto.
      intros x. rewrite H4. destruct existsb; reflexivity.
    - cbn [steps_macro2 lv_after2 lat_progs fold_left fst snd].
      change (lat_prog ar 0%nat [MBar] f) with f. rewrite fold_left_app.
      pose proof (holdsN_eqs X (passes (s_nit r) (s_freq r) ts) (eq_order2 r)
        (npasses2 ts) (eq_nodup2) lv psi f H) as H1.
      specialize (IH (ts + 1) _ _ _ H1).
      intros e. destruct (IH e) as [I3 I4]. split; [exact I3|].
      intros x. specialize (I4 x). cbn beta in I4. etransitivity; [exact I4|]. cbn [stepsN].
      destruct (existsb (Nat.eqb e) (eq_order2 r)); reflexivity.
  Qed.

  (** the run on the lattice, from a memory whose time derivatives of the advector are zero *)
  Theorem lattice_fun2 nt (f : mem) :
    (forall d, In d ds -> (forall x, f (tag 0 (NdtGC d), x) = acst ar (CQ 0 1)) /\ (forall x, f (tag 0 (NdttGC d), x) = acst ar (CQ 0 1))) ->
    forall e, (e < n_eqns (s_cfg r))%nat ->
      (fun x => lat_progs ar (run_macro2 r nt) f ((e, Psi (newest2 r nt)), x)) ==
      stsN {| nC := fun d x => f ((O, GC d), x); nG := fun x => f ((O, Gf), x);
              nN := fun _ _ => acst ar (CQ 0 1); nT := fun _ _ => acst ar (CQ 0 1) |}
        (s_nit r) (s_freq r) (s_scale r e) nt 0 (fun x => f ((e, Psi false), x)).
  Proof.
    intros HN e He. unfold run_macro2, lat_progs. cbn [fold_left fst snd]. rewrite fold_left_app. cbn [fold_left fst snd].
    set (f1 := lat_prog ar 0 (ante2 o) f). set (X := Build_fixedN _ _ _ _ _).
    assert (V1 : forall a, a = Psi false \/ a = Gf \/ (exists d, a = GC d) -> viewN ar 0 f1 a == viewN ar 0 f a).
    { intros a Ha x. unfold f1. rewrite viewN_prog. unfold ante2. rewrite !ess_app.
      replace (ess (if nug o then _ else _)) with (@nil (arr * sexpr)) by (destruct (nug o); reflexivity).
      destruct (div3dt o || div3 o); [|reflexivity]. cbn [ess flat_map app at2 t_arr t_exp ln_prog fold_left].
      rewrite !ln_other by (destruct Ha as [->|[->|(d & ->)]]; discriminate). reflexivity. }
    assert (V2 : forall d, In d ds -> viewN ar 0 f1 (NdtGC d) == (fun _ => acst ar (CQ 0 1)) /\ viewN ar 0 f1 (NdttGC d) == (fun _ => acst ar (CQ 0 1))).
    { intros d Hd. destruct (HN d Hd) as [N1 N2]. split; intros x; unfold f1; rewrite viewN_prog; unfold ante2; rewrite !ess_app;
      replace (ess (if nug o then _ else _)) with (@nil (arr * sexpr)) by (destruct (nug o); reflexivity);
      (destruct (div3dt o || div3 o); [|first [apply N1|apply N2]]); cbn [ess flat_map app at2 t_arr t_exp ln_prog fold_left];
      destruct Hd as [<-|[<-|[]]]; repeat (rewrite ln_other by discriminate); rewrite ln_here; reflexivity. }
    assert (H1 : holdsN X (fun _ => false) (fun e x => f ((e, Psi false), x)) f1).
    { intros e'. split.
      - assert (HK : hasN ar ds X (viewN ar 0 f1)).
        { split; [|split; [|split]].
          - intros d Hd x. rewrite V1 by eauto. reflexivity.
          - intros x. rewrite V1 by eauto. reflexivity.
          - intros d Hd x. apply (proj1 (V2 d Hd)).
          - intros d Hd x. apply (proj2 (V2 d Hd)). }
        revert HK. apply hasN_kept. intros a Ha x. unfold viewN. rewrite (kept_tag 0 e' a Ha). reflexivity.
      - intros x. destruct e' as [|e'].
        + apply V1. auto.
        + unfold viewN, f1. cbn [tag]. apply frame_prog. discriminate. }
    destruct (holdsN_steps X nt 0 _ _ f1 H1 e) as [_ H3]. intros x. specialize (H3 x).
    unfold viewN in H3. cbn [tag] in H3.
    rewrite (lv_after_eq2 r nt 0 (fun _ => false) e (proj2 (in_eq_order2 r e) He)) in H3. fold (newest2 r nt) in H3.
    assert (IE : existsb (Nat.eqb e) (eq_order2 r) = true).
    { apply existsb_exists. exists e. split; [apply in_eq_order2; auto|apply Nat.eqb_refl]. }
    cbn beta in H3. rewrite IE in H3. exact H3.
  Qed.
End Run.

(** ** Doubly cyclic runs *)
Section Cyclic.
  Variable r : run2.
  Hypothesis RK : run2_ok r.
  Hypothesis CL : forall d, s_bl r d = Cyclic2.
  Hypothesis CR : forall d, s_br r d = Cyclic2.
  Variable ar : arith.
  Notation mem := (loc -> car ar).
  Notation o := (s_o r).
  Notation w := (wrap2 (s_lo r) (s_hi r)).
  Notation z0 := (acst ar (CQ 0 1)).

  (** the fields of a cyclic problem, extended periodically *)
  Definition wx (x : idx) : idx := (w DX (comp DX x), w DY (comp DY x), 0).
  Definition cycX2 (m : mem) : fixedN ar :=
    {| nC := fun d x => m ((O, GC d), wx x); nG := fun x => m ((O, Gf), wx x);
       nN := fun _ _ => z0; nT := fun _ _ => z0 |}.

  Theorem cyclic_fun2 n nt (m m' : mem) :
    (0 < n)%nat -> Z.of_nat n <= s_hi r DX - s_lo r DX + 1 -> settled r n -> no_stale2 o (s_nit r) = true ->
    cyclic_data2 (s_lo r) (s_hi r) (n_eqns (s_cfg r)) (nug o) m ->
    can_end loc_eq_dec ar n (program2 r n nt) m m' ->
    forall e i j, (e < n_eqns (s_cfg r))%nat -> s_lo r DX <= i <= s_hi r DX -> s_lo r DY <= j <= s_hi r DY ->
      cell2 m' e (newest2 r nt) i j =
      stepsN ar o (s_forms r) (cycX2 m) (s_nit r) (s_freq r) (s_scale r e) nt 0 (fun x => m ((e, Psi false), wx x)) (i, j, 0).
  Proof.
    intros Hn Hs T NS CD E e i j He Hi Hj.
    set (f := fun l : loc => match snd (fst l) with NdtGC _ | NdttGC _ => z0 | _ => ext2 r ar m l end).
    assert (SD : same_data2 (s_lo r) (s_hi r) (n_eqns (s_cfg r)) (nug o) m f).
    { destruct (ext2_same r RK CL CR ar m CD) as (S1 & S2 & S3 & S4). split; [|split; [|split]].
      - intros e0 a b H1 H2 H3. rewrite S1 by auto. reflexivity.
      - intros a b H2 H3. rewrite S2 by auto. reflexivity.
      - intros a b H2 H3. rewrite S3 by auto. reflexivity.
      - intros N a b H2 H3. rewrite S4 by auto. reflexivity. }
    assert (P : doubly_periodic ar r f).
    { destruct (ext2_periodic r RK CL CR ar m) as [P1 P2]. split; intros [ea a] x; unfold f; cbn [fst snd];
        destruct a; try reflexivity; first [apply P1|apply P2]. }
    rewrite (cyclic_lattice2 r RK CL CR ar n nt m m' f) by auto. unfold cell2.
    refine (lattice_fun2 r RK ar nt f _ e He (i, j, 0)).
    intros d Hd. split; intros x; reflexivity.
  Qed.
End Cyclic.
