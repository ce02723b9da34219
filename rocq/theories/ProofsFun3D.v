(** A finished run of the 3D solver on a cyclic grid holds the fields computed
    by the functions of FunN.v. *)
From Coq Require Import ZArith List Bool Lia ZifyBool.
From Verif Require Import SpecIndex ModelIndex ProofsIndex ModelRun Lang ProofsLang Stencil ProofsStencil
  FormCommon Form3D Solver1D Solver3D Macro ProofsMacro Foot1D Foot3D Proofs1D ProofsThread1D ProofsGeom3D
  ProofsValid ProofsValid1D Boxes ProofsBoxes ProofsValid2D ProofsValid3D ProofsExch3D ProofsRef1D ProofsRef3D ProofsOne3D
  ProofsFill3D ProofsThread3D Lattice ProofsLattice SpecThreads SpecFields3 ProofsCyclic3D Fun1D ProofsFun1D ProofsFold1D FunN ProofsFunN
  ProofsRen2D ProofsFun2D ProofsNat3D.
Import ListNotations.
Local Open Scope Z_scope.

Local Notation "f == g" := (forall x : idx, f x = g x) (at level 70).

Section Ess.
  Variables (o : fl) (F : forms).
  Notation ds := [DX; DY; DZ].
  Lemma ess_sum3 psi psi' v : ess (sum3 o F psi psi' v) = sumE o F psi psi' v.
  Proof.
    unfold sum3, sumE. destruct (khn o); [|reflexivity]. rewrite ess_map, map_app. f_equal.
    induction (f_terms F psi v) as [|e l IH]; [reflexivity|]. cbn [flat_map]. rewrite map_app, IH. reflexivity.
  Qed.
  Lemma ess_fct3 psi corr : ess (fct_adjust3 o F psi corr) = fctE o F ds psi corr.
  Proof. unfold fct_adjust3, fctE. destruct (fct o); [|reflexivity]. destruct (iga o); reflexivity. Qed.
  Lemma ess_init3 psi : ess (fct_init3 o F psi) = fct_initE o F psi.
  Proof. unfold fct_init3, fct_initE. destruct (fct o); reflexivity. Qed.
  Lemma ess_up3 psi psi' : ess (upstream3 o F psi psi') = upE o F ds psi psi'.
  Proof. unfold upstream3, upE. rewrite !ess_app, ess_sum3. reflexivity. Qed.
  Lemma ess_scale3 psi ex : ess (scale3 psi ex) = scaleE psi ex.
  Proof. unfold scale3, scaleE. destruct (ex =? 0); [reflexivity|]. destruct (0 <? ex); reflexivity. Qed.
  Lemma ess_corr3 psi psi' u c (last : bool) : ess (corrective3 o F psi psi' u c last) = corrE o F ds psi psi' u c.
  Proof.
    unfold corrective3, corrE. rewrite !ess_app, ess_fct3.
    replace (ess (if div3dt o then [MBar] else [])) with (@nil (arr * sexpr)) by (destruct (div3dt o); reflexivity).
    replace (ess (if negb (fct o) && negb last then _ else _)) with (@nil (arr * sexpr))
      by (destruct (negb (fct o) && negb last); [destruct (dfl o)|]; reflexivity).
    cbn [app]. cbv zeta. f_equal. f_equal. destruct (iga o).
    - exact (ess_sum3 psi psi' _).
    - rewrite ess_app. f_equal. exact (ess_sum3 psi psi' Flux).
  Qed.
  Lemma ess_passes3 nit le b more : forall j, ess (passes3 o F nit le b j more) = passesE o F ds b j more.
  Proof.
    induction more as [|k IH]; intros j; [reflexivity|]. cbn [passes3 passesE].
    rewrite !ess_app, IH, ess_corr3, ess_bars. reflexivity.
  Qed.
  Lemma ess_body3 nit k ex le b : ess (body3 o F nit k ex le b) = bodyE o F ds k ex b.
  Proof.
    unfold body3, bodyE. rewrite !ess_app, !ess_scale3, ess_init3, ess_up3, ess_passes3, ess_bars.
    replace (ess (if le then [] else [MBar])) with (@nil (arr * sexpr)) by (destruct le; reflexivity).
    reflexivity.
  Qed.
End Ess.

(** ** Runs *)
Section Run.
  Variable r : run3.
  Hypothesis RK : run3_ok r.
  Variable ar : arith.
  Notation mem := (loc -> car ar).
  Notation o := (s3_o r).
  Notation F := (s3_forms r).
  Notation ds := [DX; DY; DZ].
  Notation stN X := (stepN ar o F X).
  Notation stsN X := (stepsN ar o F X).

  Definition holds3 (X : fixedN ar) (lv : nat -> bool) (psi : nat -> idx -> car ar) (f : mem) : Prop :=
    forall e, hasN ar ds X (viewN ar e f) /\ viewN ar e f (Psi (lv e)) == psi e.

  Lemma holds3_eqs X k es : (0 < k)%nat -> NoDup es -> forall lv psi f, holds3 X lv psi f ->
    holds3 X (fun e => if existsb (Nat.eqb e) es then lev (lv e) k else lv e)
      (fun e => if existsb (Nat.eqb e) es then stN X k (s3_scale r e) (psi e) else psi e)
      (lat_progs ar (eqs_macro3 r k es lv) f).
  Proof.
    pose proof (natural3 ar o (s3_sp r) (s3_tp r) (ok3_fl r RK)) as NAT. fold F in NAT.
    intros Hk ND. induction es as [|e es IH]; intros lv psi f Hh; [exact Hh|].
    inversion ND as [|? ? NI ND']; subst. cbn [eqs_macro3 lat_progs fold_left fst snd].
    set (p := body3 _ _ _ _ _ _ _).
    destruct (Hh e) as [HX HP].
    destruct (body_ln ar o F ds NAT X k (s3_scale r e) (lv e) (viewN ar e f) Hk HX) as [A K].
    cbv zeta in A, K.
    pose proof (viewN_prog ar e p f) as VR. unfold p in VR at 2. rewrite ess_body3 in VR.
    assert (H1 : holds3 X (upd lv e (lev (lv e) k)) (upd psi e (stN X k (s3_scale r e) (psi e))) (lat_prog ar e p f)).
    { intros e'. split.
      - assert (HK : hasN ar ds X (viewN ar e (lat_prog ar e p f))).
        { revert HX. apply hasN_kept. intros a Ha x. rewrite VR. apply K. exact Ha. }
        revert HK. apply hasN_kept. intros a Ha x. unfold viewN. rewrite (kept_tag e e' a Ha). reflexivity.
      - intros x. unfold upd. destruct (Nat.eqb_spec e' e) as [->|NE].
        + rewrite VR, A. apply (stepN_ext ar o F ds NAT). exact HP.
        + unfold viewN. cbn [tag]. rewrite frame_prog by auto. apply (proj2 (Hh e')). }
    specialize (IH ND' _ _ _ H1).
    intros e'. destruct (IH e') as [I3 I4]. split; [exact I3|].
    assert (NE : existsb (Nat.eqb e) es = false).
    { apply not_true_is_false. intros H. apply existsb_exists in H. destruct H as (x & Hx & Ex).
      apply Nat.eqb_eq in Ex. subst x. contradiction. }
    intros x. specialize (I4 x). cbn beta in I4. unfold upd in I4. cbn [existsb].
    destruct (Nat.eqb_spec e' e) as [Ee|Ne].
    - subst e'. rewrite NE in I4. cbn [orb]. exact I4.
    - cbn [orb]. exact I4.
  Qed.

  Lemma npasses3 ts : (0 < passes (s3_nit r) (s3_freq r) ts)%nat.
  Proof. pose proof (ok3_nit _ RK). unfold passes. destruct (_ && _); lia. Qed.
  Lemma eq_nodup3 : NoDup (eq_order3 r).
  Proof. eapply eq_order_nodup3; eauto. Qed.

  Lemma holds3_steps X nt : forall ts lv psi f, holds3 X lv psi f ->
    holds3 X (lv_after3 r nt ts lv)
      (fun e => if existsb (Nat.eqb e) (eq_order3 r)
                then stsN X (s3_nit r) (s3_freq r) (s3_scale r e) nt ts (psi e) else psi e)
      (lat_progs ar (steps_macro3 r nt ts lv) f).
  Proof.
    induction nt as [|k IH]; intros ts lv psi f H.
    - cbn. intros e. destruct (H e) as [H3 H4]. split; auto.
      intros x. rewrite H4. destruct existsb; reflexivity.
    - cbn [steps_macro3 lv_after3 lat_progs fold_left fst snd].
      change (lat_prog ar 0%nat [MBar] f) with f. rewrite fold_left_app.
      pose proof (holds3_eqs X (passes (s3_nit r) (s3_freq r) ts) (eq_order3 r)
        (npasses3 ts) (eq_nodup3) lv psi f H) as H1.
      specialize (IH (ts + 1) _ _ _ H1).
      intros e. destruct (IH e) as [I3 I4]. split; [exact I3|].
      intros x. specialize (I4 x). cbn beta in I4. etransitivity; [exact I4|]. cbn [stepsN].
      destruct (existsb (Nat.eqb e) (eq_order3 r)); reflexivity.
  Qed.

  (** the run on the lattice, from a memory whose time derivatives of the advector are zero *)
  Theorem lattice_fun3 nt (f : mem) :
    (forall d, In d ds -> (forall x, f (tag 0 (NdtGC d), x) = acst ar (CQ 0 1)) /\ (forall x, f (tag 0 (NdttGC d), x) = acst ar (CQ 0 1))) ->
    forall e, (e < n_eqns (s3_cfg r))%nat ->
      (fun x => lat_progs ar (run_macro3 r nt) f ((e, Psi (newest3 r nt)), x)) ==
      stsN {| nC := fun d x => f ((O, GC d), x); nG := fun x => f ((O, Gf), x);
              nN := fun _ _ => acst ar (CQ 0 1); nT := fun _ _ => acst ar (CQ 0 1) |}
        (s3_nit r) (s3_freq r) (s3_scale r e) nt 0 (fun x => f ((e, Psi false), x)).
  Proof.
    intros HN e He. unfold run_macro3, lat_progs. cbn [fold_left fst snd]. rewrite fold_left_app. cbn [fold_left fst snd].
    set (f1 := lat_prog ar 0 (ante3 o) f). set (X := Build_fixedN _ _ _ _ _).
    assert (V1 : forall a, a = Psi false \/ a = Gf \/ (exists d, a = GC d) -> viewN ar 0 f1 a == viewN ar 0 f a).
    { intros a Ha x. unfold f1. rewrite viewN_prog. unfold ante3. rewrite !ess_app.
      replace (ess (if nug o then _ else _)) with (@nil (arr * sexpr)) by (destruct (nug o); reflexivity).
      destruct (div3dt o || div3 o); [|reflexivity]. unfold faces3; cbn [ess flat_map app at3 t_arr t_exp ln_prog fold_left].
      rewrite !ln_other by (destruct Ha as [->|[->|(d & ->)]]; discriminate). reflexivity. }
    assert (V2 : forall d, In d ds -> viewN ar 0 f1 (NdtGC d) == (fun _ => acst ar (CQ 0 1)) /\ viewN ar 0 f1 (NdttGC d) == (fun _ => acst ar (CQ 0 1))).
    { intros d Hd. destruct (HN d Hd) as [N1 N2]. split; intros x; unfold f1; rewrite viewN_prog; unfold ante3; rewrite !ess_app;
      replace (ess (if nug o then _ else _)) with (@nil (arr * sexpr)) by (destruct (nug o); reflexivity);
      (destruct (div3dt o || div3 o); [|first [apply N1|apply N2]]); unfold faces3; cbn [ess flat_map app at3 t_arr t_exp ln_prog fold_left];
      destruct Hd as [<-|[<-|[<-|[]]]]; repeat (rewrite ln_other by discriminate); rewrite ln_here; reflexivity. }
    assert (H1 : holds3 X (fun _ => false) (fun e x => f ((e, Psi false), x)) f1).
    { intros e'. split.
      - assert (HK : hasN ar ds X (viewN ar 0 f1)).
        { split; [|split; [|split]].
          - intros d Hd x. rewrite V1 by eauto. reflexivity.
          - intros x. rewrite V1 by eauto. reflexivity.
          - intros d Hd x. apply (proj1 (V2 d Hd)).
          - intros d Hd x. apply (proj2 (V2 d Hd)). }
        revert HK. apply hasN_kept. intros a Ha x. unfold viewN. rewrite (kept_tag 0 e' a Ha). reflexivity.
      - intros x. destruct e' as [|e'].
        + apply V1. auto.
        + unfold viewN, f1. cbn [tag]. apply frame_prog. discriminate. }
    destruct (holds3_steps X nt 0 _ _ f1 H1 e) as [_ H3]. intros x. specialize (H3 x).
    unfold viewN in H3. cbn [tag] in H3.
    rewrite (lv_after_eq3 r nt 0 (fun _ => false) e (proj2 (in_eq_order3 r e) He)) in H3. fold (newest3 r nt) in H3.
    assert (IE : existsb (Nat.eqb e) (eq_order3 r) = true).
    { apply existsb_exists. exists e. split; [apply in_eq_order3; auto|apply Nat.eqb_refl]. }
    cbn beta in H3. rewrite IE in H3. exact H3.
  Qed.
End Run.

(** ** Cyclic runs *)
Section Cyclic.
  Variable r : run3.
  Hypothesis RK : run3_ok r.
  Variable ar : arith.
  Notation mem := (loc -> car ar).
  Notation o := (s3_o r).
  Notation w := (wrap3 (s3_lo r) (s3_hi r)).
  Notation z0 := (acst ar (CQ 0 1)).

  (** the fields of a cyclic problem, extended periodically *)
  Definition cycX3 (m : mem) : fixedN ar :=
    {| nC := fun d x => m ((O, GC d), w x); nG := fun x => m ((O, Gf), w x);
       nN := fun _ _ => z0; nT := fun _ _ => z0 |}.

  Theorem cyclic_fun3 n nt (m m' : mem) :
    (0 < n)%nat -> Z.of_nat n <= s3_hi r DY - s3_lo r DY + 1 -> settled3 r n -> no_stale3 o (s3_nit r) = true ->
    cyclic_data3 (s3_lo r) (s3_hi r) (n_eqns (s3_cfg r)) (nug o) m ->
    can_end loc_eq_dec ar n (program3 r n nt) m m' ->
    forall e i, (e < n_eqns (s3_cfg r))%nat -> inside (s3_lo r) (s3_hi r) i ->
      cell3 m' e (newest3 r nt) i =
      stepsN ar o (s3_forms r) (cycX3 m) (s3_nit r) (s3_freq r) (s3_scale r e) nt 0 (fun x => m ((e, Psi false), w x)) i.
  Proof.
    intros Hn Hs T NS CD E e i He Hi.
    set (f := fun l : loc => match snd (fst l) with NdtGC _ | NdttGC _ => z0 | _ => ext3m r ar m l end).
    assert (SD : same_data3 (s3_lo r) (s3_hi r) (n_eqns (s3_cfg r)) (nug o) m f).
    { destruct (ext3_same r RK ar m CD) as (S1 & S2 & S3). split; [|split].
      - intros e0 a H1 H2. rewrite S1 by auto. reflexivity.
      - intros d a H2. rewrite S2 by auto. reflexivity.
      - intros N a H2. rewrite S3 by auto. reflexivity. }
    assert (P : periodic3 ar r f).
    { intros d [ea a] x. unfold f; cbn [fst snd]. pose proof (ext3_periodic r RK ar m d (ea, a) x) as Q.
      destruct a; try reflexivity; exact Q. }
    rewrite (cyclic_lattice3 r RK ar n nt m m' f) by auto. unfold cell3.
    refine (lattice_fun3 r RK ar nt f _ e He i).
    intros d Hd. split; intros x; reflexivity.
  Qed.
End Cyclic.
