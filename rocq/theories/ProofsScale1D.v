(** Multiples and sums of fields; options that do not change exact results. *)
From Coq Require Import ZArith List Bool Lia ZifyBool Reals Lra.
From Verif Require Import ModelRun Lang ProofsLang Stencil FormCommon Form1D Solver1D Fun1D Arith SpecReal
  ProofsFun1D ProofsFold1D ProofsReal1D ProofsAnti1D ProofsCons1D ProofsNum1D ProofsSign1D ProofsSym1D.
Import ListNotations.
Local Open Scope R_scope.

(** ** Antidiffusive velocities do not depend on the unit of the advectee *)
Section ScaleAnti.
  Variables (o : fl) (sp : sptl) (tp : tmprl) (tiny : R).
  Variables lam mu : R.
  Variables p p' C G N T : Z -> R.
  Hypothesis NI : iga o = false.
  Hypothesis Hmu : 0 < mu.
  Hypothesis Hfr : pfc o = true \/ mu = 1.
  Hypothesis Hpa : forall i, paR o (p' i) = mu * paR o (p i).

  Lemma frac_mul a b a' b' : a' = mu * a -> b' = mu * b -> fracR o tiny a' b' = fracR o tiny a b.
  Proof.
    intros -> ->. unfold fracR. destruct (pfc o).
    - destruct (Req_EM_T b 0) as [->|H].
      + rewrite Rmult_0_r. destruct (Req_EM_T 0 0); [reflexivity|contradiction].
      + destruct (Req_EM_T (mu * b) 0) as [E|E].
        * exfalso. apply Rmult_integral in E. destruct E; lra.
        * field. split; auto; lra.
    - destruct Hfr as [H|H]; [discriminate|]. rewrite H, !Rmult_1_l. reflexivity.
  Qed.
  Ltac fr := match goal with |- _ * fracR ?o ?t ?x' ?y' = _ * fracR ?o ?t ?x ?y =>
    rewrite (frac_mul x y x' y') by ring; reflexivity end.
  Lemma s_ndx i : ndxR o tiny p' i = ndxR o tiny p i.
  Proof. unfold ndxR. rewrite NI, !Hpa. fr. Qed.
  Lemma s_ndxx i : ndxxR o tiny p' i = ndxxR o tiny p i.
  Proof. unfold ndxxR. rewrite NI, !Hpa. fr. Qed.
  Lemma s_pb i : pbR o p' i = mu * pbR o p i.
  Proof. unfold pbR. rewrite !Hpa. unfold Rdiv. ring. Qed.
  Lemma s_nfdiv c i : nfdivR o tiny p' G c i = nfdivR o tiny p G c i.
  Proof. unfold nfdivR. rewrite NI, !Hpa. fr. Qed.
  Lemma s_fdiv i : fdivR o p' G C i = mu * fdivR o p G C i.
  Proof. unfold fdivR. rewrite !s_pb. unfold Rdiv. ring. Qed.
  Lemma s_sum4 i : sum4 o p' i = mu * sum4 o p i.
  Proof. unfold sum4. rewrite !Hpa. ring. Qed.
  Lemma s_nfdf i : nfdfR o tiny p' G C i = nfdfR o tiny p G C i.
  Proof. unfold nfdfR. cbv zeta. rewrite NI, !s_fdiv, s_sum4. fr. Qed.
  Lemma s_ndxf i : ndxfR o tiny p' G C i = ndxfR o tiny p G C i.
  Proof. unfold ndxfR. cbv zeta. rewrite NI, !s_fdiv, s_sum4. fr. Qed.
  Lemma s_anti i : antiR o sp tp tiny p' C G N T i = antiR o sp tp tiny p C G N T i.
  Proof.
    unfold antiR, totR, dflR, div3R, up3R, div2R, ndxxCR, spR, tpR, nttR.
    rewrite s_ndx, s_ndxx, !s_nfdiv, s_nfdf, s_ndxf, NI. unfold spR, ndxxCR, tpR, nttR. rewrite NI. reflexivity.
  Qed.
End ScaleAnti.

(** ** Infinite gauge: everything is linear *)
Section LinAnti.
  Variables (o : fl) (sp : sptl) (tp : tmprl) (tiny : R).
  Variables la lb : R.
  Variables p q r C G N T : Z -> R.
  Hypothesis IG : iga o = true.
  Hypothesis NA : oabs o = false.
  Hypothesis Hr : forall i, r i = la * p i + lb * q i.
  Lemma l_pb i : pbR o r i = la * pbR o p i + lb * pbR o q i.
  Proof. unfold pbR, paR. rewrite NA, !Hr. unfold Rdiv. ring. Qed.
  Lemma l_fdiv i : fdivR o r G C i = la * fdivR o p G C i + lb * fdivR o q G C i.
  Proof. unfold fdivR. rewrite !l_pb. unfold Rdiv. ring. Qed.
  Lemma l_anti i : antiR o sp tp tiny r C G N T i =
    la * antiR o sp tp tiny p C G N T i + lb * antiR o sp tp tiny q C G N T i.
  Proof.
    unfold antiR, totR, dflR, div3R, up3R, div2R, nfdfR, ndxfR, nfdivR, spR, tpR, nttR, ndxxCR, ndxR, ndxxR. cbv zeta.
    rewrite IG, !l_fdiv, !l_pb, !Hr. unfold Rdiv.
    destruct (div2 o), (div3 o), (tot o), (dfl o), sp, tp; ring.
  Qed.
End LinAnti.

Section Scale.
  Variables eps tiny : R.
  Notation AR := (arithR eps tiny).
  Variables (o : fl) (sp : sptl) (tp : tmprl).
  Variable X : fixed AR.
  Variables (rs : Z -> Z) (rv : bool -> Z -> Z).
  Notation upF := (upF AR o sp tp X).
  Notation corrF := (corrF AR o sp tp rv X).
  Notation limF := (limF AR o sp tp X).
  Notation finF := (finF AR o sp tp X).
  Notation passesF := (passesF AR o sp tp rs rv X).
  Notation stepF := (stepF AR o sp tp rs rv X).
  Notation stepsF := (stepsF AR o sp tp rs rv X).

  (** *** Linear combinations *)
  Section Lin.
    Variables la lb : R.
    Definition lin (p q r : Z -> R) : Prop := forall i, r i = la * p i + lb * q i.
    Lemma lin_flux p q r c : lin p q r -> lin (fluxF AR o sp tp p c) (fluxF AR o sp tp q c) (fluxF AR o sp tp r c).
    Proof. intros H i. rewrite !fluxF_R. unfold donor. rewrite !H. ring. Qed.
    Lemma lin_sum p q r f1 f2 f3 : lin p q r -> lin f1 f2 f3 ->
      lin (sumF AR o sp tp p f1 (xG AR X)) (sumF AR o sp tp q f2 (xG AR X)) (sumF AR o sp tp r f3 (xG AR X)).
    Proof. intros H H' i. rewrite !sumF_R. rewrite !H, !H'. unfold Rdiv. ring. Qed.
    Lemma lin_up p q r : lin p q r -> lin (upF p) (upF q) (upF r).
    Proof. intros H. unfold Fun1D.upF. apply lin_sum; auto. apply lin_flux; auto. Qed.
    Lemma lin_scale ex p q r : lin p q r -> lin (scaleF AR ex p) (scaleF AR ex q) (scaleF AR ex r).
    Proof. intros H i. rewrite !scaleF_R, H. ring. Qed.
    Lemma lin_corr last p q r C : iga o = true -> oabs o = false -> lin p q r -> lin (corrF last p C) (corrF last q C) (corrF last r C).
    Proof.
      intros IG NA H i. unfold Fun1D.corrF.
      destruct (fct o); [|destruct (dfl o && negb last)]; rewrite !antiF_R; apply l_anti; auto.
    Qed.
    Definition linear_opts (nit : nat) : Prop :=
      nit = 1%nat \/ (iga o = true /\ oabs o = false /\ fct o = false /\ (nit <= 2)%nat).
    Lemma lin_step nit k ex p q r : linear_opts nit -> (k = nit \/ k = 1%nat) ->
      lin p q r -> lin (stepF nit k ex p) (stepF nit k ex q) (stepF nit k ex r).
    Proof.
      intros L HK H. unfold Fun1D.stepF. apply lin_scale.
      assert (H1 : lin (fun x => scaleF AR ex p (rs x)) (fun x => scaleF AR ex q (rs x)) (fun x => scaleF AR ex r (rs x))).
      { intros i. apply lin_scale; auto. }
      pose proof (lin_up _ _ _ H1) as H2.
      assert (K2 : (k <= 1)%nat \/ (iga o = true /\ oabs o = false /\ fct o = false /\ k = 2%nat)).
      { destruct HK as [->| ->]; [|lia]. destruct L as [->|(A & B & D & E)]; [lia|].
        destruct (le_lt_dec nit 1); [lia|]. right. repeat split; auto; lia. }
      destruct K2 as [K2|(A & B & D & ->)].
      - replace (k - 1)%nat with 0%nat by lia. exact H2.
      - cbn [Nat.sub Fun1D.passesF].
        assert (H3 : forall c1 c2 c3, lin c1 c2 c3 -> forall p1 p2 p3, lin p1 p2 p3 -> forall a1 b1 a2 b2 a3 b3,
          lin (finF p1 (limF p1 c1 a1 b1)) (finF p2 (limF p2 c2 a2 b2)) (finF p3 (limF p3 c3 a3 b3))).
        { intros c1 c2 c3 Hc p1 p2 p3 Hp a1 b1 a2 b2 a3 b3. unfold Fun1D.finF, Fun1D.limF. rewrite A, D. apply lin_sum; auto. }
        apply H3.
        + apply lin_corr; auto. intros i. apply H2.
        + intros i. apply H2.
    Qed.
    Lemma lin_steps nit freq ex nt : linear_opts nit -> forall ts p q r, lin p q r ->
      lin (stepsF nit freq ex nt ts p) (stepsF nit freq ex nt ts q) (stepsF nit freq ex nt ts r).
    Proof.
      intros L. induction nt as [|n IH]; intros ts p q r H; cbn [Fun1D.stepsF]; auto.
      apply IH. apply lin_step; auto. apply passes_cases.
    Qed.
  End Lin.

  (** *** Multiples *)
  Section Hom.
    Variables lam mu : R.
    Definition mul (p q : Z -> R) : Prop := forall i, q i = lam * p i.
    Hypothesis Hmu : 0 < mu.
    Hypothesis Hfr : pfc o = true \/ mu = 1.
    Hypothesis Hpa : forall x, paR o (lam * x) = mu * paR o x.
    Hypothesis NI : iga o = false.
    Hypothesis NF : fct o = false.
    Lemma mul_flux p q c : mul p q -> mul (fluxF AR o sp tp p c) (fluxF AR o sp tp q c).
    Proof. intros H i. rewrite !fluxF_R. unfold donor. rewrite !H. ring. Qed.
    Lemma mul_sum p q f1 f2 : mul p q -> mul f1 f2 ->
      mul (sumF AR o sp tp p f1 (xG AR X)) (sumF AR o sp tp q f2 (xG AR X)).
    Proof. intros H H' i. rewrite !sumF_R. rewrite !H, !H'. unfold Rdiv. ring. Qed.
    Lemma mul_corr last p q C : mul p q -> corrF last q C == corrF last p C.
    Proof.
      intros H i. unfold Fun1D.corrF.
      destruct (fct o); [|destruct (dfl o && negb last)]; rewrite !antiF_R; apply s_anti with (mu := mu); auto;
        intros j; rewrite H; apply Hpa.
    Qed.
    Lemma passesF_C nit mn mx more : forall j p C C', C == C' -> passesF nit mn mx j more p C == passesF nit mn mx j more p C'.
    Proof. intros j p C C' H. apply passesF_ext; auto; intros ? ?; reflexivity. Qed.
    Lemma mul_fin p q c c' mn mx mn' mx' : mul p q -> c' == c ->
      mul (finF p (limF p c mn mx)) (finF q (limF q c' mn' mx')).
    Proof.
      intros H Hc. unfold Fun1D.finF, Fun1D.limF. rewrite NI, NF. apply mul_sum; auto.
      intros i. rewrite (fluxF_ext AR o sp tp q q c' c) by (auto; intros ?; reflexivity). apply mul_flux; auto.
    Qed.
    Lemma mul_passes nit mn mn' mx mx' more : forall j p q C C', mul p q -> C' == C ->
      mul (passesF nit mn mx j more p C) (passesF nit mn' mx' j more q C').
    Proof.
      induction more as [|k IH]; intros j p q C C' H HC; [auto|]. cbn [Fun1D.passesF].
      assert (H1 : mul (fun x => p (rs x)) (fun x => q (rs x))) by (intros i; apply H).
      assert (HC' : corrF (Nat.eqb (S j) nit) (fun x => q (rs x)) C' == corrF (Nat.eqb (S j) nit) (fun x => p (rs x)) C).
      { intros i. rewrite (corrF_ext AR rv o sp tp X _ _ (fun x => q (rs x)) C' C) by (auto; intros ?; reflexivity).
        apply mul_corr; auto. }
      apply IH; auto. apply mul_fin; auto.
    Qed.
    Lemma mul_scale ex p q : mul p q -> mul (scaleF AR ex p) (scaleF AR ex q).
    Proof. intros H i. rewrite !scaleF_R, H. ring. Qed.
    Lemma mul_step nit k ex p q : mul p q -> mul (stepF nit k ex p) (stepF nit k ex q).
    Proof.
      intros H. unfold Fun1D.stepF. apply mul_scale. apply mul_passes; [|intros ?; reflexivity].
      unfold Fun1D.upF. assert (H1 : mul (fun x => scaleF AR ex p (rs x)) (fun x => scaleF AR ex q (rs x))).
      { intros i. apply mul_scale; auto. }
      apply mul_sum; auto. apply mul_flux; auto.
    Qed.
    Lemma mul_steps nit freq ex nt : forall ts p q, mul p q -> mul (stepsF nit freq ex nt ts p) (stepsF nit freq ex nt ts q).
    Proof. induction nt as [|n IH]; intros ts p q H; cbn [Fun1D.stepsF]; auto. apply IH. apply mul_step; auto. Qed.
  End Hom.

  (** *** Change of sign *)
  Section Neg.
    Notation g := (gR o (xG AR X)).
    Definition neg (p q : Z -> R) : Prop := forall i, q i = - p i.
    Hypothesis Hg : forall i, 0 < g i.
    Hypothesis He : 0 < eps.
    Hypothesis IA : iga o = negb (oabs o).
    Definition cneg (c d : Z -> R) : Prop := forall i, d i = if iga o then - c i else c i.
    Lemma neg_donor p q c : neg p q -> neg (donor p c) (donor q c).
    Proof. intros H i. unfold donor. rewrite !H. ring. Qed.
    Lemma neg_sum p q f1 f2 : neg p q -> neg f1 f2 ->
      neg (sumF AR o sp tp p f1 (xG AR X)) (sumF AR o sp tp q f2 (xG AR X)).
    Proof. intros H H' i. rewrite !sumF_R. rewrite !H, !H'. unfold Rdiv. ring. Qed.
    Lemma neg_corr last p q C C' : neg p q -> C' == C -> cneg (corrF last p C) (corrF last q C').
    Proof.
      intros H HC i. rewrite (corrF_ext AR rv o sp tp X _ _ q C' C) by (auto; intros ?; reflexivity).
      unfold Fun1D.corrF. destruct (iga o) eqn:Ei.
      - assert (A : forall j, antiR o sp tp tiny q C (xG AR X) (xN AR X) (xT AR X) j = - antiR o sp tp tiny p C (xG AR X) (xN AR X) (xT AR X) j).
        { intros j. rewrite (l_anti o sp tp tiny (-1) 0 p p q); auto; [ring| |].
          - destruct (oabs o); auto; discriminate.
          - intros k. rewrite H. ring. }
        destruct (fct o); [|destruct (dfl o && negb last)]; rewrite !antiF_R; apply A.
      - assert (A : forall j, antiR o sp tp tiny q C (xG AR X) (xN AR X) (xT AR X) j = antiR o sp tp tiny p C (xG AR X) (xN AR X) (xT AR X) j).
        { intros j. apply s_anti with (mu := 1); auto; try lra. intros k. rewrite H. unfold paR.
          destruct (oabs o); [|discriminate]. rewrite Rabs_Ropp. ring. }
        destruct (fct o); [|destruct (dfl o && negb last)]; rewrite !antiF_R; apply A.
    Qed.
    Lemma neg_phi p q c d : neg p q -> cneg c d -> neg (phiF o p c) (phiF o q d).
    Proof.
      intros H Hc i. unfold phiF. pose proof (Hc i) as E. destruct (iga o); auto. unfold donor. rewrite E, !H. ring.
    Qed.
    Lemma neg_fin p q c d mn mx mn' mx' : neg p q -> cneg c d -> (fct o = true -> neg mn mx' /\ neg mx mn') ->
      neg (finF p (limF p c mn mx)) (finF q (limF q d mn' mx')).
    Proof.
      intros H Hc HM. destruct (fct o) eqn:Hf.
      - destruct (HM eq_refl) as [M1 M2].
        intros i. rewrite !fin_k by auto. pose proof (neg_phi p q c d H Hc) as HP.
        assert (HU : forall x, upL eps tiny o X q mx' d x = dnL eps tiny o X p mn c x).
        { intros x. unfold upL, dnL, inF, outF, topF, botF. rewrite !HP, !M1, !H, !Rmax_opp, !Rmin_opp, !Rmaxopp2.
          f_equal; [f_equal; ring|ring]. }
        assert (HL : forall x, dnL eps tiny o X q mn' d x = upL eps tiny o X p mx c x).
        { intros x. unfold upL, dnL, inF, outF, topF, botF. rewrite !HP, !M2, !H, !Rmax_opp, !Rmin_opp, !Rminopp2.
          f_equal; [f_equal; ring|ring]. }
        assert (HK : forall x, kF eps tiny o X q mn' mx' d x * phiF o q d x = - (kF eps tiny o X p mn mx c x * phiF o p c x)).
        { intros x. rewrite HP. destruct (Req_dec (phiF o p c x) 0) as [Z0|NZ]; [rewrite Z0; ring|].
          assert (E : kF eps tiny o X q mn' mx' d x = kF eps tiny o X p mn mx c x); [|rewrite E; ring].
          unfold kF, limfac, limA, limB, gtb. rewrite !HU, !HL. unfold phiF, donor in NZ. pose proof (Hc x) as Ec.
          destruct (iga o).
          - cbn [negb andb]. rewrite Ec. destruct (Rlt_dec 0 (- c x)), (Rlt_dec 0 (c x)); try lra; reflexivity.
          - destruct (oabs o); [|discriminate]. cbn [negb andb]. rewrite Ec, !H. destruct (Rlt_dec 0 (c x)).
            + assert (p x <> 0).
              { intros E. apply NZ. rewrite E, Rmax_right, Rmin_left by lra. ring. }
              destruct (Rlt_dec 0 (- p x)), (Rlt_dec 0 (p x)); try lra; reflexivity.
            + assert (p (x + 1)%Z <> 0).
              { intros E. apply NZ. rewrite E, Rmax_left, Rmin_right by lra. ring. }
              destruct (Rlt_dec 0 (- p (x + 1)%Z)), (Rlt_dec 0 (p (x + 1)%Z)); try lra; reflexivity. }
        rewrite !HK, H. unfold Rdiv. ring.
      - unfold Fun1D.finF, Fun1D.limF. rewrite Hf. apply neg_sum; auto.
        intros i. pose proof (Hc i) as E. destruct (iga o); auto. rewrite !fluxF_R. unfold donor. rewrite E, !H. ring.
    Qed.
    Lemma neg_passes nit mn mn' mx mx' more : neg mn mx' -> neg mx mn' -> (iga o = true -> (more <= 1)%nat) ->
      forall j p q C C', neg p q -> C' == C ->
      neg (passesF nit mn mx j more p C) (passesF nit mn' mx' j more q C').
    Proof.
      intros M1 M2. induction more as [|k IH]; intros HI j p q C C' H HC; [auto|]. cbn [Fun1D.passesF].
      assert (H1 : neg (fun x => p (rs x)) (fun x => q (rs x))) by (intros i; apply H).
      pose proof (neg_corr (Nat.eqb (S j) nit) _ _ C C' H1 HC) as HC'.
      set (c := corrF _ _ C) in *. set (d := corrF _ _ C') in *.
      pose proof (neg_fin _ _ _ _ mn mx mn' mx' H1 HC' (fun _ => conj M1 M2)) as F.
      destruct (iga o) eqn:Ei.
      - specialize (HI eq_refl). replace k with 0%nat by lia. exact F.
      - apply IH; auto; try discriminate. intros i. specialize (HC' i). rewrite Ei in HC'. exact HC'.
    Qed.
    Lemma neg_scale ex p q : neg p q -> neg (scaleF AR ex p) (scaleF AR ex q).
    Proof. intros H i. rewrite !scaleF_R, H. ring. Qed.
    Lemma neg_step nit k ex p q : (iga o = true -> (k <= 2)%nat) -> neg p q -> neg (stepF nit k ex p) (stepF nit k ex q).
    Proof.
      intros HI H. unfold Fun1D.stepF. apply neg_scale.
      assert (H1 : neg (fun x => scaleF AR ex p (rs x)) (fun x => scaleF AR ex q (rs x))).
      { intros i. apply neg_scale; auto. }
      apply neg_passes.
      - intros i. rewrite maxF_R, minF_R, !H1, !Rmaxopp2. reflexivity.
      - intros i. rewrite maxF_R, minF_R, !H1, !Rminopp2. reflexivity.
      - intros Ei. specialize (HI Ei). lia.
      - unfold Fun1D.upF. apply neg_sum; auto. intros i. rewrite !fluxF_R. apply neg_donor; auto.
      - intros ?; reflexivity.
    Qed.
    Lemma neg_steps nit freq ex nt : (iga o = true -> (nit <= 2)%nat) ->
      forall ts p q, neg p q -> neg (stepsF nit freq ex nt ts p) (stepsF nit freq ex nt ts q).
    Proof.
      intros HI. induction nt as [|n IH]; intros ts p q H; cbn [Fun1D.stepsF]; auto. apply IH. apply neg_step; auto.
      intros Ei. specialize (HI Ei). destruct (passes_cases nit freq ts); lia.
    Qed.
  End Neg.
End Scale.

(** ** Options that do not change exact results *)
Section Toggle.
  Variables eps tiny : R.
  Notation AR := (arithR eps tiny).
  Variables (o o' : fl) (sp : sptl) (tp : tmprl).
  Variable X : fixed AR.
  Variables (rs : Z -> Z) (rv : bool -> Z -> Z).
  Hypothesis E : o' = mkfl (fct o) (oabs o) (tot o) (pfc o) (npa o') (iga o) (nug o) (dfl o) (khn o') (div2 o) (div3 o) (div3dt o) (fot o).
  Lemma t_fct : fct o' = fct o. Proof. rewrite E. reflexivity. Qed.
  Lemma t_iga : iga o' = iga o. Proof. rewrite E. reflexivity. Qed.
  Lemma t_dfl : dfl o' = dfl o. Proof. rewrite E. reflexivity. Qed.
  Lemma t_nug : nug o' = nug o. Proof. rewrite E. reflexivity. Qed.
  Lemma t_flux p C : fluxF AR o' sp tp p C == fluxF AR o sp tp p C.
  Proof. intros i. rewrite !fluxF_R. reflexivity. Qed.
  Lemma t_sum p f G : sumF AR o' sp tp p f G == sumF AR o sp tp p f G.
  Proof. intros i. rewrite !sumF_R. unfold gR. rewrite t_nug. reflexivity. Qed.
  Lemma t_anti p C G N T : antiF AR o' sp tp p C G N T == antiF AR o sp tp p C G N T.
  Proof. intros i. rewrite !antiF_R. rewrite E. reflexivity. Qed.
  Lemma t_bup p m f G : bupF AR o' sp tp p m f G == bupF AR o sp tp p m f G.
  Proof. intros i. rewrite !bupF_R. unfold gR. rewrite t_nug. reflexivity. Qed.
  Lemma t_bdn p m f G : bdnF AR o' sp tp p m f G == bdnF AR o sp tp p m f G.
  Proof. intros i. rewrite !bdnF_R. unfold gR. rewrite t_nug. reflexivity. Qed.
  Lemma t_mono p C u d : monoF AR o' sp tp p C u d == monoF AR o sp tp p C u d.
  Proof. intros i. rewrite !monoF_R. rewrite E. reflexivity. Qed.
  Lemma t_corr last p C : corrF AR o' sp tp rv X last p C == corrF AR o sp tp rv X last p C.
  Proof. intros i. unfold corrF. rewrite t_fct, t_dfl. case (fct o); [|case (dfl o && negb last)]; apply t_anti. Qed.
  Lemma t_lim p c mn mx : limF AR o' sp tp X p c mn mx == limF AR o sp tp X p c mn mx.
  Proof.
    intros i. unfold limF. rewrite t_fct, t_iga. case (fct o); [|reflexivity]. rewrite t_mono.
    assert (F : (if iga o then c else fluxF AR o' sp tp p c) == (if iga o then c else fluxF AR o sp tp p c)).
    { case (iga o); [intros ?; reflexivity|apply t_flux]. }
    apply monoF_ext; try (intros ?; reflexivity).
    - intros x. rewrite t_bup. apply bupF_ext; auto; intros ?; reflexivity.
    - intros x. rewrite t_bdn. apply bdnF_ext; auto; intros ?; reflexivity.
  Qed.
  Lemma t_fin p c : finF AR o' sp tp X p c == finF AR o sp tp X p c.
  Proof.
    intros i. unfold finF. rewrite t_sum, t_iga. apply sumF_ext; try (intros ?; reflexivity).
    case (iga o); [intros ?; reflexivity|apply t_flux].
  Qed.
  Lemma t_passes nit mn mx more : forall j p C,
    passesF AR o' sp tp rs rv X nit mn mx j more p C == passesF AR o sp tp rs rv X nit mn mx j more p C.
  Proof.
    induction more as [|k IH]; intros j p C i; [reflexivity|]. cbn [passesF]. rewrite IH.
    apply passesF_ext; try (intros; reflexivity).
    - intros x. rewrite t_fin. apply finF_ext; [intros ?; reflexivity|]. intros y. rewrite t_lim.
      apply limF_ext; try (intros ?; reflexivity); try (intros _ ?; reflexivity). intros z. apply t_corr.
    - intros x. apply t_corr.
  Qed.
  Lemma t_step nit k ex p : stepF AR o' sp tp rs rv X nit k ex p == stepF AR o sp tp rs rv X nit k ex p.
  Proof.
    unfold stepF. intros i. apply scaleF_ext. intros x. rewrite t_passes.
    apply passesF_ext.
    - intros _ y. rewrite !minF_R. reflexivity.
    - intros _ y. rewrite !maxF_R. reflexivity.
    - intros y. unfold upF. rewrite t_sum. apply sumF_ext; try (intros ?; reflexivity). apply t_flux.
    - intros ?; reflexivity.
  Qed.
  Lemma t_steps nit freq ex nt : forall ts p q, p == q ->
    stepsF AR o' sp tp rs rv X nit freq ex nt ts p == stepsF AR o sp tp rs rv X nit freq ex nt ts q.
  Proof.
    induction nt as [|n IH]; intros ts p q H; cbn [stepsF]; auto. apply IH. intros i. rewrite t_step. apply stepF_ext; auto.
  Qed.
End Toggle.
