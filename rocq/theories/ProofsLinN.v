(** Multiples, sums and change of sign of fields for the functions of FunN.v
    over the reals, in any number of dimensions. *)
From Coq Require Import ZArith List Bool Lia ZifyBool Reals Lra FunctionalExtensionality.
From Verif Require Import ModelRun Lang ProofsLang Stencil FormCommon Solver1D Fun1D FunN Arith SpecReal
  ProofsReal1D ProofsAnti1D ProofsNum1D ProofsSign1D ProofsSym1D ProofsFunN ProofsNumN.
Import ListNotations.
Local Open Scope R_scope.

Section Lin.
  Variables eps tiny : R.
  Notation AR := (arithR eps tiny).
  Variables (o : fl) (F : forms) (ds : list dim).
  Hypothesis CF : closed o ds eps tiny F.
  Variable X : fixedN AR.
  Notation g := (gN o (nG AR X)).
  Notation vec := (dim -> idx -> R).
  Notation fluxN := (fluxN AR F).
  Notation corrN := (corrN AR F X).
  Definition veq (C C' : vec) : Prop := forall d x, In d ds -> C' d x = C d x.

  Lemma sum_eq (p p' : idx -> R) f f' : (forall x, p' x = p x) -> veq f f' -> forall x,
    sumN AR o F p' f' (nG AR X) x = sumN AR o F p f (nG AR X) x.
  Proof.
    intros Hp Hf x. rewrite !(cl_sum _ _ _ _ _ CF), Hp. f_equal. f_equal. apply dsum_ext. intros d Hd. rewrite !Hf by auto. reflexivity.
  Qed.

  (** *** Linear combinations *)
  Section Comb.
    Variables la lb : R.
    Definition lin (p q r : idx -> R) : Prop := forall x, r x = la * p x + lb * q x.
    Definition linv (p q r : vec) : Prop := forall d x, In d ds -> r d x = la * p d x + lb * q d x.
    Hypothesis HL : iga o = true -> forall p pn q qn r rn C, lin p q r -> lin pn qn rn -> linv (corrN p pn C) (corrN q qn C) (corrN r rn C).
    Definition linear_optsN (nit : nat) : Prop := nit = 1%nat \/ iga o = true /\ fct o = false /\ (nit <= 2)%nat.
    Lemma linN_flux p q r c : lin p q r -> linv (fluxN p c) (fluxN q c) (fluxN r c).
    Proof. intros H d x Hd. rewrite !(cl_flux _ _ _ _ _ CF) by auto. unfold donN. rewrite !H. ring. Qed.
    Lemma linN_sum p q r f1 f2 f3 : lin p q r -> linv f1 f2 f3 ->
      lin (sumN AR o F p f1 (nG AR X)) (sumN AR o F q f2 (nG AR X)) (sumN AR o F r f3 (nG AR X)).
    Proof.
      intros H Hf x. rewrite !(cl_sum _ _ _ _ _ CF), H.
      replace (divN ds f3 x) with (la * divN ds f1 x + lb * divN ds f2 x); [unfold Rdiv; ring|].
      unfold divN. rewrite <- !dsum_scal, <- dsum_plus. apply dsum_ext. intros d Hd. rewrite !Hf by auto. ring.
    Qed.
    Lemma linN_scale ex p q r : lin p q r -> lin (scaleN AR ex p) (scaleN AR ex q) (scaleN AR ex r).
    Proof. intros H x. rewrite !scaleN_R, H. ring. Qed.
    Lemma linN_step nit k ex p q r : linear_optsN nit -> (k = nit \/ k = 1%nat) ->
      lin p q r -> lin (stepN AR o F X k ex p) (stepN AR o F X k ex q) (stepN AR o F X k ex r).
    Proof.
      intros HO Hk H. unfold stepN. apply linN_scale. apply (linN_scale ex) in H.
      assert (U : lin (upN AR o F X (scaleN AR ex p)) (upN AR o F X (scaleN AR ex q)) (upN AR o F X (scaleN AR ex r))).
      { unfold upN. apply linN_sum; auto. apply linN_flux; auto. }
      assert (HK : (k - 1 = 0 \/ k - 1 = 1 /\ iga o = true /\ fct o = false)%nat).
      { destruct HO as [->|(A & B & D)]; [lia|]. destruct Hk; lia. }
      destruct HK as [->|(-> & HI & HF)]; cbn [passesN]; auto.
      unfold finN, limN. rewrite HI, HF. apply linN_sum; auto.
    Qed.
    Lemma linN_steps nit freq ex nt : linear_optsN nit -> forall ts p q r, lin p q r ->
      lin (stepsN AR o F X nit freq ex nt ts p) (stepsN AR o F X nit freq ex nt ts q) (stepsN AR o F X nit freq ex nt ts r).
    Proof.
      intros HO. induction nt as [|n IH]; intros ts p q r H; cbn [stepsN]; auto. apply IH. apply linN_step with nit; auto.
      destruct (passes_cases nit freq ts); auto.
    Qed.
  End Comb.

  (** *** Antidiffusive velocities that do not depend on the unit of the advectee *)
  Definition pa_mul (mu : R) (p p' : idx -> R) : Prop := forall x, paR o (p' x) = mu * paR o (p x).
  Definition unit_free : Prop := iga o = false -> forall mu p pn p' pn' C C', 0 < mu -> (pfc o = true \/ mu = 1) ->
    pa_mul mu p p' -> pa_mul mu pn pn' -> veq C C' -> veq (corrN p pn C) (corrN p' pn' C').

  (** *** Multiples *)
  Section Mul.
    Variable lam : R.
    Hypothesis NI : iga o = false.
    Hypothesis NF : fct o = false.
    Hypothesis HP : pfc o = true.
    Hypothesis Hl : 0 < lam \/ oabs o = true /\ lam <> 0.
    Hypothesis HU : unit_free.
    Definition mulN (p q : idx -> R) : Prop := forall x, q x = lam * p x.
    Lemma mul_pa p q : mulN p q -> pa_mul (if Rlt_dec 0 lam then lam else - lam) p q.
    Proof.
      intros H x. rewrite H. unfold paR. destruct (Rlt_dec 0 lam).
      - destruct (oabs o); auto. rewrite Rabs_mult, Rabs_right by lra. reflexivity.
      - destruct Hl as [A|[-> A]]; [contradiction|]. rewrite Rabs_mult, Rabs_left by lra. ring.
    Qed.
    Lemma mul_posn : 0 < (if Rlt_dec 0 lam then lam else - lam).
    Proof. destruct (Rlt_dec 0 lam); auto. destruct Hl as [|[_ A]]; lra. Qed.
    Lemma mulN_fin p q c c' mn mx mn' mx' : mulN p q -> veq c c' ->
      mulN (finN AR o F X p (limN AR o F X p c mn mx)) (finN AR o F X q (limN AR o F X q c' mn' mx')).
    Proof.
      intros H Hc x. unfold finN, limN. rewrite NI, NF, !(cl_sum _ _ _ _ _ CF), H.
      replace (divN ds (fluxN q c') x) with (lam * divN ds (fluxN p c) x); [unfold Rdiv; toR; ring|].
      unfold divN. rewrite <- dsum_scal. apply dsum_ext. intros d Hd. rewrite !(cl_flux _ _ _ _ _ CF) by auto.
      unfold donN. rewrite !H, !Hc by auto. toR; ring.
    Qed.
    Lemma mulN_passes mn mn' mx mx' more : forall pn qn p q C C', mulN pn qn -> mulN p q -> veq C C' ->
      mulN (passesN AR o F X mn mx more pn p C) (passesN AR o F X mn' mx' more qn q C').
    Proof.
      induction more as [|k IH]; intros pn qn p q C C' Hn H HC; cbn [passesN]; auto.
      assert (K : veq (corrN p pn C) (corrN q qn C')).
      { apply (HU NI) with (mu := if Rlt_dec 0 lam then lam else - lam); auto using mul_posn, mul_pa. }
      apply IH; auto. apply mulN_fin; auto.
    Qed.
    Lemma mulN_step k ex p q : mulN p q -> mulN (stepN AR o F X k ex p) (stepN AR o F X k ex q).
    Proof.
      intros H.
      assert (HS : forall ex p q, mulN p q -> mulN (scaleN AR ex p) (scaleN AR ex q)) by (intros ? ? ? A x; rewrite !scaleN_R, A; ring).
      unfold stepN. apply HS. apply (HS ex) in H. apply mulN_passes; auto.
      - intros x. unfold upN. rewrite !(cl_sum _ _ _ _ _ CF), H.
        replace (divN ds (fluxN (scaleN AR ex q) (nC AR X)) x) with (lam * divN ds (fluxN (scaleN AR ex p) (nC AR X)) x); [unfold Rdiv; toR; ring|].
        unfold divN. rewrite <- dsum_scal. apply dsum_ext. intros d Hd. rewrite !(cl_flux _ _ _ _ _ CF) by auto.
        unfold donN. rewrite !H. toR; ring.
      - intros d x _. reflexivity.
    Qed.
    Lemma mulN_steps nit freq ex nt : forall ts p q, mulN p q ->
      mulN (stepsN AR o F X nit freq ex nt ts p) (stepsN AR o F X nit freq ex nt ts q).
    Proof. induction nt as [|n IH]; intros ts p q H; cbn [stepsN]; auto. apply IH, mulN_step, H. Qed.
  End Mul.

  (** *** Change of sign *)
  Section Neg.
    Definition negN (p q : idx -> R) : Prop := forall x, q x = - p x.
    Hypothesis Hg : forall x, 0 < g x.
    Hypothesis He : 0 < eps.
    Hypothesis IA : iga o = negb (oabs o).
    Definition cnegN (c d : vec) : Prop := forall e x, In e ds -> d e x = if iga o then - c e x else c e x.
    Hypothesis HN : forall p pn q qn C C', negN p q -> negN pn qn -> veq C C' -> cnegN (corrN p pn C) (corrN q qn C').
    Lemma negN_sum p q f1 f2 : negN p q -> (forall d x, In d ds -> f2 d x = - f1 d x) ->
      negN (sumN AR o F p f1 (nG AR X)) (sumN AR o F q f2 (nG AR X)).
    Proof.
      intros H H' x. rewrite !(cl_sum _ _ _ _ _ CF), H.
      replace (divN ds f2 x) with (-1 * divN ds f1 x); [unfold Rdiv; toR; ring|].
      unfold divN. rewrite <- dsum_scal. apply dsum_ext. intros d Hd. rewrite !H' by auto. ring.
    Qed.
    Lemma negN_phi p q c d : negN p q -> cnegN c d -> forall e x, In e ds -> phiN o q d e x = - phiN o p c e x.
    Proof.
      intros H Hc e x Hin. unfold phiN. pose proof (Hc e x Hin) as E. destruct (iga o); auto. unfold donN. rewrite E, !H. ring.
    Qed.
    Lemma negN_max p q : negN p q -> forall x, nbmax ds q x = - nbmin ds p x.
    Proof.
      intros H x. clear - H. induction ds as [|d l IH]; cbn; [apply H|]. rewrite !H, IH, !Rmaxopp2. reflexivity.
    Qed.
    Lemma negN_min p q : negN p q -> forall x, nbmin ds q x = - nbmax ds p x.
    Proof.
      intros H x. clear - H. induction ds as [|d l IH]; cbn; [apply H|]. rewrite !H, IH, !Rminopp2. reflexivity.
    Qed.
    Lemma negN_fin p q c d mn mx mn' mx' : negN p q -> cnegN c d -> (fct o = true -> negN mn mx' /\ negN mx mn') ->
      negN (finN AR o F X p (limN AR o F X p c mn mx)) (finN AR o F X q (limN AR o F X q d mn' mx')).
    Proof.
      intros H Hc HM. destruct (fct o) eqn:Hf.
      - destruct (HM eq_refl) as [M1 M2].
        intros x. rewrite !(fin_kN eps tiny o F ds CF) by auto. pose proof (negN_phi p q c d H Hc) as HP.
        assert (HIn : forall y, inN ds (phiN o q d) y = outN ds (phiN o p c) y).
        { intros y. apply dsum_ext. intros e Hin. rewrite !HP, Rmax_opp, Rmin_opp by auto. ring. }
        assert (HOu : forall y, outN ds (phiN o q d) y = inN ds (phiN o p c) y).
        { intros y. apply dsum_ext. intros e Hin. rewrite !HP, Rmax_opp, Rmin_opp by auto. ring. }
        assert (HU : forall y, upLN eps tiny o ds X q mx' d y = dnLN eps tiny o ds X p mn c y).
        { intros y. unfold upLN, dnLN, topN, botN. rewrite HIn, M1, (negN_max p q H), H, Rmaxopp2. f_equal. f_equal. ring. }
        assert (HL : forall y, dnLN eps tiny o ds X q mn' d y = upLN eps tiny o ds X p mx c y).
        { intros y. unfold upLN, dnLN, topN, botN. rewrite HOu, M2, (negN_min p q H), H, Rminopp2. f_equal. f_equal. ring. }
        assert (HK : forall e y, In e ds -> kN eps tiny o ds X q mn' mx' d e y * phiN o q d e y = - (kN eps tiny o ds X p mn mx c e y * phiN o p c e y)).
        { intros e y Hin. rewrite HP by auto. destruct (Req_dec (phiN o p c e y) 0) as [Z0|NZ]; [rewrite Z0; ring|].
          assert (E : kN eps tiny o ds X q mn' mx' d e y = kN eps tiny o ds X p mn mx c e y); [|rewrite E; ring].
          unfold kN, limfacN, limAN, limBN, gtb. rewrite !HU, !HL. unfold phiN, donN in NZ. pose proof (Hc e y Hin) as Ec.
          destruct (iga o).
          - cbn [negb andb]. rewrite Ec. destruct (Rlt_dec 0 (- c e y)), (Rlt_dec 0 (c e y)); try lra; reflexivity.
          - destruct (oabs o); [|discriminate]. cbn [negb andb]. rewrite Ec, !H. destruct (Rlt_dec 0 (c e y)).
            + assert (p y <> 0).
              { intros E. apply NZ. rewrite E, Rmax_right, Rmin_left by lra. ring. }
              destruct (Rlt_dec 0 (- p y)), (Rlt_dec 0 (p y)); try lra; reflexivity.
            + assert (p (nx e y) <> 0).
              { intros E. apply NZ. rewrite E, Rmax_left, Rmin_right by lra. ring. }
              destruct (Rlt_dec 0 (- p (nx e y))), (Rlt_dec 0 (p (nx e y))); try lra; reflexivity. }
        rewrite H. replace (divN ds (fun e y => kN eps tiny o ds X q mn' mx' d e y * phiN o q d e y) x)
          with (-1 * divN ds (fun e y => kN eps tiny o ds X p mn mx c e y * phiN o p c e y) x); [unfold Rdiv; ring|].
        unfold divN. rewrite <- dsum_scal. apply dsum_ext. intros e Hin. rewrite !HK by auto. ring.
      - unfold finN, limN. rewrite Hf. apply negN_sum; auto.
        intros e x Hin. pose proof (Hc e x Hin) as E. destruct (iga o); auto. rewrite !(cl_flux _ _ _ _ _ CF) by auto. unfold donN. rewrite E, !H. ring.
    Qed.
    Lemma negN_passes mn mn' mx mx' more : negN mn mx' -> negN mx mn' -> (iga o = true -> (more <= 1)%nat) ->
      forall pn qn p q C C', negN pn qn -> negN p q -> veq C C' ->
      negN (passesN AR o F X mn mx more pn p C) (passesN AR o F X mn' mx' more qn q C').
    Proof.
      intros M1 M2. induction more as [|k IH]; intros HI pn qn p q C C' Hn H HC; cbn [passesN]; auto.
      pose proof (HN p pn q qn C C' H Hn HC) as HC'.
      set (c := corrN p pn C) in *. set (d := corrN q qn C') in *.
      pose proof (negN_fin _ _ _ _ mn mx mn' mx' H HC' (fun _ => conj M1 M2)) as FF.
      destruct (iga o) eqn:Ei.
      - specialize (HI eq_refl). replace k with 0%nat by lia. exact FF.
      - apply IH; auto; try discriminate. intros e x Hin. specialize (HC' e x Hin). rewrite Ei in HC'. exact HC'.
    Qed.
    Lemma negN_step k ex p q : (iga o = true -> (k <= 2)%nat) -> negN p q -> negN (stepN AR o F X k ex p) (stepN AR o F X k ex q).
    Proof.
      intros HI H.
      assert (HS : forall ex p q, negN p q -> negN (scaleN AR ex p) (scaleN AR ex q)) by (intros ? ? ? A x; rewrite !scaleN_R, A; ring).
      unfold stepN. apply HS. apply (HS ex) in H. apply negN_passes; auto.
      - intros x. rewrite (cl_max _ _ _ _ _ CF), (cl_min _ _ _ _ _ CF). apply negN_max; auto.
      - intros x. rewrite (cl_max _ _ _ _ _ CF), (cl_min _ _ _ _ _ CF). apply negN_min; auto.
      - intros Ei. specialize (HI Ei). lia.
      - unfold upN. apply negN_sum; auto. intros d x Hd. rewrite !(cl_flux _ _ _ _ _ CF) by auto. unfold donN. rewrite !H. toR; ring.
      - intros d x _. reflexivity.
    Qed.
    Lemma negN_steps nit freq ex nt : (iga o = true -> (nit <= 2)%nat) ->
      forall ts p q, negN p q -> negN (stepsN AR o F X nit freq ex nt ts p) (stepsN AR o F X nit freq ex nt ts q).
    Proof.
      intros HI. induction nt as [|n IH]; intros ts p q H; cbn [stepsN]; auto. apply IH. apply negN_step; auto.
      intros Ei. specialize (HI Ei). destruct (passes_cases nit freq ts); lia.
    Qed.
  End Neg.

  (** *** [hint_scale] *)
  Section Hint.
    Hypothesis HL : forall la lb, iga o = true -> forall p pn q qn r rn C, lin la lb p q r -> lin la lb pn qn rn ->
      linv la lb (corrN p pn C) (corrN q qn C) (corrN r rn C).
    Hypothesis HU : unit_free.
    Lemma scaleN_eq ex (p : idx -> R) : scaleN AR ex p = fun x => sc ex * p x.
    Proof. apply functional_extensionality. intros x. apply scaleN_R. Qed.
    Lemma stepN_scaled k ex p x : stepN AR o F X k ex p x = sc (- ex) * stepN AR o F X k 0 (fun y => sc ex * p y) x.
    Proof. unfold stepN. rewrite scaleN_R, scaleN_eq. reflexivity. Qed.
    Definition scale_freeN (nit : nat) : Prop :=
      nit = 1%nat \/ fct o = false /\ (pfc o = true /\ iga o = false \/ iga o = true /\ (nit <= 2)%nat).
    Lemma stepN_hint nit k ex p : scale_freeN nit -> (k = nit \/ k = 1%nat) -> forall x, stepN AR o F X k ex p x = stepN AR o F X k 0 p x.
    Proof.
      intros S HK x. rewrite stepN_scaled.
      assert (E : stepN AR o F X k 0 (fun y => sc ex * p y) x = sc ex * stepN AR o F X k 0 p x).
      { destruct S as [S|[S1 [[S2 S3]|[S2 S3]]]].
        - rewrite (linN_step (sc ex) 0 (HL _ _) nit k 0 p p (fun y => sc ex * p y)); auto; [toR; ring|left; auto|intros y; ring].
        - apply (mulN_step (sc ex)); auto using sc_pos. intros y. reflexivity.
        - rewrite (linN_step (sc ex) 0 (HL _ _) nit k 0 p p (fun y => sc ex * p y)); auto; [toR; ring|right; auto|intros y; ring]. }
      rewrite E, <- Rmult_assoc, sc_inv. toR; ring.
    Qed.
    Lemma stepsN_hint nit freq ex1 ex2 nt : scale_freeN nit -> forall ts p,
      stepsN AR o F X nit freq ex1 nt ts p = stepsN AR o F X nit freq ex2 nt ts p.
    Proof.
      intros S. induction nt as [|n IH]; intros ts p; cbn [stepsN]; [reflexivity|].
      rewrite IH. f_equal. apply functional_extensionality. intros x.
      rewrite (stepN_hint nit _ ex1), (stepN_hint nit _ ex2); auto using passes_cases.
    Qed.
  End Hint.
End Lin.
