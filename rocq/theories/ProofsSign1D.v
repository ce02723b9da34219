(** Sign and bounds of whole steps. *)
From Coq Require Import ZArith List Bool Lia ZifyBool Reals Lra.
From Verif Require Import ModelRun Lang ProofsLang Stencil FormCommon Form1D Solver1D Fun1D Arith SpecReal
  ProofsFun1D ProofsFold1D ProofsReal1D ProofsAnti1D ProofsCons1D ProofsNum1D.
Import ListNotations.
Local Open Scope R_scope.

Section Sign.
  Variables eps tiny : R.
  Notation AR := (arithR eps tiny).
  Variables (o : fl) (sp : sptl) (tp : tmprl).
  Variable X : fixed AR.
  Notation C0 := (xC AR X).
  Notation g := (gR o (xG AR X)).
  Notation gb := (gbR o (xG AR X)).
  Variables (rs : Z -> Z) (rv : bool -> Z -> Z).
  Notation antiF := (antiF AR o sp tp).
  Notation fluxF := (fluxF AR o sp tp).
  Notation sumF := (sumF AR o sp tp).
  Notation upF := (upF AR o sp tp X).
  Notation corrF := (corrF AR o sp tp rv X).
  Notation limF := (limF AR o sp tp X).
  Notation finF := (finF AR o sp tp X).
  Notation passesF := (passesF AR o sp tp rs rv X).
  Notation stepF := (stepF AR o sp tp rs rv X).
  Notation stepsF := (stepsF AR o sp tp rs rv X).
  (** the cells of the domain; values elsewhere come from there *)
  Variable D : Z -> Prop.
  Hypothesis HD : forall i, D (rs i).
  Hypothesis Hg : forall i, 0 < g i.
  Hypothesis Ho : forall i, D i -> outflow C0 i <= g i.

  (** *** Sign *)
  Lemma up_sign psi : (forall i, 0 <= psi i) -> forall i, D i -> 0 <= upF psi i.
  Proof. intros Hp i Hi. rewrite up_donor. apply donor_sign; auto. Qed.

  Lemma passes_sign_fct nit mn mx more : fct o = true -> 0 < eps -> (forall i, 0 <= mn i) ->
    forall j psi C, (forall i, D i -> 0 <= psi i) -> forall i, D i -> 0 <= passesF nit mn mx j more psi C i.
  Proof.
    intros Hf He Hmn. induction more as [|k IH]; intros j psi C Hp i Hi; [auto|]. cbn [Fun1D.passesF].
    apply IH; auto. intros x Hx. eapply Rle_trans; [|apply fct_lower; auto].
    unfold botF. repeat apply Rmin_glb; auto.
  Qed.

  (** antidiffusive velocities of the basic scheme *)
  Lemma frac_le1 a b : (pfc o = true \/ 0 < tiny) -> 0 <= a -> 0 <= b -> Rabs (fracR o tiny (a - b) (a + b)) <= 1.
  Proof.
    intros Ht Ha Hb. unfold fracR. destruct (pfc o).
    - destruct (Req_EM_T (a + b) 0); [rewrite Rabs_R0; lra|].
      unfold Rdiv. rewrite Rabs_mult, Rabs_inv, (Rabs_right (a + b)) by lra.
      apply div_le1; [|lra]. unfold Rabs; destruct Rcase_abs; lra.
    - destruct Ht as [Ht|Ht]; [discriminate|]. unfold Rdiv. rewrite Rabs_mult, Rabs_inv, (Rabs_right (a + b + tiny)) by lra.
      apply div_le1; [|lra]. unfold Rabs; destruct Rcase_abs; lra.
  Qed.
  Lemma gb_pos i : 0 < gb i.
  Proof.
    unfold gbR. pose proof (Hg i) as A. pose proof (Hg (i + 1)) as B. unfold gR in A, B. destruct (nug o); lra.
  Qed.
  Lemma quarter a b : 0 <= a -> a <= b -> 0 < b -> a * (1 - a / b) <= b / 4.
  Proof.
    intros H1 H2 H3. apply Rmult_le_reg_r with (4 * b); [lra|].
    replace (a * (1 - a / b) * (4 * b)) with (4 * a * (b - a)) by (field; lra).
    replace (b / 4 * (4 * b)) with (b * b) by field.
    assert (0 <= (b - 2 * a) * (b - 2 * a)) by apply Rle_0_sqr. lra.
  Qed.
  Lemma anti_quarter psi C N T i : iga o = false -> div2 o = false -> tot o = false -> dfl o = false ->
    (pfc o = true \/ 0 < tiny) -> (forall j, 0 <= psi j) -> Rabs (C i) <= gb i ->
    Rabs (antiR o sp tp tiny psi C (xG AR X) N T i) <= gb i / 4.
  Proof.
    intros I1 D2 T1 D1 Ht Hp HC. unfold antiR, totR, dflR. rewrite D2, T1, D1.
    replace (_ + 0 + 0) with (Rabs (C i) * (1 - Rabs (C i) / gb i) * (ndxR o tiny psi i / 2)).
    2:{ toR. field. pose proof (gb_pos i). lra. }
    pose proof (gb_pos i) as G0. pose proof (Rabs_pos (C i)) as A0.
    assert (E : 0 <= Rabs (C i) * (1 - Rabs (C i) / gb i)).
    { apply Rmult_le_pos; auto. pose proof (div_le1 _ _ HC G0). lra. }
    rewrite Rabs_mult, (Rabs_right _ (Rle_ge _ _ E)).
    assert (B : Rabs (ndxR o tiny psi i / 2) <= 1).
    { unfold ndxR. rewrite I1. replace (2 * _ / 2) with (fracR o tiny (paR o (psi (i + 1)%Z) - paR o (psi i)) (paR o (psi (i + 1)%Z) + paR o (psi i))) by field.
      apply frac_le1; auto; unfold paR; destruct (oabs o); auto using Rabs_pos. }
    pose proof (quarter _ _ A0 HC G0) as Q. pose proof (Rabs_pos (ndxR o tiny psi i / 2)) as A1.
    apply Rle_trans with (Rabs (C i) * (1 - Rabs (C i) / gb i) * 1); [apply Rmult_le_compat_l; auto|lra].
  Qed.

  (** faces next to a cell of the domain *)
  Definition DF (i : Z) : Prop := D i \/ D (i + 1)%Z.
  Lemma passes_sign_basic nit mn mx more : iga o = false -> fct o = false ->
    div2 o = false -> tot o = false -> dfl o = false -> (pfc o = true \/ 0 < tiny) ->
    (forall i, D i -> gb i + gb (i - 1) <= 4 * g i) ->
    forall j psi C, (forall i, D i -> 0 <= psi i) -> (forall i, DF i -> Rabs (C i) <= gb i) ->
    forall i, D i -> 0 <= passesF nit mn mx j more psi C i.
  Proof.
    intros I1 Hf D2 T1 D1 Ht HGb.
    induction more as [|k IH]; intros j psi C Hp HC i Hi; [auto|]. cbn [Fun1D.passesF].
    set (p := fun x : Z => psi (rs x)). assert (P0 : forall x, 0 <= p x) by (intros x; apply Hp, HD).
    set (c := corrF _ p C).
    assert (C1 : forall x, DF x -> Rabs (c x) <= gb x / 4).
    { intros x Hx. unfold c, Fun1D.corrF. rewrite Hf, D1. cbn [andb]. rewrite antiF_R. apply anti_quarter; auto. }
    apply IH; auto.
    - intros x Hx. unfold Fun1D.finF, Fun1D.limF. rewrite Hf, I1.
      rewrite (sumF_ext AR o sp tp p p (fluxF p c) (donor p c) (xG AR X) (xG AR X)); [|intros y; auto; apply fluxF_R..].
      apply donor_sign; auto. unfold outflow.
      pose proof (C1 x (or_introl Hx)) as Q1. assert (D3 : DF (x - 1)) by (right; replace (x - 1 + 1)%Z with x by lia; auto).
      pose proof (C1 _ D3) as Q2. pose proof (HGb x Hx) as Q3.
      assert (Rmax 0 (c x) <= Rabs (c x)) by (unfold Rmax, Rabs; destruct Rle_dec, Rcase_abs; lra).
      assert (- Rmin 0 (c (x - 1)%Z) <= Rabs (c (x - 1)%Z)) by (unfold Rmin, Rabs; destruct Rle_dec, Rcase_abs; lra).
      change (car AR) with R in *. lra.
    - intros x Hx. specialize (C1 x Hx). pose proof (gb_pos x). lra.
  Qed.

  (** conditions under which a step keeps the sign *)
  Definition sign_safe (nit : nat) : Prop :=
    nit = 1%nat \/ (fct o = true /\ 0 < eps) \/
    (iga o = false /\ fct o = false /\ div2 o = false /\ tot o = false /\ dfl o = false /\ (pfc o = true \/ 0 < tiny) /\
     (forall i, D i -> gb i + gb (i - 1) <= 4 * g i) /\ (forall i, DF i -> Rabs (C0 i) <= gb i)).
  Lemma step_sign nit k ex psi : sign_safe nit -> (k = nit \/ k = 1%nat) ->
    (forall i, D i -> 0 <= psi i) -> forall i, D i -> 0 <= stepF nit k ex psi i.
  Proof.
    intros S HK Hp i Hi. unfold Fun1D.stepF. rewrite scaleF_R.
    set (p := fun x : Z => scaleF AR ex psi (rs x)).
    assert (P0 : forall x, 0 <= p x).
    { intros x. unfold p. rewrite scaleF_R. apply Rmult_le_pos; [left; apply sc_pos|apply Hp, HD]. }
    apply Rmult_le_pos; [left; apply sc_pos|]. pose proof (up_sign p P0) as U.
    destruct HK as [->| ->]; [|apply U; auto].
    destruct S as [->|[[Hf He]|(I1 & Hf & D2 & T1 & D1 & Ht & HGb & HC)]].
    - apply U; auto.
    - apply passes_sign_fct; auto. intros x. rewrite minF_R. repeat apply Rmin_glb; apply P0.
    - apply passes_sign_basic; auto.
  Qed.
  Lemma passes_cases nit freq ts : passes nit freq ts = nit \/ passes nit freq ts = 1%nat.
  Proof. unfold passes. match goal with |- context [if ?b then _ else _] => destruct b end; auto. destruct nit as [|[|k]]; auto. Qed.
  Lemma steps_sign nit freq ex nt : sign_safe nit -> forall ts psi,
    (forall i, D i -> 0 <= psi i) -> forall i, D i -> 0 <= stepsF nit freq ex nt ts psi i.
  Proof.
    intros S. induction nt as [|n IH]; intros ts psi Hp i Hi; cbn [Fun1D.stepsF]; auto.
    apply IH; auto. apply step_sign; auto. apply passes_cases.
  Qed.
End Sign.

Section Bounds.
  Variables eps tiny : R.
  Notation AR := (arithR eps tiny).
  Variables (o : fl) (sp : sptl) (tp : tmprl).
  Variable X : fixed AR.
  Notation C0 := (xC AR X).
  Notation g := (gR o (xG AR X)).
  Variables (rs : Z -> Z) (rv : bool -> Z -> Z).
  Notation upF := (upF AR o sp tp X).
  Notation limF := (limF AR o sp tp X).
  Notation finF := (finF AR o sp tp X).
  Notation passesF := (passesF AR o sp tp rs rv X).
  Notation stepF := (stepF AR o sp tp rs rv X).
  Notation stepsF := (stepsF AR o sp tp rs rv X).
  Hypothesis Hg : forall i, 0 < g i.
  Variable kc : R.
  Hypothesis HC : forall i, C0 i = kc.
  Hypothesis Hk : forall i, Rabs kc <= g i.

  Lemma out_const i : outflow C0 i <= g i.
  Proof.
    unfold outflow. change (car AR) with R in *. rewrite !HC. specialize (Hk i).
    unfold Rmax, Rmin. destruct (Rle_dec 0 kc).
    - rewrite Rabs_right in Hk by lra. lra.
    - rewrite Rabs_left in Hk by lra. lra.
  Qed.
  Lemma same_const i : C0 (i - 1)%Z = C0 i.
  Proof. change (car AR) with R in *. rewrite !HC. reflexivity. Qed.

  Definition within (a b : R) (f : Z -> R) : Prop := forall i, a <= f i <= b.
  Lemma up_within a b psi : within a b psi -> within a b (upF psi).
  Proof.
    intros H i. rewrite up_donor. split.
    - apply donor_lower; auto using out_const, same_const; apply H.
    - apply donor_upper; auto using out_const, same_const; apply H.
  Qed.
  Definition signs (a : R) : Prop := iga o = true \/ oabs o = true \/ 0 <= a.
  Lemma fin_within a b psi c mn mx : fct o = true -> 0 < eps -> signs a ->
    within a b psi -> within a b mn -> within a b mx -> within a b (finF psi (limF psi c mn mx)).
  Proof.
    intros Hf He S Hp Hmn Hmx i.
    assert (S' : iga o = true \/ oabs o = true \/ forall j, 0 <= psi j).
    { destruct S as [S|[S|S]]; auto. right. right. intros j. specialize (Hp j). lra. }
    split.
    - eapply Rle_trans; [|apply fct_lower; auto]. unfold botF. repeat apply Rmin_glb; [apply Hmn|apply Hp..].
    - eapply Rle_trans; [apply fct_upper; auto|]. unfold topF. repeat apply Rmax_lub; [apply Hmx|apply Hp..].
  Qed.
  Lemma passes_within a b nit mn mx more : fct o = true -> 0 < eps -> signs a -> within a b mn -> within a b mx ->
    forall j psi C, within a b psi -> within a b (passesF nit mn mx j more psi C).
  Proof.
    intros Hf He S Hmn Hmx. induction more as [|k IH]; intros j psi C Hp; [auto|]. cbn [Fun1D.passesF].
    apply IH. apply fin_within; auto. intros x. apply Hp.
  Qed.
  Lemma step_within a b nit k ex psi : (nit = 1%nat \/ fct o = true /\ 0 < eps /\ signs a) ->
    (k = nit \/ k = 1%nat) -> within a b psi -> within a b (stepF nit k ex psi).
  Proof.
    intros S HK Hp i. unfold Fun1D.stepF. rewrite scaleF_R.
    set (p := fun x : Z => scaleF AR ex psi (rs x)).
    assert (P0 : within (sc ex * a) (sc ex * b) p).
    { intros x. unfold p. rewrite scaleF_R. pose proof (sc_pos ex). specialize (Hp (rs x)).
      split; apply Rmult_le_compat_l; lra. }
    assert (Back : forall v, sc ex * a <= v <= sc ex * b -> a <= sc (- ex) * v <= b).
    { intros v Hv. pose proof (sc_pos (- ex)). pose proof (sc_inv ex) as SI.
      replace a with (sc (- ex) * (sc ex * a)) by (rewrite <- Rmult_assoc, SI; ring).
      replace b with (sc (- ex) * (sc ex * b)) by (rewrite <- Rmult_assoc, SI; ring).
      split; apply Rmult_le_compat_l; lra. }
    apply Back. pose proof (up_within _ _ p P0) as U.
    destruct HK as [->| ->]; [|apply U].
    destruct S as [->|(Hf & He & S)]; [apply U|].
    assert (S' : signs (sc ex * a)).
    { destruct S as [S|[S|S]]; [left|right; left|right; right]; auto. apply Rmult_le_pos; auto. left. apply sc_pos. }
    apply passes_within; auto.
    - intros x. rewrite minF_R. pose proof (P0 (x - 1)%Z). pose proof (P0 x). pose proof (P0 (x + 1)%Z).
      split; [repeat apply Rmin_glb; lra|]. eapply Rle_trans; [apply Rmin_r|]. lra.
    - intros x. rewrite maxF_R. pose proof (P0 (x - 1)%Z). pose proof (P0 x). pose proof (P0 (x + 1)%Z).
      split; [|repeat apply Rmax_lub; lra]. eapply Rle_trans; [|apply Rmax_r]. lra.
  Qed.
  Lemma steps_within a b nit freq ex nt : (nit = 1%nat \/ fct o = true /\ 0 < eps /\ signs a) ->
    forall ts psi, within a b psi -> within a b (stepsF nit freq ex nt ts psi).
  Proof.
    intros S. induction nt as [|n IH]; intros ts psi Hp; cbn [Fun1D.stepsF]; auto.
    apply IH. apply step_within; auto. apply passes_cases.
  Qed.

  (** *** Local bounds, on the whole line *)
  Section Local.
    Hypothesis HR : forall i, rs i = i.
    Definition near (n : nat) (i : Z) (a b : R) (f : Z -> R) : Prop :=
      forall d, (Z.abs d <= Z.of_nat n)%Z -> a <= f (i + d)%Z <= b.
    Definition fine (f : Z -> R) : Prop := iga o = true \/ oabs o = true \/ forall i, 0 <= f i.
    Lemma fin_near a b psi c mn mx i : fct o = true -> 0 < eps -> fine psi ->
      near 1 i a b psi -> a <= mn i -> mx i <= b -> a <= finF psi (limF psi c mn mx) i <= b.
    Proof.
      intros Hf He F N L U. pose proof (N (-1)%Z ltac:(lia)) as N1. pose proof (N 0%Z ltac:(lia)) as N2. pose proof (N 1%Z ltac:(lia)) as N3.
      replace (i + -1)%Z with (i - 1)%Z in N1 by lia. rewrite Z.add_0_r in N2. split.
      - eapply Rle_trans; [|apply fct_lower; auto]. unfold botF. repeat apply Rmin_glb; lra.
      - eapply Rle_trans; [apply fct_upper; auto|]. unfold topF. repeat apply Rmax_lub; lra.
    Qed.
    Lemma passes_near nit mn mx more : fct o = true -> 0 < eps -> (iga o = true \/ oabs o = true \/ forall i, 0 <= mn i) ->
      forall j psi C i a b, fine psi -> near more i a b psi -> near more i a b mn -> near more i a b mx ->
      a <= passesF nit mn mx j more psi C i <= b.
    Proof.
      intros Hf He Hmn. induction more as [|k IH]; intros j psi C i a b F N L U.
      - specialize (N 0%Z ltac:(lia)). rewrite Z.add_0_r in N. exact N.
      - cbn [Fun1D.passesF]. set (p := fun x => psi (rs x)). assert (Fp : fine p).
        { destruct F as [F|[F|F]]; [left|right; left|right; right]; auto. intros x. apply F. }
        apply IH.
        + destruct F as [F|[F|F]]; [left|right; left|]; auto. destruct Hmn as [H|[H|H]]; [left|right; left|right; right]; auto.
          intros x. eapply Rle_trans; [|apply fct_lower; auto]. unfold botF, p. repeat apply Rmin_glb; auto.
        + intros d Hd. apply fin_near; auto.
          * intros d' Hd'. unfold p. rewrite HR. replace (i + d + d')%Z with (i + (d + d'))%Z by lia. apply N. lia.
          * apply L. lia.
          * apply U. lia.
        + intros d Hd. apply L. lia.
        + intros d Hd. apply U. lia.
    Qed.
    Lemma step_near nit k ex psi i a b : (0 < nit)%nat -> (nit = 1%nat \/ fct o = true /\ 0 < eps /\ fine psi) ->
      (k = nit \/ k = 1%nat) -> near nit i a b psi -> a <= stepF nit k ex psi i <= b.
    Proof.
      intros Hn S HK N. unfold Fun1D.stepF. rewrite scaleF_R.
      set (p := fun x : Z => scaleF AR ex psi (rs x)). pose proof (sc_pos ex) as P1. pose proof (sc_pos (- ex)) as P2. pose proof (sc_inv ex) as SI.
      assert (P0 : near nit i (sc ex * a) (sc ex * b) p).
      { intros d Hd. unfold p. rewrite scaleF_R, HR. specialize (N d Hd). split; apply Rmult_le_compat_l; lra. }
      assert (Back : forall v, sc ex * a <= v <= sc ex * b -> a <= sc (- ex) * v <= b).
      { intros v Hv. replace a with (sc (- ex) * (sc ex * a)) by (rewrite <- Rmult_assoc, SI; ring).
        replace b with (sc (- ex) * (sc ex * b)) by (rewrite <- Rmult_assoc, SI; ring).
        split; apply Rmult_le_compat_l; lra. }
      apply Back.
      assert (Sh : forall d, (Z.abs d <= Z.of_nat (nit - 1))%Z -> forall d', (Z.abs d' <= 1)%Z -> sc ex * a <= p (i + d + d')%Z <= sc ex * b).
      { intros d Hd d' Hd'. replace (i + d + d')%Z with (i + (d + d'))%Z by lia. apply P0. lia. }
      assert (U : near (nit - 1) i (sc ex * a) (sc ex * b) (upF p)).
      { intros d Hd. rewrite up_donor.
        pose proof (Sh d Hd (-1)%Z ltac:(lia)) as N1. pose proof (Sh d Hd 0%Z ltac:(lia)) as N2. pose proof (Sh d Hd 1%Z ltac:(lia)) as N3.
        replace (i + d + -1)%Z with (i + d - 1)%Z in N1 by lia. rewrite Z.add_0_r in N2.
        split; [apply donor_lower|apply donor_upper]; auto using out_const, same_const; lra. }
      assert (K : (k - 1 = 0)%nat \/ k = nit /\ fct o = true /\ 0 < eps /\ fine psi).
      { destruct HK as [->| ->]; [|left; lia]. destruct S as [->|S]; [left; lia|right; auto]. }
      destruct K as [K|(-> & Hf & He & F)].
      - rewrite K. cbn [Fun1D.passesF]. specialize (U 0%Z ltac:(lia)). rewrite Z.add_0_r in U. exact U.
      - assert (Fp : iga o = true \/ oabs o = true \/ forall x, 0 <= p x).
        { destruct F as [F|[F|F]]; [left|right; left|right; right]; auto. intros x. unfold p. rewrite scaleF_R. apply Rmult_le_pos; auto. lra. }
        apply passes_near; auto.
        + destruct Fp as [F'|[F'|F']]; [left|right; left|right; right]; auto.
          intros x. rewrite minF_R. repeat apply Rmin_glb; auto.
        + destruct Fp as [F'|[F'|F']]; [left|right; left|right; right]; auto.
          intros x. apply up_sign with (D := fun _ => True); auto. intros y _. apply out_const.
        + intros d Hd. pose proof (Sh d Hd (-1)%Z ltac:(lia)) as N1. pose proof (Sh d Hd 0%Z ltac:(lia)) as N2. pose proof (Sh d Hd 1%Z ltac:(lia)) as N3.
          replace (i + d + -1)%Z with (i + d - 1)%Z in N1 by lia. rewrite Z.add_0_r in N2. rewrite minF_R.
          split; [repeat apply Rmin_glb; lra|]. eapply Rle_trans; [apply Rmin_r|]. lra.
        + intros d Hd. pose proof (Sh d Hd (-1)%Z ltac:(lia)) as N1. pose proof (Sh d Hd 0%Z ltac:(lia)) as N2. pose proof (Sh d Hd 1%Z ltac:(lia)) as N3.
          replace (i + d + -1)%Z with (i + d - 1)%Z in N1 by lia. rewrite Z.add_0_r in N2. rewrite maxF_R.
          split; [|repeat apply Rmax_lub; lra]. eapply Rle_trans; [|apply Rmax_r]. lra.
    Qed.
  End Local.
End Bounds.
