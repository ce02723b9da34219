(** Numerical properties of the functions of Fun1D.v over the reals. *)
From Coq Require Import ZArith List Bool Lia ZifyBool Reals Lra.
From Verif Require Import ModelRun Lang ProofsLang Stencil FormCommon Form1D Solver1D Fun1D Arith SpecReal
  ProofsFun1D ProofsFold1D ProofsReal1D ProofsAnti1D ProofsCons1D.
Import ListNotations.
Local Open Scope R_scope.

Lemma sumF_same eps tiny o sp tp (psi phi G : Z -> R) c i : (forall x, phi x = c) ->
  sumF (arithR eps tiny) o sp tp psi phi G i = psi i.
Proof. intros H. rewrite sumF_R, !H. unfold Rdiv. toR; ring. Qed.

Section Num.
  Variables eps tiny : R.
  Notation AR := (arithR eps tiny).
  Variables (o : fl) (sp : sptl) (tp : tmprl).
  Variable X : fixed AR.
  Notation C0 := (xC AR X).
  Notation g := (gR o (xG AR X)).
  Variables (rs : Z -> Z) (rv : bool -> Z -> Z).
  Notation antiF := (antiF AR o sp tp).
  Notation fluxF := (fluxF AR o sp tp).
  Notation sumF := (sumF AR o sp tp).
  Notation upF := (upF AR o sp tp X).
  Notation corrF := (corrF AR o sp tp rv X).
  Notation limF := (limF AR o sp tp X).
  Notation finF := (finF AR o sp tp X).
  Notation passesF := (passesF AR o sp tp rs rv X).
  Notation stepF := (stepF AR o sp tp rs rv X).
  Notation stepsF := (stepsF AR o sp tp rs rv X).

  Lemma corr_zero last psi C : (forall i, antiF psi C (xG AR X) (xN AR X) (xT AR X) i = 0) ->
    forall i, corrF last psi C i = 0.
  Proof. intros H i. unfold Fun1D.corrF. destruct (fct o); [|destruct (dfl o && negb last)]; apply H. Qed.
  Lemma fin_zero psi c mn mx : (forall i, c i = 0) -> forall i, finF psi (limF psi c mn mx) i = psi i.
  Proof.
    intros H i. assert (HL : forall j, limF psi c mn mx j = 0).
    { intros j. unfold Fun1D.limF. destruct (fct o); auto. rewrite monoF_R. change (car AR) with R in *. rewrite H. toR; ring. }
    unfold Fun1D.finF. apply sumF_same with (c := 0). intros x. destruct (iga o); auto.
    rewrite fluxF_R. unfold donor. change (car AR) with R in *. rewrite HL. rewrite Rmax_left, Rmin_left by lra. toR; ring.
  Qed.

  (** *** Constant fields *)
  Lemma passes_const nit mn mx more : (forall i, xN AR X i = 0) -> (forall i, xT AR X i = 0) ->
    forall j psi C c k, (forall i, psi i = c) -> (forall i, C i = k) ->
    forall i, passesF nit mn mx j more psi C i = c.
  Proof.
    intros HN HT. induction more as [|m IH]; intros j psi C c k Hp HC i; [apply Hp|]. cbn [Fun1D.passesF].
    assert (Z0 : forall i, corrF (Nat.eqb (S j) nit) (fun x => psi (rs x)) C i = 0).
    { apply corr_zero. intros y. rewrite antiF_R. eapply anti_const; eauto. }
    apply IH with (k := 0); auto. intros x. rewrite fin_zero; auto.
  Qed.
  Lemma up_const psi c k : (forall i, psi i = c) -> (forall i, C0 i = k) -> forall i, upF psi i = c.
  Proof.
    intros Hp HC i. unfold Fun1D.upF. rewrite sumF_same with (c := Rmax 0 k * c + Rmin 0 k * c); auto.
    intros x. rewrite fluxF_R. unfold donor. change (car AR) with R in *. rewrite !Hp, HC. reflexivity.
  Qed.
  Lemma step_const nit k ex psi c kc : (forall i, xN AR X i = 0) -> (forall i, xT AR X i = 0) ->
    (forall i, psi i = c) -> (forall i, C0 i = kc) -> forall i, stepF nit k ex psi i = c.
  Proof.
    intros HN HT Hp HC i. unfold Fun1D.stepF. rewrite scaleF_R.
    rewrite passes_const with (c := sc ex * c) (k := kc); auto.
    - rewrite <- Rmult_assoc, sc_inv. toR; ring.
    - intros x. apply up_const with (k := kc); auto. intros y. rewrite scaleF_R, Hp. reflexivity.
  Qed.
  Lemma steps_const nit freq ex nt : forall ts psi c kc, (forall i, xN AR X i = 0) -> (forall i, xT AR X i = 0) ->
    (forall i, psi i = c) -> (forall i, C0 i = kc) -> forall i, stepsF nit freq ex nt ts psi i = c.
  Proof.
    induction nt as [|n IH]; intros ts psi c kc HN HT Hp HC i; [apply Hp|]. cbn [Fun1D.stepsF].
    apply IH with (kc := kc); auto. apply step_const with (kc := kc); auto.
  Qed.

  (** *** Unit Courant number *)
  Lemma passes_unit nit mn mx more : iga o && oabs o = false -> nug o = false ->
    (forall i, xN AR X i = 0) -> (forall i, xT AR X i = 0) ->
    forall j psi C k, k = 0 \/ k = 1 \/ k = -1 -> (forall i, C i = k) ->
    (forall f : Z -> R, forall i, f (rs i) = f i) ->
    forall i, passesF nit mn mx j more psi C i = psi i.
  Proof.
    intros IA NU HN HT. induction more as [|m IH]; intros j psi C k HK HC HR i; [reflexivity|]. cbn [Fun1D.passesF].
    assert (Z0 : forall i, corrF (Nat.eqb (S j) nit) (fun x => psi (rs x)) C i = 0).
    { apply corr_zero. intros y. rewrite antiF_R. eapply anti_unit; eauto. }
    rewrite IH with (k := 0); auto. rewrite fin_zero; auto.
  Qed.
  Lemma up_unit psi (k : Z) : nug o = false -> (k = 0 \/ k = 1 \/ k = -1)%Z -> (forall i, C0 i = IZR k) ->
    forall i, upF psi i = psi (i - k)%Z.
  Proof.
    intros NU HK HC i. unfold Fun1D.upF. rewrite sumF_R, !fluxF_R. unfold gR, donor. rewrite NU.
    change (car AR) with R in *. rewrite !HC.
    replace (i - 1 + 1)%Z with i by lia.
    destruct HK as [->|[->| ->]].
    - rewrite Z.sub_0_r, Rmax_left, Rmin_left by lra. toR; field.
    - rewrite Rmax_right, Rmin_left by lra. toR; field.
    - rewrite Rmax_left, Rmin_right by lra. replace (i - -1)%Z with (i + 1)%Z by lia. toR; field.
  Qed.

  Lemma step_unit nit p psi (k : Z) ex : iga o && oabs o = false -> nug o = false ->
    (forall i, xN AR X i = 0) -> (forall i, xT AR X i = 0) ->
    (k = 0 \/ k = 1 \/ k = -1)%Z -> (forall i, C0 i = IZR k) -> (forall i, rs i = i) ->
    forall i, stepF nit p ex psi i = psi (i - k)%Z.
  Proof.
    intros IA NU HN HT HK HC HR i. unfold Fun1D.stepF. rewrite scaleF_R.
    rewrite passes_unit with (k := IZR k); auto.
    - rewrite up_unit with (k := k); auto. rewrite HR, scaleF_R.
      rewrite <- Rmult_assoc, sc_inv. toR; ring.
    - destruct HK as [->|[->| ->]]; auto.
    - intros f x. rewrite HR. reflexivity.
  Qed.
  Lemma steps_unit nit freq ex (k : Z) nt : iga o && oabs o = false -> nug o = false ->
    (forall i, xN AR X i = 0) -> (forall i, xT AR X i = 0) ->
    (k = 0 \/ k = 1 \/ k = -1)%Z -> (forall i, C0 i = IZR k) -> (forall i, rs i = i) ->
    forall ts psi i, stepsF nit freq ex nt ts psi i = psi (i - k * Z.of_nat nt)%Z.
  Proof.
    intros IA NU HN HT HK HC HR. induction nt as [|n IH]; intros ts psi i; cbn [Fun1D.stepsF].
    - f_equal. lia.
    - rewrite IH. rewrite step_unit with (k := k); auto. f_equal. lia.
  Qed.

  (** *** Upwind: sign and bounds *)
  Definition outflow (C : Z -> R) (i : Z) : R := Rmax 0 (C i) - Rmin 0 (C (i - 1)%Z).

  Lemma donor_sum psi C i : g i <> 0 ->
    sumF psi (donor psi C) (xG AR X) i =
    psi i * (1 - outflow C i / g i) + Rmax 0 (C (i - 1)%Z) * psi (i - 1)%Z / g i + - Rmin 0 (C i) * psi (i + 1)%Z / g i.
  Proof.
    intros Hg. rewrite sumF_R. unfold donor, outflow. replace (i - 1 + 1)%Z with i by lia. toR. field. exact Hg.
  Qed.
  Lemma mmR x : 0 <= Rmax 0 x /\ Rmin 0 x <= 0.
  Proof. split; [apply Rmax_l|apply Rmin_l]. Qed.
  Lemma div_nonneg a b : 0 <= a -> 0 < b -> 0 <= a / b.
  Proof. intros Ha Hb. apply Rmult_le_pos; auto. left. apply Rinv_0_lt_compat; auto. Qed.
  Lemma div_le1 a b : a <= b -> 0 < b -> a / b <= 1.
  Proof. intros H Hb. apply Rmult_le_reg_r with b; auto. unfold Rdiv. rewrite Rmult_assoc, Rinv_l by lra. lra. Qed.

  Lemma donor_sign psi C i : 0 < g i -> outflow C i <= g i -> (forall j, 0 <= psi j) ->
    0 <= sumF psi (donor psi C) (xG AR X) i.
  Proof.
    intros Hg Ho Hp. rewrite donor_sum by lra. destruct (mmR (C (i - 1)%Z)), (mmR (C i)).
    pose proof (div_le1 _ _ Ho Hg).
    assert (0 <= psi i * (1 - outflow C i / g i)) by (apply Rmult_le_pos; [apply Hp|lra]).
    assert (0 <= Rmax 0 (C (i - 1)%Z) * psi (i - 1)%Z / g i) by (apply div_nonneg; auto; apply Rmult_le_pos; auto).
    assert (0 <= - Rmin 0 (C i) * psi (i + 1)%Z / g i) by (apply div_nonneg; auto; apply Rmult_le_pos; auto; lra).
    toR. lra.
  Qed.
  (** divergence-free: bounded by the neighbours *)
  Lemma donor_upper psi C i M : 0 < g i -> outflow C i <= g i -> C (i - 1)%Z = C i ->
    psi (i - 1)%Z <= M -> psi i <= M -> psi (i + 1)%Z <= M ->
    sumF psi (donor psi C) (xG AR X) i <= M.
  Proof.
    intros Hg Ho HC H1 H2 H3. rewrite donor_sum by lra.
    unfold outflow in *. rewrite HC in *. destruct (mmR (C i)).
    assert (E : M = M * (1 - (Rmax 0 (C i) - Rmin 0 (C i)) / g i) + Rmax 0 (C i) * M / g i + - Rmin 0 (C i) * M / g i) by (field; lra).
    rewrite E at 1. pose proof (div_le1 _ _ Ho Hg) as Q.
    apply Rplus_le_compat; [apply Rplus_le_compat|].
    - apply Rmult_le_compat_r; lra.
    - apply Rmult_le_compat_r; [left; apply Rinv_0_lt_compat; auto|]. apply Rmult_le_compat_l; lra.
    - apply Rmult_le_compat_r; [left; apply Rinv_0_lt_compat; auto|]. apply Rmult_le_compat_l; lra.
  Qed.
  Lemma donor_lower psi C i M : 0 < g i -> outflow C i <= g i -> C (i - 1)%Z = C i ->
    M <= psi (i - 1)%Z -> M <= psi i -> M <= psi (i + 1)%Z ->
    M <= sumF psi (donor psi C) (xG AR X) i.
  Proof.
    intros Hg Ho HC H1 H2 H3. rewrite donor_sum by lra.
    unfold outflow in *. rewrite HC in *. destruct (mmR (C i)).
    assert (E : M = M * (1 - (Rmax 0 (C i) - Rmin 0 (C i)) / g i) + Rmax 0 (C i) * M / g i + - Rmin 0 (C i) * M / g i) by (field; lra).
    rewrite E at 1. pose proof (div_le1 _ _ Ho Hg) as Q.
    apply Rplus_le_compat; [apply Rplus_le_compat|].
    - apply Rmult_le_compat_r; lra.
    - apply Rmult_le_compat_r; [left; apply Rinv_0_lt_compat; auto|]. apply Rmult_le_compat_l; lra.
    - apply Rmult_le_compat_r; [left; apply Rinv_0_lt_compat; auto|]. apply Rmult_le_compat_l; lra.
  Qed.
  Lemma up_donor psi i : upF psi i = sumF psi (donor psi C0) (xG AR X) i.
  Proof. unfold Fun1D.upF. apply sumF_ext; auto. intros x. apply fluxF_R. Qed.

  (** *** Flux limiting *)
  Lemma fac_scale (c k a b : R) : 0 <= k ->
    Rmax 0 (c * k) * a + Rmin 0 (c * k) * b = k * (Rmax 0 c * a + Rmin 0 c * b).
  Proof.
    intros Hk. destruct (Rle_dec 0 c) as [Hc|Hc].
    - rewrite !Rmax_right, !Rmin_left by (auto; try apply Rmult_le_pos; auto). ring.
    - assert (c * k <= 0) by (rewrite <- (Rmult_0_l k); apply Rmult_le_compat_r; lra).
      rewrite !Rmax_left, !Rmin_right by lra. ring.
  Qed.

  Section Limit.
    Variables psi mn mx c : Z -> R.
    Hypothesis Hg : forall i, 0 < g i.
    Hypothesis He : 0 < eps.
    Definition phiF : Z -> R := if iga o then c else donor psi c.
    Notation phi := phiF.
    Definition topF (i : Z) : R := Rmax (mx i) (Rmax (psi (i - 1)%Z) (Rmax (psi i) (psi (i + 1)%Z))).
    Definition botF (i : Z) : R := Rmin (mn i) (Rmin (psi (i - 1)%Z) (Rmin (psi i) (psi (i + 1)%Z))).
    Definition inF (i : Z) : R := Rmax 0 (phi (i - 1)%Z) - Rmin 0 (phi i).
    Definition outF (i : Z) : R := Rmax 0 (phi i) - Rmin 0 (phi (i - 1)%Z).
    Definition upL (i : Z) : R := (topF i - psi i) * g i / (inF i + eps).
    Definition dnL (i : Z) : R := (psi i - botF i) * g i / (outF i + eps).
    Definition kF : Z -> R := limfac o psi c upL dnL.

    Lemma in_nonneg i : 0 <= inF i.
    Proof. unfold inF. destruct (mmR (phi (i - 1)%Z)), (mmR (phi i)). lra. Qed.
    Lemma out_nonneg i : 0 <= outF i.
    Proof. unfold outF. destruct (mmR (phi (i - 1)%Z)), (mmR (phi i)). lra. Qed.
    Lemma top_ge i : psi i <= topF i.
    Proof. unfold topF. eapply Rle_trans; [|apply Rmax_r]. eapply Rle_trans; [|apply Rmax_r]. apply Rmax_l. Qed.
    Lemma bot_le i : botF i <= psi i.
    Proof. unfold botF. eapply Rle_trans; [apply Rmin_r|]. eapply Rle_trans; [apply Rmin_r|]. apply Rmin_l. Qed.
    Lemma upL_nonneg i : 0 <= upL i.
    Proof.
      unfold upL. pose proof (top_ge i). pose proof (in_nonneg i). pose proof (Hg i).
      apply div_nonneg; [|lra]. apply Rmult_le_pos; lra.
    Qed.
    Lemma dnL_nonneg i : 0 <= dnL i.
    Proof.
      unfold dnL. pose proof (bot_le i). pose proof (out_nonneg i). pose proof (Hg i).
      apply div_nonneg; [|lra]. apply Rmult_le_pos; lra.
    Qed.
    Lemma limA_bounds i : 0 <= limA upL dnL i <= 1 /\ limA upL dnL i <= dnL i /\ limA upL dnL i <= upL (i + 1)%Z.
    Proof.
      unfold limA. pose proof (dnL_nonneg i). pose proof (upL_nonneg (i + 1)).
      unfold Rmin. repeat destruct Rle_dec; lra.
    Qed.
    Lemma limB_bounds i : 0 <= limB upL dnL i <= 1 /\ limB upL dnL i <= upL i /\ limB upL dnL i <= dnL (i + 1)%Z.
    Proof.
      unfold limB. pose proof (upL_nonneg i). pose proof (dnL_nonneg (i + 1)).
      unfold Rmin. repeat destruct Rle_dec; lra.
    Qed.
    Lemma kF_bounds i : 0 <= kF i <= 1.
    Proof.
      unfold kF, limfac. pose proof (limA_bounds i). pose proof (limB_bounds i).
      repeat match goal with |- context [if ?b then _ else _] => destruct b end; lra.
    Qed.
    Lemma limF_k i : fct o = true -> limF psi c mn mx i = c i * kF i.
    Proof.
      intros Hf. unfold Fun1D.limF. rewrite Hf, monoF_R. unfold kF. f_equal.
      assert (EP : forall x, (if iga o then c else fluxF psi c) x = phi x).
      { intros x. unfold phi. destruct (iga o); auto. apply fluxF_R. }
      assert (EU : forall x, bupF AR o sp tp psi mx (if iga o then c else fluxF psi c) (xG AR X) x = upL x).
      { intros x. rewrite bupF_R. change (car AR) with R in *. rewrite !EP. reflexivity. }
      assert (ED : forall x, bdnF AR o sp tp psi mn (if iga o then c else fluxF psi c) (xG AR X) x = dnL x).
      { intros x. rewrite bdnF_R. change (car AR) with R in *. rewrite !EP. reflexivity. }
      unfold limfac, limA, limB. change (car AR) with R in *. rewrite !EU, !ED. reflexivity.
    Qed.

    (** limited fluxes are the fluxes times the factor *)
    Lemma fin_k i : fct o = true ->
      finF psi (limF psi c mn mx) i = psi i - (kF i * phi i - kF (i - 1)%Z * phi (i - 1)%Z) / g i.
    Proof.
      intros Hf. unfold Fun1D.finF. rewrite sumF_R.
      assert (E : forall x, (if iga o then limF psi c mn mx else fluxF psi (limF psi c mn mx)) x = kF x * phi x).
      { intros x. unfold phi. destruct (iga o) eqn:Ei.
        - rewrite limF_k by auto. change (car AR) with R in *. toR; ring.
        - rewrite fluxF_R. unfold donor. rewrite limF_k by auto. apply fac_scale. apply kF_bounds. }
      change (car AR) with R in *. rewrite !E. reflexivity.
    Qed.

    (** the sign of the flux decides which limiter is used *)
    Hypothesis Sgn : iga o = true \/ oabs o = true \/ forall i, 0 <= psi i.
    Lemma k_up i : 0 < phi i -> kF i <= dnL i /\ kF i <= upL (i + 1)%Z.
    Proof.
      intros Hp. pose proof (limA_bounds i) as A. unfold kF, limfac, gtb. unfold phi in Hp.
      destruct (iga o) eqn:Ei.
      - cbn [negb andb]. destruct (Rlt_dec 0 (c i)); lra.
      - cbn [negb andb]. unfold donor in Hp. destruct (Rlt_dec 0 (c i)) as [Hc|Hc].
        + rewrite Rmax_right, Rmin_left in Hp by lra.
          assert (0 < psi i).
          { apply Rmult_lt_reg_l with (c i); auto. lra. }
          destruct (oabs o); [destruct (Rlt_dec 0 (psi i)); lra|lra].
        + rewrite Rmax_left, Rmin_right in Hp by lra.
          assert (psi (i + 1)%Z < 0).
          { destruct (Rlt_dec (psi (i + 1)%Z) 0); auto. exfalso.
            assert (c i * psi (i + 1)%Z <= 0); [|lra].
            rewrite <- (Rmult_0_l (psi (i + 1)%Z)). apply Rmult_le_compat_r; lra. }
          destruct (oabs o); [destruct (Rlt_dec 0 (psi (i + 1)%Z)); lra|].
          destruct Sgn as [S|[S|S]]; try discriminate. specialize (S (i + 1)%Z). lra.
    Qed.
    Lemma k_dn i : phi i < 0 -> kF i <= upL i /\ kF i <= dnL (i + 1)%Z.
    Proof.
      intros Hp. pose proof (limB_bounds i) as A. unfold kF, limfac, gtb. unfold phi in Hp.
      destruct (iga o) eqn:Ei.
      - cbn [negb andb]. destruct (Rlt_dec 0 (c i)); lra.
      - cbn [negb andb]. unfold donor in Hp. destruct (Rlt_dec 0 (c i)) as [Hc|Hc].
        + rewrite Rmax_right, Rmin_left in Hp by lra.
          assert (psi i < 0).
          { apply Rmult_lt_reg_l with (c i); auto. lra. }
          destruct (oabs o); [destruct (Rlt_dec 0 (psi i)); lra|].
          destruct Sgn as [S|[S|S]]; try discriminate. specialize (S i). lra.
        + rewrite Rmax_left, Rmin_right in Hp by lra.
          assert (0 < psi (i + 1)%Z).
          { destruct (Rlt_dec 0 (psi (i + 1)%Z)); auto. exfalso.
            assert (0 <= c i * psi (i + 1)%Z); [|lra].
            replace (c i * psi (i + 1)%Z) with ((- c i) * (- psi (i + 1)%Z)) by ring. apply Rmult_le_pos; lra. }
          destruct (oabs o); [destruct (Rlt_dec 0 (psi (i + 1)%Z)); lra|lra].
    Qed.

    Lemma gain a b k e : 0 <= a -> 0 < b -> 0 <= k -> 0 < e -> a * b / (k + e) * k / b <= a.
    Proof.
      intros Ha Hb Hk He'. replace (a * b / (k + e) * k / b) with (a * (k / (k + e))) by (field; lra).
      rewrite <- (Rmult_1_r a) at 2. apply Rmult_le_compat_l; auto. apply div_le1; lra.
    Qed.
    Lemma fct_upper i : fct o = true -> finF psi (limF psi c mn mx) i <= topF i.
    Proof.
      intros Hf. rewrite fin_k by auto. pose proof (top_ge i). pose proof (Hg i) as Hgi.
      pose proof (in_nonneg i) as HI. pose proof (upL_nonneg i) as HU.
      assert (B1 : kF (i - 1)%Z * phi (i - 1)%Z <= upL i * Rmax 0 (phi (i - 1)%Z)).
      { destruct (Rlt_dec 0 (phi (i - 1)%Z)) as [Hp|Hp].
        - rewrite Rmax_right by lra. apply Rmult_le_compat_r; [lra|]. destruct (k_up (i - 1) Hp) as [_ K].
          replace (i - 1 + 1)%Z with i in K by lia. exact K.
        - rewrite Rmax_left, Rmult_0_r by lra. pose proof (kF_bounds (i - 1)).
          rewrite <- (Rmult_0_r (kF (i - 1)%Z)). apply Rmult_le_compat_l; lra. }
      assert (B2 : - (kF i * phi i) <= upL i * (- Rmin 0 (phi i))).
      { destruct (Rlt_dec (phi i) 0) as [Hp|Hp].
        - rewrite Rmin_right by lra. destruct (k_dn i Hp) as [K _].
          replace (- (kF i * phi i)) with (kF i * (- phi i)) by ring. apply Rmult_le_compat_r; lra.
        - rewrite Rmin_left, Ropp_0, Rmult_0_r by lra. pose proof (kF_bounds i).
          assert (0 <= kF i * phi i) by (apply Rmult_le_pos; lra). lra. }
      assert (B3 : - (kF i * phi i - kF (i - 1)%Z * phi (i - 1)%Z) / g i <= upL i * inF i / g i).
      { apply Rmult_le_compat_r; [left; apply Rinv_0_lt_compat; auto|]. unfold inF. lra. }
      pose proof (gain (topF i - psi i) (g i) (inF i) eps ltac:(lra) Hgi HI He) as B4. fold (upL i) in B4.
      unfold Rdiv in *. toR. lra.
    Qed.
    Lemma fct_lower i : fct o = true -> botF i <= finF psi (limF psi c mn mx) i.
    Proof.
      intros Hf. rewrite fin_k by auto. pose proof (bot_le i). pose proof (Hg i) as Hgi.
      pose proof (out_nonneg i) as HI. pose proof (dnL_nonneg i) as HU.
      assert (B1 : kF i * phi i <= dnL i * Rmax 0 (phi i)).
      { destruct (Rlt_dec 0 (phi i)) as [Hp|Hp].
        - rewrite Rmax_right by lra. apply Rmult_le_compat_r; [lra|]. apply (k_up i Hp).
        - rewrite Rmax_left, Rmult_0_r by lra. pose proof (kF_bounds i).
          rewrite <- (Rmult_0_r (kF i)). apply Rmult_le_compat_l; lra. }
      assert (B2 : - (kF (i - 1)%Z * phi (i - 1)%Z) <= dnL i * (- Rmin 0 (phi (i - 1)%Z))).
      { destruct (Rlt_dec (phi (i - 1)%Z) 0) as [Hp|Hp].
        - rewrite Rmin_right by lra. destruct (k_dn (i - 1) Hp) as [_ K].
          replace (i - 1 + 1)%Z with i in K by lia.
          replace (- (kF (i - 1)%Z * phi (i - 1)%Z)) with (kF (i - 1)%Z * (- phi (i - 1)%Z)) by ring. apply Rmult_le_compat_r; lra.
        - rewrite Rmin_left, Ropp_0, Rmult_0_r by lra. pose proof (kF_bounds (i - 1)).
          assert (0 <= kF (i - 1)%Z * phi (i - 1)%Z) by (apply Rmult_le_pos; lra). lra. }
      assert (B3 : (kF i * phi i - kF (i - 1)%Z * phi (i - 1)%Z) / g i <= dnL i * outF i / g i).
      { apply Rmult_le_compat_r; [left; apply Rinv_0_lt_compat; auto|]. unfold outF. lra. }
      pose proof (gain (psi i - botF i) (g i) (outF i) eps ltac:(lra) Hgi HI He) as B4. fold (dnL i) in B4.
      toR. lra.
    Qed.
  End Limit.
End Num.
