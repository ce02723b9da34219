(** Properties of the antidiffusive velocity of the 2D solver. *)
From Coq Require Import ZArith List Bool Lia ZifyBool Reals Lra.
From Verif Require Import ModelRun Lang ProofsLang Stencil FormCommon Form2D Solver1D Solver2D Fun1D FunN Arith SpecReal
  ProofsReal1D ProofsAnti1D ProofsNum1D ProofsSign1D ProofsFunN ProofsPerN ProofsNumN ProofsReal2D ProofsAnti2D.
Import ListNotations.
Local Open Scope R_scope.

Section Anti.
  Variables (o : fl) (sp : sptl) (tp : tmprl) (tiny : R).
  Notation loc2 := (Z -> Z -> R).

  (** *** Constant fields *)
  Section Const.
    Variables (p n : loc2) (c : R) (G a b na nb ta : loc2).
    Hypothesis Hp : forall i j, p i j = c.
    Hypothesis Hn : forall i j, n i j = c.
    Hypothesis Ha : forall i j, na i j = 0.
    Hypothesis Hb : forall i j, nb i j = 0.
    Hypothesis Ht : forall i j, ta i j = 0.
    Hypothesis DV : forall i j, a i j - a (i - 1)%Z j + (b i j - b i (j - 1)%Z) = 0.
    Notation cc := (paR o c).

    Lemma k_pp i j : pp o p i j = cc. Proof. unfold pp. rewrite Hp. reflexivity. Qed.
    Lemma k_pn i j : pp o n i j = cc. Proof. unfold pp. rewrite Hn. reflexivity. Qed.
    Lemma k_pbx i j : pbx o p i j = cc. Proof. unfold pbx. rewrite !k_pp. field. Qed.
    Lemma k_pby i j : pby o p i j = cc. Proof. unfold pby. rewrite !k_pp. field. Qed.
    Lemma k_pbxy i j : pbxy o p i j = cc. Proof. unfold pbxy. rewrite !k_pp. field. Qed.
    Lemma k_pbxyn i j : pbxy o n i j = cc. Proof. unfold pbxy. rewrite !k_pn. field. Qed.
    Ltac z0 := match goal with |- context [fracR o tiny ?u ?v] => replace u with 0 by (toR; ring); rewrite frac_0; ring end.
    Lemma k_ndx i j : Ndx o tiny p i j = 0.
    Proof. unfold Ndx. destruct (iga o); [rewrite !Hp; ring|]. rewrite !k_pp. z0. Qed.
    Lemma k_ndy i j : Ndy o tiny p i j = 0.
    Proof. unfold Ndy. destruct (iga o); [rewrite !Hp; field|]. rewrite !k_pp. z0. Qed.
    Lemma k_ndxx i j : Ndxx o tiny p i j = 0.
    Proof. unfold Ndxx. destruct (iga o); [rewrite !Hp; field|]. rewrite !k_pp. z0. Qed.
    Lemma k_ndxy i j : Ndxy o tiny p i j = 0.
    Proof. unfold Ndxy. destruct (iga o); [rewrite !Hp; field|]. rewrite !k_pp. z0. Qed.
    Lemma k_ndxxx i j : Ndxxx p i j = 0.
    Proof. unfold Ndxxx. rewrite !Hp. field. Qed.
    Lemma k_ndxxy i j : Ndxxy p i j = 0.
    Proof. unfold Ndxxy. rewrite !Hp. field. Qed.
    Lemma k_ndxyy i j : Ndxyy p i j = 0.
    Proof. unfold Ndxyy. rewrite !Hp. field. Qed.
    Lemma k_ntx i j : Ntx o tiny p n i j = 0.
    Proof. unfold Ntx. destruct (iga o); [rewrite !Hp, !Hn; ring|]. rewrite !k_pp, !k_pn. z0. Qed.
    Lemma k_nt i j : Nt o tiny p n i j = 0.
    Proof. unfold Nt. destruct (iga o); [rewrite !Hp, !Hn; field|]. rewrite !k_pp, !k_pn. z0. Qed.
    Ltac dv i j := let H := fresh in pose proof (DV i j) as H;
      repeat match type of H with context [(?k + 1 - 1)%Z] => replace (k + 1 - 1)%Z with k in H by lia end.
    Lemma k_nfd i j : Nfd o tiny G p a b i j = 0.
    Proof.
      assert (E : abx a (i + 1) j * cc - abx a i j * cc + bbx b i j * cc - bbx b i (j - 1) * cc = 0).
      { assert (Q : abx a (i + 1) j - abx a i j + bbx b i j - bbx b i (j - 1) = 0).
        { unfold abx, bbx. dv (i + 1)%Z j. dv i j. replace (i + 1 - 1)%Z with i by lia. lra. }
        transitivity (cc * (abx a (i + 1) j - abx a i j + bbx b i j - bbx b i (j - 1))); [ring|rewrite Q; ring]. }
      unfold Nfd. rewrite !k_pp, !k_pbxy, E. destruct (iga o); [unfold Rdiv; ring|]. rewrite frac_0. ring.
    Qed.
    Lemma k_nfd0 i j : Nfd o tiny G p na nb i j = 0.
    Proof.
      assert (E : abx na (i + 1) j * cc - abx na i j * cc + bbx nb i j * cc - bbx nb i (j - 1) * cc = 0).
      { unfold abx, bbx. rewrite !Ha, !Hb. field. }
      unfold Nfd. rewrite !k_pp, !k_pbxy, E. destruct (iga o); [unfold Rdiv; ring|]. rewrite frac_0. ring.
    Qed.
    Lemma k_fcen i j : Fcen o G p a b i j = 0.
    Proof.
      unfold Fcen. rewrite !k_pbx, !k_pby.
      replace (a i j * cc - a (i - 1)%Z j * cc + b i j * cc - b i (j - 1)%Z * cc) with (cc * (a i j - a (i - 1)%Z j + (b i j - b i (j - 1)%Z))) by ring.
      rewrite DV. unfold Rdiv. ring.
    Qed.
    Lemma k_fcor i j : Fcor o G p a b i j = 0.
    Proof.
      unfold Fcor. rewrite !k_pbx, !k_pby.
      assert (E : abxy a (i + 1) j * cc - abxy a i j * cc + bbxy b i (j + 1) * cc - bbxy b i j * cc = 0).
      { assert (Q : abxy a (i + 1) j - abxy a i j + bbxy b i (j + 1) - bbxy b i j = 0).
        { unfold abxy, bbxy. dv i j. dv (i + 1)%Z j. dv i (j + 1)%Z. dv (i + 1)%Z (j + 1)%Z.
          replace (i + 1 - 1)%Z with i by lia. replace (j + 1 - 1)%Z with j by lia. lra. }
        transitivity (cc * (abxy a (i + 1) j - abxy a i j + bbxy b i (j + 1) - bbxy b i j)); [ring|rewrite Q; ring]. }
      rewrite E. unfold Rdiv. ring.
    Qed.
    Lemma k_nff i j : Nff o tiny G p a b i j = 0.
    Proof. unfold Nff. rewrite !k_fcen, !k_fcor. destruct (iga o); [unfold Rdiv; ring|]. z0. Qed.
    Lemma k_nxf i j : Nxf o tiny G p a b i j = 0.
    Proof. unfold Nxf. rewrite !k_fcen. destruct (iga o); [ring|]. z0. Qed.
    Lemma k_nfdt i j : Nfdt o tiny G p n a b i j = 0.
    Proof. unfold Nfdt. rewrite !k_pp, !k_pn, !k_pbxy, !k_pbxyn. destruct (iga o); [unfold Rdiv; ring|]. z0. Qed.

    (** options that do not add the second derivative of the advector itself *)
    Hypothesis Opt : div2 o = false \/ (div3 o = false /\ div3dt o = false) \/ sp = aver4 \/ a 1%Z 0%Z + a (-1)%Z 0%Z - 2 * a 0%Z 0%Z = 0.
    Lemma anti_const2 : A2 o sp tp tiny G p n a b na nb ta = 0.
    Proof.
      assert (DF : Dfl o G p a b = 0).
      { unfold Dfl. destruct (dfl o); auto.
        replace (a 1%Z 0%Z - a (-1)%Z 0%Z + (b 1%Z 0%Z + b 0%Z 0%Z - b 1%Z (-1)%Z - b 0%Z (-1)%Z)) with 0.
        - destruct (iga o); ring.
        - pose proof (DV 0 0) as H1. pose proof (DV 1 0) as H2. cbn in H1, H2. lra. }
      assert (D2z : D2 o tiny G p a b = 0) by (unfold D2; rewrite k_ndx, k_nfd; ring).
      assert (FO : Fot o G p a b = 0) by (unfold Fot; rewrite k_ndxxx, k_ndxxy, k_ndxyy; destruct (fot o); ring).
      assert (TT : Ntt o p ta = 0) by (unfold Ntt; rewrite Ht; destruct (iga o); ring).
      unfold A2. destruct (div2 o) eqn:E2.
      - assert (D3z : D3 o sp tp tiny G p n a b na nb ta = 0); [|rewrite D2z, D3z, FO; ring].
        destruct Opt as [H|[[H1 H2]|H]]; [discriminate| |].
        + unfold D3. rewrite H1, H2. reflexivity.
        + assert (SP : Sp o sp p a = 0).
          { destruct H as [-> |H]; [reflexivity|]. unfold Sp, Nxxa. rewrite H. destruct sp, (iga o); ring. }
          unfold D3, S3, U3, Tp. rewrite SP, TT, D2z, k_ndx, k_ndxx, k_nxf, k_nff, k_nfd, k_nfd0, k_ntx, k_nfdt, k_nt, Ha.
          rewrite Rabs_R0. destruct (div3 o), (div3dt o), (iga o), tp; unfold Rdiv; ring.
      - unfold Tot. rewrite k_ndx, k_ndy, k_ndxx, k_ndxy, FO, DF. destruct (tot o); unfold Rdiv; ring.
    Qed.
  End Const.

  (** *** Size of the velocities of the basic scheme *)
  Section Size.
    Variables (p n G a b na nb ta : loc2).
    Hypothesis I1 : iga o = false.
    Hypothesis E2 : div2 o = false.
    Hypothesis T1 : tot o = false.
    Hypothesis D1 : dfl o = false.
    Hypothesis F1 : fot o = false.
    Hypothesis Ht : pfc o = true \/ 0 < tiny.
    Hypothesis Hp : forall i j, 0 <= p i j.
    Lemma frac_small u v : Rabs u <= v -> Rabs (fracR o tiny u v) <= 1.
    Proof.
      intros H. pose proof (Rabs_pos u). unfold fracR. destruct (pfc o).
      - destruct (Req_EM_T v 0); [rewrite Rabs_R0; lra|].
        unfold Rdiv. rewrite Rabs_mult, Rabs_inv, (Rabs_right v) by lra. apply div_le1; lra.
      - destruct Ht as [X|X]; [discriminate|]. unfold Rdiv. rewrite Rabs_mult, Rabs_inv, (Rabs_right (v + tiny)) by lra.
        apply div_le1; lra.
    Qed.
    Lemma pp_pos i j : 0 <= pp o p i j.
    Proof. unfold pp, paR. destruct (oabs o); auto using Rabs_pos. Qed.
    Lemma ndx_small i j : Rabs (Ndx o tiny p i j) <= 2.
    Proof.
      unfold Ndx. rewrite I1, Rabs_mult, (Rabs_right 2) by lra.
      assert (Rabs (fracR o tiny (pp o p (i + 1) j - pp o p i j) (pp o p (i + 1) j + pp o p i j)) <= 1); [|lra].
      apply frac_small. pose proof (pp_pos (i + 1) j). pose proof (pp_pos i j). apply Rabs_le. lra.
    Qed.
    Lemma ndy_small i j : Rabs (Ndy o tiny p i j) <= 1.
    Proof.
      unfold Ndy. rewrite I1. apply frac_small.
      pose proof (pp_pos (i + 1) (j + 1)). pose proof (pp_pos i (j + 1)). pose proof (pp_pos (i + 1) (j - 1)). pose proof (pp_pos i (j - 1)).
      apply Rabs_le. lra.
    Qed.
    Variables m ca cb : R.
    Hypothesis Hm : 0 < m.
    Hypothesis Hg : m <= gbx o G 0 0 <= 2 * m.
    Hypothesis HA : Rabs (a 0%Z 0%Z) <= ca * m.
    Hypothesis HB : forall i j, Rabs (b i j) <= cb * m.
    Hypothesis Hc : ca <= 1 / 2.
    Lemma anti_small : Rabs (A2 o sp tp tiny G p n a b na nb ta) <= (ca * (1 - ca / 2) + ca * cb / 2) * m.
    Proof.
      unfold A2, Tot, Fot, Dfl. rewrite E2, T1, D1, F1.
      set (u := Rabs (a 0%Z 0%Z)) in *. set (g := gbx o G 0 0) in *.
      assert (U0 : 0 <= u) by apply Rabs_pos.
      assert (B0 : Rabs (bbxy b 0 0) <= cb * m).
      { unfold bbxy. pose proof (HB (0+1) 0). pose proof (HB 0 0). pose proof (HB (0+1) (0-1)). pose proof (HB 0 (0-1)).
        unfold Rdiv. rewrite Rabs_mult, (Rabs_right (/ 4)) by lra.
        assert (Rabs (b (0+1)%Z 0%Z + b 0%Z 0%Z + b (0+1)%Z (0-1)%Z + b 0%Z (0-1)%Z) <= 4 * (cb * m)); [|lra].
        eapply Rle_trans; [apply Rabs_triang|]. apply Rle_trans with (3 * (cb * m) + cb * m); [|lra]. apply Rplus_le_compat; auto.
        eapply Rle_trans; [apply Rabs_triang|]. apply Rle_trans with (2 * (cb * m) + cb * m); [|lra]. apply Rplus_le_compat; auto.
        eapply Rle_trans; [apply Rabs_triang|]. lra. }
      assert (UG : u / g <= ca).
      { apply Rmult_le_reg_r with g; [lra|]. unfold Rdiv. rewrite Rmult_assoc, Rinv_l by lra. rewrite Rmult_1_r.
        eapply Rle_trans; [exact HA|]. apply Rmult_le_compat_l; [|lra].
        assert (0 <= ca * m) by lra. apply Rmult_le_reg_r with m; lra. }
      assert (C0 : 0 <= ca).
      { assert (0 <= ca * m) by lra. apply Rmult_le_reg_r with m; lra. }
      (* first term *)
      assert (S1 : u * (1 - u / g) <= ca * (1 - ca / 2) * m).
      { (* u (1 - u/g) <= u (1 - u/(2m)), increasing up to u = m *)
        assert (K1 : u / (2 * m) <= u / g).
        { unfold Rdiv. apply Rmult_le_compat_l; auto. apply Rinv_le_contravar; lra. }
        apply Rle_trans with (u * (1 - u / (2 * m))); [apply Rmult_le_compat_l; lra|].
        apply Rmult_le_reg_r with (2 * m); [lra|].
        replace (u * (1 - u / (2 * m)) * (2 * m)) with (u * (2 * m - u)) by (field; lra).
        replace (ca * (1 - ca / 2) * m * (2 * m)) with (ca * m * (2 * m - ca * m)) by field.
        assert (Q : 0 <= (ca * m - u) * (2 * m - u - ca * m)).
        { apply Rmult_le_pos; [lra|]. assert (ca * m <= 1 / 2 * m) by (apply Rmult_le_compat_r; lra). lra. }
        lra. }
      assert (W1 : 0 <= 1 - u / g) by lra.
      assert (Z1 : Rabs (u / 2 * (1 - u / g) * Ndx o tiny p 0 0) <= u * (1 - u / g)).
      { rewrite Rabs_mult. rewrite (Rabs_right (u / 2 * (1 - u / g))).
        - pose proof (ndx_small 0 0). replace (u * (1 - u / g)) with (u / 2 * (1 - u / g) * 2) by (field; lra).
          apply Rmult_le_compat_l; auto. apply Rmult_le_pos; lra.
        - apply Rle_ge. apply Rmult_le_pos; lra. }
      (* second term *)
      assert (CB : 0 <= cb * m) by (pose proof (Rabs_pos (bbxy b 0 0)); lra).
      assert (Z2 : Rabs (a 0%Z 0%Z * bbxy b 0 0 / (2 * g) * Ndy o tiny p 0 0) <= ca * cb / 2 * m).
      { rewrite Rabs_mult. unfold Rdiv at 1. rewrite !Rabs_mult, Rabs_inv, (Rabs_right (2 * g)) by lra. fold u.
        pose proof (ndy_small 0 0) as N1. pose proof (Rabs_pos (Ndy o tiny p 0 0)) as N2. pose proof (Rabs_pos (bbxy b 0 0)) as N3.
        pose proof (Rinv_0_lt_compat (2 * g) ltac:(lra)) as I0.
        apply Rle_trans with (u * Rabs (bbxy b 0 0) * / (2 * g) * 1).
        - apply Rmult_le_compat_l; auto. apply Rmult_le_pos; [|lra]. apply Rmult_le_pos; auto.
        - rewrite Rmult_1_r. replace (u * Rabs (bbxy b 0 0) * / (2 * g)) with (u / g * (Rabs (bbxy b 0 0) / 2)) by (field; lra).
          replace (ca * cb / 2 * m) with (ca * (cb * m / 2)) by field.
          apply Rmult_le_compat; try lra. apply div_nonneg; lra. }
      replace (_ + 0 + 0 + 0) with (u / 2 * (1 - u / g) * Ndx o tiny p 0 0 + - (a 0%Z 0%Z * bbxy b 0 0 / (2 * g) * Ndy o tiny p 0 0)) by ring.
      eapply Rle_trans; [apply Rabs_triang|]. rewrite Rabs_Ropp. lra.
    Qed.
  End Size.
End Anti.

(** ** Whole passes *)
Section Pass.
  Variables eps tiny : R.
  Notation AR := (arithR eps tiny).
  Variables (o : fl) (sp : sptl) (tp : tmprl).
  Notation F := (forms2 o sp tp).
  Notation ds := [DX; DY].
  Variable X : fixedN AR.
  Notation C0 := (nC AR X).
  Notation g := (gN o (nG AR X)).
  Let CF := closed2 eps tiny o sp tp.

  Lemma corr2 psi psin C d x : corrN AR F X psi psin C d x =
    A2 o sp tp tiny (lc d x (nG AR X)) (lc d x psi) (lc d x psin) (lc d x (C d)) (lc d x (C (od d)))
       (lc d x (nN AR X d)) (lc d x (nN AR X (od d))) (lc d x (nT AR X d)).
  Proof. apply antiN_R2. Qed.

  (** in local coordinates *)
  Lemma lc_pv0 {T} d x (f : idx -> T) i j : In d ds -> f (pv d (iadd x (x2 d i j))) = lc d x f (i - 1) j.
  Proof.
    intros Hd. unfold lc, pv. rewrite iadd_assoc. destruct Hd as [<-|[<-|[]]]; unfold iadd, un, x2; cbn [fst snd];
      apply (f_equal f); apply f_equal2; try apply f_equal2; lia.
  Qed.
  Lemma lc_pv1 {T} d x (f : idx -> T) i j : In d ds -> f (pv (od d) (iadd x (x2 d i j))) = lc d x f i (j - 1).
  Proof.
    intros Hd. unfold lc, pv. rewrite iadd_assoc. destruct Hd as [<-|[<-|[]]]; unfold iadd, un, x2, od; cbn [fst snd];
      apply (f_equal f); apply f_equal2; try apply f_equal2; lia.
  Qed.
  Lemma div_lc C d x : In d ds -> (forall y, divN ds C y = 0) -> forall i j,
    lc d x (C d) i j - lc d x (C d) (i - 1) j + (lc d x (C (od d)) i j - lc d x (C (od d)) i (j - 1)) = 0.
  Proof.
    intros Hd H i j. rewrite <- (lc_pv0 d x (C d) i j Hd), <- (lc_pv1 d x (C (od d)) i j Hd).
    specialize (H (iadd x (x2 d i j))). unfold divN in H. cbn [dsum] in H. unfold lc.
    destruct Hd as [<-|[<-|[]]]; cbn [od] in *; lra.
  Qed.

  Lemma const_steps nit freq ex nt : (forall d x, nN AR X d x = 0) -> (forall d x, nT AR X d x = 0) ->
    (forall x, divN ds C0 x = 0) ->
    (div2 o = false \/ (div3 o = false /\ div3dt o = false) \/ sp = aver4 \/ (exists k : dim -> R, forall d x, In d ds -> C0 d x = k d)) ->
    forall ts psi c, (forall x, psi x = c) -> forall x, stepsN AR o F X nit freq ex nt ts psi x = c.
  Proof.
    intros HN HT HD Opt. induction nt as [|q0 IH]; intros ts psi c Hp x; cbn [stepsN]; auto.
    apply IH. intros y. unfold stepN. rewrite scaleN_R.
    set (p := scaleN AR ex psi). assert (P0 : forall z, p z = sc ex * c) by (intros z; unfold p; rewrite scaleN_R, Hp; reflexivity).
    assert (U : forall z, upN AR o F X p z = sc ex * c) by (apply up_divfree with (ds := ds); auto).
    rewrite (passes_idle eps tiny o F ds CF X _ _ _ _ _ _
      (fun a b D => (forall z, a z = sc ex * c) /\ (forall z, b z = sc ex * c) /\ (forall z, divN ds D z = 0) /\
        (div2 o = false \/ (div3 o = false /\ div3dt o = false) \/ sp = aver4 \/ (exists k : dim -> R, forall d x, In d ds -> D d x = k d)))).
    - rewrite U, <- Rmult_assoc, sc_inv. toR; ring.
    - repeat split; auto.
    - intros a b D (Ka & Kb & KD & KO).
      assert (Z0 : forall d z, In d ds -> corrN AR F X b a D d z = 0).
      { intros d z Hd. rewrite corr2. apply anti_const2 with (c := sc ex * c).
        1-5: intros; unfold lc; auto.
        - apply div_lc; auto.
        - destruct KO as [H|[H|[H|[k H]]]]; auto. right; right; right. unfold lc. change (car AR) with R in *. rewrite !H by auto. ring. }
      split; auto. intros b' Hb. split; auto. split; [intros z; rewrite Hb; auto|]. split.
      + intros z. unfold divN. apply dsum_0. intros d Hd. change (car AR) with R in *. rewrite !Z0 by auto. ring.
      + right; right; right. exists (fun _ => 0). auto.
  Qed.

  (** *** The basic scheme keeps the sign *)
  Section Tame.
    Variable m : R.
    Hypothesis Hm : 0 < m.
    Hypothesis Hg : forall x, m <= g x <= 2 * m.
    Hypothesis I1 : iga o = false.
    Hypothesis E2 : div2 o = false.
    Hypothesis T1 : tot o = false.
    Hypothesis D1 : dfl o = false.
    Hypothesis F1 : fot o = false.
    Hypothesis Ht : pfc o = true \/ 0 < tiny.
    Definition tame2 (C : dim -> idx -> R) : Prop := exists cx cy, cx + cy <= 1 / 2 /\
      (forall x, Rabs (C DX x) <= cx * m) /\ (forall x, Rabs (C DY x) <= cy * m).
    Lemma gbx_range d x : m <= gbx o (lc d x (nG AR X)) 0 0 <= 2 * m.
    Proof.
      unfold gbx. unfold gN in Hg. destruct (nug o) eqn:En.
      - pose proof (Hg (iadd x (x2 d (0 + 1) 0))). pose proof (Hg (iadd x (x2 d 0 0))). unfold lc. lra.
      - specialize (Hg x). lra.
    Qed.
    Lemma tame_out C : tame2 C -> forall x, outN ds C x <= g x.
    Proof.
      intros (cx & cy & Hc & HX & HY) x. unfold outN. cbn [dsum].
      assert (A : forall t, Rmax 0 t <= Rabs t /\ - Rmin 0 t <= Rabs t).
      { intros t. unfold Rmax, Rmin, Rabs. destruct Rle_dec, Rcase_abs; lra. }
      pose proof (A (C DX x)). pose proof (A (C DX (pv DX x))). pose proof (A (C DY x)). pose proof (A (C DY (pv DY x))).
      pose proof (HX x). pose proof (HX (pv DX x)). pose proof (HY x). pose proof (HY (pv DY x)). pose proof (Hg x).
      assert ((cx + cy) * m <= 1 / 2 * m) by (apply Rmult_le_compat_r; lra). lra.
    Qed.
    Lemma tamed2 : tamed eps tiny o F ds X tame2.
    Proof.
      intros psin psi C Hp _ (cx & cy & Hc & HX & HY).
      assert (PX : 0 <= cx).
      { pose proof (Rabs_pos (C DX izero)). pose proof (HX izero). apply Rmult_le_reg_r with m; lra. }
      assert (PY : 0 <= cy).
      { pose proof (Rabs_pos (C DY izero)). pose proof (HY izero). apply Rmult_le_reg_r with m; lra. }
      assert (T : tame2 (corrN AR F X psi psin C)).
      { exists (cx * (1 - cx / 2) + cx * cy / 2), (cy * (1 - cy / 2) + cy * cx / 2). split; [|split].
        - assert (0 <= (cx - cy) * (cx - cy)) by apply Rle_0_sqr. lra.
        - intros x. rewrite corr2. apply anti_small; auto; try lra; try (intros; apply Hp); try apply gbx_range.
          + apply HX.
          + intros i j. apply HY.
        - intros x. rewrite corr2. apply anti_small; auto; try lra; try (intros; apply Hp); try apply gbx_range.
          + apply HY.
          + intros i j. apply HX. }
      split; auto. apply tame_out. auto.
    Qed.
  End Tame.
End Pass.
