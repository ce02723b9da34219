(** Properties of the antidiffusive velocity of the 3D solver. *)
From Coq Require Import ZArith List Bool Lia ZifyBool Reals Lra.
From Verif Require Import ModelRun Lang ProofsLang Stencil FormCommon Form3D Solver1D Solver3D Fun1D FunN Arith SpecReal
  ProofsReal1D ProofsAnti1D ProofsNum1D ProofsSign1D ProofsFunN ProofsPerN ProofsNumN ProofsReal3D ProofsAnti3D.
Import ListNotations.
Local Open Scope R_scope.

Section Anti.
  Variables (o : fl) (sp : sptl) (tp : tmprl) (tiny : R).
  Notation loc3 := (Z -> Z -> Z -> R).

  (** *** Constant fields *)
  Section Const.
    Variables (p n : loc3) (v : R) (G a b c na nb nc ta : loc3).
    Hypothesis Hp : forall i j k, p i j k = v.
    Hypothesis Hn : forall i j k, n i j k = v.
    Hypothesis Ha : forall i j k, na i j k = 0.
    Hypothesis Hb : forall i j k, nb i j k = 0.
    Hypothesis Hc : forall i j k, nc i j k = 0.
    Hypothesis Ht : forall i j k, ta i j k = 0.
    Hypothesis DV : forall i j k, a i j k - a (i - 1)%Z j k + (b i j k - b i (j - 1)%Z k) + (c i j k - c i j (k - 1)%Z) = 0.
    Notation cc := (paR o v).

    Lemma k_pp i j k : pp o p i j k = cc. Proof. unfold pp. rewrite Hp. reflexivity. Qed.
    Lemma k_pn i j k : pp o n i j k = cc. Proof. unfold pp. rewrite Hn. reflexivity. Qed.
    Lemma k_pbx i j k : pbx o p i j k = cc. Proof. unfold pbx. rewrite !k_pp. field. Qed.
    Lemma k_pby i j k : pby o p i j k = cc. Proof. unfold pby. rewrite !k_pp. field. Qed.
    Lemma k_pbz i j k : pbz o p i j k = cc. Proof. unfold pbz. rewrite !k_pp. field. Qed.
    Lemma k_pbxy i j k : pbxy o p i j k = cc. Proof. unfold pbxy. rewrite !k_pp. field. Qed.
    Lemma k_pbxz i j k : pbxz o p i j k = cc. Proof. unfold pbxz. rewrite !k_pp. field. Qed.
    Lemma k_pbxyz i j k : pbxyz o p i j k = cc. Proof. unfold pbxyz. rewrite !k_pp. field. Qed.
    Lemma k_pbxyn i j k : pbxy o n i j k = cc. Proof. unfold pbxy. rewrite !k_pn. field. Qed.
    Lemma k_pbxzn i j k : pbxz o n i j k = cc. Proof. unfold pbxz. rewrite !k_pn. field. Qed.
    Ltac z0 := match goal with |- context [fracR o tiny ?u ?v] => replace u with 0 by (toR; ring); rewrite frac_0; ring end.
    Lemma k_ndx i j k : Ndx o tiny p i j k = 0.
    Proof. unfold Ndx. cbv zeta. destruct (iga o); [rewrite !Hp; field|]. rewrite !k_pp. z0. Qed.
    Lemma k_ndy i j k : Ndy o tiny p i j k = 0.
    Proof. unfold Ndy. cbv zeta. destruct (iga o); [rewrite !Hp; field|]. rewrite !k_pp. z0. Qed.
    Lemma k_ndz i j k : Ndz o tiny p i j k = 0.
    Proof. unfold Ndz. cbv zeta. destruct (iga o); [rewrite !Hp; field|]. rewrite !k_pp. z0. Qed.
    Lemma k_ndxx i j k : Ndxx o tiny p i j k = 0.
    Proof. unfold Ndxx. cbv zeta. destruct (iga o); [rewrite !Hp; field|]. rewrite !k_pp. z0. Qed.
    Lemma k_ndxy i j k : Ndxy o tiny p i j k = 0.
    Proof. unfold Ndxy. cbv zeta. destruct (iga o); [rewrite !Hp; field|]. rewrite !k_pp. z0. Qed.
    Lemma k_ndxz i j k : Ndxz o tiny p i j k = 0.
    Proof. unfold Ndxz. cbv zeta. destruct (iga o); [rewrite !Hp; field|]. rewrite !k_pp. z0. Qed.
    Lemma k_ndyz i j k : Ndyz o tiny p i j k = 0.
    Proof. unfold Ndyz. cbv zeta. destruct (iga o); [rewrite !Hp; field|]. rewrite !k_pp. z0. Qed.
    Lemma k_ntx i j k : Ntx o tiny p n i j k = 0.
    Proof. unfold Ntx. destruct (iga o); [rewrite !Hp, !Hn; ring|]. rewrite !k_pp, !k_pn. z0. Qed.
    Lemma k_nt i j k : Nt o tiny p n i j k = 0.
    Proof. unfold Nt. destruct (iga o); [rewrite !Hp, !Hn; field|]. rewrite !k_pp, !k_pn. z0. Qed.
    Ltac dv i j k := let H := fresh in pose proof (DV i j k) as H;
      repeat match type of H with context [(?k + 1 - 1)%Z] => replace (k + 1 - 1)%Z with k in H by lia end.
    Ltac fac E Q := transitivity (cc * E); [ring|rewrite Q; ring].
    Lemma k_nom i j k : abx a (i + 1) j k * cc - abx a i j k * cc + bbx b i j k * cc - bbx b i (j - 1) k * cc + cbx c i j k * cc - cbx c i j (k - 1) * cc = 0.
    Proof.
      assert (Q : abx a (i + 1) j k - abx a i j k + bbx b i j k - bbx b i (j - 1) k + cbx c i j k - cbx c i j (k - 1) = 0).
      { unfold abx, bbx, cbx. dv (i + 1)%Z j k. dv i j k. replace (i + 1 - 1)%Z with i by lia. lra. }
      fac (abx a (i + 1) j k - abx a i j k + bbx b i j k - bbx b i (j - 1) k + cbx c i j k - cbx c i j (k - 1)) Q.
    Qed.
    Lemma k_nfd i j k : Nfd o tiny G p a b c i j k = 0.
    Proof. unfold Nfd. cbv zeta. rewrite !k_pp, !k_pbxy, !k_pbxz, k_nom. destruct (iga o); [unfold Rdiv; ring|]. rewrite frac_0. ring. Qed.
    Lemma k_nfd0 i j k : Nfd o tiny G p na nb nc i j k = 0.
    Proof.
      assert (E : abx na (i + 1) j k * cc - abx na i j k * cc + bbx nb i j k * cc - bbx nb i (j - 1) k * cc + cbx nc i j k * cc - cbx nc i j (k - 1) * cc = 0).
      { unfold abx, bbx, cbx. rewrite !Ha, !Hb, !Hc. field. }
      unfold Nfd. cbv zeta. rewrite !k_pp, !k_pbxy, !k_pbxz, E. destruct (iga o); [unfold Rdiv; ring|]. rewrite frac_0. ring.
    Qed.
    Lemma k_fcen i j k : Fcen o G p a b c i j k = 0.
    Proof.
      unfold Fcen. rewrite !k_pbx, !k_pby, !k_pbz.
      match goal with |- ?N / _ = 0 => replace N with (cc * (a i j k - a (i - 1)%Z j k + (b i j k - b i (j - 1)%Z k) + (c i j k - c i j (k - 1)%Z))) by ring end.
      rewrite DV. unfold Rdiv. ring.
    Qed.
    Lemma k_fcxy i j k : Fcxy o G p a b c i j k = 0.
    Proof.
      unfold Fcxy. rewrite !k_pbx, !k_pby, !k_pbxyz.
      assert (Q : abxy a (i + 1) j k - abxy a i j k + bbxy b i (j + 1) k - bbxy b i j k + cbxy c i j k - cbxy c i j (k - 1) = 0).
      { unfold abxy, bbxy, cbxy. dv i j k. dv (i + 1)%Z j k. dv i (j + 1)%Z k. dv (i + 1)%Z (j + 1)%Z k.
        replace (i + 1 - 1)%Z with i by lia. replace (j + 1 - 1)%Z with j by lia. lra. }
      match goal with |- ?N / _ = 0 => replace N with 0 end; [unfold Rdiv; ring|]. symmetry.
      fac (abxy a (i + 1) j k - abxy a i j k + bbxy b i (j + 1) k - bbxy b i j k + cbxy c i j k - cbxy c i j (k - 1)) Q.
    Qed.
    Lemma k_fcxz i j k : Fcxz o G p a b c i j k = 0.
    Proof.
      unfold Fcxz. rewrite !k_pbx, !k_pbz, !k_pbxyz.
      assert (Q : abxz a (i + 1) j k - abxz a i j k + bbxz b i j k - bbxz b i (j - 1) k + cbxz c i j (k + 1) - cbxz c i j k = 0).
      { unfold abxz, bbxz, cbxz. dv i j k. dv (i + 1)%Z j k. dv i j (k + 1)%Z. dv (i + 1)%Z j (k + 1)%Z.
        replace (i + 1 - 1)%Z with i by lia. replace (k + 1 - 1)%Z with k by lia. lra. }
      match goal with |- ?N / _ = 0 => replace N with 0 end; [unfold Rdiv; ring|]. symmetry.
      fac (abxz a (i + 1) j k - abxz a i j k + bbxz b i j k - bbxz b i (j - 1) k + cbxz c i j (k + 1) - cbxz c i j k) Q.
    Qed.
    Lemma k_nff i j k : Nff o tiny G p a b c i j k = 0.
    Proof. unfold Nff. cbv zeta. rewrite !k_fcen, !k_fcxy, !k_fcxz. destruct (iga o); [unfold Rdiv; ring|]. z0. Qed.
    Lemma k_nxf i j k : Nxf o tiny G p a b c i j k = 0.
    Proof. unfold Nxf. cbv zeta. rewrite !k_fcen. destruct (iga o); [ring|]. z0. Qed.
    Lemma k_nfdt i j k : Nfdt o tiny G p n a b c i j k = 0.
    Proof. unfold Nfdt. cbv zeta. rewrite !k_pp, !k_pn, !k_pbxy, !k_pbxyn, !k_pbxz, !k_pbxzn. destruct (iga o); [unfold Rdiv; ring|]. z0. Qed.

    (** options that do not add the second derivative of the advector itself *)
    Hypothesis Opt : div2 o = false \/ (div3 o = false /\ div3dt o = false) \/ sp = aver4 \/ a 1%Z 0%Z 0%Z + a (-1)%Z 0%Z 0%Z - 2 * a 0%Z 0%Z 0%Z = 0.
    Lemma anti_const3 : A3 o sp tp tiny G p n a b c na nb nc ta = 0.
    Proof.
      assert (DF : Dfl o G p a b c = 0).
      { unfold Dfl. destruct (dfl o); auto. cbv zeta.
        match goal with |- context [a 1%Z 0%Z 0%Z - ?y + ?s + ?t] => replace (a 1%Z 0%Z 0%Z - y + s + t) with 0 end.
        - destruct (iga o); ring.
        - pose proof (DV 0 0 0) as H1. pose proof (DV 1 0 0) as H2. cbn in H1, H2. lra. }
      assert (D2z : D2 o tiny G p a b c = 0) by (unfold D2; rewrite k_ndx, k_nfd; ring).
      assert (TT : Ntt o p ta = 0) by (unfold Ntt; rewrite Ht; destruct (iga o); ring).
      unfold A3. destruct (div2 o) eqn:E2.
      - assert (D3z : D3 o sp tp tiny G p n a b c na nb nc ta = 0); [|rewrite D2z, D3z; ring].
        destruct Opt as [H|[[H1 H2]|H]]; [discriminate| |].
        + unfold D3. rewrite H1, H2. reflexivity.
        + assert (SP : Sp o sp p a = 0).
          { destruct H as [-> |H]; [reflexivity|]. unfold Sp, Nxxa. rewrite H. destruct sp, (iga o); ring. }
          unfold D3, S3, U3, Tp. rewrite SP, TT, D2z, k_ndx, k_ndxx, k_nxf, k_nff, k_nfd, k_nfd0, k_ntx, k_nfdt, k_nt, Ha.
          rewrite Rabs_R0. destruct (div3 o), (div3dt o), (iga o), tp; unfold Rdiv; ring.
      - unfold Tot. rewrite k_ndx, k_ndy, k_ndz, k_ndxx, k_ndxy, k_ndxz, k_ndyz, DF. destruct (tot o); unfold Rdiv; ring.
    Qed.
  End Const.

  (** *** Size of the velocities of the basic scheme *)
  Section Size.
    Variables (p n G a b c na nb nc ta : loc3).
    Hypothesis I1 : iga o = false.
    Hypothesis E2 : div2 o = false.
    Hypothesis T1 : tot o = false.
    Hypothesis D1 : dfl o = false.
    Hypothesis Ht : pfc o = true \/ 0 < tiny.
    Hypothesis Hp : forall i j k, 0 <= p i j k.
    Lemma frac_small u v : Rabs u <= v -> Rabs (fracR o tiny u v) <= 1.
    Proof.
      intros H. pose proof (Rabs_pos u). unfold fracR. destruct (pfc o).
      - destruct (Req_EM_T v 0); [rewrite Rabs_R0; lra|].
        unfold Rdiv. rewrite Rabs_mult, Rabs_inv, (Rabs_right v) by lra. apply div_le1; lra.
      - destruct Ht as [X|X]; [discriminate|]. unfold Rdiv. rewrite Rabs_mult, Rabs_inv, (Rabs_right (v + tiny)) by lra.
        apply div_le1; lra.
    Qed.
    Lemma pp_pos i j k : 0 <= pp o p i j k.
    Proof. unfold pp, paR. destruct (oabs o); auto using Rabs_pos. Qed.
    Lemma ndx_small i j k : Rabs (Ndx o tiny p i j k) <= 2.
    Proof.
      unfold Ndx. rewrite I1, Rabs_mult, (Rabs_right 2) by lra.
      assert (Rabs (fracR o tiny (pp o p (i + 1) j k - pp o p i j k) (pp o p (i + 1) j k + pp o p i j k)) <= 1); [|lra].
      apply frac_small. pose proof (pp_pos (i + 1) j k). pose proof (pp_pos i j k). apply Rabs_le. lra.
    Qed.
    Lemma ndy_small i j k : Rabs (Ndy o tiny p i j k) <= 1.
    Proof.
      unfold Ndy. rewrite I1. apply frac_small.
      pose proof (pp_pos (i + 1) (j + 1) k). pose proof (pp_pos i (j + 1) k). pose proof (pp_pos (i + 1) (j - 1) k). pose proof (pp_pos i (j - 1) k).
      apply Rabs_le. lra.
    Qed.
    Lemma ndz_small i j k : Rabs (Ndz o tiny p i j k) <= 1.
    Proof.
      unfold Ndz. rewrite I1. apply frac_small.
      pose proof (pp_pos (i + 1) j (k + 1)). pose proof (pp_pos i j (k + 1)). pose proof (pp_pos (i + 1) j (k - 1)). pose proof (pp_pos i j (k - 1)).
      apply Rabs_le. lra.
    Qed.
    Variables m K ca cb ce : R.
    Hypothesis Hm : 0 < m.
    Hypothesis HK : 1 <= K.
    Hypothesis Hg : m <= gbx o G 0 0 0 <= K * m.
    Hypothesis HA : Rabs (a 0%Z 0%Z 0%Z) <= ca * m.
    Hypothesis HB : forall i j k, Rabs (b i j k) <= cb * m.
    Hypothesis HC : forall i j k, Rabs (c i j k) <= ce * m.
    Hypothesis Hc : ca <= 1 / 2.
    Lemma mean4 x y z t M : Rabs x <= M -> Rabs y <= M -> Rabs z <= M -> Rabs t <= M -> Rabs ((x + y + z + t) / 4) <= M.
    Proof.
      intros. unfold Rdiv. rewrite Rabs_mult, (Rabs_right (/ 4)) by lra.
      assert (Rabs (x + y + z + t) <= 4 * M); [|lra].
      pose proof (Rabs_triang (x + y + z) t). pose proof (Rabs_triang (x + y) z). pose proof (Rabs_triang x y). lra.
    Qed.
    Lemma anti_small : Rabs (A3 o sp tp tiny G p n a b c na nb nc ta) <= (ca * (1 - ca / K) + ca * (cb + ce) / 2) * m.
    Proof.
      unfold A3, Tot, Dfl. rewrite E2, T1, D1.
      set (u := Rabs (a 0%Z 0%Z 0%Z)) in *. set (g := gbx o G 0 0 0) in *.
      assert (U0 : 0 <= u) by apply Rabs_pos.
      assert (B0 : Rabs (bbxy b 0 0 0) <= cb * m) by (apply mean4; auto).
      assert (C0' : Rabs (cbxz c 0 0 0) <= ce * m) by (apply mean4; auto).
      assert (C0 : 0 <= ca).
      { assert (0 <= ca * m) by lra. apply Rmult_le_reg_r with m; lra. }
      assert (UG : u / g <= ca).
      { apply Rmult_le_reg_r with g; [lra|]. unfold Rdiv. rewrite Rmult_assoc, Rinv_l by lra. rewrite Rmult_1_r.
        eapply Rle_trans; [exact HA|]. apply Rmult_le_compat_l; lra. }
      assert (KM : 0 < K * m) by (apply Rmult_lt_0_compat; lra).
      assert (MK : m <= K * m) by lra.
      (* first term *)
      assert (S1 : u * (1 - u / g) <= ca * (1 - ca / K) * m).
      { (* u (1 - u/g) <= u (1 - u/(K m)), increasing up to u = K m / 2 *)
        assert (K1 : u / (K * m) <= u / g).
        { unfold Rdiv. apply Rmult_le_compat_l; auto. apply Rinv_le_contravar; lra. }
        apply Rle_trans with (u * (1 - u / (K * m))); [apply Rmult_le_compat_l; lra|].
        apply Rmult_le_reg_r with (K * m); [lra|].
        replace (u * (1 - u / (K * m)) * (K * m)) with (u * (K * m - u)) by (field; split; lra).
        replace (ca * (1 - ca / K) * m * (K * m)) with (ca * m * (K * m - ca * m)) by (field; lra).
        assert (Q : 0 <= (ca * m - u) * (K * m - u - ca * m)).
        { apply Rmult_le_pos; [lra|]. assert (ca * m <= 1 / 2 * m) by (apply Rmult_le_compat_r; lra). lra. }
        lra. }
      assert (W1 : 0 <= 1 - u / g) by lra.
      assert (Z1 : Rabs (u / 2 * (1 - u / g) * Ndx o tiny p 0 0 0) <= u * (1 - u / g)).
      { rewrite Rabs_mult. rewrite (Rabs_right (u / 2 * (1 - u / g))).
        - pose proof (ndx_small 0 0 0). replace (u * (1 - u / g)) with (u / 2 * (1 - u / g) * 2) by (field; lra).
          apply Rmult_le_compat_l; auto. apply Rmult_le_pos; lra.
        - apply Rle_ge. apply Rmult_le_pos; lra. }
      (* second term *)
      set (w := bbxy b 0 0 0 * Ndy o tiny p 0 0 0 + cbxz c 0 0 0 * Ndz o tiny p 0 0 0).
      assert (W : Rabs w <= (cb + ce) * m).
      { assert (T : forall s t M, Rabs s <= M -> Rabs t <= 1 -> Rabs (s * t) <= M).
        { intros s t M Hs Ht'. rewrite Rabs_mult. pose proof (Rabs_pos s). pose proof (Rabs_pos t).
          apply Rle_trans with (Rabs s * 1); [apply Rmult_le_compat_l; auto|lra]. }
        unfold w. eapply Rle_trans; [apply Rabs_triang|].
        pose proof (T _ _ _ B0 (ndy_small 0 0 0)). pose proof (T _ _ _ C0' (ndz_small 0 0 0)). lra. }
      assert (Z2 : Rabs (a 0%Z 0%Z 0%Z / 2 * w / g) <= ca * (cb + ce) / 2 * m).
      { pose proof (Rinv_0_lt_compat g ltac:(lra)) as I0.
        unfold Rdiv. rewrite !Rabs_mult, !Rabs_inv, (Rabs_right g), (Rabs_right 2) by lra. fold u.
        replace (u * / 2 * Rabs w * / g) with (u / g * (Rabs w / 2)) by (field; lra).
        replace (ca * (cb + ce) * / 2 * m) with (ca * ((cb + ce) * m / 2)) by field.
        pose proof (Rabs_pos w). apply Rmult_le_compat; try lra. apply div_nonneg; lra. }
      replace (_ + 0 + 0) with (u / 2 * (1 - u / g) * Ndx o tiny p 0 0 0 + - (a 0%Z 0%Z 0%Z / 2 * w / g)) by ring.
      eapply Rle_trans; [apply Rabs_triang|]. rewrite Rabs_Ropp. lra.
    Qed.
  End Size.
End Anti.

(** ** Whole passes *)
Section Pass.
  Variables eps tiny : R.
  Notation AR := (arithR eps tiny).
  Variables (o : fl) (sp : sptl) (tp : tmprl).
  Notation F := (forms3 o sp tp).
  Notation ds := [DX; DY; DZ].
  Variable X : fixedN AR.
  Notation C0 := (nC AR X).
  Notation g := (gN o (nG AR X)).
  Let CF := closed3 eps tiny o sp tp.

  Lemma corr3 psi psin C d x : corrN AR F X psi psin C d x =
    A3 o sp tp tiny (lc3 d x (nG AR X)) (lc3 d x psi) (lc3 d x psin) (lc3 d x (C d)) (lc3 d x (C (dp d))) (lc3 d x (C (dm d)))
       (lc3 d x (nN AR X d)) (lc3 d x (nN AR X (dp d))) (lc3 d x (nN AR X (dm d))) (lc3 d x (nT AR X d)).
  Proof. apply antiN_R3. Qed.

  (** in local coordinates *)
  Lemma in_ds d : In d ds. Proof. destruct d; cbn; auto. Qed.
  Ltac lcs d := unfold lc3, pv; rewrite iadd_assoc; destruct d; unfold iadd, un, x3, dp, dm; cbn [fst snd];
      match goal with |- ?f _ = _ => apply (f_equal f) end; apply f_equal2; try apply f_equal2; lia.
  Lemma lc_pv0 {T} d x (f : idx -> T) i j k : f (pv d (iadd x (x3 d i j k))) = lc3 d x f (i - 1) j k.
  Proof. lcs d. Qed.
  Lemma lc_pv1 {T} d x (f : idx -> T) i j k : f (pv (dp d) (iadd x (x3 d i j k))) = lc3 d x f i (j - 1) k.
  Proof. lcs d. Qed.
  Lemma lc_pv2 {T} d x (f : idx -> T) i j k : f (pv (dm d) (iadd x (x3 d i j k))) = lc3 d x f i j (k - 1).
  Proof. lcs d. Qed.
  Lemma div_lc C d x : (forall y, divN ds C y = 0) -> forall i j k,
    lc3 d x (C d) i j k - lc3 d x (C d) (i - 1) j k + (lc3 d x (C (dp d)) i j k - lc3 d x (C (dp d)) i (j - 1) k)
    + (lc3 d x (C (dm d)) i j k - lc3 d x (C (dm d)) i j (k - 1)) = 0.
  Proof.
    intros H i j k. rewrite <- (lc_pv0 d x (C d) i j k), <- (lc_pv1 d x (C (dp d)) i j k), <- (lc_pv2 d x (C (dm d)) i j k).
    specialize (H (iadd x (x3 d i j k))). unfold divN in H. cbn [dsum] in H. unfold lc3.
    destruct d; cbn [dp dm] in *; lra.
  Qed.

  Lemma const_steps nit freq ex nt : (forall d x, nN AR X d x = 0) -> (forall d x, nT AR X d x = 0) ->
    (forall x, divN ds C0 x = 0) ->
    (div2 o = false \/ (div3 o = false /\ div3dt o = false) \/ sp = aver4 \/ (exists k : dim -> R, forall d x, C0 d x = k d)) ->
    forall ts psi c, (forall x, psi x = c) -> forall x, stepsN AR o F X nit freq ex nt ts psi x = c.
  Proof.
    intros HN HT HD Opt. induction nt as [|q0 IH]; intros ts psi c Hp x; cbn [stepsN]; auto.
    apply IH. intros y. unfold stepN. rewrite scaleN_R.
    set (p := scaleN AR ex psi). assert (P0 : forall z, p z = sc ex * c) by (intros z; unfold p; rewrite scaleN_R, Hp; reflexivity).
    assert (U : forall z, upN AR o F X p z = sc ex * c) by (apply up_divfree with (ds := ds); auto).
    rewrite (passes_idle eps tiny o F ds CF X _ _ _ _ _ _
      (fun a b D => (forall z, a z = sc ex * c) /\ (forall z, b z = sc ex * c) /\ (forall z, divN ds D z = 0) /\
        (div2 o = false \/ (div3 o = false /\ div3dt o = false) \/ sp = aver4 \/ (exists k : dim -> R, forall d x, D d x = k d)))).
    - rewrite U, <- Rmult_assoc, sc_inv. toR; ring.
    - repeat split; auto.
    - intros a b D (Ka & Kb & KD & KO).
      assert (Z0 : forall d z, corrN AR F X b a D d z = 0).
      { intros d z. rewrite corr3. apply anti_const3 with (v := sc ex * c).
        1-6: intros; unfold lc3; auto.
        - apply div_lc; auto.
        - destruct KO as [H|[H|[H|[k H]]]]; auto. right; right; right. unfold lc3. change (car AR) with R in *. rewrite !H by auto. ring. }
      split; auto. intros b' Hb. split; auto. split; [intros z; rewrite Hb; auto|]. split.
      + intros z. unfold divN. apply dsum_0. intros d Hd. change (car AR) with R in *. rewrite !Z0 by auto. ring.
      + right; right; right. exists (fun _ => 0). auto.
  Qed.

  (** *** The basic scheme keeps the sign *)
  Section Tame.
    Variables m K : R.
    Hypothesis Hm : 0 < m.
    Hypothesis HK : 1 <= K.
    Hypothesis Hg : forall x, m <= g x <= K * m.
    Hypothesis I1 : iga o = false.
    Hypothesis E2 : div2 o = false.
    Hypothesis T1 : tot o = false.
    Hypothesis D1 : dfl o = false.
    Hypothesis F1 : fct o = false.
    Hypothesis Ht : pfc o = true \/ 0 < tiny.
    (** velocities small enough for [n] more passes; where [G] is uniform
        (ratio [K = 1]) corrections never make them larger *)
    Definition tame3 (n : nat) (C : dim -> idx -> R) : Prop := exists cx cy cz,
      (K = 1 /\ cx + cy + cz <= 1 / 2 \/ K = 2 /\ (12 + INR n) * (cx + cy + cz) <= 6) /\
      (forall x, Rabs (C DX x) <= cx * m) /\ (forall x, Rabs (C DY x) <= cy * m) /\ (forall x, Rabs (C DZ x) <= cz * m).
    Lemma gbx_range d x : m <= gbx o (lc3 d x (nG AR X)) 0 0 0 <= K * m.
    Proof.
      unfold gbx. unfold gN in Hg. destruct (nug o) eqn:En.
      - pose proof (Hg (iadd x (x3 d (0 + 1) 0 0))). pose proof (Hg (iadd x (x3 d 0 0 0))). unfold lc3. lra.
      - specialize (Hg x). lra.
    Qed.
    Lemma coef_pos (f : idx -> R) k : (forall x, Rabs (f x) <= k * m) -> 0 <= k.
    Proof. intros H. pose proof (Rabs_pos (f izero)). specialize (H izero). apply Rmult_le_reg_r with m; lra. Qed.
    Lemma half n s : 0 <= s -> K = 1 /\ s <= 1 / 2 \/ K = 2 /\ (12 + INR n) * s <= 6 -> s <= 1 / 2.
    Proof.
      intros Hs [[_ H]|[_ H]]; auto. pose proof (pos_INR n).
      assert (0 <= INR n * s) by (apply Rmult_le_pos; lra). lra.
    Qed.
    Lemma tame_out n C : tame3 n C -> forall x, outN ds C x <= g x.
    Proof.
      intros (cx & cy & cz & Hc & HX & HY & HZ) x. unfold outN. cbn [dsum].
      pose proof (coef_pos _ _ HX). pose proof (coef_pos _ _ HY). pose proof (coef_pos _ _ HZ).
      apply half in Hc; [|lra].
      assert (A : forall t, Rmax 0 t <= Rabs t /\ - Rmin 0 t <= Rabs t).
      { intros t. unfold Rmax, Rmin, Rabs. destruct Rle_dec, Rcase_abs; lra. }
      pose proof (A (C DX x)). pose proof (A (C DX (pv DX x))). pose proof (A (C DY x)). pose proof (A (C DY (pv DY x))).
      pose proof (A (C DZ x)). pose proof (A (C DZ (pv DZ x))).
      pose proof (HX x). pose proof (HX (pv DX x)). pose proof (HY x). pose proof (HY (pv DY x)).
      pose proof (HZ x). pose proof (HZ (pv DZ x)). pose proof (Hg x).
      assert ((cx + cy + cz) * m <= 1 / 2 * m) by (apply Rmult_le_compat_r; lra). lra.
    Qed.
    Lemma grow s n : 0 <= s -> (12 + (n + 1)) * s <= 6 -> 0 <= n -> (12 + n) * (s + s * s / 6) <= 6.
    Proof.
      (* t = 6 - (13 + n) s >= 0, and (12 + n)(s + s s / 6) = (13 + n) s - s (1 - (12 + n) s / 6) *)
      intros Hs H Hn.
      assert (0 <= s * (6 - (12 + n) * s)).
      { apply Rmult_le_pos; lra. }
      lra.
    Qed.
    Lemma tamed3 n psin psi C : (forall x, 0 <= psi x) -> tame3 (S n) C -> tame3 n (corrN AR F X psi psin C).
    Proof.
      intros Hp (cx & cy & cz & Hc & HX & HY & HZ).
      pose proof (coef_pos _ _ HX) as PX. pose proof (coef_pos _ _ HY) as PY. pose proof (coef_pos _ _ HZ) as PZ.
      assert (P3 : 0 <= cx + cy + cz) by lra. pose proof (half _ _ P3 Hc) as H12.
      exists (cx * (1 - cx / K) + cx * (cy + cz) / 2), (cy * (1 - cy / K) + cy * (cz + cx) / 2), (cz * (1 - cz / K) + cz * (cx + cy) / 2).
      split; [|split; [|split]].
      - pose proof (Rle_0_sqr (cx - cy)). pose proof (Rle_0_sqr (cx - cz)). pose proof (Rle_0_sqr (cy - cz)). unfold Rsqr in *.
        destruct Hc as [[E Hc]|[E Hc]]; rewrite E; [left|right]; split; auto.
        + lra.
        + rewrite S_INR in Hc. pose proof (pos_INR n).
          apply Rle_trans with ((12 + INR n) * ((cx + cy + cz) + (cx + cy + cz) * (cx + cy + cz) / 6)); [|apply grow; auto; lra].
          apply Rmult_le_compat_l; [lra|]. lra.
      - intros x. rewrite corr3. apply anti_small; auto; try lra; try (intros; apply Hp); try apply gbx_range.
        + apply HX.
        + intros i j k. apply HY.
        + intros i j k. apply HZ.
      - intros x. rewrite corr3. apply anti_small; auto; try lra; try (intros; apply Hp); try apply gbx_range.
        + apply HY.
        + intros i j k. apply HZ.
        + intros i j k. apply HX.
      - intros x. rewrite corr3. apply anti_small; auto; try lra; try (intros; apply Hp); try apply gbx_range.
        + apply HZ.
        + intros i j k. apply HX.
        + intros i j k. apply HY.
    Qed.
    Lemma g_pos x : 0 < g x.
    Proof. specialize (Hg x). lra. Qed.
    Lemma passes_sign3 mn mx more : forall psin psi C, (forall x, 0 <= psi x) -> tame3 more C ->
      forall x, 0 <= passesN AR o F X mn mx more psin psi C x.
    Proof.
      induction more as [|k IH]; intros psin psi C Hp HC x; [auto|]. cbn [passesN].
      pose proof (tamed3 k psin psi C Hp HC) as T. apply IH; auto. intros y.
      unfold finN, limN. rewrite F1, I1.
      pose proof (donor_signN eps tiny o F ds CF X psi (corrN AR F X psi psin C) y (g_pos y) (tame_out _ _ T y) Hp) as D.
      rewrite (cl_sum _ _ _ _ _ CF) in D. rewrite (cl_sum _ _ _ _ _ CF).
      rewrite (divN_ext ds _ (donN psi (corrN AR F X psi psin C))); auto. intros d z Hd. apply (cl_flux _ _ _ _ _ CF). auto.
    Qed.
    Lemma step_sign3 nit k ex psi : tame3 (nit - 1) C0 -> (k = nit \/ k = 1%nat) ->
      (forall x, 0 <= psi x) -> forall x, 0 <= stepN AR o F X k ex psi x.
    Proof.
      intros T HK' Hp x. unfold stepN. rewrite scaleN_R. set (p := scaleN AR ex psi).
      assert (P0 : forall y, 0 <= p y).
      { intros y. unfold p. rewrite scaleN_R. apply Rmult_le_pos; [left; apply sc_pos|apply Hp]. }
      apply Rmult_le_pos; [left; apply sc_pos|].
      assert (U : forall y, 0 <= upN AR o F X p y) by (apply (up_signN eps tiny o F ds CF X g_pos (tame_out _ _ T)); auto).
      destruct HK' as [->| ->]; [|apply U; auto]. apply passes_sign3; auto.
    Qed.
    Lemma steps_sign3 nit freq ex nt : tame3 (nit - 1) C0 -> forall ts psi,
      (forall x, 0 <= psi x) -> forall x, 0 <= stepsN AR o F X nit freq ex nt ts psi x.
    Proof.
      intros T. induction nt as [|n IH]; intros ts psi Hp x; cbn [stepsN]; auto.
      apply IH; auto. apply step_sign3 with (nit := nit); auto. apply passes_cases.
    Qed.
  End Tame.
End Pass.
