(** 2D runs with data that do not vary along the second axis are 1D runs. *)
From Coq Require Import ZArith List Bool Lia ZifyBool Reals Lra FunctionalExtensionality.
From Verif Require Import ModelRun Lang ProofsLang Stencil FormCommon Form1D Form2D Solver1D Solver2D Fun1D FunN Arith SpecReal
  SpecThreads SpecFields SpecFields2 SpecNum2 SpecRun2 SpecSym2 ProofsCyclic1D ProofsThread1D ProofsValid1D ProofsPer1D
  ProofsThread2D ProofsOne2D ProofsValid2D ProofsCyclic2D
  ProofsReal1D ProofsAnti1D ProofsNum1D ProofsSign1D ProofsSym1D
  ProofsFunN ProofsPerN ProofsNumN ProofsSymN ProofsLinN ProofsReal2D ProofsAnti2D ProofsNum2D ProofsMirror2D ProofsFun2D
  ProofsResults2D ProofsSymRun2D.
Import ListNotations.
Local Open Scope R_scope.

Section Slice.
  Variables eps tiny : R.
  Notation AR := (arithR eps tiny).
  Variables (o : fl) (sp : sptl) (tp : tmprl).
  Definition slice_opts : Prop :=
    fot o = false /\ (div2 o = false \/ div3dt o = false /\ (iga o = true \/ div3 o = false /\ pfc o = true)).
  Hypothesis SO : slice_opts.
  Hypothesis IA : iga o = true -> oabs o = false.

  (** *** Antidiffusive velocities *)
  Section A.
    Variables G p n c : Z -> R.
    Variable x : Z.
    Notation s f := (fun i _ : Z => f (x + i)%Z).
    Notation z2 := (fun _ _ : Z => 0).
    Notation z1 := (fun _ : Z => 0).
    (** across: the velocity along the face normal is zero *)
    Lemma anti_zero G2 p2 n2 b : A2 o sp tp tiny G2 p2 n2 z2 b z2 z2 z2 = 0.
    Proof.
      assert (E2 : D2 o tiny G2 p2 z2 b = 0) by (unfold D2; rewrite Rabs_R0; unfold Rdiv; ring).
      assert (E3 : U3 o tiny G2 p2 z2 b = 0) by (unfold U3; rewrite E2, Rabs_R0; destruct (iga o); unfold Rdiv; ring).
      assert (E4 : S3 o sp tiny p2 z2 = 0) by (unfold S3, Sp, Nxxa, Nda; cbv zeta; destruct (iga o), sp; unfold Rdiv; ring).
      assert (E5 : Ntt o p2 z2 = 0) by (unfold Ntt; destruct (iga o); ring).
      assert (E6 : Tp o tp p2 z2 = 0) by (unfold Tp; rewrite E5; destruct tp; ring).
      assert (E7 : D3 o sp tp tiny G2 p2 n2 z2 b z2 z2 z2 = 0).
      { unfold D3. rewrite E3, E4, E5, E6, Rabs_R0. destruct (div3 o), (div3dt o); unfold Rdiv; ring. }
      assert (E8 : Fot o G2 p2 z2 b = 0) by (unfold Fot; rewrite Rabs_R0; destruct (fot o); unfold Rdiv; ring).
      assert (E9 : Tot o tiny G2 p2 z2 b = 0) by (unfold Tot; rewrite Rabs_R0; destruct (tot o); unfold Rdiv; ring).
      assert (E0 : Dfl o G2 p2 z2 b = 0) by (unfold Dfl; cbv zeta; destruct (dfl o), (iga o); unfold Rdiv; ring).
      unfold A2. rewrite E2, E7, E8, E9, E0, Rabs_R0. destruct (div2 o); unfold Rdiv; ring.
    Qed.
    Ltac zs := cbn [Z.add Z.sub Z.opp]; rewrite ?Z.add_0_r;
      repeat match goal with
      | |- context [(x + Z.neg ?k)%Z] => change (x + Z.neg k)%Z with (x - Z.pos k)%Z
      | |- context [(x + ?k - ?l)%Z] => let v := eval vm_compute in (k - l)%Z in replace (x + k - l)%Z with (x + v)%Z by lia
      end; rewrite ?Z.add_0_r.
    Lemma sl_gb : gbx o (s G) 0 0 = gbR o G x.
    Proof. unfold gbx, gbR. destruct (nug o); auto. zs. reflexivity. Qed.
    Lemma sl_ndx : Ndx o tiny (s p) 0 0 = ndxR o tiny p x.
    Proof. unfold Ndx, ndxR, pp. zs. reflexivity. Qed.
    Lemma sl_ndxx : Ndxx o tiny (s p) 0 0 = ndxxR o tiny p x.
    Proof. unfold Ndxx, ndxxR, pp. zs. reflexivity. Qed.
    Lemma sl_pbx : pbx o (s p) 0 0 = pbR o p x.
    Proof. unfold pbx, pbR, pp. zs. reflexivity. Qed.
    Lemma sl_bar : bbx z2 0 0 = 0 /\ bbx z2 0 (-1) = 0 /\ bbxy z2 0 0 = 0.
    Proof. unfold bbx, bbxy. split; [|split]; field. Qed.
    Lemma frac_cancel k a b : pfc o = true -> k <> 0 -> fracR o tiny a (k * b) = fracR o tiny a b / k.
    Proof.
      intros H Hk. unfold fracR. rewrite H. destruct (Req_EM_T b 0) as [->|Hb].
      - destruct (Req_EM_T (k * 0) 0); [field; auto|lra].
      - destruct (Req_EM_T (k * b) 0) as [E|E]; [apply Rmult_integral in E; destruct E; contradiction|field; auto].
    Qed.
    Lemma sl_nfd d : (iga o = true \/ pfc o = true) -> Nfd o tiny (s G) (s p) (s d) z2 0 0 = nfdivR o tiny p G d x.
    Proof.
      intros H. unfold Nfd, nfdivR, abx, cbR. cbv zeta. rewrite sl_gb. cbn [Z.add Z.sub Z.opp].
      destruct sl_bar as (-> & -> & _). rewrite !Rmult_0_l, Rplus_0_r, Rminus_0_r. unfold Six, pp. zs.
      destruct (iga o) eqn:Ei.
      - unfold paR. rewrite (IA eq_refl). reflexivity.
      - destruct H as [H|H]; [discriminate|].
        match goal with |- 6 * fracR _ _ ?a ?b = 2 * fracR _ _ ?a' ?b' => replace b with (3 * b') by ring end.
        rewrite frac_cancel by (auto; lra). field.
    Qed.
    Lemma sl_fcen k : Fcen o (s G) (s p) (s c) z2 k 0 = fdivR o p G c (x + k).
    Proof.
      unfold Fcen, fdivR, pbx, pbR, gg, gR, pp. rewrite !Rmult_0_l, Rplus_0_r, Rminus_0_r.
      replace (x + (k + 1))%Z with (x + k + 1)%Z by lia. replace (x + (k - 1))%Z with (x + k - 1)%Z by lia.
      replace (x + (k - 1 + 1))%Z with (x + k - 1 + 1)%Z by lia. reflexivity.
    Qed.
    Lemma sl_nff : iga o = true -> Nff o tiny (s G) (s p) (s c) z2 0 0 = nfdfR o tiny p G c x.
    Proof.
      intros H. unfold Nff, nfdfR. cbv zeta. rewrite H, sl_gb. destruct sl_bar as (-> & B & _). cbn [Z.sub Z.add Z.opp]. rewrite B.
      rewrite !sl_fcen, !Rmult_0_l, Rplus_0_r, Rminus_0_r. unfold abx, cbR. zs. reflexivity.
    Qed.
    Lemma sl_nxf : iga o = true -> Nxf o tiny (s G) (s p) (s c) z2 0 0 = ndxfR o tiny p G c x.
    Proof. intros H. unfold Nxf, ndxfR. cbv zeta. rewrite H, !sl_fcen. zs. reflexivity. Qed.
    Lemma sl_tot : Tot o tiny (s G) (s p) (s c) z2 = totR o tiny p G c x.
    Proof.
      unfold Tot, totR. destruct sl_bar as (_ & _ & ->). rewrite sl_gb, sl_ndxx. zs. destruct (tot o); [|reflexivity].
      unfold Rdiv. ring.
    Qed.
    Lemma sl_dfl : Dfl o (s G) (s p) (s c) z2 = dflR o p G c x.
    Proof.
      unfold Dfl, dflR. cbv zeta. destruct (dfl o); [|reflexivity]. rewrite sl_gb, sl_pbx. zs.
      assert (E : - (1 / 4) * c x / gbR o G x * (c (x + 1)%Z - c (x - 1)%Z + (0 + 0 - 0 - 0)) =
                  - (1 / 2) * c x / (gR o G (x + 1) + gR o G x) * (c (x + 1)%Z - c (x - 1)%Z)).
      { unfold gbR, gR. destruct (nug o); [|field]. unfold Rdiv.
        rewrite Rinv_mult, Rinv_inv. generalize (/ (G (x + 1)%Z + G x)). intros. field. }
      rewrite E. destruct (iga o) eqn:Ei; [|reflexivity]. unfold pbR, paR. rewrite (IA eq_refl). unfold Rdiv. ring.
    Qed.
    Lemma sl_d2 : (iga o = true \/ pfc o = true) -> D2 o tiny (s G) (s p) (s c) z2 = div2R o tiny p c G x.
    Proof. intros H. unfold D2, div2R. rewrite sl_ndx, sl_nfd by auto. zs. reflexivity. Qed.
    Lemma anti_slice : A2 o sp tp tiny (s G) (s p) (s n) (s c) z2 z2 z2 z2 = antiR o sp tp tiny p c G z1 z1 x.
    Proof.
      destruct SO as [NF S]. unfold A2, antiR, Fot. rewrite NF. destruct (div2 o) eqn:E2.
      - destruct S as [S|[Nt S]]; [discriminate|].
        assert (Opt : iga o = true \/ pfc o = true) by tauto.
        rewrite sl_d2 by auto. rewrite Rplus_0_r. f_equal. unfold D3, div3R. rewrite Nt.
        destruct (div3 o) eqn:E3; [|reflexivity]. destruct S as [Ig|[S _]]; [|discriminate].
        unfold U3, up3R, S3, Sp, spR, Tp, tpR, Ntt, nttR, Nxxa, ndxxCR, Nda. cbv zeta. rewrite Ig.
        rewrite sl_ndx, sl_ndxx, sl_pbx, sl_nff, sl_nxf by auto. rewrite (sl_nfd c) by auto. zs.
        assert (N0 : nfdivR o tiny p G z1 x = 0) by (unfold nfdivR, cbR; rewrite Ig; unfold Rdiv; ring).
        assert (N1 : Nfd o tiny (s G) (s p) z2 z2 0 0 = 0).
        { change (Nfd o tiny (s G) (s p) (s (fun _ : Z => 0)) z2 0 0 = 0). rewrite sl_nfd; auto. }
        rewrite N0, N1. unfold Rdiv. destruct sp, tp; ring.
      - rewrite sl_ndx, sl_tot, sl_dfl, sl_gb. destruct sl_bar as (_ & _ & ->). zs. unfold Rdiv. ring.
    Qed.
  End A.

  (** *** The functions of FunN.v on slices *)
  Notation F2 := (forms2 o sp tp).
  Notation CF := (closed2 eps tiny o sp tp).
  Notation px x := (comp DX x).
  Definition sl (p : Z -> R) (P : idx -> R) : Prop := forall x, P x = p (px x).
  Definition slv (c : Z -> R) (C : dim -> idx -> R) : Prop := sl c (C DX) /\ forall x, C DY x = 0.
  Lemma px_nx x : px (nx DX x) = (px x + 1)%Z /\ px (pv DX x) = (px x - 1)%Z /\ px (nx DY x) = px x /\ px (pv DY x) = px x.
  Proof. destruct x as [[i j] k]. unfold nx, pv, uv, un, iadd, comp. cbn [fst snd]. lia. Qed.
  Ltac px := repeat match goal with |- context [comp DX (nx ?d ?x)] => first [rewrite (proj1 (px_nx x)) | rewrite (proj1 (proj2 (proj2 (px_nx x))))]
    | |- context [comp DX (pv ?d ?x)] => first [rewrite (proj1 (proj2 (px_nx x))) | rewrite (proj2 (proj2 (proj2 (px_nx x))))] end.
  Lemma sl_flux p P c C : sl p P -> slv c C -> slv (fluxF AR o sp tp p c) (fluxN AR F2 P C).
  Proof.
    intros HP [H1 H2]. split; intros x; rewrite (cl_flux _ _ _ _ _ CF) by (cbn; auto); unfold donN.
    - rewrite fluxF_R. unfold donor. rewrite !HP, H1. px. reflexivity.
    - rewrite H2, Rmax_left, Rmin_left by lra. ring.
  Qed.
  Lemma sl_g G1 G2 : (nug o = true -> sl G1 G2) -> forall x, gN o G2 x = gR o G1 (px x).
  Proof. intros H x. unfold gN, gR. destruct (nug o); [apply H; auto|reflexivity]. Qed.
  Lemma sl_sum p P f f2 G1 G2 : sl p P -> slv f f2 -> (nug o = true -> sl G1 G2) ->
    sl (sumF AR o sp tp p f G1) (sumN AR o F2 P f2 G2).
  Proof.
    intros HP [H1 H2] HG x. rewrite (cl_sum _ _ _ _ _ CF), sumF_R, HP, (sl_g _ _ HG). unfold divN. cbn [dsum].
    rewrite !H1, !H2. px. f_equal. f_equal. ring.
  Qed.
  Lemma sl_nbmin p P : sl p P -> forall x, nbmin ds2 P x = Rmin (p (px x - 1)%Z) (Rmin (p (px x)) (p (px x + 1)%Z)).
  Proof.
    intros HP x. cbn [nbmin]. rewrite !HP. px.
    generalize (p (px x)) (p (px x + 1)%Z) (p (px x - 1)%Z). intros a b d. unfold Rmin. repeat destruct Rle_dec; lra.
  Qed.
  Lemma sl_nbmax p P : sl p P -> forall x, nbmax ds2 P x = Rmax (p (px x - 1)%Z) (Rmax (p (px x)) (p (px x + 1)%Z)).
  Proof.
    intros HP x. cbn [nbmax]. rewrite !HP. px.
    generalize (p (px x)) (p (px x + 1)%Z) (p (px x - 1)%Z). intros a b d. unfold Rmax. repeat destruct Rle_dec; lra.
  Qed.
  Lemma sl_min p P : sl p P -> sl (minF AR o sp tp p) (minN AR F2 P).
  Proof. intros H x. rewrite (cl_min _ _ _ _ _ CF), minF_R. refine (eq_trans (sl_nbmin _ _ H x) _). apply Rmin_assoc. Qed.
  Lemma sl_max p P : sl p P -> sl (maxF AR o sp tp p) (maxN AR F2 P).
  Proof. intros H x. rewrite (cl_max _ _ _ _ _ CF), maxF_R. refine (eq_trans (sl_nbmax _ _ H x) _). apply Rmax_assoc. Qed.
  Lemma m00 : Rmax 0 0 = 0 /\ Rmin 0 0 = 0. Proof. split; [apply Rmax_left|apply Rmin_left]; lra. Qed.
  Lemma sl_bup p P mx MX f f2 G1 G2 : sl p P -> sl mx MX -> slv f f2 -> (nug o = true -> sl G1 G2) ->
    sl (bupF AR o sp tp p mx f G1) (bupN AR F2 P MX f2 G2).
  Proof.
    intros HP HM [H1 H2] HG x. rewrite (cl_bup _ _ _ _ _ CF), bupF_R, HP, HM, (sl_g _ _ HG).
    refine (eq_trans (f_equal (fun v => (Rmax _ v - _) * _ / _) (sl_nbmax _ _ HP x)) _).
    unfold inN. cbn [dsum]. rewrite !H1, !H2. px. destruct m00 as [-> ->]. f_equal. f_equal. ring.
  Qed.
  Lemma sl_bdn p P mn MN f f2 G1 G2 : sl p P -> sl mn MN -> slv f f2 -> (nug o = true -> sl G1 G2) ->
    sl (bdnF AR o sp tp p mn f G1) (bdnN AR F2 P MN f2 G2).
  Proof.
    intros HP HM [H1 H2] HG x. rewrite (cl_bdn _ _ _ _ _ CF), bdnF_R, HP, HM, (sl_g _ _ HG).
    refine (eq_trans (f_equal (fun v => (_ - Rmin _ v) * _ / _) (sl_nbmin _ _ HP x)) _).
    unfold outN. cbn [dsum]. rewrite !H1, !H2. px. destruct m00 as [-> ->]. f_equal. f_equal. ring.
  Qed.
  Lemma sl_mono p P c C up UP dn DN : sl p P -> slv c C -> sl up UP -> sl dn DN ->
    slv (monoF AR o sp tp p c up dn) (monoN AR F2 P C UP DN).
  Proof.
    intros HP [H1 H2] HU HD. split; intros x; rewrite (cl_mono _ _ _ _ _ CF) by (cbn; auto).
    - rewrite monoF_R, H1. apply (f_equal (Rmult (c (px x)))). unfold limfacN, limfac, limAN, limBN, limA, limB. rewrite !HP, !H1, !HU, !HD. px. reflexivity.
    - rewrite H2. ring.
  Qed.

  Variables (X1 : fixed AR) (X2 : fixedN AR).
  Hypothesis HC : slv (xC AR X1) (nC AR X2).
  Hypothesis HG : nug o = true -> sl (xG AR X1) (nG AR X2).
  Hypothesis HN1 : forall i, xN AR X1 i = 0.
  Hypothesis HT1 : forall i, xT AR X1 i = 0.
  Hypothesis HN : forall d x, In d ds2 -> nN AR X2 d x = 0.
  Hypothesis HT : forall d x, In d ds2 -> nT AR X2 d x = 0.
  Notation id1 := (fun x : Z => x).
  Notation id2 := (fun (_ : bool) (x : Z) => x).

  Lemma fxt (f g : Z -> R) : (forall i, f i = g i) -> f = g.
  Proof. intros. apply functional_extensionality; auto. Qed.
  Lemma sl_anti p P n N c C : sl p P -> sl n N -> slv c C ->
    slv (fun i => antiF AR o sp tp p c (xG AR X1) (xN AR X1) (xT AR X1) i) (corrN AR F2 X2 P N C).
  Proof.
    intros HP Hn [H1 H2]. split; intros x; rewrite corr2.
    - rewrite antiF_R. rewrite (fxt (xN AR X1) (fun _ => 0) HN1), (fxt (xT AR X1) (fun _ => 0) HT1).
      rewrite <- (anti_slice (xG AR X1) p n c (px x)).
      assert (L : forall i j, px (iadd x (x2 DX i j)) = (px x + i)%Z) by (intros; destruct x as [[a b] k]; reflexivity).
      apply A2_ext; unfold lc; intros; rewrite ?(HG H), ?HP, ?Hn, ?H1, ?L; auto; try (apply HN; cbn; auto); try (apply HT; cbn; auto).
    - rewrite <- (anti_zero (lc DY x (nG AR X2)) (lc DY x P) (lc DY x N) (lc DY x (C DX))).
      apply A2_ext; unfold lc; intros; rewrite ?H2; auto; try (apply HN; cbn; auto); try (apply HT; cbn; auto).
  Qed.
  Lemma sl_phi p P c C : sl p P -> slv c C -> slv (if iga o then c else fluxF AR o sp tp p c) (if iga o then C else fluxN AR F2 P C).
  Proof. intros. pose proof (sl_flux p P c C). case (iga o); auto. Qed.
  Lemma sl_lim p P c C mn MN mx MX : sl p P -> slv c C -> (fct o = true -> sl mn MN /\ sl mx MX) ->
    slv (limF AR o sp tp X1 p c mn mx) (limN AR o F2 X2 P C MN MX).
  Proof.
    intros H H1 H2. unfold limF, limN. destruct (fct o); auto. destruct (H2 eq_refl).
    apply sl_mono; auto; [apply sl_bup|apply sl_bdn]; auto using sl_phi.
  Qed.
  Lemma sl_corr last p P n N c C : sl p P -> sl n N -> slv c C ->
    slv (corrF AR o sp tp id2 X1 last p c) (corrN AR F2 X2 P N C).
  Proof.
    intros H H1 H2. pose proof (sl_anti p P n N c C H H1 H2) as A.
    unfold corrF. destruct (fct o); [exact A|]. destruct (dfl o && negb last); exact A.
  Qed.
  Lemma sl_passes nit mn MN mx MX more : (fct o = true -> sl mn MN /\ sl mx MX) -> forall k n N p P c C,
    sl n N -> sl p P -> slv c C ->
    sl (passesF AR o sp tp id1 id2 X1 nit mn mx k more p c) (passesN AR o F2 X2 MN MX more N P C).
  Proof.
    intros HM. induction more as [|q IH]; intros k n N p P c C Hn Hp Hc; cbn [passesF passesN]; auto.
    pose proof (sl_corr (Nat.eqb (S k) nit) p P n N c C Hp Hn Hc) as K.
    apply IH with (n := p); auto. unfold finF, finN. apply sl_sum; auto. apply sl_phi; auto. apply sl_lim; auto.
  Qed.
  Lemma sl_scale ex p P : sl p P -> sl (scaleF AR ex p) (scaleN AR ex P).
  Proof. intros H x. rewrite scaleN_R, scaleF_R, H. reflexivity. Qed.
  Lemma sl_step nit k ex p P : sl p P -> sl (stepF AR o sp tp id1 id2 X1 nit k ex p) (stepN AR o F2 X2 k ex P).
  Proof.
    intros H. unfold stepF, stepN. apply sl_scale. apply (sl_scale ex) in H.
    apply sl_passes with (n := scaleF AR ex p); auto.
    - intros _. split; [apply sl_min|apply sl_max]; exact H.
    - unfold upF, upN. apply sl_sum; auto. apply sl_flux; auto.
  Qed.
  Lemma sl_steps nit freq ex nt : forall ts p P, sl p P ->
    sl (stepsF AR o sp tp id1 id2 X1 nit freq ex nt ts p) (stepsN AR o F2 X2 nit freq ex nt ts P).
  Proof. induction nt as [|n IH]; intros ts p P H; cbn [stepsF stepsN]; auto. apply IH, sl_step, H. Qed.
End Slice.

Theorem slice2 eps tiny r n n1 nt m m' m1 m1' :
  cyclic_end2 (arithR eps tiny) r n nt m m' ->
  (0 < n1)%nat -> (Z.of_nat n1 <= s_hi r DX - s_lo r DX + 1)%Z ->
  can_end loc_eq_dec (arithR eps tiny) n1 (program1 (slice_run r) n1 nt) m1 m1' ->
  fot (s_o r) = false ->
  div2 (s_o r) = false \/ div3dt (s_o r) = false /\ (iga (s_o r) = true \/ div3 (s_o r) = false /\ pfc (s_o r) = true) ->
  uniform_along_y 0 r m1 m ->
  forall e, (e < n_eqns (s_cfg r))%nat -> forall i j, on_grid (s_lo r) (s_hi r) i j ->
  cell2 m' e (newest2 r nt) i j = cell m1' e (newest (slice_run r) nt) i.
Proof.
  intros E H1 H2 E1 NF Opt (U1 & U2 & U3 & U4) e He i j Hij.
  pose proof (ce_ok _ _ _ _ _ _ E) as RK.
  assert (FK : fl_ok (s_o r) = true).
  { pose proof (ok2_fl r RK) as K. unfold fl_ok2 in K. destruct (fl_ok (s_o r)); auto; discriminate. }
  assert (RK1 : run_ok (slice_run r)).
  { constructor; auto. apply (ok2_nit r RK). apply (ok2_grid r RK). auto. }
  assert (NS : no_stale (s_o r) (s_nit r) = true).
  { pose proof (ce_fresh _ _ _ _ _ _ E) as K. unfold no_stale2 in K. unfold no_stale. destruct (fct (s_o r)), (div2 (s_o r)); auto. }
  assert (LX := lohiX eps tiny r n nt m m' E). assert (LY := lohiY eps tiny r n nt m m' E).
  destruct (ce_data _ _ _ _ _ _ E) as (D1 & _ & _ & D4).
  assert (W : forall x, inside (s_lo r) (s_hi r) (wrap2 (s_lo r) (s_hi r) DX (comp DX x)) (wrap2 (s_lo r) (s_hi r) DY (comp DY x)))
    by (intros; eapply w_ins; eauto).
  assert (OG : forall a b, inside (s_lo r) (s_hi r) a b -> on_grid (s_lo r) (s_hi r) a b) by (clear; unfold inside, on_grid; lia).
  assert (GH : on_grid (s_lo r) (s_hi r) (s_hi r DX) (s_lo r DY)) by (clear -LX LY; unfold on_grid; lia).
  assert (GL : on_grid (s_lo r) (s_hi r) (s_lo r DX) (s_lo r DY)) by (clear -LX LY; unfold on_grid; lia).
  assert (CD : cyclic_data (s_lo r DX) (s_hi r DX) (n_eqns (s_cfg r)) (nug (s_o r)) m1).
  { split.
    - intros e' He'.
      exact (eq_trans (eq_sym (U1 e' (s_hi r DX) (s_lo r DY) He' GH))
        (eq_trans (proj1 (D1 e' He') (s_lo r DY) (proj2 GL)) (U1 e' (s_lo r DX) (s_lo r DY) He' GL))).
    - intros Ng.
      exact (eq_trans (eq_sym (U4 Ng (s_hi r DX) (s_lo r DY) GH))
        (eq_trans (proj1 (D4 Ng) (s_lo r DY) (proj2 GL)) (U4 Ng (s_lo r DX) (s_lo r DY) GL))). }
  refine (eq_trans (run2_fun eps tiny r n nt m m' E e He i j Hij) _).
  refine (eq_trans _ (eq_sym (cyclic_fun (slice_run r) n1 RK1 H1 H2 eq_refl eq_refl (arithR eps tiny) nt m1 m1' NS CD E1 e i He (proj1 Hij)))).
  refine (sl_steps eps tiny (s_o r) (s_sp r) (s_tp r) (conj NF Opt) _ (cycX (slice_run r) (arithR eps tiny) m1) (cycX2 r (arithR eps tiny) m) _ _ _ _ _ _
    (s_nit r) (s_freq r) (s_scale r e) nt 0%Z _ _ _ (i, j, 0%Z)).
  - intros I. unfold fl_ok in FK. rewrite I in FK. destruct (oabs (s_o r)); auto; discriminate.
  - split; intros x; [apply U2|apply U3]; first [apply (W x)|apply (OG _ _ (W x))].
  - intros Ng x. apply (U4 Ng), OG, W.
  - intros x. cbn. lra.
  - intros x. cbn. lra.
  - intros d x _. cbn. lra.
  - intros d x _. cbn. lra.
  - intros x. apply (U1 e); auto. exact (OG _ _ (W x)).
Qed.
