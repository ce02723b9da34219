(** 3D runs with data that do not vary along the third axis are 2D runs. *)
From Coq Require Import ZArith List Bool Lia ZifyBool Reals Lra.
From Verif Require Import ModelIndex ModelRun Lang ProofsLang Stencil ProofsStencil FormCommon Form2D Form3D Solver1D Solver2D Solver3D Fun1D FunN Arith SpecReal
  SpecThreads SpecFields2 SpecNum2 SpecFields3 SpecNum3 SpecRun2 SpecRun3 SpecSym3
  ProofsReal1D ProofsAnti1D ProofsNum1D ProofsSign1D ProofsSym1D ProofsFunN ProofsPerN ProofsNumN ProofsSymN ProofsLinN.
From Verif Require ProofsThread2D.
From Verif Require Import ProofsCyclic2D ProofsGeom3D ProofsThread3D ProofsValid3D ProofsCyclic3D.
From Verif Require ProofsReal2D ProofsAnti2D ProofsNum2D ProofsMirror2D ProofsFun2D ProofsResults2D ProofsSymRun2D.
From Verif Require Import ProofsReal3D ProofsAnti3D ProofsNum3D ProofsMirror3D ProofsFun3D ProofsResults3D ProofsSymRun3D.
Import ListNotations.
Local Open Scope R_scope.
Notation ds2 := [DX; DY].
Notation closed2 := ProofsReal2D.closed2.
Notation A2 := ProofsAnti2D.A2.
Notation lc2 := ProofsAnti2D.lc.

Section Slice.
  Variables eps tiny : R.
  Notation AR := (arithR eps tiny).
  Variables (o : fl) (sp : sptl) (tp : tmprl).
  Hypothesis NF : fot o = false.
  Hypothesis SO : div2 o = false \/ iga o = true.

  (** *** Antidiffusive velocities *)
  Notation loc3 := (Z -> Z -> Z -> R).
  Section A.
    Variables G p n a b : Z -> Z -> R.
    Notation e f := (fun i j _ : Z => f i j).
    Notation z3 := (fun _ _ _ : Z => 0).
    Notation z2 := (fun _ _ : Z => 0).
    (** across the third axis the velocity along the face normal is zero *)
    Lemma anti_zero G3 p3 n3 b3 c3 : A3 o sp tp tiny G3 p3 n3 z3 b3 c3 z3 z3 z3 z3 = 0.
    Proof.
      assert (E2 : D2 o tiny G3 p3 z3 b3 c3 = 0) by (unfold D2; rewrite Rabs_R0; unfold Rdiv; ring).
      assert (E3 : U3 o tiny G3 p3 z3 b3 c3 = 0) by (unfold U3; rewrite E2, Rabs_R0; destruct (iga o); unfold Rdiv; ring).
      assert (E4 : S3 o sp tiny p3 z3 = 0) by (unfold S3, Sp, Nxxa, Nda; cbv zeta; destruct (iga o), sp; unfold Rdiv; ring).
      assert (E5 : Ntt o p3 z3 = 0) by (unfold Ntt; destruct (iga o); ring).
      assert (E6 : Tp o tp p3 z3 = 0) by (unfold Tp; rewrite E5; destruct tp; ring).
      assert (E7 : D3 o sp tp tiny G3 p3 n3 z3 b3 c3 z3 z3 z3 z3 = 0).
      { unfold D3. rewrite E3, E4, E6, Rabs_R0. destruct (div3 o), (div3dt o); unfold Rdiv; ring. }
      assert (E9 : Tot o tiny G3 p3 z3 b3 c3 = 0) by (unfold Tot; rewrite Rabs_R0; destruct (tot o); unfold Rdiv; ring).
      assert (E0 : Dfl o G3 p3 z3 b3 c3 = 0) by (unfold Dfl; cbv zeta; destruct (dfl o), (iga o); unfold Rdiv; ring).
      unfold A3. rewrite E2, E7, E9, E0, Rabs_R0. destruct (div2 o); unfold Rdiv; ring.
    Qed.
    Lemma cb0 i j k : cbx z3 i j k = 0. Proof. unfold cbx. field. Qed.
    Lemma cbz0 : cbxz z3 0 0 0 = 0. Proof. unfold cbxz. field. Qed.
    Lemma cby0 i j k : cbxy z3 i j k = 0. Proof. unfold cbxy. field. Qed.
    Lemma drop0 u v w : u + 0 * v - 0 * w = u. Proof. ring. Qed.
    Lemma sl_nfd c d : iga o = true -> Nfd o tiny (e G) (e p) (e c) (e d) z3 0 0 0 = ProofsAnti2D.Nfd o tiny G p c d 0 0.
    Proof. intros H. unfold Nfd, ProofsAnti2D.Nfd. cbv zeta. rewrite H, !cb0, drop0. reflexivity. Qed.
    Lemma sl_fcen i j k : Fcen o (e G) (e p) (e a) (e b) z3 i j k = ProofsAnti2D.Fcen o G p a b i j.
    Proof. unfold Fcen, ProofsAnti2D.Fcen. rewrite drop0. reflexivity. Qed.
    Lemma sl_fcxy i j k : Fcxy o (e G) (e p) (e a) (e b) z3 i j k = ProofsAnti2D.Fcor o G p a b i j.
    Proof. unfold Fcxy, ProofsAnti2D.Fcor. rewrite !cby0, drop0. reflexivity. Qed.
    Lemma sl_nff : iga o = true -> Nff o tiny (e G) (e p) (e a) (e b) z3 0 0 0 = ProofsAnti2D.Nff o tiny G p a b 0 0.
    Proof. intros H. unfold Nff, ProofsAnti2D.Nff. cbv zeta. rewrite H, !cb0, drop0, !sl_fcen, !sl_fcxy. reflexivity. Qed.
    Lemma sl_nxf : iga o = true -> Nxf o tiny (e G) (e p) (e a) (e b) z3 0 0 0 = ProofsAnti2D.Nxf o tiny G p a b 0 0.
    Proof. intros H. unfold Nxf, ProofsAnti2D.Nxf. cbv zeta. rewrite H, !sl_fcen. reflexivity. Qed.
    Lemma sl_nfdt : iga o = true -> Nfdt o tiny (e G) (e p) (e n) (e a) (e b) z3 0 0 0 = ProofsAnti2D.Nfdt o tiny G p n a b 0 0.
    Proof. intros H. unfold Nfdt, ProofsAnti2D.Nfdt. cbv zeta. rewrite H, !cb0, drop0. reflexivity. Qed.
    Lemma sl_d2 : iga o = true -> D2 o tiny (e G) (e p) (e a) (e b) z3 = ProofsAnti2D.D2 o tiny G p a b.
    Proof. intros H. unfold D2, ProofsAnti2D.D2. rewrite sl_nfd by auto. reflexivity. Qed.
    Lemma sl_tot : Tot o tiny (e G) (e p) (e a) (e b) z3 = ProofsAnti2D.Tot o tiny G p a b.
    Proof.
      unfold Tot, ProofsAnti2D.Tot. destruct (tot o); [|reflexivity]. rewrite cbz0.
      match goal with |- ?u + ?v + _ + _ = ?w => change w with (u + v); generalize u v end. intros. unfold Rdiv. ring.
    Qed.
    Lemma sl_dfl : Dfl o (e G) (e p) (e a) (e b) z3 = ProofsAnti2D.Dfl o G p a b.
    Proof.
      unfold Dfl, ProofsAnti2D.Dfl. cbv zeta. destruct (dfl o); [|reflexivity].
      replace (0 + 0 - 0 - 0) with 0 by ring. rewrite Rplus_0_r. reflexivity.
    Qed.
    Lemma anti_slice : A3 o sp tp tiny (e G) (e p) (e n) (e a) (e b) z3 z3 z3 z3 z3 = A2 o sp tp tiny G p n a b z2 z2 z2.
    Proof.
      unfold A3, ProofsAnti2D.A2, ProofsAnti2D.Fot. rewrite NF. destruct (div2 o) eqn:E2.
      - destruct SO as [S|Ig]; [discriminate|]. rewrite sl_d2 by auto. rewrite Rplus_0_r. apply f_equal.
        unfold D3, ProofsAnti2D.D3, U3, ProofsAnti2D.U3, Tp, ProofsAnti2D.Tp, Ntt, ProofsAnti2D.Ntt. rewrite Ig.
        rewrite sl_nff, sl_nxf, sl_nfdt, (sl_nfd a b) by auto.
        pose proof (sl_nfd z2 z2 Ig) as N0. cbv beta in N0. rewrite N0.
        change (S3 o sp tiny (e p) (e a)) with (ProofsAnti2D.S3 o sp tiny p a).
        change (Ntx o tiny (e p) (e n) 0 0 0) with (ProofsAnti2D.Ntx o tiny p n 0 0).
        change (Nt o tiny (e p) (e n) 0 0 0) with (ProofsAnti2D.Nt o tiny p n 0 0).
        destruct (div3 o); [destruct tp; ring|]. destruct (div3dt o); [destruct tp; ring|reflexivity].
      - rewrite sl_tot, sl_dfl, cbz0, Rmult_0_l, !Rplus_0_r.
        change (Ndy o tiny (e p) 0 0 0) with (ProofsAnti2D.Ndy o tiny p 0 0).
        change (bbxy (e b) 0 0 0) with (ProofsAnti2D.bbxy b 0 0).
        change (gbx o (e G) 0 0 0) with (ProofsAnti2D.gbx o G 0 0).
        change (Ndx o tiny (e p) 0 0 0) with (ProofsAnti2D.Ndx o tiny p 0 0).
        unfold Rdiv. rewrite Rinv_mult. ring.
    Qed.
  End A.

  (** *** The functions of FunN.v on slices *)
  Notation F2 := (forms2 o sp tp).
  Notation F3 := (forms3 o sp tp).
  Notation C2 := (closed2 eps tiny o sp tp).
  Notation C3 := (closed3 eps tiny o sp tp).
  Definition flat (x : idx) : idx := (comp DX x, comp DY x, 0%Z).
  Definition sl (p P : idx -> R) : Prop := forall x, P x = p (flat x).
  Definition slv (c C : dim -> idx -> R) : Prop := (forall d, In d ds2 -> sl (c d) (C d)) /\ forall x, C DZ x = 0.
  Lemma flat_nx d x : In d ds2 -> flat (nx d x) = nx d (flat x).
  Proof. intros Hd. destruct x as [[i j] k]. destruct Hd as [<-|[<-|[]]]; unfold flat, nx, uv, iadd, comp; cbn [fst snd]; ixs3. Qed.
  Lemma flat_pv d x : In d ds2 -> flat (pv d x) = pv d (flat x).
  Proof. intros Hd. destruct x as [[i j] k]. destruct Hd as [<-|[<-|[]]]; unfold flat, pv, un, iadd, comp; cbn [fst snd]; ixs3. Qed.
  Lemma flat_z x : flat (nx DZ x) = flat x /\ flat (pv DZ x) = flat x.
  Proof. destruct x as [[i j] k]. unfold flat, nx, pv, uv, un, iadd, comp; cbn [fst snd]; split; ixs3. Qed.
  Lemma inX : In DX ds2. Proof. cbn; auto. Qed.
  Lemma inY : In DY ds2. Proof. cbn; auto. Qed.
  Lemma in23 d : In d ds2 -> In d ds3. Proof. cbn. tauto. Qed.
  Lemma inZ : In DZ ds3. Proof. cbn; auto. Qed.
  Ltac fl := rewrite ?(flat_nx DX _ inX), ?(flat_nx DY _ inY), ?(flat_pv DX _ inX), ?(flat_pv DY _ inY),
    ?(fun x => proj1 (flat_z x)), ?(fun x => proj2 (flat_z x)).
  Lemma m00 : Rmax 0 0 = 0 /\ Rmin 0 0 = 0. Proof. split; [apply Rmax_left|apply Rmin_left]; lra. Qed.
  Lemma sl_flux p P c C : sl p P -> slv c C -> slv (fluxN AR F2 p c) (fluxN AR F3 P C).
  Proof.
    intros HP [H1 H2]. split.
    - intros d Hd x. rewrite (cl_flux _ _ _ _ _ C3) by auto using in23. rewrite (cl_flux _ _ _ _ _ C2) by auto. unfold donN.
      rewrite !HP, (H1 d Hd), flat_nx by auto. reflexivity.
    - intros x. rewrite (cl_flux _ _ _ _ _ C3) by apply inZ. unfold donN. rewrite H2. destruct m00 as [-> ->]. ring.
  Qed.
  Lemma sl_g g1 g2 : (nug o = true -> sl g1 g2) -> forall x, gN o g2 x = gN o g1 (flat x).
  Proof. intros H x. unfold gN. destruct (nug o); [apply H; auto|reflexivity]. Qed.
  Lemma sl_sum p P f f3 g1 g2 : sl p P -> slv f f3 -> (nug o = true -> sl g1 g2) ->
    sl (sumN AR o F2 p f g1) (sumN AR o F3 P f3 g2).
  Proof.
    intros HP [H1 H2] HG x. rewrite (cl_sum _ _ _ _ _ C3), (cl_sum _ _ _ _ _ C2), HP, (sl_g _ _ HG). unfold divN. cbn [dsum].
    rewrite !(H1 DX inX), !(H1 DY inY), !H2. fl. f_equal. f_equal. ring.
  Qed.
  Lemma sl_nbmin p P : sl p P -> forall x, nbmin ds3 P x = nbmin ds2 p (flat x).
  Proof.
    intros HP x. cbn [nbmin]. rewrite !HP. fl.
    rewrite !(Rmin_left (p (flat x)) (p (flat x))) by apply Rle_refl. reflexivity.
  Qed.
  Lemma sl_nbmax p P : sl p P -> forall x, nbmax ds3 P x = nbmax ds2 p (flat x).
  Proof.
    intros HP x. cbn [nbmax]. rewrite !HP. fl.
    rewrite !(Rmax_left (p (flat x)) (p (flat x))) by apply Rle_refl. reflexivity.
  Qed.
  Lemma sl_min p P : sl p P -> sl (minN AR F2 p) (minN AR F3 P).
  Proof. intros H x. rewrite (cl_min _ _ _ _ _ C3), (cl_min _ _ _ _ _ C2). apply sl_nbmin, H. Qed.
  Lemma sl_max p P : sl p P -> sl (maxN AR F2 p) (maxN AR F3 P).
  Proof. intros H x. rewrite (cl_max _ _ _ _ _ C3), (cl_max _ _ _ _ _ C2). apply sl_nbmax, H. Qed.
  Lemma sl_bup p P mx MX f f3 g1 g2 : sl p P -> sl mx MX -> slv f f3 -> (nug o = true -> sl g1 g2) ->
    sl (bupN AR F2 p mx f g1) (bupN AR F3 P MX f3 g2).
  Proof.
    intros HP HM [H1 H2] HG x. rewrite (cl_bup _ _ _ _ _ C3), (cl_bup _ _ _ _ _ C2), HP, HM, (sl_g _ _ HG).
    refine (eq_trans (f_equal (fun v => (Rmax _ v - _) * _ / _) (sl_nbmax _ _ HP x)) _).
    unfold inN. cbn [dsum]. rewrite !(H1 DX inX), !(H1 DY inY), !H2. fl. destruct m00 as [-> ->]. f_equal. f_equal. ring.
  Qed.
  Lemma sl_bdn p P mn MN f f3 g1 g2 : sl p P -> sl mn MN -> slv f f3 -> (nug o = true -> sl g1 g2) ->
    sl (bdnN AR F2 p mn f g1) (bdnN AR F3 P MN f3 g2).
  Proof.
    intros HP HM [H1 H2] HG x. rewrite (cl_bdn _ _ _ _ _ C3), (cl_bdn _ _ _ _ _ C2), HP, HM, (sl_g _ _ HG).
    refine (eq_trans (f_equal (fun v => (_ - Rmin _ v) * _ / _) (sl_nbmin _ _ HP x)) _).
    unfold outN. cbn [dsum]. rewrite !(H1 DX inX), !(H1 DY inY), !H2. fl. destruct m00 as [-> ->]. f_equal. f_equal. ring.
  Qed.
  Lemma sl_mono p P c C up UP dn DN : sl p P -> slv c C -> sl up UP -> sl dn DN ->
    slv (monoN AR F2 p c up dn) (monoN AR F3 P C UP DN).
  Proof.
    intros HP [H1 H2] HU HD. split.
    - intros d Hd x. rewrite (cl_mono _ _ _ _ _ C3) by auto using in23. rewrite (cl_mono _ _ _ _ _ C2) by auto.
      unfold limfacN, limAN, limBN. rewrite !HP, !(H1 d Hd), !HU, !HD, flat_nx by auto. reflexivity.
    - intros x. rewrite (cl_mono _ _ _ _ _ C3) by apply inZ. rewrite H2. ring.
  Qed.

  Variables X2 X3 : fixedN AR.
  Hypothesis HC : slv (nC AR X2) (nC AR X3).
  Hypothesis HG : nug o = true -> sl (nG AR X2) (nG AR X3).
  Hypothesis HN2 : forall d x, nN AR X2 d x = 0.
  Hypothesis HT2 : forall d x, nT AR X2 d x = 0.
  Hypothesis HN : forall d x, nN AR X3 d x = 0.
  Hypothesis HT : forall d x, nT AR X3 d x = 0.

  Lemma sl_anti p P n N c C : sl p P -> sl n N -> slv c C -> slv (corrN AR F2 X2 p n c) (corrN AR F3 X3 P N C).
  Proof.
    intros HP Hn [H1 H2]. pose proof (H1 DX inX) as CX. pose proof (H1 DY inY) as CY. split.
    - intros d Hd x. rewrite corr3, (ProofsNum2D.corr2 eps tiny o sp tp).
      pose (G' := lc2 d (flat x) (nG AR X2)). pose (p' := lc2 d (flat x) p). pose (n' := lc2 d (flat x) n).
      pose (a' := lc2 d (flat x) (c d)). pose (b' := lc2 d (flat x) (c (od d))).
      transitivity (A2 o sp tp tiny G' p' n' a' b' (fun _ _ => 0) (fun _ _ => 0) (fun _ _ => 0)).
      + rewrite <- anti_slice. destruct Hd as [<-|[<-|[]]].
        * assert (L : forall i j k, flat (iadd x (x3 DX i j k)) = iadd (flat x) (x2 DX i j)) by (intros; destruct x as [[u v] w]; reflexivity).
          apply A3_ext; unfold lc3; cbn [dp dm]; intros; rewrite ?(HG H), ?HP, ?Hn, ?CX, ?CY, ?H2, ?L, ?HN, ?HT; reflexivity.
        * assert (L : forall i j k, flat (iadd x (x3 DY i k j)) = iadd (flat x) (x2 DY i j)) by (intros; destruct x as [[u v] w]; reflexivity).
          assert (L' : forall i j k, flat (iadd x (x3 DY i j k)) = iadd (flat x) (x2 DY i k)) by (intros; destruct x as [[u v] w]; reflexivity).
          refine (eq_sym (anti_swap o sp tp tiny _ _ _ _ _ _ _ _ _ _ _ _ _ _ _ _ _ _ _ _ _ _ _ _ _ _ _ _ _ _));
            unfold lc3; cbn [dp dm]; intros; rewrite ?(HG H), ?HP, ?Hn, ?CX, ?CY, ?H2, ?L, ?L', ?HN, ?HT; reflexivity.
      + symmetry. apply (ProofsMirror2D.A2_ext o sp tp tiny); try (intros; reflexivity); unfold ProofsAnti2D.lc; intros; auto.
    - intros x. rewrite corr3. rewrite <- (anti_zero (lc3 DZ x (nG AR X3)) (lc3 DZ x P) (lc3 DZ x N) (lc3 DZ x (C DX)) (lc3 DZ x (C DY))).
      apply A3_ext; unfold lc3; intros; rewrite ?H2, ?HN, ?HT; reflexivity.
  Qed.
  Lemma sl_phi p P c C : sl p P -> slv c C -> slv (if iga o then c else fluxN AR F2 p c) (if iga o then C else fluxN AR F3 P C).
  Proof. intros. pose proof (sl_flux p P c C). case (iga o); auto. Qed.
  Lemma sl_lim p P c C mn MN mx MX : sl p P -> slv c C -> sl mn MN -> sl mx MX ->
    slv (limN AR o F2 X2 p c mn mx) (limN AR o F3 X3 P C MN MX).
  Proof.
    intros H H1 H2 H3. unfold limN. destruct (fct o); auto.
    apply sl_mono; auto; [apply sl_bup|apply sl_bdn]; auto using sl_phi.
  Qed.
  Lemma sl_passes mn MN mx MX more : sl mn MN -> sl mx MX -> forall n N p P c C,
    sl n N -> sl p P -> slv c C ->
    sl (passesN AR o F2 X2 mn mx more n p c) (passesN AR o F3 X3 MN MX more N P C).
  Proof.
    intros HM HM'. induction more as [|q IH]; intros n N p P c C Hn Hp Hc; cbn [passesN]; auto.
    pose proof (sl_anti p P n N c C Hp Hn Hc) as K.
    apply IH; auto. unfold finN. apply sl_sum; auto. apply sl_phi; auto. apply sl_lim; auto.
  Qed.
  Lemma sl_scale ex p P : sl p P -> sl (scaleN AR ex p) (scaleN AR ex P).
  Proof. intros H x. rewrite !scaleN_R, H. reflexivity. Qed.
  Lemma sl_step k ex p P : sl p P -> sl (stepN AR o F2 X2 k ex p) (stepN AR o F3 X3 k ex P).
  Proof.
    intros H. unfold stepN. apply sl_scale. apply (sl_scale ex) in H.
    apply sl_passes; auto.
    - apply sl_min; exact H.
    - apply sl_max; exact H.
    - unfold upN. apply sl_sum; auto. apply sl_flux; auto.
  Qed.
  Lemma sl_steps nit freq ex nt : forall ts p P, sl p P ->
    sl (stepsN AR o F2 X2 nit freq ex nt ts p) (stepsN AR o F3 X3 nit freq ex nt ts P).
  Proof. induction nt as [|n IH]; intros ts p P H; cbn [stepsN]; auto. apply IH, sl_step, H. Qed.
End Slice.

Theorem slice3 eps tiny r n n2 nt m m' m2 m2' :
  cyclic_end3 (arithR eps tiny) r n nt m m' ->
  cyclic_end2 (arithR eps tiny) (slice_run3 r) n2 nt m2 m2' ->
  fot (s3_o r) = false -> div2 (s3_o r) = false \/ iga (s3_o r) = true ->
  uniform_along_z 0 r m2 m ->
  forall e, (e < n_eqns (s3_cfg r))%nat -> forall i j k, inside (s3_lo r) (s3_hi r) (i, j, k) ->
  cell3 m' e (newest3 r nt) (i, j, k) = cell2 m2' e (newest2 (slice_run3 r) nt) i j.
Proof.
  intros E E2 NF Opt (U1 & U2 & U3 & U4 & U5) e He i j k Hi.
  assert (Hij : on_grid (s_lo (slice_run3 r)) (s_hi (slice_run3 r)) i j).
  { split; [apply (Hi DX)|apply (Hi DY)]. }
  refine (eq_trans (run3_fun eps tiny r n nt m m' E e He (i, j, k) Hi) _).
  refine (eq_trans _ (eq_sym (ProofsResults2D.run2_fun eps tiny (slice_run3 r) n2 nt m2 m2' E2 e He i j Hij))).
  assert (W : forall x, inside (s3_lo r) (s3_hi r) (wrap3 (s3_lo r) (s3_hi r) x)) by (intros; eapply w_ins; eauto).
  assert (WI : forall d x, inner (s3_lo r) (s3_hi r) d (wrap3 (s3_lo r) (s3_hi r) x)) by (intros; eapply w_inner; eauto).
  refine (sl_steps eps tiny (s3_o r) (s3_sp r) (s3_tp r) NF Opt (ProofsFun2D.cycX2 (slice_run3 r) (arithR eps tiny) m2) (cycX3 r (arithR eps tiny) m) _ _ _ _ _ _
    (s3_nit r) (s3_freq r) (s3_scale r e) nt 0%Z _ _ _ (i, j, k)).
  - split.
    + intros d Hd x. destruct Hd as [<-|[<-|[]]]; [apply (U2 _ _ _ (WI DX x))|apply (U3 _ _ _ (WI DY x))].
    + intros x. apply (U4 _ (WI DZ x)).
  - intros Ng x. apply (U5 Ng _ _ _ (W x)).
  - intros d x. cbn. lra.
  - intros d x. cbn. lra.
  - intros d x. cbn. lra.
  - intros d x. cbn. lra.
  - intros x. apply (U1 e _ _ _ He (W x)).
Qed.
