(** Runs of the 2D solver on cyclic domains compute MPDATA as in the literature. *)
From Coq Require Import ZArith List Bool Lia ZifyBool Reals Lra.
From Verif Require Import ModelRun Lang ProofsLang Stencil FormCommon Form2D Solver1D Solver2D Fun1D FunN Arith SpecReal
  SpecFields2 SpecNum2 SpecRun2 ProofsCyclic2D ProofsReal1D ProofsAnti1D ProofsNum1D ProofsSign1D
  ProofsFunN ProofsPerN ProofsNumN ProofsReal2D ProofsAnti2D ProofsNum2D ProofsFun2D ProofsResults2D SpecMpdata SpecMpdata2.
Import ListNotations.
Local Open Scope R_scope.

Lemma ix3 (a b c a' b' c' : Z) : a = a' -> b = b' -> c = c' -> (a, b, c) = (a', b', c').
Proof. intros -> -> ->. reflexivity. Qed.
Lemma nxX i j : nx DX (i, j, 0%Z) = ((i + 1)%Z, j, 0%Z). Proof. unfold nx, pv, iadd, uv, un; cbn [fst snd]; apply ix3; lia. Qed.
Lemma nxY i j : nx DY (i, j, 0%Z) = (i, (j + 1)%Z, 0%Z). Proof. unfold nx, pv, iadd, uv, un; cbn [fst snd]; apply ix3; lia. Qed.
Lemma pvX i j : pv DX (i, j, 0%Z) = ((i - 1)%Z, j, 0%Z). Proof. unfold nx, pv, iadd, uv, un; cbn [fst snd]; apply ix3; lia. Qed.
Lemma pvY i j : pv DY (i, j, 0%Z) = (i, (j - 1)%Z, 0%Z). Proof. unfold nx, pv, iadd, uv, un; cbn [fst snd]; apply ix3; lia. Qed.
Lemma lcX (f : idx -> R) i j a b : lc DX (i, j, 0%Z) f a b = f ((i + a)%Z, (j + b)%Z, 0%Z). Proof. reflexivity. Qed.
Lemma lcY (f : idx -> R) i j a b : lc DY (i, j, 0%Z) f a b = f ((i + b)%Z, (j + a)%Z, 0%Z). Proof. reflexivity. Qed.

Ltac maxge := first [lra | apply Rmax_l | apply Rmax_r | (eapply Rle_trans; [|apply Rmax_l]; maxge) | (eapply Rle_trans; [|apply Rmax_r]; maxge)].
Ltac minle := first [lra | apply Rmin_l | apply Rmin_r | (eapply Rle_trans; [apply Rmin_l|]; minle) | (eapply Rle_trans; [apply Rmin_r|]; minle)].
Section Textbook.
  Variables eps tiny : R.
  Notation AR := (arithR eps tiny).
  Variables (o : fl) (sp : sptl) (tp : tmprl).
  Notation F := (forms2 o sp tp).
  Variable X : fixedN AR.
  Hypothesis Oabs : oabs o = false.
  Hypothesis Otot : tot o = false.
  Hypothesis Odfl : dfl o = false.
  Hypothesis Odiv : div2 o = false.
  Hypothesis Ofot : fot o = false.
  Notation field := (Z -> Z -> R).
  Definition same (f : idx -> R) (h : field) : Prop := forall i j, f (i, j, 0%Z) = h i j.
  Definition samev (c : dim -> idx -> R) (hx hy : field) : Prop := same (c DX) hx /\ same (c DY) hy.
  Variable g : field.
  Hypothesis Hg : same (gN o (nG AR X)) g.
  Let CF := closed2 eps tiny o sp tp.

  Lemma t_up (a b c : R) : Rmax 0 c * a + Rmin 0 c * b = upstream a b c.
  Proof. unfold upstream. destruct (Rle_dec 0 c); [rewrite Rmax_right, Rmin_left by lra|rewrite Rmax_left, Rmin_right by lra]; ring. Qed.
  Lemma t_flux psi c p hx hy : same psi p -> samev c hx hy -> samev (fluxN AR F psi c) (fluxes_x p hx) (fluxes_y p hy).
  Proof.
    intros Hp [Hx Hy]. split; intros i j; rewrite (cl_flux _ _ _ _ _ CF) by (cbn; auto); unfold donN; rewrite ?nxX, ?nxY, !Hp, ?Hx, ?Hy; apply t_up.
  Qed.
  Lemma t_sum psi phi p hx hy : same psi p -> samev phi hx hy -> same (sumN AR o F psi phi (nG AR X)) (advect2 g p hx hy).
  Proof.
    intros Hp [Hx Hy] i j. rewrite (cl_sum _ _ _ _ _ CF). unfold divN, advect2. cbn [dsum]. rewrite pvX, pvY, Hp, !Hx, !Hy, Hg.
    rewrite Rplus_0_r. reflexivity.
  Qed.
  Lemma gb_avg d x : gbx o (lc d x (nG AR X)) 0 0 = (gN o (nG AR X) (iadd x (x2 d 0 0)) + gN o (nG AR X) (iadd x (x2 d 1 0))) / 2.
  Proof. unfold gbx, gN, lc. destruct (nug o); [|field]. change (0 + 1)%Z with 1%Z. toR. lra. Qed.
  Lemma main_avg u q gb : Rabs u / 2 * (1 - Rabs u / gb) * (2 * q) = (Rabs u - u * u / gb) * q.
  Proof.
    assert (A : u * u = Rabs u * Rabs u) by (unfold Rabs; destruct (Rcase_abs u); ring).
    rewrite A. unfold Rdiv. generalize (/ gb). intros z. field.
  Qed.
  Lemma cross_avg u v q gb : u * v / (2 * gb) * q = u * v / gb * (q / 2).
  Proof. unfold Rdiv. rewrite Rinv_mult. ring. Qed.
  Lemma t_gauge u v gb a b b' : b / 4 / 2 = b' / 8 ->
    Rabs u / 2 * (1 - Rabs u / gb) * a - u * v / (2 * gb) * (b / 4) = (Rabs u - u * u / gb) * (a / 2) - u * v / gb * (b' / 8).
  Proof.
    intros H. rewrite cross_avg, H. replace a with (2 * (a / 2)) at 1 by field. rewrite main_avg. reflexivity.
  Qed.
  Lemma t_anti psi psin c p hx hy : same psi p -> samev c hx hy ->
    samev (corrN AR F X psi psin c) (pseudo_x g (iga o) (pfc o) tiny p hx hy) (pseudo_y g (iga o) (pfc o) tiny p hx hy).
  Proof.
    intros Hp [Hx Hy].
    assert (Z1 : forall k, (k + 0 = k)%Z) by (intros; lia).
    assert (B : forall d x, A2 o sp tp tiny (lc d x (nG AR X)) (lc d x psi) (lc d x psin) (lc d x (c d)) (lc d x (c (od d)))
       (lc d x (nN AR X d)) (lc d x (nN AR X (od d))) (lc d x (nT AR X d)) =
       Rabs (lc d x (c d) 0 0) / 2 * (1 - Rabs (lc d x (c d) 0 0) / gbx o (lc d x (nG AR X)) 0 0) * Ndx o tiny (lc d x psi) 0 0
       - lc d x (c d) 0 0 * bbxy (lc d x (c (od d))) 0 0 / (2 * gbx o (lc d x (nG AR X)) 0 0) * Ndy o tiny (lc d x psi) 0 0).
    { intros d x. unfold A2, Tot, Fot, Dfl. rewrite Odiv, Otot, Ofot, Odfl. ring. }
    assert (Q : forall a b, fracR o tiny a b = quot (pfc o) tiny a b).
    { intros a b. unfold fracR, quot. reflexivity. }
    split; intros i j; rewrite corr2, B; unfold Ndx, Ndy, bbxy, pp, paR; rewrite gb_avg; rewrite Oabs; cbn [od];
      unfold iadd, x2; cbn [fst snd]; rewrite ?lcX, ?lcY; rewrite ?Hp, ?Hx, ?Hy, ?Hg; rewrite ?Q; rewrite ?Z1;
      change (0 + 1)%Z with 1%Z; change (0 - 1)%Z with (-1)%Z; change (j + -1)%Z with (j - 1)%Z; change (i + -1)%Z with (i - 1)%Z;
      unfold pseudo_x, pseudo_y; cbv zeta.
    - replace ((hy (i + 1)%Z j + hy i j + hy (i + 1)%Z (j - 1)%Z + hy i (j - 1)%Z) / 4)
        with ((hy i j + hy (i + 1)%Z j + hy i (j - 1)%Z + hy (i + 1)%Z (j - 1)%Z) / 4) by field.
      destruct (iga o); [apply t_gauge; field|].
      rewrite main_avg, cross_avg. apply f_equal2; [reflexivity|]. apply f_equal. f_equal. apply f_equal2; ring.
    - replace ((hx i (j + 1)%Z + hx i j + hx (i - 1)%Z (j + 1)%Z + hx (i - 1)%Z j) / 4)
        with ((hx i j + hx i (j + 1)%Z + hx (i - 1)%Z j + hx (i - 1)%Z (j + 1)%Z) / 4) by field.
      rewrite (Rmult_comm ((hx i j + hx i (j + 1)%Z + hx (i - 1)%Z j + hx (i - 1)%Z (j + 1)%Z) / 4) (hy i j)).
      destruct (iga o); [apply t_gauge; field|].
      rewrite main_avg, cross_avg. apply f_equal2; [reflexivity|]. apply f_equal. f_equal. apply f_equal2; ring.
  Qed.

  Lemma t_corr psi c p hx hy : same psi p -> samev c hx hy ->
    samev (if iga o then c else fluxN AR F psi c) (correct_x (iga o) p hx) (correct_y (iga o) p hy).
  Proof. intros Hp Hc. unfold correct_x, correct_y. destruct (iga o); auto. apply t_flux; auto. Qed.
  Lemma t_max psi p : same psi p -> same (nbmax [DX; DY] psi) (max5 p).
  Proof.
    intros Hp i j. unfold max5. cbn [nbmax]. rewrite nxX, nxY, pvX, pvY, !Hp.
    apply Rle_antisym; repeat apply Rmax_lub; maxge.
  Qed.
  Lemma t_min psi p : same psi p -> same (nbmin [DX; DY] psi) (min5 p).
  Proof.
    intros Hp i j. unfold min5. cbn [nbmin]. rewrite nxX, nxY, pvX, pvY, !Hp.
    apply Rle_antisym; repeat apply Rmin_glb; minle.
  Qed.
  Lemma t_lim psi c mn mx old p hx hy : same psi p -> samev c hx hy -> same mn (min5 old) -> same mx (max5 old) ->
    samev (limN AR o F X psi c mn mx) (if fct o then limited_x g (iga o) eps old p hx hy else hx)
                                      (if fct o then limited_y g (iga o) eps old p hx hy else hy).
  Proof.
    intros Hp Hc Hn Hm. unfold FunN.limN. destruct (fct o) eqn:E; [|exact Hc].
    set (phi := if iga o then c else fluxN AR F psi c).
    assert (HF : samev phi (correct_x (iga o) p hx) (correct_y (iga o) p hy)) by (apply t_corr; auto). destruct HF as [FX FY].
    assert (U : same (bupN AR F psi mx phi (nG AR X)) (up2 g eps old p (correct_x (iga o) p hx) (correct_y (iga o) p hy))).
    { intros i j. rewrite (cl_bup _ _ _ _ _ CF). unfold up2, inflow2, inN. cbn [dsum].
      rewrite Hm, (t_max psi p Hp), Hp, Hg, pvX, pvY, !FX, !FY, Rplus_0_r. reflexivity. }
    assert (Dn : same (bdnN AR F psi mn phi (nG AR X)) (dn2 g eps old p (correct_x (iga o) p hx) (correct_y (iga o) p hy))).
    { intros i j. rewrite (cl_bdn _ _ _ _ _ CF). unfold dn2, outflow2, outN. cbn [dsum].
      rewrite Hn, (t_min psi p Hp), Hp, Hg, pvX, pvY, !FX, !FY, Rplus_0_r. reflexivity. }
    destruct Hc as [Hx Hy].
    split; intros i j; rewrite (cl_mono _ _ _ _ _ CF) by (cbn; auto); unfold limfacN, limAN, limBN, limited_x, limited_y, gtb;
      rewrite Oabs, andb_false_r, ?nxX, ?nxY, ?Hx, ?Hy, !U, !Dn; destruct (Rlt_dec 0 _); reflexivity.
  Qed.
  Lemma t_passes mn mx old more : same mn (min5 old) -> same mx (max5 old) -> forall psin psi c p hx hy,
    same psi p -> samev c hx hy ->
    same (passesN AR o F X mn mx more psin psi c) (corrections2 g (iga o) (fct o) (pfc o) eps tiny more old p hx hy).
  Proof.
    intros Hn Hm. induction more as [|q IH]; intros psin psi c p hx hy Hp Hc; cbn [passesN corrections2]; auto.
    pose proof (t_anti psi psin c p hx hy Hp Hc) as HA. apply IH; auto.
    unfold finN. apply t_sum; auto. apply t_corr; auto. apply t_lim; auto.
  Qed.
  Lemma t_steps nit nt Cx Cy : samev (nC AR X) Cx Cy -> forall ts psi p, same psi p ->
    same (stepsN AR o F X nit 0 0 nt ts psi) (mpdata2 g Cx Cy (iga o) (fct o) (pfc o) eps tiny nit nt p).
  Proof.
    intros HC. induction nt as [|q IH]; intros ts psi p Hp; cbn [stepsN mpdata2]; auto.
    apply IH. unfold stepN, mpdata2_step.
    assert (S0 : forall f, same f p -> same (scaleN AR 0 f) p) by (intros f Hf i j; apply Hf).
    intros i j. rewrite scaleN_R. change (- 0)%Z with 0%Z. 
    replace (sc 0) with 1 by reflexivity. rewrite Rmult_1_l. revert i j.
    assert (Hp' : same (scaleN AR 0 psi) p) by (apply S0; auto).
    apply t_passes; auto.
    - intros i j. rewrite (cl_min _ _ _ _ _ CF). apply t_min. auto.
    - intros i j. rewrite (cl_max _ _ _ _ _ CF). apply t_max. auto.
    - apply t_sum; auto. apply t_flux; auto.
  Qed.
End Textbook.

Theorem textbook2 eps tiny r n nt m m' : cyclic_end2 (arithR eps tiny) r n nt m m' ->
  oabs (s_o r) = false -> tot (s_o r) = false -> dfl (s_o r) = false -> div2 (s_o r) = false -> fot (s_o r) = false ->
  s_freq r = 0%Z -> forall e, (e < n_eqns (s_cfg r))%nat -> s_scale r e = 0%Z ->
  let per (f : Z -> Z -> R) := fun i j => f (wrap2 (s_lo r) (s_hi r) DX i) (wrap2 (s_lo r) (s_hi r) DY j) in
  forall i j, on_grid (s_lo r) (s_hi r) i j ->
  cell2 m' e (newest2 r nt) i j =
  mpdata2 (per (G2of (nug (s_o r)) m)) (per (face2 m DX)) (per (face2 m DY)) (iga (s_o r)) (fct (s_o r)) (pfc (s_o r)) eps tiny
          (s_nit r) nt (per (cell2 m e false)) i j.
Proof.
  intros CE H1 H2 H3 H4 H5 HF e He HS per i j Hij. refine (eq_trans (run2_fun eps tiny r n nt m m' CE e He i j Hij) _).
  rewrite HF, HS. unfold s_forms. apply t_steps; auto.
  - intros a b. rewrite (cyc_g eps tiny r m). reflexivity.
  - split; intros a b; reflexivity.
  - intros a b. reflexivity.
Qed.
