(** Numerical properties of whole runs of the 2D solver on cyclic domains. *)
From Coq Require Import ZArith List Bool Lia ZifyBool Reals Lra.
From Verif Require Import ModelRun Lang ProofsLang Stencil FormCommon Form2D Solver1D Solver2D FunN Arith SpecReal
  SpecThreads SpecFields2 SpecNum2 SpecRun2 ProofsThread2D ProofsOne2D ProofsValid2D ProofsCyclic2D
  ProofsReal1D ProofsAnti1D ProofsCons1D ProofsNum1D ProofsSign1D
  ProofsFunN ProofsPerN ProofsNumN ProofsReal2D ProofsAnti2D ProofsNum2D ProofsUnit2D ProofsFun2D.
Import ListNotations.
Local Open Scope R_scope.

Section Res.
  Variables (eps tiny : R) (r : run2) (n nt : nat) (m m' : loc -> R).
  Notation AR := (arithR eps tiny).
  Hypothesis CE : cyclic_end2 AR r n nt m m'.
  Variable e : nat.
  Hypothesis He : (e < n_eqns (s_cfg r))%nat.
  Notation lo := (s_lo r).
  Notation hi := (s_hi r).
  Notation o := (s_o r).
  Notation w := (wrap2 lo hi).
  Notation ds := [DX; DY].
  Notation X := (cycX2 r AR m).
  Notation psi0 := (fun x => m ((e, Psi false), wx r x)).
  Notation G2 := (G2of (nug o) m).

  Let BL := ce_bl _ _ _ _ _ _ CE.
  Let BR := ce_br _ _ _ _ _ _ CE.
  Lemma lohi d : In d ds -> (lo d < hi d)%Z.
  Proof. intros Hd. apply (lo_hi2 r (ce_ok _ _ _ _ _ _ CE) BL BR). destruct Hd as [<-|[<-|[]]]; auto. Qed.
  Lemma lohiX : (lo DX < hi DX)%Z. Proof. apply lohi. cbn; auto. Qed.
  Lemma lohiY : (lo DY < hi DY)%Z. Proof. apply lohi. cbn; auto. Qed.
  Lemma w_ins x : inside lo hi (w DX (comp DX x)) (w DY (comp DY x)).
  Proof. pose proof lohiX. pose proof lohiY. split; apply (w_in r BL BR); auto. Qed.
  Lemma w_pred d k : (lo d < hi d)%Z -> w d (w d k - 1) = w d (k - 1).
  Proof.
    intros H. unfold wrap2. f_equal.
    replace (lo d + (k - lo d) mod (hi d - lo d) - 1 - lo d)%Z with ((k - lo d) mod (hi d - lo d) + - (1))%Z by lia.
    rewrite Z.add_mod_idemp_l by lia. f_equal. lia.
  Qed.
  Lemma wx_pvX x : wx r (pv DX x) = (w DX (w DX (comp DX x) - 1), w DY (comp DY x), 0%Z).
  Proof.
    destruct x as [[i j] k]. unfold wx, pv, iadd, un, comp. cbn [fst snd]. rewrite w_pred by apply lohiX.
    apply f_equal2; auto. apply f_equal2; f_equal; lia.
  Qed.
  Lemma wx_pvY x : wx r (pv DY x) = (w DX (comp DX x), w DY (w DY (comp DY x) - 1), 0%Z).
  Proof.
    destruct x as [[i j] k]. unfold wx, pv, iadd, un, comp. cbn [fst snd]. rewrite w_pred by apply lohiY.
    apply f_equal2; auto. apply f_equal2; f_equal; lia.
  Qed.
  Lemma cyc_g x : gN o (nG AR X) x = G2 (w DX (comp DX x)) (w DY (comp DY x)).
  Proof. unfold gN, G2of. destruct (nug o); reflexivity. Qed.
  Lemma cyc_out x : let i := w DX (comp DX x) in let j := w DY (comp DY x) in
    outN ds (nC AR X) x = Rmax 0 (east m i j) - Rmin 0 (west lo hi m i j) + (Rmax 0 (north m i j) - Rmin 0 (south lo hi m i j)).
  Proof. unfold outN. cbn [dsum nC cycX2]. rewrite wx_pvX, wx_pvY. rewrite Rplus_0_r. reflexivity. Qed.
  Lemma cyc_div x : let i := w DX (comp DX x) in let j := w DY (comp DY x) in
    divN ds (nC AR X) x = east m i j - west lo hi m i j + (north m i j - south lo hi m i j).
  Proof. unfold divN. cbn [dsum nC cycX2]. rewrite wx_pvX, wx_pvY. rewrite Rplus_0_r. reflexivity. Qed.

  Lemma run2_fun i j : on_grid lo hi i j -> cell2 m' e (newest2 r nt) i j =
    stepsN AR o (s_forms r) X (s_nit r) (s_freq r) (s_scale r e) nt 0 psi0 (i, j, 0%Z).
  Proof. intros [Hi Hj]. destruct CE as [A B C D E F H I J]. apply (cyclic_fun2 r A B C AR n nt m m'); auto. Qed.
  Lemma ins_grid i j : inside lo hi i j -> on_grid lo hi i j.
  Proof. unfold inside, on_grid. lia. Qed.
  Lemma psi0_in (P : R -> Prop) : (forall i j, inside lo hi i j -> P (cell2 m e false i j)) -> forall x, P (psi0 x).
  Proof. intros H x. exact (H _ _ (w_ins x)). Qed.
  Lemma g_in (P : R -> Prop) : (forall i j, inside lo hi i j -> P (G2 i j)) -> forall x, P (gN o (nG AR X) x).
  Proof. intros H x. rewrite cyc_g. apply H, w_ins. Qed.

  (** *** Conservation *)
  Let vs := [((hi DX - lo DX)%Z, 0%Z, 0%Z); (0%Z, (hi DY - lo DY)%Z, 0%Z)].
  Lemma wx_per v x : In v vs -> wx r (iadd x v) = wx r x.
  Proof.
    destruct x as [[i j] k]. intros [<-|[<-|[]]]; unfold wx, iadd, comp; cbn [fst snd]; rewrite ?Z.add_0_r; rewrite (w_per r BL BR); auto using lohiX, lohiY.
  Qed.
  Lemma cyc_per : perXN AR vs X.
  Proof.
    constructor; unfold perV, perN; intros; cbn [nC nG nN nT cycX2]; try reflexivity; rewrite wx_per; auto.
  Qed.
  Definition tot2 (f : idx -> R) : R := total2 lo hi (fun i j => f (i, j, 0%Z)).
  Lemma tot2_ext f f' : (forall x, f x = f' x) -> tot2 f = tot2 f'.
  Proof. intros H. apply total_ext. intros i _. apply total_ext. auto. Qed.
  Lemma total_lin a b lo0 hi0 f f' : total lo0 hi0 (fun i => a * f i + b * f' i) = a * total lo0 hi0 f + b * total lo0 hi0 f'.
  Proof. apply sumn_lin. Qed.
  Lemma tot2_lin a b f f' : tot2 (fun x => a * f x + b * f' x) = a * tot2 f + b * tot2 f'.
  Proof. unfold tot2, total2. rewrite <- total_lin. apply total_ext. intros i _. apply total_lin. Qed.
  Lemma total_shift lo0 hi0 f : (lo0 <= hi0)%Z -> f (hi0 - 1)%Z = f (lo0 - 1)%Z -> total lo0 hi0 (fun i => f (i - 1)%Z) = total lo0 hi0 f.
  Proof.
    intros H E. pose proof (total_tel lo0 hi0 f H) as T. rewrite E in T.
    assert (Q : total lo0 hi0 (fun i => f i - f (i - 1)%Z) = 1 * total lo0 hi0 f + -1 * total lo0 hi0 (fun i => f (i - 1)%Z)).
    { rewrite <- total_lin. apply total_ext. intros. ring. }
    lra.
  Qed.
  Lemma tot2_shift d (f : idx -> R) : In d ds -> perN AR vs f -> tot2 (fun x => f (pv d x)) = tot2 f.
  Proof.
    intros Hd P.
    assert (PX : forall i j, f ((i + (hi DX - lo DX))%Z, j, 0%Z) = f (i, j, 0%Z)).
    { intros i j. rewrite <- (P _ (or_introl eq_refl) (i, j, 0%Z)). unfold iadd. cbn [fst snd]. rewrite !Z.add_0_r. reflexivity. }
    assert (PY : forall i j, f (i, (j + (hi DY - lo DY))%Z, 0%Z) = f (i, j, 0%Z)).
    { intros i j. rewrite <- (P _ (or_intror (or_introl eq_refl)) (i, j, 0%Z)). unfold iadd. cbn [fst snd]. rewrite !Z.add_0_r. reflexivity. }
    pose proof lohiX. pose proof lohiY.
    destruct Hd as [<-|[<-|[]]]; unfold tot2, total2, pv, iadd, un; cbn [fst snd].
    - rewrite <- (total_shift (lo DX) (hi DX) (fun i => total (lo DY) (hi DY) (fun j => f (i, j, 0%Z)))).
      + apply total_ext. intros i _. apply total_ext. intros j _. apply (f_equal f). apply f_equal2; [apply f_equal2|]; lia.
      + lia.
      + apply total_ext. intros j _. rewrite <- (PX (lo DX - 1)%Z). apply (f_equal f). apply f_equal2; [apply f_equal2|]; lia.
    - apply total_ext. intros i _. rewrite <- (total_shift (lo DY) (hi DY) (fun j => f (i, j, 0%Z))).
      + apply total_ext. intros j _. apply (f_equal f). apply f_equal2; [apply f_equal2|]; lia.
      + lia.
      + rewrite <- (PY i (lo DY - 1)%Z). apply (f_equal f). apply f_equal2; [apply f_equal2|]; lia.
  Qed.
  Lemma wx_id i j : inside lo hi i j -> wx r (i, j, 0%Z) = (i, j, 0%Z).
  Proof. intros [Hi Hj]. unfold wx, comp. cbn [fst snd]. rewrite !(w_id r BL BR) by auto. reflexivity. Qed.
  Lemma total2_ext f f' : (forall i j, inside lo hi i j -> f i j = f' i j) -> total2 lo hi f = total2 lo hi f'.
  Proof. intros H. apply total_ext. intros i Hi. apply total_ext. intros j Hj. apply H. split; auto. Qed.
  Theorem conservation2 : (forall i j, inside lo hi i j -> G2 i j <> 0) ->
    total2 lo hi (fun i j => G2 i j * cell2 m' e (newest2 r nt) i j) = total2 lo hi (fun i j => G2 i j * cell2 m e false i j).
  Proof.
    intros HG.
    pose proof (mass_stepsN eps tiny o (s_forms r) ds (closed2 eps tiny o _ _) X vs cyc_per tot2 tot2_ext tot2_lin tot2_shift
      (g_in (fun v => v <> 0) HG) (s_nit r) (s_freq r) (s_scale r e) nt 0 psi0) as M.
    assert (P0 : perN AR vs psi0) by (intros v Hv x; cbn beta; rewrite wx_per; auto).
    specialize (M P0). unfold tot2 in M.
    etransitivity; [|etransitivity; [exact M|]]; apply total2_ext; intros i j H; cbn beta; rewrite cyc_g;
      [rewrite run2_fun by (apply ins_grid; auto)|rewrite wx_id by auto];
      unfold comp; cbn [fst snd]; destruct H as [Hi Hj]; rewrite !(w_id r BL BR) by auto; reflexivity.
  Qed.

  (** *** Constants *)
  Theorem constants2 c : divergence_free2 lo hi m ->
    (div2 o = false \/ (div3 o = false /\ div3dt o = false) \/ s_sp r = aver4 \/ exists cx cy, uniform2 lo hi m cx cy) ->
    (forall i j, inside lo hi i j -> cell2 m e false i j = c) ->
    forall i j, on_grid lo hi i j -> cell2 m' e (newest2 r nt) i j = c.
  Proof.
    intros HD Opt Hc i j Hij. rewrite run2_fun by auto. unfold s_forms. apply const_steps; auto.
    - intros d x. cbn. lra.
    - intros d x. cbn. lra.
    - intros x. rewrite cyc_div. apply HD, w_ins.
    - destruct Opt as [H|[H|[H|(cx & cy & H)]]]; auto. right; right; right.
      exists (fun d => match d with DX => cx | _ => cy end). intros d x Hd. cbn [nC cycX2].
      destruct Hd as [<-|[<-|[]]]; apply (H _ _ (w_ins x)).
    - apply (psi0_in (fun v => v = c)). auto.
  Qed.

  (** *** Sign and bounds *)
  Section Flow.
    Hypothesis FO : outflow_ok2 lo hi (nug o) m.
    Lemma flow_g x : 0 < gN o (nG AR X) x.
    Proof. apply (g_in (fun v => 0 < v)). intros i j H. apply FO, H. Qed.
    Lemma flow_out x : outN ds (nC AR X) x <= gN o (nG AR X) x.
    Proof. rewrite cyc_g, cyc_out. apply FO, w_ins. Qed.
    Theorem sign2 : s_nit r = 1%nat \/ (fct o = true /\ 0 < eps) ->
      (forall i j, inside lo hi i j -> 0 <= cell2 m e false i j) ->
      forall i j, on_grid lo hi i j -> 0 <= cell2 m' e (newest2 r nt) i j.
    Proof.
      intros S Hc i j Hij. rewrite run2_fun by auto.
      apply (steps_signN eps tiny o (s_forms r) ds (closed2 eps tiny o _ _) X flow_g flow_out (fun _ => False)).
      - destruct S as [S|S]; [left|right; left]; auto.
      - apply (psi0_in (fun v => 0 <= v)). auto.
    Qed.
    Theorem bounds2 a b : s_nit r = 1%nat \/ (fct o = true /\ 0 < eps /\ (iga o = true \/ oabs o = true \/ 0 <= a)) ->
      divergence_free2 lo hi m ->
      (forall i j, inside lo hi i j -> a <= cell2 m e false i j <= b) ->
      forall i j, on_grid lo hi i j -> a <= cell2 m' e (newest2 r nt) i j <= b.
    Proof.
      intros S HD Hc i j Hij. rewrite run2_fun by auto.
      apply (steps_withinN eps tiny o (s_forms r) ds (closed2 eps tiny o _ _) X flow_g flow_out).
      - intros x. rewrite cyc_div. apply HD, w_ins.
      - exact S.
      - intros x. apply (psi0_in (fun v => a <= v <= b)). auto.
    Qed.
  End Flow.

  Theorem basic_sign2 g cx cy : iga o = false -> fct o = false -> div2 o = false -> tot o = false -> dfl o = false -> fot o = false ->
    (pfc o = true \/ 0 < tiny) -> gentle2 lo hi (nug o) m g cx cy ->
    (forall i j, inside lo hi i j -> 0 <= cell2 m e false i j) ->
    forall i j, on_grid lo hi i j -> 0 <= cell2 m' e (newest2 r nt) i j.
  Proof.
    intros H1 H2 H3 H4 H5 H6 H7 (Pg & Hc & HF) H9 i j Hij. rewrite run2_fun by auto.
    assert (HG : forall x, g <= gN o (nG AR X) x <= 2 * g).
    { apply (g_in (fun v => g <= v <= 2 * g)). intros a b H. apply HF, H. }
    assert (T0 : tame2 g (nC AR X)).
    { exists cx, cy. split; auto. split; intros x; apply (HF _ _ (w_ins x)). }
    apply (steps_signN eps tiny o (s_forms r) ds (closed2 eps tiny o _ _) X) with (tame := tame2 g).
    - intros x. specialize (HG x). lra.
    - intros x. eapply tame_out; eauto.
    - right; right. split; auto. split; auto. split; auto. apply tamed2; auto.
    - apply (psi0_in (fun v => 0 <= v)). auto.
  Qed.

  Theorem unit_courant2 k l : nug o = false -> div2 o = false \/ (iga o = true /\ div3dt o = false) ->
    (l = 0 /\ (k = 0 \/ k = 1 \/ k = -1) \/ k = 0 /\ (l = 0 \/ l = 1 \/ l = -1))%Z -> uniform2 lo hi m (IZR k) (IZR l) ->
    forall i j, on_grid lo hi i j ->
      cell2 m' e (newest2 r nt) i j = cell2 m e false (w DX (i - k * Z.of_nat nt)) (w DY (j - l * Z.of_nat nt)).
  Proof.
    intros H1 H2 H3 U i j Hij. rewrite run2_fun by auto. unfold s_forms. rewrite steps_unitN with (k := k) (l := l); auto.
    - unfold wx, iadd, comp, cell2. cbn [fst snd]. apply (f_equal m). apply f_equal2; auto. apply f_equal2; auto. apply f_equal2; f_equal; lia.
    - intros d x. cbn. lra.
    - intros d x. cbn. lra.
    - destruct H2 as [H2|[H2 H4]]; auto. right. split; auto. split; auto.
      pose proof (ok2_fl r (ce_ok _ _ _ _ _ _ CE)) as K. unfold fl_ok2, fl_ok in K. rewrite H2 in K. destruct (oabs o); auto.
    - intros x. apply (U _ _ (w_ins x)).
    - intros x. apply (U _ _ (w_ins x)).
  Qed.
End Res.
