(** Numerical properties of whole runs of the 3D solver on cyclic domains. *)
From Coq Require Import ZArith List Bool Lia ZifyBool Reals Lra.
From Verif Require Import ModelIndex ModelRun Lang ProofsLang Stencil FormCommon Form3D Solver1D Solver3D FunN Arith SpecReal
  SpecThreads SpecFields3 SpecNum3 SpecRun3 ProofsGeom3D ProofsThread3D ProofsValid3D ProofsCyclic3D
  ProofsReal1D ProofsAnti1D ProofsCons1D ProofsNum1D ProofsSign1D
  ProofsFunN ProofsPerN ProofsNumN ProofsReal3D ProofsAnti3D ProofsNum3D ProofsUnit3D ProofsFun3D ProofsStencil.
Import ListNotations.
Local Open Scope R_scope.

Section Res.
  Variables (eps tiny : R) (r : run3) (n nt : nat) (m m' : loc -> R).
  Notation AR := (arithR eps tiny).
  Hypothesis CE : cyclic_end3 AR r n nt m m'.
  Variable e : nat.
  Hypothesis He : (e < n_eqns (s3_cfg r))%nat.
  Notation lo := (s3_lo r).
  Notation hi := (s3_hi r).
  Notation o := (s3_o r).
  Notation w := (wrap3 lo hi).
  Notation ds := [DX; DY; DZ].
  Notation X := (cycX3 r AR m).
  Notation psi0 := (fun x => m ((e, Psi false), w x)).
  Notation G3' := (G3of (nug o) m).

  Let RK := c3_ok _ _ _ _ _ _ CE.
  Lemma w_own x : own lo hi (w x).
  Proof. intros d. apply (w_in3 r RK). Qed.
  Lemma w_idx i : own lo hi i -> w i = i.
  Proof. intros H. apply idx_ext. intros d. apply w_id3. apply H. Qed.
  Lemma own_inside i : own lo hi i -> inside lo hi i.
  Proof. intros H d. specialize (H d). lia. Qed.
  Lemma w_pred d x : w (pv d x) = w (put d (comp d (w x) - 1) (w x)).
  Proof.
    apply idx_ext. intros d'. rewrite (comp_w r d' (pv d x)), (comp_w r d' (put d (comp d (w x) - 1) (w x))). pose proof (lo_hi3 r RK d').
    assert (E : comp d' (pv d x) = (if dim_eqb d d' then comp d' x - 1 else comp d' x)%Z).
    { destruct x as [[a b] c]. destruct d, d'; unfold pv, iadd, un, comp; cbn; lia. }
    assert (F : comp d' (put d (comp d (w x) - 1) (w x)) = (if dim_eqb d d' then comp d' (w x) - 1 else comp d' (w x))%Z).
    { destruct d, d'; reflexivity. }
    rewrite E, F. destruct (dim_eqb d d').
    - rewrite (comp_w r). f_equal.
      replace (lo d' + (comp d' x - lo d') mod (hi d' - lo d') - 1 - lo d')%Z with ((comp d' x - lo d') mod (hi d' - lo d') + - (1))%Z by lia.
      rewrite Z.add_mod_idemp_l by lia. f_equal. lia.
    - rewrite (comp_w r). f_equal.
      replace (lo d' + (comp d' x - lo d') mod (hi d' - lo d') - lo d')%Z with ((comp d' x - lo d') mod (hi d' - lo d'))%Z by lia.
      rewrite Z.mod_mod by lia. reflexivity.
  Qed.
  Lemma cyc_g x : gN o (nG AR X) x = G3' (w x).
  Proof. unfold gN, G3of. destruct (nug o); reflexivity. Qed.
  Lemma cyc_C d x : nC AR X d x = ahead m d (w x).
  Proof. reflexivity. Qed.
  Lemma cyc_Cpv d x : nC AR X d (pv d x) = behind lo hi m d (w x).
  Proof. unfold behind, face3. cbn [nC cycX3]. rewrite w_pred. reflexivity. Qed.
  Lemma dsum3 f : dsum ds f = sum3d f.
  Proof. unfold sum3d. cbn [dsum]. ring. Qed.
  Lemma cyc_out x : outN ds (nC AR X) x = sum3d (fun d => Rmax 0 (ahead m d (w x)) - Rmin 0 (behind lo hi m d (w x))).
  Proof. unfold outN. rewrite dsum3. unfold sum3d. rewrite !cyc_Cpv. reflexivity. Qed.
  Lemma cyc_div x : divN ds (nC AR X) x = sum3d (fun d => ahead m d (w x) - behind lo hi m d (w x)).
  Proof. unfold divN. rewrite dsum3. unfold sum3d. rewrite !cyc_Cpv. reflexivity. Qed.

  Lemma run3_fun i : inside lo hi i -> cell3 m' e (newest3 r nt) i =
    stepsN AR o (s3_forms r) X (s3_nit r) (s3_freq r) (s3_scale r e) nt 0 psi0 i.
  Proof. intros Hi. destruct CE as [A B C D E F H]. apply (cyclic_fun3 r A AR n nt m m'); auto. Qed.
  Lemma psi0_in (P : R -> Prop) : (forall i, own lo hi i -> P (cell3 m e false i)) -> forall x, P (psi0 x).
  Proof. intros H x. exact (H _ (w_own x)). Qed.
  Lemma g_in (P : R -> Prop) : (forall i, own lo hi i -> P (G3' i)) -> forall x, P (gN o (nG AR X) x).
  Proof. intros H x. rewrite cyc_g. apply H, w_own. Qed.

  (** *** Conservation *)
  Let vs := map (fun d => x3 d (hi d - lo d) 0 0) ds.
  Lemma w_per v x : In v vs -> w (iadd x v) = w x.
  Proof. intros H. apply in_map_iff in H. destruct H as (d & <- & _). apply (w_per3 r RK). Qed.
  Lemma cyc_per : perXN AR vs X.
  Proof. constructor; unfold perV, perN; intros; cbn [nC nG nN nT cycX3]; try reflexivity; rewrite w_per; auto. Qed.
  Notation tot3 := (total3 lo hi).
  Lemma tot3_ext f f' : (forall x, f x = f' x) -> tot3 f = tot3 f'.
  Proof. intros H. apply total_ext. intros i _. apply total_ext. intros j _. apply total_ext. auto. Qed.
  Lemma total_lin a b lo0 hi0 f f' : total lo0 hi0 (fun i => a * f i + b * f' i) = a * total lo0 hi0 f + b * total lo0 hi0 f'.
  Proof. apply sumn_lin. Qed.
  Lemma tot3_lin a b f f' : tot3 (fun x => a * f x + b * f' x) = a * tot3 f + b * tot3 f'.
  Proof.
    unfold total3. rewrite <- total_lin. apply total_ext. intros i _. rewrite <- total_lin.
    apply total_ext. intros j _. apply total_lin.
  Qed.
  Lemma total_shift lo0 hi0 f : (lo0 <= hi0)%Z -> f (hi0 - 1)%Z = f (lo0 - 1)%Z -> total lo0 hi0 (fun i => f (i - 1)%Z) = total lo0 hi0 f.
  Proof.
    intros H E. pose proof (total_tel lo0 hi0 f H) as T. rewrite E in T.
    assert (Q : total lo0 hi0 (fun i => f i - f (i - 1)%Z) = 1 * total lo0 hi0 f + -1 * total lo0 hi0 (fun i => f (i - 1)%Z)).
    { rewrite <- total_lin. apply total_ext. intros. ring. }
    lra.
  Qed.
  Lemma tot3_shift d (f : idx -> R) : In d ds -> perN AR vs f -> tot3 (fun x => f (pv d x)) = tot3 f.
  Proof.
    intros Hd P.
    assert (PP : forall d i, f (iadd i (x3 d (hi d - lo d) 0 0)) = f i).
    { intros c i. apply P. apply (in_map (fun d => x3 d (hi d - lo d) 0 0)). apply in_ds. }
    assert (L : forall d, (lo d <= hi d)%Z) by (intros c; pose proof (lo_hi3 r RK c); lia).
    Ltac ix f := apply (f_equal f); unfold iadd, x3; cbn [fst snd]; apply f_equal2; [apply f_equal2|]; lia.
    destruct Hd as [<-|[<-|[<-|[]]]]; unfold total3, pv, iadd, un; cbn [fst snd].
    - rewrite <- (total_shift (lo DX) (hi DX) (fun i => total (lo DY) (hi DY) (fun j => total (lo DZ) (hi DZ) (fun k => f (i, j, k))))); auto.
      + apply total_ext. intros i _. apply total_ext. intros j _. apply total_ext. intros k _. ix f.
      + apply total_ext. intros j _. apply total_ext. intros k _. rewrite <- (PP DX (lo DX - 1, j, k)%Z). ix f.
    - apply total_ext. intros i _. rewrite <- (total_shift (lo DY) (hi DY) (fun j => total (lo DZ) (hi DZ) (fun k => f (i, j, k)))); auto.
      + apply total_ext. intros j _. apply total_ext. intros k _. ix f.
      + apply total_ext. intros k _. rewrite <- (PP DY (i, lo DY - 1, k)%Z). ix f.
    - apply total_ext. intros i _. apply total_ext. intros j _. rewrite <- (total_shift (lo DZ) (hi DZ) (fun k => f (i, j, k))); auto.
      + apply total_ext. intros k _. ix f.
      + rewrite <- (PP DZ (i, j, lo DZ - 1)%Z). ix f.
  Qed.
  Lemma total3_ext f f' : (forall i, own lo hi i -> f i = f' i) -> tot3 f = tot3 f'.
  Proof.
    intros H. apply total_ext. intros i Hi. apply total_ext. intros j Hj. apply total_ext. intros k Hk. apply H.
    intros []; unfold comp; cbn [fst snd]; auto.
  Qed.
  Theorem conservation3 : (forall i, own lo hi i -> G3' i <> 0) ->
    tot3 (fun i => G3' i * cell3 m' e (newest3 r nt) i) = tot3 (fun i => G3' i * cell3 m e false i).
  Proof.
    intros HG.
    pose proof (mass_stepsN eps tiny o (s3_forms r) ds (closed3 eps tiny o _ _) X vs cyc_per tot3 tot3_ext tot3_lin tot3_shift
      (g_in (fun v => v <> 0) HG) (s3_nit r) (s3_freq r) (s3_scale r e) nt 0 psi0) as M.
    assert (P0 : perN AR vs psi0) by (intros v Hv x; cbn beta; rewrite w_per; auto).
    specialize (M P0).
    etransitivity; [|etransitivity; [exact M|]]; apply total3_ext; intros i H; cbn beta; rewrite cyc_g;
      rewrite (w_idx i H); [rewrite run3_fun by (apply own_inside; auto)|]; reflexivity.
  Qed.

  (** *** Constants *)
  Theorem constants3 c : divergence_free3 lo hi m ->
    (div2 o = false \/ (div3 o = false /\ div3dt o = false) \/ s3_sp r = aver4 \/ exists v, uniform3 lo hi m v) ->
    (forall i, own lo hi i -> cell3 m e false i = c) ->
    forall i, inside lo hi i -> cell3 m' e (newest3 r nt) i = c.
  Proof.
    intros HD Opt Hc i Hij. rewrite run3_fun by auto. unfold s3_forms. apply const_steps; auto.
    - intros d x. cbn. lra.
    - intros d x. cbn. lra.
    - intros x. rewrite cyc_div. apply HD, w_own.
    - destruct Opt as [H|[H|[H|(v & H)]]]; auto. right; right; right.
      exists v. intros d x. apply H, w_own.
    - apply (psi0_in (fun v => v = c)). auto.
  Qed.

  (** *** Sign and bounds *)
  Section Flow.
    Hypothesis FO : outflow_ok3 lo hi (nug o) m.
    Lemma flow_g x : 0 < gN o (nG AR X) x.
    Proof. apply (g_in (fun v => 0 < v)). intros i H. apply FO, H. Qed.
    Lemma flow_out x : outN ds (nC AR X) x <= gN o (nG AR X) x.
    Proof. rewrite cyc_g, cyc_out. apply FO, w_own. Qed.
    Theorem sign3 : s3_nit r = 1%nat \/ (fct o = true /\ 0 < eps) ->
      (forall i, own lo hi i -> 0 <= cell3 m e false i) ->
      forall i, inside lo hi i -> 0 <= cell3 m' e (newest3 r nt) i.
    Proof.
      intros S Hc i Hi. rewrite run3_fun by auto.
      apply (steps_signN eps tiny o (s3_forms r) ds (closed3 eps tiny o _ _) X flow_g flow_out (fun _ => False)).
      - destruct S as [S|S]; [left|right; left]; auto.
      - apply (psi0_in (fun v => 0 <= v)). auto.
    Qed.
    Theorem bounds3 a b : s3_nit r = 1%nat \/ (fct o = true /\ 0 < eps /\ (iga o = true \/ oabs o = true \/ 0 <= a)) ->
      divergence_free3 lo hi m ->
      (forall i, own lo hi i -> a <= cell3 m e false i <= b) ->
      forall i, inside lo hi i -> a <= cell3 m' e (newest3 r nt) i <= b.
    Proof.
      intros S HD Hc i Hi. rewrite run3_fun by auto.
      apply (steps_withinN eps tiny o (s3_forms r) ds (closed3 eps tiny o _ _) X flow_g flow_out).
      - intros x. rewrite cyc_div. apply HD, w_own.
      - exact S.
      - intros x. apply (psi0_in (fun v => a <= v <= b)). auto.
    Qed.
  End Flow.

  Theorem basic_sign3 g c : iga o = false -> fct o = false -> div2 o = false -> tot o = false -> dfl o = false ->
    (pfc o = true \/ 0 < tiny) -> gentle3 lo hi (nug o) m (s3_nit r) g c ->
    (forall i, own lo hi i -> 0 <= cell3 m e false i) ->
    forall i, inside lo hi i -> 0 <= cell3 m' e (newest3 r nt) i.
  Proof.
    intros H1 H2 H3 H4 H5 H7 (Pg & HF & HG) H9 i Hi. rewrite run3_fun by auto.
    assert (B : forall d x, Rabs (nC AR X d x) <= c d * g) by (intros d x; apply HF, w_own).
    assert (K : exists K, 1 <= K /\ (forall x, g <= gN o (nG AR X) x <= K * g) /\
      (K = 1 /\ c DX + c DY + c DZ <= 1 / 2 \/ K = 2 /\ (12 + INR (s3_nit r - 1)) * (c DX + c DY + c DZ) <= 6)).
    { destruct HG as [[HG HS]|[HG HS]].
      - exists 1. split; [lra|]. split; [|left; auto]. intros x. rewrite (g_in (fun v => v = g)); auto. lra.
      - exists 2. split; [lra|]. split; [|right; split; auto].
        + apply (g_in (fun v => g <= v <= 2 * g)). auto.
        + pose proof (ok3_nit r RK). rewrite minus_INR by lia. cbn [INR]. unfold sum3d in HS. lra. }
    destruct K as (K & K1 & KG & KS). unfold s3_forms.
    apply (steps_sign3 eps tiny o _ _ X g K); auto.
    - exists (c DX), (c DY), (c DZ). auto.
    - apply (psi0_in (fun v => 0 <= v)). auto.
  Qed.

  Theorem unit_courant3 (s : dim -> Z) : nug o = false -> div2 o = false \/ (iga o = true /\ div3dt o = false) ->
    (exists d, (s d = 0 \/ s d = 1 \/ s d = -1)%Z /\ forall d', d' <> d -> s d' = 0%Z) ->
    uniform3 lo hi m (fun d => IZR (s d)) ->
    forall i, inside lo hi i -> cell3 m' e (newest3 r nt) i =
      cell3 m e false (w (comp DX i - s DX * Z.of_nat nt, comp DY i - s DY * Z.of_nat nt, comp DZ i - s DZ * Z.of_nat nt)%Z).
  Proof.
    intros H1 H2 (d & H3 & H4) U i Hi. rewrite run3_fun by auto. unfold s3_forms. rewrite steps_unitN with (s := s); auto.
    - unfold cell3. destruct i as [[x y] z]. unfold iadd, comp. cbn [fst snd]. apply (f_equal m). apply f_equal2; auto. apply (f_equal w).
      apply f_equal2; [apply f_equal2|]; lia.
    - intros c x. cbn. lra.
    - intros c x. cbn. lra.
    - destruct H2 as [H2|[H2 H5]]; auto. right. split; auto. split; auto.
      pose proof (ok3_fl r RK) as K. unfold fl_ok3, fl_ok in K. rewrite H2 in K. destruct (oabs o); auto.
    - exists d. split; auto. split; apply H4; destruct d; discriminate.
    - intros c x. apply U, w_own.
  Qed.
End Res.
