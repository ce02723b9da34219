(** The shallow-water solver: lemmas about single steps. *)
From Coq Require Import ZArith List Bool Lia ZifyBool Reals Lra.
From Verif Require Import ModelRun Lang ProofsLang Stencil FormCommon Form2D Solver1D Solver2D Fun1D FunN Arith SpecReal SpecSym2
  ProofsReal1D ProofsAnti1D ProofsNum1D ProofsSign1D ProofsSym1D ProofsFunN ProofsPerN ProofsNumN ProofsSymN ProofsReal2D ProofsAnti2D
  ProofsNum2D ProofsMirror2D ProofsFun2D ProofsResults2D ProofsSymRun2D ProofsLinN ProofsLin2D ModelVip ModelShallow SpecShallow.
Import ListNotations.
Local Open Scope R_scope.

Lemma step_nx d x : step_in d 1 x = nx d x. Proof. destruct d; reflexivity. Qed.
Lemma step_pv d x : step_in d (-1) x = pv d x. Proof. destruct d; reflexivity. Qed.

(** ** Advection *)
Section Adv.
  Variable p : shallow.
  Notation AR := (arithR (w_eps p) (w_tiny p)).
  Notation o := (w_o p).
  Notation F := (forms2 (w_o p) (w_sp p) (w_tp p)).
  Notation CF := (closed2 (w_eps p) (w_tiny p) (w_o p) (w_sp p) (w_tp p)).

  Lemma advect_same p' C C' ts sc psi psi' :
    w_eps p' = w_eps p -> w_tiny p' = w_tiny p -> w_o p' = w_o p -> w_sp p' = w_sp p -> w_tp p' = w_tp p ->
    w_nit p' = w_nit p -> w_freq p' = w_freq p -> (nug o = true -> forall x, w_G p' x = w_G p x) ->
    veq xy C C' -> (forall x, psi' x = psi x) -> forall x, advect p' C' ts sc psi' x = advect p C ts sc psi x.
  Proof.
    intros E1 E2 E3 E4 E5 E6 E7 EG HC HP x. unfold advect, fixed_by. rewrite E1, E2, E3, E4, E5, E6, E7.
    refine (same2 (w_eps p) (w_tiny p) o (w_sp p) (w_tp p) (fixed_by p C) o _ (Build_fixedN AR C' (w_G p') (fun _ _ => 0) (fun _ _ => 0))
      HC EG _ _ (w_nit p) (w_freq p) sc 1 ts psi psi' HP x).
    - destruct o; reflexivity.
    - intros ? ? ?; reflexivity.
    - intros ? ? ?; reflexivity.
  Qed.

  Lemma advect_per vs C ts sc psi : perV AR vs C -> perN AR vs (w_G p) -> perN AR vs psi -> perN AR vs (advect p C ts sc psi).
  Proof.
    intros HC HG HP. unfold advect. apply stepN_per; auto. constructor; auto; intros d v _ x; reflexivity.
  Qed.

  Lemma one_linear la lb C sc f g h : (forall x, h x = la * f x + lb * g x) -> forall x,
    stepN AR o F (fixed_by p C) 1 sc h x = la * stepN AR o F (fixed_by p C) 1 sc f x + lb * stepN AR o F (fixed_by p C) 1 sc g x.
  Proof.
    intros H. unfold stepN. cbn [Nat.sub passesN]. apply (linN_scale (w_eps p) (w_tiny p) la lb). unfold upN.
    apply (linN_sum (w_eps p) (w_tiny p) o F xy CF (fixed_by p C) la lb); [|apply (linN_flux (w_eps p) (w_tiny p) o F xy CF la lb)];
      apply (linN_scale (w_eps p) (w_tiny p) la lb); exact H.
  Qed.
  Lemma passes_one ts : w_nit p = 1%nat -> passes (w_nit p) (w_freq p) ts = 1%nat.
  Proof. intros H. destruct (passes_cases (w_nit p) (w_freq p) ts); congruence. Qed.

  Lemma advect_neg C ts sc psi psi' : sign_blind p -> (forall x, psi' x = - psi x) -> forall x, advect p C ts sc psi' x = - advect p C ts sc psi x.
  Proof.
    intros [H|(IA & K & FO & He & Hg)] HP x; unfold advect.
    - rewrite (passes_one ts H). rewrite (one_linear (-1) 0 C sc psi psi psi'); [ring|]. intros y. rewrite HP. ring.
    - apply (negN_step (w_eps p) (w_tiny p) o F xy CF (fixed_by p C)); auto.
      + intros y. unfold gN. cbn [fixed_by nG]. destruct (nug o) eqn:E; [apply Hg; auto|lra].
      + intros p0 pn q qn C0 C' H1 H2 H3. apply neg2; auto.
      + intros Ei. specialize (K Ei). destruct (passes_cases (w_nit p) (w_freq p) ts); lia.
  Qed.

  Lemma zero_step C ts sc psi : iga o = false -> (forall x, psi x = 0) -> forall x, advect p C ts sc psi x = 0.
  Proof.
    intros NI H x. unfold advect. set (k := passes _ _ _). unfold stepN. rewrite scaleN_R.
    assert (Z : forall psi C, (forall x, psi x = 0) -> forall x, sumN AR o F psi (fluxN AR F psi C) (w_G p) x = 0).
    { intros f D Hf y. rewrite (cl_sum _ _ _ _ _ CF), Hf.
      rewrite (divN_ext xy _ (fun _ _ => 0)).
      - unfold divN. cbn [dsum]. unfold Rdiv. toR; ring.
      - intros d z Hd. rewrite (cl_flux _ _ _ _ _ CF) by auto. unfold donN. rewrite !Hf. ring. }
    assert (P : forall mn mx more pn psi C, (forall x, psi x = 0) -> forall x, passesN AR o F (fixed_by p C) mn mx more pn psi C x = 0
       /\ forall C0, passesN AR o F (fixed_by p C0) mn mx more pn psi C x = 0).
    { intros mn mx more. induction more as [|m IH]; intros pn f D Hf y; cbn [passesN]; [split; auto|].
      assert (Q : forall C0 y, passesN AR o F (fixed_by p C0) mn mx m f (finN AR o F (fixed_by p C0) f (limN AR o F (fixed_by p C0) f (corrN AR F (fixed_by p C0) f pn D) mn mx)) (corrN AR F (fixed_by p C0) f pn D) y = 0).
      { intros C0 z. apply IH. intros w. unfold finN. rewrite NI. apply Z. auto. }
      split; [apply Q|intros C0; apply Q]. }
    refine (eq_trans (f_equal (fun t => _ * t) (proj2 (P _ _ _ _ _ C _ _) C)) _).
    - intros y. unfold upN. apply Z. intros z. rewrite scaleN_R, H. ring.
    - ring.
  Qed.

  Lemma advect_mul lam C ts sc psi psi' : unit_blind p -> 0 < lam \/ oabs o = true /\ lam <> 0 \/ iga o = true \/ w_nit p = 1%nat \/ lam = 0 ->
    (forall x, psi' x = lam * psi x) -> forall x, advect p C ts sc psi' x = lam * advect p C ts sc psi x.
  Proof.
    intros [H|(NF & [(PF & NI & FO)|(IG & NA & K)])] HL HP x.
    - unfold advect. rewrite (passes_one ts H). rewrite (one_linear lam 0 C sc psi psi psi'); [ring|]. intros y. rewrite HP. ring.
    - assert (HL' : (0 < lam \/ oabs o = true /\ lam <> 0) \/ w_nit p = 1%nat \/ lam = 0) by (intuition congruence).
      destruct HL' as [L|[L|L]].
      + unfold advect. apply (mulN_step (w_eps p) (w_tiny p) o F xy CF (fixed_by p C)); auto. apply unit_free2. auto.
      + unfold advect. rewrite (passes_one ts L). rewrite (one_linear lam 0 C sc psi psi psi'); [ring|]. intros y. rewrite HP. ring.
      + rewrite zero_step; auto; [rewrite L; ring|]. intros y. rewrite HP, L. ring.
    - unfold advect. rewrite (linN_step (w_eps p) (w_tiny p) o F xy CF (fixed_by p C) lam 0) with (nit := w_nit p) (p := psi) (q := psi).
      + ring.
      + intros IG' *. apply lin2; auto.
      + right. auto.
      + apply passes_cases.
      + intros y. rewrite HP. ring.
  Qed.
  Lemma advect_hint C ts sc sc' psi : unit_blind p -> forall x, advect p C ts sc psi x = advect p C ts sc' psi x.
  Proof.
    intros U x. unfold advect.
    assert (W : forall k sc, k = passes (w_nit p) (w_freq p) ts -> stepN AR o F (fixed_by p C) k sc psi x = stepN AR o F (fixed_by p C) k 0 psi x).
    { intros k s Ek. rewrite stepN_scaled.
      pose proof (advect_mul (ProofsReal1D.sc s) C ts 0 psi (fun y => ProofsReal1D.sc s * psi y) U (or_introl (sc_pos s)) (fun _ => eq_refl) x) as M.
      unfold advect in M. rewrite <- Ek in M. rewrite M, <- Rmult_assoc, sc_inv. toR; ring. }
    rewrite (W _ sc eq_refl), (W _ sc' eq_refl). reflexivity.
  Qed.
  Lemma advect_const C ts sc psi c : second_order p -> (forall x, divN xy C x = 0) -> (forall x, psi x = c) -> forall x, advect p C ts sc psi x = c.
  Proof.
    intros SO HD HP x.
    refine (const_steps (w_eps p) (w_tiny p) o (w_sp p) (w_tp p) (fixed_by p C) (w_nit p) (w_freq p) sc 1 _ _ HD _ ts psi c HP x).
    - reflexivity.
    - reflexivity.
    - right; left; exact SO.
  Qed.
  Lemma advect_sign C ts sc psi : keeps_sign p -> (forall x, 0 < G_of p x) -> (forall x, outflow C x <= G_of p x) ->
    (forall x, 0 <= psi x) -> forall x, 0 <= advect p C ts sc psi x.
  Proof.
    intros KS Hg Ho HP x. unfold advect.
    apply (step_signN (w_eps p) (w_tiny p) o F xy CF (fixed_by p C)) with (tame := fun _ => False) (nit := w_nit p); auto.
    - intros y. unfold outN. cbn [dsum]. specialize (Ho y). unfold outflow in Ho. rewrite !step_pv in Ho. unfold gN, G_of in *. cbn [fixed_by nG nC]. lra.
    - unfold sign_safeN. destruct KS as [H|H]; auto.
    - apply passes_cases.
  Qed.
End Adv.
