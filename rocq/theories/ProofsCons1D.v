(** Conservation on cyclic domains. *)
From Coq Require Import ZArith List Bool Lia ZifyBool Reals Lra.
From Verif Require Import ModelIndex ModelRun Lang Stencil FormCommon Form1D Solver1D Fun1D Arith SpecReal SpecThreads SpecFields
  ProofsThread1D ProofsValid1D ProofsCyclic1D ProofsFun1D ProofsFold1D ProofsPer1D ProofsReal1D.
Import ListNotations.
Local Open Scope R_scope.

Lemma sumn_ext n : forall lo f g, (forall i, (lo <= i < lo + Z.of_nat n)%Z -> f i = g i) -> sumn n lo f = sumn n lo g.
Proof.
  induction n as [|n IH]; intros lo f g H; cbn [sumn]; auto. f_equal; [apply H; lia|]. apply IH. intros i Hi. apply H. lia.
Qed.
Lemma total_ext lo hi f g : (forall i, (lo <= i < hi)%Z -> f i = g i) -> total lo hi f = total lo hi g.
Proof. intros H. apply sumn_ext. intros i Hi. apply H. lia. Qed.
Lemma sumn_lin n : forall lo a b f g, sumn n lo (fun i => a * f i + b * g i) = a * sumn n lo f + b * sumn n lo g.
Proof. induction n as [|n IH]; intros; cbn [sumn]; [ring|]. rewrite IH. ring. Qed.
Lemma sumn_scal n lo a f : sumn n lo (fun i => a * f i) = a * sumn n lo f.
Proof. revert lo. induction n as [|n IH]; intros; cbn [sumn]; [ring|]. rewrite IH. ring. Qed.
Lemma sumn_tel n : forall lo f, sumn n lo (fun i => f i - f (i - 1)%Z) = f (lo + Z.of_nat n - 1)%Z - f (lo - 1)%Z.
Proof.
  induction n as [|n IH]; intros lo f; cbn [sumn].
  - replace (lo + Z.of_nat 0 - 1)%Z with (lo - 1)%Z by lia. ring.
  - rewrite IH. replace (lo + 1 + Z.of_nat n - 1)%Z with (lo + Z.of_nat (S n) - 1)%Z by lia.
    replace (lo + 1 - 1)%Z with lo by lia. ring.
Qed.
Lemma total_tel lo hi f : (lo <= hi)%Z -> total lo hi (fun i => f i - f (i - 1)%Z) = f (hi - 1)%Z - f (lo - 1)%Z.
Proof. intros H. unfold total. rewrite sumn_tel. repeat f_equal; lia. Qed.

Section Cons.
  Variables eps tiny : R.
  Notation AR := (arithR eps tiny).
  Variables (o : fl) (sp : sptl) (tp : tmprl).
  Variables lo hi : Z.
  Hypothesis L : (lo < hi)%Z.
  Notation per := (hi - lo)%Z.
  Variable X : fixed AR.
  Hypothesis PX : perX AR per X.
  Notation g := (gR o (xG AR X)).
  Hypothesis G0 : forall i, (lo <= i < hi)%Z -> g i <> 0.
  Notation idv := (fun (_ : bool) (x : Z) => x).
  Notation mass f := (total lo hi (fun i => g i * f i)).
  Notation perF := (perF AR per).

  Lemma mass_ext (f f' : Z -> R) : (forall i, f i = f' i) -> mass f = mass f'.
  Proof. intros H. apply total_ext. intros i _. rewrite H. reflexivity. Qed.

  (** flux form *)
  Lemma mass_sum (psi phi : Z -> R) : perF phi -> mass (sumF AR o sp tp psi phi (xG AR X)) = mass psi.
  Proof.
    intros P.
    transitivity (total lo hi (fun i => 1 * (g i * psi i) + (-1) * (phi i - phi (i - 1)%Z))).
    - apply total_ext. intros i Hi. rewrite sumF_R. specialize (G0 i Hi). field. exact G0.
    - unfold total. rewrite sumn_lin. pose proof (total_tel lo hi phi ltac:(lia)) as T. unfold total in T. rewrite T.
      replace (hi - 1)%Z with (lo - 1 + per)%Z by lia. change (car AR) with R in *. pose proof (P (lo - 1)%Z) as P'. cbn in P'. rewrite P'. ring.
  Qed.

  Lemma mass_passes nit mn mx more : perF mn -> perF mx -> forall j psi C, perF psi -> perF C ->
    mass (passesF AR o sp tp (fun x => x) idv X nit mn mx j more psi C) = mass psi.
  Proof.
    intros Hn Hm. induction more as [|k IH]; intros j psi C H1 H2; [reflexivity|]. cbn [passesF].
    pose proof (corrF_per AR per o sp tp X PX (Nat.eqb (S j) nit) psi C H1 H2) as HC.
    pose proof (limF_per AR per o sp tp X PX psi _ mn mx H1 HC Hn Hm) as HL.
    change (fun x : Z => psi x) with psi. etransitivity; [apply IH; auto|].
    - apply (finF_per AR per o sp tp X PX psi _ H1 HL).
    - unfold finF. apply mass_sum. destruct (iga o); auto. apply fluxF_per; auto.
  Qed.

  Lemma mass_scale ex (psi : Z -> R) : mass (scaleF AR ex psi) = sc ex * mass psi.
  Proof.
    unfold total. rewrite <- sumn_scal. apply sumn_ext. intros i _. rewrite scaleF_R. ring.
  Qed.

  Lemma mass_step nit k ex psi : perF psi -> mass (stepF AR o sp tp (fun x => x) idv X nit k ex psi) = mass psi.
  Proof.
    intros P. unfold stepF. rewrite mass_scale. pose proof (scaleF_per AR per ex psi P) as PS.
    change (fun x : Z => scaleF AR ex psi x) with (scaleF AR ex psi).
    rewrite mass_passes.
    - unfold upF. rewrite mass_sum, mass_scale, <- Rmult_assoc, sc_inv; [ring|]. apply fluxF_per; auto. apply PX.
    - apply minF_per; auto.
    - apply maxF_per; auto.
    - apply upF_per; auto.
    - apply PX.
  Qed.
  Lemma mass_steps nit freq ex nt : forall ts psi, perF psi ->
    mass (stepsF AR o sp tp (fun x => x) idv X nit freq ex nt ts psi) = mass psi.
  Proof.
    induction nt as [|n IH]; intros ts psi P; [reflexivity|]. cbn [stepsF]. rewrite IH.
    - apply mass_step; auto.
    - apply stepF_per; auto.
  Qed.
End Cons.

(** C23 *)
Theorem conservation r n nt eps tiny (m m' : loc -> R) :
  run_ok r -> (0 < n)%nat -> (Z.of_nat n <= r_hi r - r_lo r + 1)%Z ->
  r_bl r = Cyclic -> r_br r = Cyclic -> no_stale (r_o r) (r_nit r) = true ->
  cyclic_data (r_lo r) (r_hi r) (n_eqns (r_cfg r)) (nug (r_o r)) m ->
  can_end loc_eq_dec (arithR eps tiny) n (program1 r n nt) m m' ->
  forall e, (e < n_eqns (r_cfg r))%nat ->
  let G := fun i => if nug (r_o r) then gfac m i else 1 in
  (forall i, (r_lo r <= i < r_hi r)%Z -> G i <> 0) ->
  total (r_lo r) (r_hi r) (fun i => G i * cell m' e (newest r nt) i) =
  total (r_lo r) (r_hi r) (fun i => G i * cell m e false i).
Proof.
  intros RK Hn Hs BL BR NS CD CE e He G G0. pose proof (lo_hi r RK) as L.
  set (X := cycX r (arithR eps tiny) m).
  assert (EG : forall i, (r_lo r <= i < r_hi r)%Z -> gR (r_o r) (xG _ X) i = G i).
  { intros i Hi. unfold gR, G, X, cycX. cbn [xG]. rewrite (wrap_id r) by auto. reflexivity. }
  transitivity (total (r_lo r) (r_hi r) (fun i => gR (r_o r) (xG _ X) i *
    stepsF (arithR eps tiny) (r_o r) (r_sp r) (r_tp r) (fun x => x) (fun _ x => x) X
        (r_nit r) (r_freq r) (r_scale r e) nt 0 (fun x => cell m e false (wrap (r_lo r) (r_hi r) x)) i)).
  - apply total_ext. intros i Hi. rewrite EG by auto.
    apply f_equal. exact (cyclic_fun r n RK Hn Hs BL BR (arithR eps tiny) nt m m' NS CD CE e i He ltac:(lia)).
  - rewrite (mass_steps eps tiny (r_o r) (r_sp r) (r_tp r) (r_lo r) (r_hi r) L X).
    + apply total_ext. intros i Hi. rewrite EG, (wrap_id r) by auto. reflexivity.
    + apply cycX_per; auto.
    + intros i Hi. rewrite EG by auto. apply G0. auto.
    + apply (wrapf_per r RK (arithR eps tiny) (cell m e false)).
Qed.
