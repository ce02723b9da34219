(** Runs of the 1D solver compute MPDATA as in the literature. *)
From Coq Require Import ZArith List Bool Lia ZifyBool Reals Lra.
From Verif Require Import SpecIndex ModelIndex ModelRun Lang Stencil FormCommon Form1D Solver1D
  ProofsThread1D ProofsValid1D SpecThreads SpecFields SpecNum ProofsCyclic1D
  Fun1D ProofsFun1D ProofsFold1D ProofsPer1D ProofsDom1D Arith SpecReal ProofsReal1D ProofsAnti1D ProofsNum1D ProofsSign1D
  ProofsResults1D SpecMpdata.
Import ListNotations.
Local Open Scope R_scope.

(** limiting multiplies by a number between zero and one *)
Lemma limiter eps tiny o sp tp (X : fixed (arithR eps tiny)) (psi mn mx c : Z -> R) :
  fct o = true -> 0 < eps -> (forall i, 0 < if nug o then xG _ X i else 1) ->
  exists k : Z -> R, forall i, 0 <= k i <= 1 /\ limF (arithR eps tiny) o sp tp X psi c mn mx i = c i * k i.
Proof.
  intros F E G. exists (kF eps tiny o X psi mn mx c). intros i. split; [apply kF_bounds; auto|apply limF_k; auto].
Qed.

Section Textbook.
  Variables eps tiny : R.
  Notation AR := (arithR eps tiny).
  Variables (o : fl) (sp : sptl) (tp : tmprl).
  Variable X : fixed AR.
  Hypothesis Oabs : oabs o = false.
  Hypothesis Otot : tot o = false.
  Hypothesis Odfl : dfl o = false.
  Hypothesis Odiv : div2 o = false.
  Notation "f == g" := (forall x : Z, f x = g x) (at level 70, no associativity).
  Variable g : Z -> R.
  Hypothesis Hg : g == gR o (xG AR X).

  Lemma t_donor psi c : donor psi c == fluxes psi c.
  Proof.
    intros i. unfold donor, fluxes, upstream. destruct (Rle_dec 0 (c i)).
    - rewrite Rmax_right, Rmin_left by lra. ring.
    - rewrite Rmax_left, Rmin_right by lra. ring.
  Qed.
  Lemma t_gb i : gbR o (xG AR X) i = (g i + g (i + 1)%Z) / 2.
  Proof. rewrite !Hg. unfold gbR, gR. destruct (nug o); [f_equal; ring|field]. Qed.
  Lemma t_anti psi c psi' c' N T : psi == psi' -> c == c' ->
    antiF AR o sp tp psi c (xG AR X) N T == pseudo g (iga o) (pfc o) tiny psi' c'.
  Proof.
    intros Hp Hc i. rewrite antiF_R. unfold antiR, totR, dflR, pseudo, ndxR, fracR, paR, quot.
    rewrite Otot, Odfl, Odiv, Oabs. change (car AR) with R in *. rewrite t_gb, !Hp, Hc.
    assert (A : Rabs (c' i) * Rabs (c' i) = c' i * c' i) by (unfold Rabs; destruct (Rcase_abs (c' i)); ring).
    assert (L : forall a gb k, a / 2 * (1 - a / gb) * (2 * k) + 0 + 0 = (a - a * a / gb) * k).
    { intros a gb k. unfold Rdiv. generalize (/ gb). intros z. field. }
    rewrite <- A. destruct (iga o); [|apply L]. etransitivity; [|apply L]. f_equal. f_equal. f_equal. toR. field.
  Qed.
  Lemma t_corrective psi c psi' c' : psi == psi' -> c == c' ->
    (if iga o then c else fluxF AR o sp tp psi c) == corrective (iga o) psi' c'.
  Proof.
    intros Hp Hc i. unfold corrective. destruct (iga o); auto. rewrite fluxF_R, t_donor.
    unfold fluxes. change (car AR) with R in *. rewrite !Hp, Hc. reflexivity.
  Qed.
  Lemma t_sum psi phi psi' phi' : psi == psi' -> phi == phi' ->
    sumF AR o sp tp psi phi (xG AR X) == advect g psi' phi'.
  Proof. intros Hp Hf i. rewrite sumF_R. unfold advect. rewrite Hg. change (car AR) with R in *. rewrite Hp, !Hf. reflexivity. Qed.
  Lemma t_top a b c d e : Rmax d (Rmax a (Rmax b c)) - e = Rmax d (Rmax (Rmax a b) c) - e.
  Proof. rewrite (Rmax_assoc a b c). reflexivity. Qed.
  Lemma t_bot a b c d e : e - Rmin d (Rmin a (Rmin b c)) = e - Rmin d (Rmin (Rmin a b) c).
  Proof. rewrite (Rmin_assoc a b c). reflexivity. Qed.
  Lemma t_lim psi c mn mx old psi' c' : psi == psi' -> c == c' -> mn == min3 old -> mx == max3 old ->
    limF AR o sp tp X psi c mn mx == (if fct o then limited g (iga o) eps old psi' c' else c').
  Proof.
    intros Hp Hc Hn Hm i. unfold limF. destruct (fct o) eqn:F; [|apply Hc].
    set (phi := if iga o then c else fluxF AR o sp tp psi c).
    assert (HF : phi == corrective (iga o) psi' c') by (apply t_corrective; auto).
    assert (U : bupF AR o sp tp psi mx phi (xG AR X) == room_up g eps old psi' (corrective (iga o) psi' c')).
    { intros x. rewrite bupF_R. unfold room_up, inflow. rewrite Hg. change (car AR) with R in *. rewrite !Hp, !HF, Hm, t_top. reflexivity. }
    assert (Dn : bdnF AR o sp tp psi mn phi (xG AR X) == room_dn g eps old psi' (corrective (iga o) psi' c')).
    { intros x. rewrite bdnF_R. unfold room_dn, SpecMpdata.outflow. rewrite Hg. change (car AR) with R in *. rewrite !Hp, !HF, Hn, t_bot. reflexivity. }
    rewrite monoF_R. unfold limited, limfac, limA, limB, gtb. rewrite Oabs, andb_false_r. change (car AR) with R in *. rewrite Hc, !U, !Dn.
    destruct (Rlt_dec 0 (c' i)); reflexivity.
  Qed.
  Lemma t_passes nit old mn mx : mn == min3 old -> mx == max3 old -> forall more j psi c psi' c',
    psi == psi' -> c == c' ->
    passesF AR o sp tp (fun x => x) (fun _ x => x) X nit mn mx j more psi c ==
    corrections g (iga o) (fct o) (pfc o) eps tiny more old psi' c'.
  Proof.
    intros Hn Hm. induction more as [|k IH]; intros j psi c psi' c' Hp Hc; [exact Hp|]. cbn [passesF corrections].
    assert (E : corrF AR o sp tp (fun _ x => x) X (Nat.eqb (S j) nit) (fun x => psi x) c == pseudo g (iga o) (pfc o) tiny psi' c').
    { intros x. unfold corrF. destruct (fct o); [|destruct (dfl o && _)]; apply t_anti; auto. }
    apply IH; auto. unfold finF. apply t_sum; auto. apply t_corrective; auto. apply t_lim; auto.
  Qed.
  Lemma t_step nit ex psi psi' : ex = 0%Z -> psi == psi' ->
    stepF AR o sp tp (fun x => x) (fun _ x => x) X nit nit ex psi ==
    mpdata_step g (xC AR X) (iga o) (fct o) (pfc o) eps tiny nit psi'.
  Proof.
    intros -> Hp i. unfold stepF, mpdata_step. change (Z.opp 0) with 0%Z. unfold scaleF at 1. cbn [Z.eqb].
    assert (Hs : (fun x => scaleF AR 0 psi x) == psi') by (intros x; apply Hp).
    apply t_passes.
    - intros x. rewrite minF_R. unfold min3. change (car AR) with R in *. rewrite !Hs. reflexivity.
    - intros x. rewrite maxF_R. unfold max3. change (car AR) with R in *. rewrite !Hs. reflexivity.
    - unfold upF. apply t_sum; auto. intros x. rewrite fluxF_R, t_donor. unfold fluxes. change (car AR) with R in *. rewrite !Hs. reflexivity.
    - reflexivity.
  Qed.
  Lemma t_steps nit freq ex nt : (freq <= 0)%Z -> ex = 0%Z -> forall ts psi psi', psi == psi' ->
    stepsF AR o sp tp (fun x => x) (fun _ x => x) X nit freq ex nt ts psi ==
    mpdata g (xC AR X) (iga o) (fct o) (pfc o) eps tiny nit nt psi'.
  Proof.
    intros Hf Hex. induction nt as [|k IH]; intros ts psi psi' Hp; [exact Hp|]. cbn [stepsF mpdata].
    apply IH. unfold passes. replace (0 <? freq)%Z with false by lia. cbn [andb]. apply t_step; auto.
  Qed.
End Textbook.

(** runs on a cyclic domain compute MPDATA on the periodic extension of the data *)
Lemma textbook r n nt eps tiny m m' : run_ok r -> (0 < n)%nat -> (Z.of_nat n <= r_hi r - r_lo r + 1)%Z ->
  r_bl r = Cyclic -> r_br r = Cyclic -> no_stale (r_o r) (r_nit r) = true ->
  oabs (r_o r) = false -> tot (r_o r) = false -> dfl (r_o r) = false -> div2 (r_o r) = false ->
  (r_freq r <= 0)%Z ->
  cyclic_data (r_lo r) (r_hi r) (n_eqns (r_cfg r)) (nug (r_o r)) m ->
  can_end loc_eq_dec (arithR eps tiny) n (program1 r n nt) m m' ->
  forall e, (e < n_eqns (r_cfg r))%nat -> r_scale r e = 0%Z ->
  let per (f : Z -> R) := fun i => f (wrap (r_lo r) (r_hi r) i) in
  forall i, (r_lo r <= i <= r_hi r)%Z ->
  cell m' e (newest r nt) i =
  mpdata (per (Gof (nug (r_o r)) m)) (per (face m)) (iga (r_o r)) (fct (r_o r)) (pfc (r_o r)) eps tiny
         (r_nit r) nt (per (cell m e false)) i.
Proof.
  intros RK Hn Hs BL BR NS O1 O2 O3 O4 HF CD CE e He HS per i Hi.
  rewrite (cyc_run r RK eps tiny NS BL BR nt e He n m m' Hn Hs CD CE i Hi).
  apply (t_steps eps tiny (r_o r) (r_sp r) (r_tp r) (cycX r (arithR eps tiny) m) O1 O2 O3 O4 (per (Gof (nug (r_o r)) m))); auto.
Qed.
