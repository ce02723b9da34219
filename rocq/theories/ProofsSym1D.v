(** Symmetries of the functions of Fun1D.v over the reals: mirror images,
    multiples, sums, and options that do not change exact results. *)
From Coq Require Import ZArith List Bool Lia ZifyBool Reals Lra.
From Verif Require Import ModelRun Lang ProofsLang Stencil FormCommon Form1D Solver1D Fun1D Arith SpecReal
  ProofsFun1D ProofsFold1D ProofsReal1D ProofsAnti1D ProofsCons1D ProofsNum1D ProofsSign1D.
Import ListNotations.
Local Open Scope R_scope.

Lemma Rmax_opp x : Rmax 0 (- x) = - Rmin 0 x.
Proof. unfold Rmax, Rmin. repeat destruct Rle_dec; lra. Qed.
Lemma Rmin_opp x : Rmin 0 (- x) = - Rmax 0 x.
Proof. unfold Rmax, Rmin. repeat destruct Rle_dec; lra. Qed.
Lemma Rmaxopp2 x y : Rmax (- x) (- y) = - Rmin x y.
Proof. unfold Rmax, Rmin. repeat destruct Rle_dec; lra. Qed.
Lemma Rminopp2 x y : Rmin (- x) (- y) = - Rmax x y.
Proof. unfold Rmax, Rmin. repeat destruct Rle_dec; lra. Qed.
Lemma frac_neg o tiny a b a' b' : a' = - a -> b' = b -> fracR o tiny a' b' = - fracR o tiny a b.
Proof. intros -> ->. unfold fracR, Rdiv. destruct (pfc o); [destruct Req_EM_T|]; ring. Qed.
Lemma frac_same o tiny a b a' b' : a' = a -> b' = b -> fracR o tiny a' b' = fracR o tiny a b.
Proof. intros -> ->. reflexivity. Qed.

Ltac fr_neg := match goal with |- _ * fracR ?o ?t ?x' ?y' = - (_ * fracR ?o ?t ?x ?y) =>
  rewrite (frac_neg o t x y x' y') by ring; ring end.
Ltac fr_same := match goal with |- _ * fracR ?o ?t ?x' ?y' = _ * fracR ?o ?t ?x ?y =>
  rewrite (frac_same o t x y x' y') by ring; reflexivity end.

(** ** Mirror images *)
Section MirrorAnti.
  Variables (o : fl) (sp : sptl) (tp : tmprl) (tiny : R).
  Variable S : Z.
  (** cells [a], [b] with [a + b = S] and faces with [a + b = S - 1] are mirror images *)
  Definition mcell (f f' : Z -> R) : Prop := forall a b : Z, (a + b = S)%Z -> f' a = f b.
  Definition mface (c c' : Z -> R) : Prop := forall a b : Z, (a + b = S - 1)%Z -> c' a = - c b.
  Definition msame (c c' : Z -> R) : Prop := forall a b : Z, (a + b = S - 1)%Z -> c' a = c b.
  Variables p p' C C' G G' N N' T T' : Z -> R.
  Hypothesis Hp : mcell p p'.
  Hypothesis HC : mface C C'.
  Hypothesis HG : mcell G G'.
  Hypothesis HN : mface N N'.
  Hypothesis HT : mface T T'.

  Lemma m_gR : mcell (gR o G) (gR o G').
  Proof. intros a b E. unfold gR. destruct (nug o); auto. Qed.
  Lemma m_gb : msame (gbR o G) (gbR o G').
  Proof. intros a b E. unfold gbR. destruct (nug o); auto. rewrite (HG (a + 1)%Z b), (HG a (b + 1)%Z) by lia. field. Qed.
  Lemma m_ndx : mface (ndxR o tiny p) (ndxR o tiny p').
  Proof.
    intros a b E. unfold ndxR. rewrite (Hp (a + 1)%Z b), (Hp a (b + 1)%Z) by lia. destruct (iga o); [ring|].
    fr_neg.
  Qed.
  Lemma m_ndxx : msame (ndxxR o tiny p) (ndxxR o tiny p').
  Proof.
    intros a b E. unfold ndxxR. rewrite (Hp (a + 1)%Z b), (Hp a (b + 1)%Z), (Hp (a + 2)%Z (b - 1)%Z), (Hp (a - 1)%Z (b + 2)%Z) by lia.
    destruct (iga o); [field|]. fr_same.
  Qed.
  Lemma m_tot : mface (totR o tiny p G C) (totR o tiny p' G' C').
  Proof.
    intros a b E. unfold totR. destruct (tot o); [|ring]. rewrite (m_ndxx a b), (m_gb a b), (HC a b), Rabs_Ropp by lia.
    unfold Rdiv. ring.
  Qed.
  Lemma m_dfl : mface (dflR o p G C) (dflR o p' G' C').
  Proof.
    intros a b E. unfold dflR. destruct (dfl o); [|ring]. cbv zeta.
    rewrite (m_gR (a + 1)%Z b), (m_gR a (b + 1)%Z), (HC a b), (HC (a + 1)%Z (b - 1)%Z), (HC (a - 1)%Z (b + 1)%Z), (Hp (a + 1)%Z b), (Hp a (b + 1)%Z) by lia.
    rewrite (Rplus_comm (gR o G b)). unfold Rdiv. destruct (iga o); ring.
  Qed.
  Lemma m_cb c c' : mface c c' -> forall a b, (a + b = S)%Z -> cbR c' a = - cbR c b.
  Proof. intros H a b E. unfold cbR. rewrite (H a (b - 1)%Z), (H (a - 1)%Z b) by lia. unfold Rdiv. ring. Qed.
  Lemma m_pb : msame (pbR o p) (pbR o p').
  Proof. intros a b E. unfold pbR. rewrite (Hp (a + 1)%Z b), (Hp a (b + 1)%Z) by lia. unfold Rdiv. ring. Qed.
  Lemma m_nfdiv c c' : mface c c' -> msame (nfdivR o tiny p G c) (nfdivR o tiny p' G' c').
  Proof.
    intros H a b E. unfold nfdivR. rewrite (m_cb c c' H (a + 1)%Z b), (m_cb c c' H a (b + 1)%Z), (m_gb a b), (Hp (a + 1)%Z b), (Hp a (b + 1)%Z) by lia.
    unfold Rdiv. destruct (iga o); [ring|]. fr_same.
  Qed.
  Lemma m_fdiv : mcell (fdivR o p G C) (fdivR o p' G' C').
  Proof.
    intros a b E. unfold fdivR. rewrite (m_gR a b), (HC a (b - 1)%Z), (HC (a - 1)%Z b), (m_pb a (b - 1)%Z), (m_pb (a - 1)%Z b) by lia.
    unfold Rdiv. ring.
  Qed.
  Lemma m_sum4 : msame (sum4 o p) (sum4 o p').
  Proof.
    intros a b E. unfold sum4. rewrite (Hp (a + 1)%Z b), (Hp a (b + 1)%Z), (Hp (a + 2)%Z (b - 1)%Z), (Hp (a - 1)%Z (b + 2)%Z) by lia. ring.
  Qed.
  Lemma m_nfdf : msame (nfdfR o tiny p G C) (nfdfR o tiny p' G' C').
  Proof.
    intros a b E. unfold nfdfR. cbv zeta.
    rewrite (m_cb C C' HC (a + 1)%Z b), (m_cb C C' HC a (b + 1)%Z), (m_gb a b), (m_fdiv (a + 1)%Z b), (m_fdiv a (b + 1)%Z), (m_sum4 a b) by lia.
    unfold Rdiv. destruct (iga o); [ring|]. fr_same.
  Qed.
  Lemma m_ndxf : mface (ndxfR o tiny p G C) (ndxfR o tiny p' G' C').
  Proof.
    intros a b E. unfold ndxfR. cbv zeta.
    rewrite (m_fdiv (a + 1)%Z b), (m_fdiv a (b + 1)%Z), (m_sum4 a b) by lia.
    destruct (iga o); [ring|]. fr_neg.
  Qed.
  Lemma m_div2 : mface (div2R o tiny p C G) (div2R o tiny p' C' G').
  Proof.
    intros a b E. unfold div2R. rewrite (m_ndx a b), (HC a b), (m_nfdiv C C' HC a b), Rabs_Ropp by lia. unfold Rdiv. ring.
  Qed.
  Lemma m_div3 : mface (div3R o sp tp tiny p C G N T) (div3R o sp tp tiny p' C' G' N' T').
  Proof.
    intros a b E. unfold div3R. destruct (div3 o); [|ring]. unfold up3R, spR, tpR, ndxxCR, nttR. cbv zeta.
    rewrite (m_div2 a b), (m_ndx a b), (m_ndxx a b), (HC a b), (HC (a + 1)%Z (b - 1)%Z), (HC (a - 1)%Z (b + 1)%Z), (m_pb a b), (HT a b),
      (m_ndxf a b), (m_nfdf a b), (m_nfdiv N N' HN a b), (m_nfdiv C C' HC a b), (HN a b), !Rabs_Ropp by lia.
    unfold Rdiv. destruct (iga o), sp, tp; ring.
  Qed.
  Lemma m_anti : mface (antiR o sp tp tiny p C G N T) (antiR o sp tp tiny p' C' G' N' T').
  Proof.
    intros a b E. unfold antiR. destruct (div2 o).
    - rewrite (m_div2 a b), (m_div3 a b) by lia. ring.
    - rewrite (m_ndx a b), (m_tot a b), (m_dfl a b), (m_gb a b), (HC a b), Rabs_Ropp by lia. unfold Rdiv. ring.
  Qed.
End MirrorAnti.

Section Mirror.
  Variables eps tiny : R.
  Notation AR := (arithR eps tiny).
  Variables (o : fl) (sp : sptl) (tp : tmprl).
  Variables X X' : fixed AR.
  Variable S : Z.
  Variables (rs : Z -> Z) (rv : bool -> Z -> Z).
  Notation mcell := (mcell S).
  Notation mface := (mface S).
  Hypothesis HC : mface (xC AR X) (xC AR X').
  Hypothesis HG : mcell (xG AR X) (xG AR X').
  Hypothesis HN : mface (xN AR X) (xN AR X').
  Hypothesis HT : mface (xT AR X) (xT AR X').
  Hypothesis HRS : forall a b, (a + b = S)%Z -> (rs a + rs b = S)%Z.
  Hypothesis HRV : forall ad a b, (a + b = S - 1)%Z -> (rv ad a + rv ad b = S - 1)%Z.

  Lemma m_donor p p' c c' : mcell p p' -> mface c c' -> mface (donor p c) (donor p' c').
  Proof.
    intros Hp Hc a b E. unfold donor. rewrite (Hc a b), (Hp (a + 1)%Z b), (Hp a (b + 1)%Z), Rmax_opp, Rmin_opp by lia. ring.
  Qed.
  Lemma m_sum p p' f f' : mcell p p' -> mface f f' ->
    mcell (sumF AR o sp tp p f (xG AR X)) (sumF AR o sp tp p' f' (xG AR X')).
  Proof.
    intros Hp Hf a b E. rewrite !sumF_R. rewrite (Hp a b), (Hf a (b - 1)%Z), (Hf (a - 1)%Z b), (m_gR o S _ _ HG a b) by lia.
    unfold Rdiv. toR; ring.
  Qed.
  Lemma m_flux p p' c c' : mcell p p' -> mface c c' -> mface (fluxF AR o sp tp p c) (fluxF AR o sp tp p' c').
  Proof. intros Hp Hc a b E. rewrite !fluxF_R. apply m_donor; auto. Qed.
  Lemma m_up p p' : mcell p p' -> mcell (upF AR o sp tp X p) (upF AR o sp tp X' p').
  Proof. intros Hp. apply m_sum; auto. apply m_flux; auto. Qed.
  Lemma m_fold p p' : mcell p p' -> mcell (fun x => p (rs x)) (fun x => p' (rs x)).
  Proof. intros Hp a b E. apply Hp, HRS, E. Qed.
  Lemma m_corr last p p' C C' : mcell p p' -> mface C C' ->
    mface (corrF AR o sp tp rv X last p C) (corrF AR o sp tp rv X' last p' C').
  Proof.
    intros Hp Hc a b E. unfold corrF. pose proof (m_anti o sp tp tiny S p p' C C' _ _ _ _ _ _ Hp Hc HG HN HT) as M.
    destruct (fct o); [|destruct (dfl o && negb last)]; rewrite !antiF_R; apply M; auto.
  Qed.
  Lemma m_lim p p' c c' mn mn' mx mx' : mcell p p' -> mface c c' -> mcell mn mn' -> mcell mx mx' ->
    mface (limF AR o sp tp X p c mn mx) (limF AR o sp tp X' p' c' mn' mx').
  Proof.
    intros Hp Hc Hmn Hmx a b E. destruct (fct o) eqn:Hf; [|unfold limF; rewrite Hf; auto].
    rewrite !limF_k by auto. rewrite (Hc a b E).
    assert (HP : mface (phiF o p c) (phiF o p' c')).
    { unfold phiF. destruct (iga o); auto. apply m_donor; auto. }
    assert (HU : mcell (upL eps tiny o X p mx c) (upL eps tiny o X' p' mx' c')).
    { intros x y Exy. unfold upL, inF, topF. rewrite (m_gR o S _ _ HG x y), (HP x (y - 1)%Z), (HP (x - 1)%Z y), (Hp x y), (Hmx x y), (Hp (x + 1)%Z (y - 1)%Z),
        (Hp (x - 1)%Z (y + 1)%Z), Rmax_opp, Rmin_opp by lia.
      replace (Rmax (p (y + 1)%Z) (Rmax (p y) (p (y - 1)%Z))) with (Rmax (p (y - 1)%Z) (Rmax (p y) (p (y + 1)%Z)))
        by (unfold Rmax; repeat destruct Rle_dec; lra). f_equal. ring. }
    assert (HL : mcell (dnL eps tiny o X p mn c) (dnL eps tiny o X' p' mn' c')).
    { intros x y Exy. unfold dnL, outF, botF. rewrite (m_gR o S _ _ HG x y), (HP x (y - 1)%Z), (HP (x - 1)%Z y), (Hp x y), (Hmn x y), (Hp (x + 1)%Z (y - 1)%Z),
        (Hp (x - 1)%Z (y + 1)%Z), Rmax_opp, Rmin_opp by lia.
      replace (Rmin (p (y + 1)%Z) (Rmin (p y) (p (y - 1)%Z))) with (Rmin (p (y - 1)%Z) (Rmin (p y) (p (y + 1)%Z)))
        by (unfold Rmin; repeat destruct Rle_dec; lra). f_equal. ring. }
    unfold kF, limfac, limA, limB, gtb. rewrite (Hc a b), (HU a (b + 1)%Z), (HU (a + 1)%Z b), (HL a (b + 1)%Z), (HL (a + 1)%Z b), (Hp a (b + 1)%Z), (Hp (a + 1)%Z b) by lia.
    set (u0 := upL eps tiny o X p mx c b). set (u1 := upL eps tiny o X p mx c (b + 1)%Z).
    set (d0 := dnL eps tiny o X p mn c b). set (d1 := dnL eps tiny o X p mn c (b + 1)%Z).
    rewrite (Rmin_comm d1 u0), (Rmin_comm u1 d0).
    destruct (Rtotal_order (c b) 0) as [H|[H|H]].
    - destruct (Rlt_dec 0 (- c b)); [|lra]. destruct (Rlt_dec 0 (c b)); [lra|].
      destruct (negb (iga o) && oabs o); [destruct (Rlt_dec 0 (p (b + 1)%Z))|]; toR; ring.
    - rewrite H. toR; ring.
    - destruct (Rlt_dec 0 (- c b)); [lra|]. destruct (Rlt_dec 0 (c b)); [|lra].
      destruct (negb (iga o) && oabs o); [destruct (Rlt_dec 0 (p b))|]; toR; ring.
  Qed.
  Lemma m_fin p p' c c' : mcell p p' -> mface c c' -> mcell (finF AR o sp tp X p c) (finF AR o sp tp X' p' c').
  Proof. intros Hp Hc. unfold finF. apply m_sum; auto. destruct (iga o); auto. apply m_flux; auto. Qed.
  Lemma m_passes nit mn mn' mx mx' more : mcell mn mn' -> mcell mx mx' ->
    forall j p p' C C', mcell p p' -> mface C C' ->
    mcell (passesF AR o sp tp rs rv X nit mn mx j more p C) (passesF AR o sp tp rs rv X' nit mn' mx' j more p' C').
  Proof.
    intros Hmn Hmx. induction more as [|k IH]; intros j p p' C C' Hp Hc; [auto|]. cbn [passesF].
    pose proof (m_fold _ _ Hp). apply IH.
    - apply m_fin; auto. apply m_lim; auto. apply m_corr; auto.
    - apply m_corr; auto.
  Qed.
  Lemma m_scale ex p p' : mcell p p' -> mcell (scaleF AR ex p) (scaleF AR ex p').
  Proof. intros Hp a b E. rewrite !scaleF_R, (Hp a b E). reflexivity. Qed.
  Lemma m_min p p' : mcell p p' -> mcell (minF AR o sp tp p) (minF AR o sp tp p').
  Proof.
    intros Hp a b E. rewrite !minF_R, (Hp a b), (Hp (a - 1)%Z (b + 1)%Z), (Hp (a + 1)%Z (b - 1)%Z) by lia.
    unfold Rmin; repeat destruct Rle_dec; toR; lra.
  Qed.
  Lemma m_max p p' : mcell p p' -> mcell (maxF AR o sp tp p) (maxF AR o sp tp p').
  Proof.
    intros Hp a b E. rewrite !maxF_R, (Hp a b), (Hp (a - 1)%Z (b + 1)%Z), (Hp (a + 1)%Z (b - 1)%Z) by lia.
    unfold Rmax; repeat destruct Rle_dec; toR; lra.
  Qed.
  Lemma m_step nit k ex p p' : mcell p p' ->
    mcell (stepF AR o sp tp rs rv X nit k ex p) (stepF AR o sp tp rs rv X' nit k ex p').
  Proof.
    intros Hp. unfold stepF. pose proof (m_fold _ _ (m_scale ex _ _ Hp)) as Hq.
    apply m_scale. apply m_passes; auto using m_min, m_max, m_up.
  Qed.
  Lemma m_steps nit freq ex nt : forall ts p p', mcell p p' ->
    mcell (stepsF AR o sp tp rs rv X nit freq ex nt ts p) (stepsF AR o sp tp rs rv X' nit freq ex nt ts p').
  Proof. induction nt as [|n IH]; intros ts p p' Hp; cbn [stepsF]; auto. apply IH. apply m_step; auto. Qed.
End Mirror.
