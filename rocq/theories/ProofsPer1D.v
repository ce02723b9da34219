(** Cyclic boundaries: the functions of Fun1D.v on periodic fields. *)
From Coq Require Import ZArith List Bool Lia ZifyBool.
From Verif Require Import SpecIndex ModelIndex ProofsIndex ModelRun Lang ProofsLang Stencil ProofsStencil
  FormCommon Form1D Solver1D Macro ProofsMacro Foot1D Proofs1D ProofsThread1D ProofsValid ProofsValid1D
  ProofsExch1D ProofsRef1D Lattice ProofsLattice ProofsLattice1D SpecThreads SpecFields ProofsCyclic1D
  Fun1D ProofsFun1D ProofsFold1D.
Import ListNotations.
Local Open Scope Z_scope.

Section Per.
  Variable ar : arith.
  Notation fld := (Z -> car ar).
  Variable p : Z.
  Definition perF (f : fld) : Prop := forall x, f (x + p) = f x.

  Lemma evx_per (env : arr -> fld) e : (forall a, perF (env a)) -> perF (evx ar env e).
  Proof.
    intros H x. unfold evx. apply ev_ext. intros ao _.
    replace (x + p + comp DX (snd ao)) with (x + comp DX (snd ao) + p) by lia. apply H.
  Qed.
  Variables (o : fl) (sp : sptl) (tp : tmprl).
  Notation antiF := (antiF ar o sp tp).
  Notation fluxF := (fluxF ar o sp tp).
  Notation minF := (minF ar o sp tp).
  Notation maxF := (maxF ar o sp tp).
  Notation sumF := (sumF ar o sp tp).
  Ltac pr := intros; apply evx_per; intros []; auto.
  Lemma antiF_per psi C G N T : perF psi -> perF C -> perF G -> perF N -> perF T -> perF (antiF psi C G N T).
  Proof. pr. Qed.
  Lemma fluxF_per psi C : perF psi -> perF C -> perF (fluxF psi C).
  Proof. pr. Qed.
  Lemma minF_per psi : perF psi -> perF (minF psi).
  Proof. pr. Qed.
  Lemma maxF_per psi : perF psi -> perF (maxF psi).
  Proof. pr. Qed.
  Lemma sumF_per psi phi G : perF psi -> perF phi -> perF G -> perF (sumF psi phi G).
  Proof.
    intros H1 H2 H3 x. unfold Fun1D.sumF. destruct (khn o).
    - f_equal. f_equal. apply map_ext. intros e. apply evx_per. intros []; auto.
    - apply evx_per. intros []; auto.
  Qed.

  Variable X : fixed ar.
  Record perX : Prop := { perC : perF (xC ar X); perG : perF (xG ar X); perN : perF (xN ar X); perT : perF (xT ar X) }.
  Hypothesis PX : perX.
  Variables (rs : Z -> Z) (rv : bool -> Z -> Z).
  Hypothesis Hrs : forall f : fld, perF f -> (fun x => f (rs x)) == f.
  Hypothesis Hrv : forall ad (f : fld), perF f -> (fun x => f (rv ad x)) == f.
  Notation idv := (fun (_ : bool) (x : Z) => x).

  Lemma corrF_per last psi C : perF psi -> perF C -> perF (corrF ar o sp tp idv X last psi C).
  Proof.
    intros H1 H2. unfold corrF. destruct PX.
    destruct (fct o); [|destruct (dfl o && negb last)]; apply antiF_per; auto.
  Qed.
  Lemma limF_per psi c mn mx : perF psi -> perF c -> perF mn -> perF mx -> perF (limF ar o sp tp X psi c mn mx).
  Proof.
    intros H1 H2 H3 H4. unfold limF. destruct PX. destruct (fct o); auto.
    assert (perF (if iga o then c else fluxF psi c)) by (destruct (iga o); auto; apply fluxF_per; auto).
    apply evx_per. intros []; auto; apply evx_per; intros []; auto.
  Qed.
  Lemma finF_per psi c : perF psi -> perF c -> perF (finF ar o sp tp X psi c).
  Proof.
    intros H1 H2. unfold finF. destruct PX. apply sumF_per; auto. destruct (iga o); auto. apply fluxF_per; auto.
  Qed.
  Lemma upF_per psi : perF psi -> perF (upF ar o sp tp X psi).
  Proof. intros H. unfold upF. destruct PX. apply sumF_per; auto. apply fluxF_per; auto. Qed.
  Lemma passesF_per nit mn mx more : perF mn -> perF mx -> forall j psi C, perF psi -> perF C ->
    perF (passesF ar o sp tp (fun x => x) idv X nit mn mx j more psi C).
  Proof.
    intros Hn Hm. induction more as [|k IH]; intros j psi C H1 H2; [exact H1|]. cbn [passesF].
    pose proof (corrF_per (Nat.eqb (S j) nit) psi C H1 H2) as HC.
    apply IH; auto. apply finF_per; auto. apply limF_per; auto.
  Qed.
  Lemma scaleF_per k psi : perF psi -> perF (scaleF ar k psi).
  Proof. intros H x. unfold scaleF. rewrite H. reflexivity. Qed.
  Lemma stepF_per nit k ex psi : perF psi -> perF (stepF ar o sp tp (fun x => x) idv X nit k ex psi).
  Proof.
    intros H. unfold stepF. apply scaleF_per. pose proof (scaleF_per ex psi H) as H'.
    apply passesF_per; auto; [apply minF_per|apply maxF_per|apply upF_per|apply PX]; exact H'.
  Qed.

  (** folding does nothing to periodic fields *)
  Lemma corrF_fold last psi psi' C C' : psi == psi' -> C == C' -> perF psi' -> perF C' ->
    corrF ar o sp tp rv X last psi C == corrF ar o sp tp idv X last psi' C'.
  Proof.
    intros H1 H2 P1 P2 x. unfold corrF. destruct PX.
    assert (PA : perF (antiF psi' C' (xG ar X) (xN ar X) (xT ar X))) by (apply antiF_per; auto).
    destruct (fct o); [|destruct (dfl o && negb last)].
    - rewrite <- (Hrv true _ PA x). apply antiF_ext; auto.
    - rewrite <- (Hrv false _ PA x). apply antiF_ext; auto.
    - apply antiF_ext; auto.
  Qed.
  Lemma passesF_fold nit mn mn' mx mx' more : mn == mn' -> mx == mx' -> perF mn' -> perF mx' ->
    forall j psi psi' C C', psi == psi' -> C == C' -> perF psi' -> perF C' ->
    passesF ar o sp tp rs rv X nit mn mx j more psi C ==
    passesF ar o sp tp (fun x => x) idv X nit mn' mx' j more psi' C'.
  Proof.
    intros En Em Pn Pm. induction more as [|k IH]; intros j psi psi' C C' H1 H2 P1 P2; [exact H1|]. cbn [passesF].
    assert (EP : (fun x => psi (rs x)) == psi').
    { intros x. cbv beta. rewrite H1. apply (Hrs psi' P1). }
    pose proof (corrF_fold (Nat.eqb (S j) nit) _ _ C C' EP H2 P1 P2) as EC.
    pose proof (corrF_per (Nat.eqb (S j) nit) psi' C' P1 P2) as PC.
    apply IH; auto.
    - apply finF_ext; auto. apply limF_ext; auto.
    - apply finF_per; auto. apply limF_per; auto.
  Qed.
  Lemma stepF_fold nit k ex psi psi' : psi == psi' -> perF psi' ->
    stepF ar o sp tp rs rv X nit k ex psi == stepF ar o sp tp (fun x => x) idv X nit k ex psi'.
  Proof.
    intros H1 P1. unfold stepF.
    assert (EP : (fun x => scaleF ar ex psi (rs x)) == scaleF ar ex psi').
    { intros x. cbv beta. rewrite (scaleF_ext ar ex psi psi' H1). apply (Hrs _ (scaleF_per ex psi' P1)). }
    pose proof (scaleF_per ex psi' P1) as PS.
    apply scaleF_ext. apply passesF_fold.
    - apply minF_ext; auto.
    - apply maxF_ext; auto.
    - apply (minF_per (scaleF ar ex psi')); auto.
    - apply (maxF_per (scaleF ar ex psi')); auto.
    - apply upF_ext; auto.
    - reflexivity.
    - apply (upF_per (scaleF ar ex psi')); auto.
    - apply PX.
  Qed.
  Lemma stepsF_fold nit freq ex nt : forall ts psi psi', psi == psi' -> perF psi' ->
    stepsF ar o sp tp rs rv X nit freq ex nt ts psi ==
    stepsF ar o sp tp (fun x => x) idv X nit freq ex nt ts psi'.
  Proof.
    induction nt as [|n IH]; intros ts psi psi' E P0; [exact E|]. cbn [stepsF]. apply IH.
    - apply stepF_fold; auto.
    - apply stepF_per; auto.
  Qed.
End Per.

(** ** Cyclic runs *)
Definition cyc_rs (lo hi i : Z) : Z :=
  if (lo <=? i) && (i <=? hi) then i else if (hi <? i) && (i <=? hi + (hi - lo)) then i - (hi - lo) else wrap lo hi i.

Section CyclicF.
  Variables (r : run1) (n : nat).
  Hypothesis RK : run_ok r.
  Hypothesis Hn : (0 < n)%nat.
  Hypothesis Hs : Z.of_nat n <= r_hi r - r_lo r + 1.
  Hypothesis BL : r_bl r = Cyclic.
  Hypothesis BR : r_br r = Cyclic.
  Variable ar : arith.
  Notation mem := (loc -> car ar).
  Notation lo := (r_lo r).
  Notation hi := (r_hi r).
  Notation o := (r_o r).
  Notation per := (hi - lo).

  (** the fields of a cyclic problem, extended periodically *)
  Definition cycX (m : mem) : fixed ar :=
    let z := fun _ : Z => acst ar (CQ 0 1) in
    {| xC := fun x => face m (wrap lo hi x); xG := fun x => gfac m (wrap lo hi x); xN := z; xT := z |}.

  Lemma fper_wrap (f : Z -> car ar) x : perF ar per f -> f (wrap lo hi x) = f x.
  Proof.
    intros H. pose proof (lo_hi r RK) as L. unfold wrap.
    assert (Q : forall k y, f (y + k * per) = f y).
    { intros k. apply (Z.peano_ind (fun k => forall y, f (y + k * per) = f y)).
      - intros y. f_equal. lia.
      - intros z IH y. replace (y + Z.succ z * per) with (y + z * per + per) by lia. rewrite H. apply IH.
      - intros z IH y. rewrite <- (H (y + Z.pred z * per)). replace (y + Z.pred z * per + per) with (y + z * per) by lia. apply IH. }
    rewrite <- (Q ((x - lo) / per) (lo + (x - lo) mod per)). f_equal.
    pose proof (Z.div_mod (x - lo) per ltac:(lia)). lia.
  Qed.
  Lemma wrapf_per (f : Z -> car ar) : perF ar per (fun x => f (wrap lo hi x)).
  Proof. intros x. rewrite wrap_per; auto. apply lo_hi; auto. Qed.
  Lemma cycX_per m : perX ar per (cycX m).
  Proof. constructor; try (apply wrapf_per); intros x; reflexivity. Qed.

  Lemma stepsF_X o' sp tp rs rv (X X' : fixed ar) nit freq ex nt :
    (xC ar X == xC ar X') -> (nug o' = true -> xG ar X == xG ar X') -> (xN ar X == xN ar X') -> (xT ar X == xT ar X') ->
    forall ts psi psi', psi == psi' ->
    stepsF ar o' sp tp rs rv X nit freq ex nt ts psi == stepsF ar o' sp tp rs rv X' nit freq ex nt ts psi'.
  Proof.
    intros EC EG EN ET.
    assert (A1 : forall p p' C C', p == p' -> C == C' ->
      antiF ar o' sp tp p C (xG ar X) (xN ar X) (xT ar X) == antiF ar o' sp tp p' C' (xG ar X') (xN ar X') (xT ar X')).
    { intros p p' C C' Hp HC. destruct (nug o') eqn:En; [apply antiF_ext; auto|].
      intros x. transitivity (antiF ar o' sp tp p' C' (xG ar X) (xN ar X') (xT ar X') x); [apply antiF_ext; auto|].
      unfold antiF, forms1, f_antidiff, antidiff, TOT, DFL, div_3rd, div_3rd_upwind, div_2nd, div_3rd_spatial,
        div_3rd_spatial_helper, div_3rd_temporal, ndxx_psi_coeff, ndxx_psi, ndx_psi, nfdiv, nfdiv_fdiv, ndx_fdiv,
        fdiv_centre, ndtt_GC0, ndxx_GC0, ndx_GC0, GC0_bar_x, psi_bar_x, G_bar_x, pa, P, V, G1, Gx, frac. rewrite En.
      destruct (div2 o').
      - destruct (div3 o'); destruct (iga o'), (pfc o'); try reflexivity; destruct (oabs o'); try reflexivity;
          destruct sp, tp; reflexivity.
      - destruct (tot o'), (dfl o'), (iga o'), (pfc o'); try reflexivity; destruct (oabs o'); reflexivity. }
    assert (A2 : forall p p' f f', p == p' -> f == f' ->
      sumF ar o' sp tp p f (xG ar X) == sumF ar o' sp tp p' f' (xG ar X')).
    { intros p p' f f' Hp Hf. destruct (nug o') eqn:En; [apply sumF_ext; auto|].
      intros x. transitivity (sumF ar o' sp tp p' f' (xG ar X) x); [apply sumF_ext; auto|].
      unfold sumF, forms1, f_sum, f_terms, G1, Gx. rewrite En. reflexivity. }
    assert (A3 : forall p p' c c' mn mn' mx mx', p == p' -> c == c' -> mn == mn' -> mx == mx' ->
      limF ar o' sp tp X p c mn mx == limF ar o' sp tp X' p' c' mn' mx').
    { intros p p' c c' mn mn' mx mx' Hp Hc Hn0 Hm x.
      transitivity (limF ar o' sp tp X p' c' mn' mx' x); [apply limF_ext; auto|].
      unfold limF. destruct (fct o'); auto. apply monoF_ext; try reflexivity.
      - intros y. unfold bupF, forms1, f_bup, beta_up, G1, Gx, pospart, negpart. destruct (nug o') eqn:En; [|destruct (npa o'); reflexivity].
        apply evx_ext. intros [] ?; auto.
      - intros y. unfold bdnF, forms1, f_bdn, beta_dn, G1, Gx, pospart, negpart. destruct (nug o') eqn:En; [|destruct (npa o'); reflexivity].
        apply evx_ext. intros [] ?; auto. }
    assert (A4 : forall p p' c c', p == p' -> c == c' -> finF ar o' sp tp X p c == finF ar o' sp tp X' p' c').
    { intros p p' c c' Hp Hc. unfold finF. apply A2; auto. destruct (iga o'); auto. apply fluxF_ext; auto. }
    assert (A5 : forall last p p' c c', p == p' -> c == c' -> corrF ar o' sp tp rv X last p c == corrF ar o' sp tp rv X' last p' c').
    { intros last p p' c c' Hp Hc x. unfold corrF. destruct (fct o'); [|destruct (dfl o' && negb last)]; apply A1; auto. }
    assert (A6 : forall mn mn' mx mx' more, mn == mn' -> mx == mx' -> forall j p p' C C', p == p' -> C == C' ->
      passesF ar o' sp tp rs rv X nit mn mx j more p C == passesF ar o' sp tp rs rv X' nit mn' mx' j more p' C').
    { intros mn mn' mx mx' more Hn0 Hm. induction more as [|k IH]; intros j p p' C C' Hp HC; [exact Hp|]. cbn [passesF].
      apply IH.
      - apply A4; auto.
      - apply A5; auto. }
    induction nt as [|k IH]; intros ts psi psi' E; [exact E|]. cbn [stepsF]. apply IH.
    unfold stepF.
    assert (EP : (fun x => scaleF ar ex psi (rs x)) == (fun x => scaleF ar ex psi' (rs x))).
    { intros x. apply scaleF_ext. exact E. }
    apply scaleF_ext. apply A6; auto.
    - apply minF_ext; auto.
    - apply maxF_ext; auto.
    - unfold upF. apply A2; auto. apply fluxF_ext; auto.
  Qed.

  Theorem cyclic_fun nt (m m' : mem) : no_stale o (r_nit r) = true ->
    cyclic_data lo hi (n_eqns (r_cfg r)) (nug o) m ->
    can_end loc_eq_dec ar n (program1 r n nt) m m' ->
    forall e i, (e < n_eqns (r_cfg r))%nat -> lo <= i <= hi ->
      cell m' e (newest r nt) i =
      stepsF ar o (r_sp r) (r_tp r) (fun x => x) (fun _ x => x) (cycX m)
        (r_nit r) (r_freq r) (r_scale r e) nt 0 (fun x => cell m e false (wrap lo hi x)) i.
  Proof.
    intros NS CD CE e i He Hi. pose proof (lo_hi r RK) as L. pose proof (halo_le r RK) as [H1 H2].
    set (f := fun l : loc => match snd (fst l) with
      | NdtGC _ | NdttGC _ => acst ar (CQ 0 1) | _ => ext_field r ar m l end).
    set (rs := cyc_rs lo hi). set (rv := fun (_ : bool) => wrap lo hi).
    assert (W : forall a k, lo <= k <= hi -> ext_field r ar m (a, (k, 0, 0)) = m (a, (wrap lo hi k, 0, 0))) by reflexivity.
    assert (FL : flat ar f).
    { intros [ea a] x y z. unfold f. cbn [fst snd]. destruct a; reflexivity. }
    assert (SD : same_data lo hi (n_eqns (r_cfg r)) (nug o) m f).
    { pose proof (ext_same r RK ar m CD) as [S1 [S2 S3]]. split; [|split].
      - intros e0 j He0 Hj. rewrite S1 by auto. reflexivity.
      - intros j Hj. rewrite S2 by auto. reflexivity.
      - intros N j Hj. rewrite S3 by auto. reflexivity. }
    assert (WA : forall j, lo - r_halo r <= j < lo -> wrap lo hi j = j + per).
    { intros j Hj. rewrite <- (wrap_per r j L), (wrap_id r) by lia. reflexivity. }
    assert (WB : forall j, hi <= j <= hi + r_halo r - 1 -> wrap lo hi j = j - per).
    { intros j Hj. rewrite <- (wrap_id r (j - per)), <- (wrap_per r (j - per) L) by lia. f_equal. lia. }
    rewrite (fold_run r n RK Hn Hs ar rs rv) with (m := m) (f := f) (nt := nt); auto.
    - rewrite (stepsF_X _ _ _ _ _ _ (cycX m)) with (psi' := fun x => cell m e false (wrap lo hi x)).
      + apply (stepsF_fold ar per o (r_sp r) (r_tp r) (cycX m) (cycX_per m)); auto.
        * intros g0 Pg x. unfold rs, cyc_rs. destruct ((lo <=? x) && (x <=? hi)); auto.
          destruct ((hi <? x) && _); [|apply fper_wrap; auto].
          rewrite <- (Pg (x - per)). f_equal. lia.
        * intros ad g0 Pg x. unfold rv. apply fper_wrap; auto.
        * apply wrapf_per.
      + intros x. cbn [anteF xC cycX]. unfold rv, f, face, ext_field. cbn [fst snd comp].
        rewrite fper_wrap with (f := fun x => m (0%nat, GC DX, (wrap lo hi x, 0, 0))); auto.
        intros y. rewrite wrap_per; auto.
      + intros Hg x. cbn [anteF xG cycX]. rewrite Hg. unfold rs, f, gfac, ext_field, cyc_rs. cbn [fst snd comp].
        destruct ((lo <=? x) && (x <=? hi)); auto.
        destruct ((hi <? x) && _).
        { assert (E : wrap lo hi (x - per) = wrap lo hi x) by (rewrite <- (wrap_per r (x - per) L); f_equal; lia).
          rewrite E. reflexivity. }
        rewrite fper_wrap with (f := fun x => m (0%nat, Gf, (wrap lo hi x, 0, 0))); auto.
        intros y. rewrite wrap_per; auto.
      + intros x. cbn [anteF xN cycX]. destruct (div3dt o || div3 o); reflexivity.
      + intros x. cbn [anteF xT cycX]. destruct (div3dt o || div3 o); reflexivity.
      + intros x. reflexivity.
    - intros j Hj. unfold rs, cyc_rs, src_s. rewrite BL, BR.
      destruct (lo <=? j) eqn:C1, (j <=? hi) eqn:C2; cbn [andb].
      + replace (j <? lo) with false by lia. replace (hi <? j) with false by lia. reflexivity.
      + replace (j <? lo) with false by lia. replace (hi <? j) with true by lia. cbn [andb].
        replace (j <=? hi + per) with true by lia. reflexivity.
      + replace (hi <? j) with false by lia. cbn [andb]. rewrite WA by lia. replace (j <? lo) with true by lia. reflexivity.
      + lia.
    - intros ad j Hj. unfold rv, src_v. rewrite BL, BR.
      destruct (j <? lo) eqn:C1; [apply WA; lia|].
      destruct (hi - 1 <? j) eqn:C2; [apply WB; lia|]. apply wrap_id. lia.
  Qed.
End CyclicF.
