(** The functions of FunN.v on periodic fields; conservation. *)
From Coq Require Import ZArith List Bool Lia ZifyBool Reals Lra.
From Verif Require Import ModelRun Lang ProofsLang Stencil FormCommon Solver1D Fun1D FunN Arith SpecReal
  ProofsReal1D ProofsFunN ProofsNumN.
Import ListNotations.

Lemma iadd_assoc a b c : iadd (iadd a b) c = iadd a (iadd b c).
Proof. destruct a as [[? ?] ?], b as [[? ?] ?], c as [[? ?] ?]. unfold iadd, comp. cbn [fst snd]. apply f_equal2; [apply f_equal2|]; lia. Qed.
Lemma iadd_comm a b : iadd a b = iadd b a.
Proof. destruct a as [[? ?] ?], b as [[? ?] ?]. unfold iadd, comp. cbn [fst snd]. apply f_equal2; [apply f_equal2|]; lia. Qed.

Section Per.
  Variable ar : arith.
  Notation fld := (idx -> car ar).
  Notation vec := (dim -> idx -> car ar).
  (** periodic with the periods [vs] *)
  Variable vs : list idx.
  Definition perN (f : fld) : Prop := forall v, In v vs -> forall x, f (iadd x v) = f x.

  Lemma evd_per (env : arr -> fld) e : (forall a, perN (env a)) -> perN (evd ar env e).
  Proof.
    intros H v Hv x. unfold evd. apply ev_ext. intros ao _.
    replace (iadd (iadd x v) (snd ao)) with (iadd (iadd x (snd ao)) v); [apply H; auto|].
    rewrite !iadd_assoc, (iadd_comm v). reflexivity.
  Qed.
  Variables (o : fl) (F : forms).
  Definition perV (C : vec) : Prop := forall d, perN (C d).
  Ltac pr := intros; apply evd_per; intros []; try match goal with |- context [match ?b with true => _ | false => _ end] => destruct b end; auto.
  Lemma antiN_per psi psin C G N T : perN psi -> perN psin -> perV C -> perN G -> perV N -> perV T ->
    perV (antiN ar F psi psin C G N T).
  Proof. intros ? ? ? ? ? ? d. pr. Qed.
  Lemma fluxN_per psi C : perN psi -> perV C -> perV (fluxN ar F psi C).
  Proof. intros ? ? d. pr. Qed.
  Lemma minN_per psi : perN psi -> perN (minN ar F psi).
  Proof. pr. Qed.
  Lemma maxN_per psi : perN psi -> perN (maxN ar F psi).
  Proof. pr. Qed.
  Lemma sumN_per psi phi G : perN psi -> perV phi -> perN G -> perN (sumN ar o F psi phi G).
  Proof.
    intros H1 H2 H3 v Hv x. unfold sumN. destruct (khn o).
    - f_equal. f_equal. apply map_ext. intros e. apply evd_per; auto. intros []; auto.
    - apply evd_per; auto. intros []; auto.
  Qed.
  Variable X : fixedN ar.
  Record perXN : Prop := { pnC : perV (nC ar X); pnG : perN (nG ar X); pnN : perV (nN ar X); pnT : perV (nT ar X) }.
  Hypothesis PX : perXN.
  Lemma corrN_per psi psin C : perN psi -> perN psin -> perV C -> perV (corrN ar F X psi psin C).
  Proof. intros. destruct PX. apply antiN_per; auto. Qed.
  Lemma limN_per psi c mn mx : perN psi -> perV c -> perN mn -> perN mx -> perV (limN ar o F X psi c mn mx).
  Proof.
    intros H1 H2 H3 H4. unfold limN. destruct PX. destruct (fct o); auto.
    assert (perV (if iga o then c else fluxN ar F psi c)) by (destruct (iga o); auto; apply fluxN_per; auto).
    intros d. apply evd_per. intros []; auto; apply evd_per; intros []; auto.
  Qed.
  Lemma outf_per psi c : perN psi -> perV c -> perV (if iga o then c else fluxN ar F psi c).
  Proof. intros. destruct (iga o); auto. apply fluxN_per; auto. Qed.
  Lemma finN_per psi c : perN psi -> perV c -> perN (finN ar o F X psi c).
  Proof. intros H1 H2. unfold finN. destruct PX. apply sumN_per; auto. apply outf_per; auto. Qed.
  Lemma upN_per psi : perN psi -> perN (upN ar o F X psi).
  Proof. intros H. unfold upN. destruct PX. apply sumN_per; auto. apply fluxN_per; auto. Qed.
  Lemma passesN_per mn mx more : perN mn -> perN mx -> forall psin psi C, perN psin -> perN psi -> perV C ->
    perN (passesN ar o F X mn mx more psin psi C).
  Proof.
    intros Hn Hm. induction more as [|k IH]; intros psin psi C H0 H1 H2; [exact H1|]. cbn [passesN].
    pose proof (corrN_per psi psin C H1 H0 H2) as HC.
    apply IH; auto. apply finN_per; auto. apply limN_per; auto.
  Qed.
  Lemma scaleN_per k psi : perN psi -> perN (scaleN ar k psi).
  Proof. intros H v Hv x. unfold scaleN. rewrite H by auto. reflexivity. Qed.
  Lemma stepN_per k ex psi : perN psi -> perN (stepN ar o F X k ex psi).
  Proof.
    intros H. unfold stepN. apply scaleN_per. pose proof (scaleN_per ex psi H) as H'.
    apply passesN_per; auto; [apply minN_per|apply maxN_per|apply upN_per|apply PX]; exact H'.
  Qed.
  Lemma stepsN_per nit freq ex nt : forall ts psi, perN psi -> perN (stepsN ar o F X nit freq ex nt ts psi).
  Proof. induction nt as [|n IH]; intros ts psi H; cbn [stepsN]; auto. apply IH. apply stepN_per. exact H. Qed.
End Per.

Local Open Scope R_scope.
Section Mass.
  Variables eps tiny : R.
  Notation AR := (arithR eps tiny).
  Variables (o : fl) (F : forms) (ds : list dim).
  Hypothesis CF : closed o ds eps tiny F.
  Variable X : fixedN AR.
  Variable vs : list idx.
  Notation P := (perN AR vs).
  Hypothesis PX : perXN AR vs X.
  Notation g := (gN o (nG AR X)).
  Variable tot : (idx -> R) -> R.
  Hypothesis tot_ext : forall f f', (forall x, f x = f' x) -> tot f = tot f'.
  Hypothesis tot_lin : forall a b f f', tot (fun x => a * f x + b * f' x) = a * tot f + b * tot f'.
  Hypothesis tot_shift : forall d f, In d ds -> P f -> tot (fun x => f (pv d x)) = tot f.
  Hypothesis g0 : forall x, g x <> 0.
  Notation mass f := (tot (fun x => g x * f x)).

  Lemma mass_stepN k ex psi : P psi -> mass (stepN AR o F X k ex psi) = mass psi.
  Proof.
    intros H. unfold stepN. rewrite (mass_scaleN eps tiny o X tot tot_ext tot_lin).
    pose proof (scaleN_per AR vs ex psi H) as PS. set (p := scaleN AR ex psi) in *.
    rewrite (mass_passesN eps tiny o F ds CF X P tot tot_ext tot_lin tot_shift g0).
    - unfold upN. rewrite (mass_sumN eps tiny o F ds CF X P tot tot_ext tot_lin tot_shift g0).
      + unfold p. rewrite (mass_scaleN eps tiny o X tot tot_ext tot_lin), <- Rmult_assoc, sc_inv. ring.
      + intros d _. apply fluxN_per; auto. apply PX.
    - intros psin q C HC Hq Hqn c phi.
      assert (PC : perV AR vs c) by (apply corrN_per; auto).
      assert (PL : perV AR vs phi).
      { apply limN_per; auto; [apply minN_per|apply maxN_per]; exact PS. }
      split; [exact PC|]. split; [apply outf_per; auto|apply finN_per; auto].
    - apply PX.
    - apply upN_per; auto.
    - exact PS.
  Qed.
  Lemma mass_stepsN nit freq ex nt : forall ts psi, P psi -> mass (stepsN AR o F X nit freq ex nt ts psi) = mass psi.
  Proof.
    induction nt as [|n IH]; intros ts psi H; [reflexivity|]. cbn [stepsN]. rewrite IH.
    - apply mass_stepN; auto.
    - apply stepN_per; auto.
  Qed.
End Mass.
