(** The one-dimensional solver: thread independence. *)

From Coq Require Import ZArith List Bool Lia ZifyBool.
From Verif Require Import SpecIndex ModelIndex ProofsIndex ModelRun Lang ProofsLang Stencil ProofsStencil
  FormCommon Form1D Solver1D Macro ProofsMacro Foot1D.
Import ListNotations.
Local Open Scope Z_scope.

(** ** Programs built from covered formulae are covered *)
Section Cov.
  Variables (o : fl) (F F' : forms).
  Hypothesis C : forms_cov [DX] F F'.
  Notation inX := (or_introl eq_refl : In DX [DX]).

  Lemma at1_cov a r e e' : incl (leaves e) (leaves e') -> mcov (MDo (at1 a r e)) (MDo (at1 a r e')).
  Proof. intros H. constructor. repeat split; auto. Qed.

  Lemma bin_incl op (a b a' b' : sexpr) : incl (leaves a) (leaves a') -> incl (leaves b) (leaves b') ->
    incl (leaves (Bin op a b)) (leaves (Bin op a' b')).
  Proof. intros H1 H2. cbn. apply incl_app; [apply incl_appl|apply incl_appr]; auto. Qed.

  Lemma sum1_cov b psi' v : In v vecs ->
    Forall2 mcov (sum1 o F (Psi b) psi' v) (sum1 o F' (Psi b) psi' v).
  Proof.
    intros Hv. unfold sum1. destruct (khn o).
    - rewrite !map_app. apply Forall2_app.
      + cbn. repeat constructor; apply incl_refl.
      + induction (c_terms _ _ _ C b v Hv); cbn [flat_map map]; [constructor|].
        rewrite !map_app. apply Forall2_app; auto. cbn [kahan_add map].
        repeat (apply Forall2_cons; [apply at1_cov; repeat (apply bin_incl); auto using incl_refl|]). apply Forall2_nil.
    - constructor; [|constructor]. apply at1_cov. apply C; auto.
  Qed.

  Lemma fct_init1_cov b : Forall2 mcov (fct_init1 o F (Psi b)) (fct_init1 o F' (Psi b)).
  Proof.
    unfold fct_init1. destruct (fct o); [|constructor].
    repeat constructor; apply C.
  Qed.

  Lemma upstream1_cov b psi' : Forall2 mcov (upstream1 o F (Psi b) psi') (upstream1 o F' (Psi b) psi').
  Proof.
    unfold upstream1. constructor; [|apply sum1_cov; cbn; auto 10].
    apply at1_cov. apply (c_flux _ _ _ C DX b GC); cbn; auto.
  Qed.

  Lemma fct_adjust1_cov b corr : In corr vecs ->
    Forall2 mcov (fct_adjust1 o F (Psi b) corr) (fct_adjust1 o F' (Psi b) corr).
  Proof.
    intros Hv. unfold fct_adjust1. destruct (fct o); [|constructor].
    apply Forall2_app; [repeat constructor|].
    assert (HF : In (Flux : dim -> arr) vecs) by (cbn; auto 10).
    destruct (iga o); cbn [app];
      repeat first [apply Forall2_cons | apply Forall2_nil];
      first [apply at1_cov | apply mcov_refl];
      first [apply (c_flux _ _ _ C DX b corr) | apply (c_mono _ _ _ C DX b corr) | apply C];
      cbn; auto.
  Qed.

  Lemma corrective1_cov b unco corr last : In unco vecs -> In corr vecs ->
    Forall2 mcov (corrective1 o F (Psi b) (Psi (negb b)) unco corr last)
                 (corrective1 o F' (Psi b) (Psi (negb b)) unco corr last).
  Proof.
    intros Hu Hc. unfold corrective1.
    apply Forall2_app; [constructor; [|constructor]; apply at1_cov; apply C; cbn; auto|].
    apply Forall2_app; [destruct (dfl o && negb last && negb (fct o)); repeat constructor|].
    apply Forall2_app; [apply fct_adjust1_cov; auto|].
    assert (HF : In (Flux : dim -> arr) vecs) by (cbn; auto 10).
    assert (HM : In (if fct o then Mono else corr) vecs) by (destruct (fct o); cbn; auto 10).
    cbv zeta. destruct (iga o); [apply sum1_cov; auto|].
    constructor; [|apply sum1_cov; auto].
    apply at1_cov. apply (c_flux _ _ _ C DX b (if fct o then Mono else corr)); cbn; auto.
  Qed.
End Cov.

(** ** Phases of the canonical programs, for all options *)
Definition kinds : list ((dim -> arr) * (dim -> arr)) :=
  [ (GC : dim -> arr, Cor true); (Cor true, Cor false); (Cor false, Cor true) ].

Lemma kinds_of j : (0 < j)%nat -> In (GC_unco j, GC_corr j) kinds.
Proof.
  intros Hj. unfold GC_unco, GC_corr, kinds. destruct (Nat.eqb_spec j 1) as [->|N]; [cbn; auto|].
  destruct (Nat.odd j); cbn; auto.
Qed.

Definition keep1 (o : fl) : fl :=
  mkfl (fct o) false (tot o) false false (iga o) (nug o) (dfl o) (khn o) (div2 o) (div3 o) false false.

Definition all_fl8 (p : fl -> bool) : bool :=
  forallb (fun fc => forallb (fun to => forallb (fun ig => forallb (fun nu => forallb (fun df => forallb (fun kh =>
  forallb (fun d2 => forallb (fun d3 => p (mkfl fc false to false false ig nu df kh d2 d3 false false))
  bools) bools) bools) bools) bools) bools) bools) bools.
Lemma all_fl8_sound p : all_fl8 p = true -> forall o, p (keep1 o) = true.
Proof.
  unfold all_fl8, keep1. intros C [fc ab to pf np ig nu df kh d2 d3 dt fo]. cbn.
  spec_bool C fc. spec_bool C to. spec_bool C ig. spec_bool C nu. spec_bool C df. spec_bool C kh.
  spec_bool C d2. spec_bool C d3. exact C.
Qed.

Definition phases1_check (o : fl) : bool :=
  forallb (fun b =>
    let up := fct_init1 o (canon1 o) (Psi b) ++ upstream1 o (canon1 o) (Psi b) (Psi (negb b)) in
    mphases_check DX up && mslab_check DX up &&
    forallb (fun k => forallb (fun l =>
      let co := corrective1 o (canon1 o) (Psi b) (Psi (negb b)) (fst k) (snd k) l in
      mphases_check DX co && mslab_check DX co) bools) kinds) bools.

Lemma phases1_check_all : all_fl8 phases1_check = true.
Proof. vm_compute. reflexivity. Qed.
