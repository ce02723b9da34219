(** The two-dimensional solver: phases of the programs. *)
From Coq Require Import ZArith List Bool Lia ZifyBool.
From Verif Require Import SpecIndex ModelIndex ProofsIndex ModelRun Lang ProofsLang Stencil ProofsStencil
  FormCommon Form2D Solver1D Solver2D Macro ProofsMacro Foot1D Foot2D Proofs1D.
Import ListNotations.
Local Open Scope Z_scope.

(** ** Programs built from covered formulae are covered *)
Section Cov.
  Variables (o : fl) (F F' : forms).
  Hypothesis C : forms_cov [DX; DY] F F'.
  Lemma in_DX : In DX [DX; DY]. Proof. cbn; auto. Qed.
  Lemma in_DY : In DY [DX; DY]. Proof. cbn; auto. Qed.

  Lemma at2_cov a rx ry e e' : incl (leaves e) (leaves e') -> mcov (MDo (at2 a rx ry e)) (MDo (at2 a rx ry e')).
  Proof. intros H. constructor. repeat split; auto. Qed.

  Lemma sum2_cov b psi' v : In v vecs ->
    Forall2 mcov (sum2 o F (Psi b) psi' v) (sum2 o F' (Psi b) psi' v).
  Proof.
    intros Hv. unfold sum2. destruct (khn o).
    - rewrite !map_app. apply Forall2_app.
      + cbn. repeat constructor; apply incl_refl.
      + induction (c_terms _ _ _ C b v Hv); cbn [flat_map map]; [constructor|].
        rewrite !map_app. apply Forall2_app; auto. cbn [kahan_add map].
        repeat (apply Forall2_cons; [apply at2_cov; repeat (apply bin_incl); auto using incl_refl|]). apply Forall2_nil.
    - constructor; [|constructor]. apply at2_cov. apply C; auto.
  Qed.

  Lemma fct_init2_cov b : Forall2 mcov (fct_init2 o F (Psi b)) (fct_init2 o F' (Psi b)).
  Proof.
    unfold fct_init2. destruct (fct o); [|constructor].
    repeat constructor; apply C.
  Qed.

  Lemma flux2_cov b v : In v vecs -> Forall2 mcov (flux2 F (Psi b) v) (flux2 F' (Psi b) v).
  Proof.
    intros Hv. unfold flux2.
    constructor; [apply at2_cov; apply (c_flux _ _ _ C DX b v); auto using in_DX|].
    constructor; [apply at2_cov; apply (c_flux _ _ _ C DY b v); auto using in_DY|constructor].
  Qed.

  Lemma upstream2_cov b psi' : Forall2 mcov (upstream2 o F (Psi b) psi') (upstream2 o F' (Psi b) psi').
  Proof.
    unfold upstream2. apply Forall2_app; [apply flux2_cov; cbn; auto|].
    constructor; [constructor|]. apply sum2_cov; cbn; auto 10.
  Qed.

  Lemma fct_adjust2_cov b corr : In corr vecs ->
    Forall2 mcov (fct_adjust2 o F (Psi b) corr) (fct_adjust2 o F' (Psi b) corr).
  Proof.
    intros Hv. unfold fct_adjust2. destruct (fct o); [|constructor].
    apply Forall2_app; [repeat constructor|].
    assert (HF : In (Flux : dim -> arr) vecs) by (cbn; auto 10).
    pose proof in_DX as iX. pose proof in_DY as iY.
    destruct (iga o); cbn [app];
      repeat first [apply Forall2_cons | apply Forall2_nil];
      first [apply at2_cov | apply mcov_refl];
      first [apply (c_flux _ _ _ C _ b corr) | apply (c_mono _ _ _ C _ b corr) | apply C]; auto.
  Qed.

  Lemma corrective2_cov b unco corr last : In unco vecs -> In corr vecs ->
    Forall2 mcov (corrective2 o F (Psi b) (Psi (negb b)) unco corr last)
                 (corrective2 o F' (Psi b) (Psi (negb b)) unco corr last).
  Proof.
    intros Hu Hc. unfold corrective2. pose proof in_DX as iX. pose proof in_DY as iY.
    apply Forall2_app.
    { constructor; [apply at2_cov; apply C; auto|]. constructor; [apply at2_cov; apply C; auto|constructor]. }
    apply Forall2_app; [destruct (div3dt o); repeat constructor|].
    apply Forall2_app; [destruct (negb (fct o) && negb last); [|constructor]; destruct (dfl o); repeat constructor|].
    apply Forall2_app; [apply fct_adjust2_cov; auto|].
    assert (HF : In (Flux : dim -> arr) vecs) by (cbn; auto 10).
    assert (HM : In (if fct o then Mono else corr) vecs) by (destruct (fct o); cbn; auto 10).
    cbv zeta. destruct (iga o).
    - apply Forall2_app; [repeat constructor|]. apply sum2_cov; auto.
    - apply Forall2_app; [apply flux2_cov; auto|]. constructor; [constructor|]. apply sum2_cov; auto.
  Qed.
End Cov.

(** ** Phases of the canonical programs, for all options *)
Definition keep2 (o : fl) : fl :=
  mkfl (fct o) false (tot o) false false (iga o) (nug o) (dfl o) (khn o) (div2 o) (div3 o) (div3dt o) false.

Definition all_fl9k (p : fl -> bool) : bool :=
  forallb (fun fc => forallb (fun to => forallb (fun ig => forallb (fun nu => forallb (fun df => forallb (fun kh =>
  forallb (fun d2 => forallb (fun d3 => forallb (fun dt => p (mkfl fc false to false false ig nu df kh d2 d3 dt false))
  bools) bools) bools) bools) bools) bools) bools) bools) bools.
Lemma all_fl9k_sound p : all_fl9k p = true -> forall o, p (keep2 o) = true.
Proof.
  unfold all_fl9k, keep2. intros C [fc ab to pf np ig nu df kh d2 d3 dt fo]. cbn.
  spec_bool C fc. spec_bool C to. spec_bool C ig. spec_bool C nu. spec_bool C df. spec_bool C kh.
  spec_bool C d2. spec_bool C d3. spec_bool C dt. exact C.
Qed.

Definition phases2_check (o : fl) : bool :=
  if fct o && negb (iga o) then true else
  forallb (fun b =>
    let up := fct_init2 o (canon2 o) (Psi b) ++ upstream2 o (canon2 o) (Psi b) (Psi (negb b)) in
    mphases_check DX up && mslab_check DX up &&
    forallb (fun k => forallb (fun l =>
      let co := corrective2 o (canon2 o) (Psi b) (Psi (negb b)) (fst k) (snd k) l in
      mphases_check DX co && mslab_check DX co) bools) kinds) bools.

Lemma phases2_check_all : all_fl9k phases2_check = true.
Proof. vm_compute. reflexivity. Qed.
