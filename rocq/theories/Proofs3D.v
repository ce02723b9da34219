(** The three-dimensional solver: programs built from covered formulae are covered. *)
From Coq Require Import ZArith List Bool Lia ZifyBool.
From Verif Require Import SpecIndex ModelIndex ProofsIndex ModelRun Lang ProofsLang Stencil ProofsStencil
  FormCommon Form3D Solver1D Solver3D Macro ProofsMacro Foot1D Foot3D Proofs1D.
Import ListNotations.
Local Open Scope Z_scope.

Section Cov.
  Variables (o : fl) (F F' : forms).
  Hypothesis C : forms_cov ds3 F F'.
  Lemma in_ds3 d : In d ds3. Proof. destruct d; cbn; auto. Qed.

  Lemma at3_cov a rx ry rz e e' : incl (leaves e) (leaves e') -> mcov (MDo (at3 a rx ry rz e)) (MDo (at3 a rx ry rz e')).
  Proof. intros H. constructor. repeat split; auto. Qed.

  Lemma sum3_cov b psi' v : In v vecs ->
    Forall2 mcov (sum3 o F (Psi b) psi' v) (sum3 o F' (Psi b) psi' v).
  Proof.
    intros Hv. unfold sum3. destruct (khn o).
    - rewrite !map_app. apply Forall2_app.
      + cbn. repeat constructor; apply incl_refl.
      + induction (c_terms _ _ _ C b v Hv); cbn [flat_map map]; [constructor|].
        rewrite !map_app. apply Forall2_app; auto. cbn [kahan_add map].
        repeat (apply Forall2_cons; [apply at3_cov; repeat (apply bin_incl); auto using incl_refl|]). apply Forall2_nil.
    - constructor; [|constructor]. apply at3_cov. apply C; auto.
  Qed.

  Lemma fct_init3_cov b : Forall2 mcov (fct_init3 o F (Psi b)) (fct_init3 o F' (Psi b)).
  Proof.
    unfold fct_init3. destruct (fct o); [|constructor].
    repeat constructor; apply C.
  Qed.

  Lemma faces3_cov a e e' : (forall d, incl (leaves (e d)) (leaves (e' d))) -> Forall2 mcov (faces3 a e) (faces3 a e').
  Proof. intros H. unfold faces3. repeat (apply Forall2_cons; [apply at3_cov; apply H|]). apply Forall2_nil. Qed.

  Lemma flux3_cov b v : In v vecs -> Forall2 mcov (flux3 F (Psi b) v) (flux3 F' (Psi b) v).
  Proof. intros Hv. apply faces3_cov. intros d. apply (c_flux _ _ _ C d b v); auto using in_ds3. Qed.

  Lemma upstream3_cov b psi' : Forall2 mcov (upstream3 o F (Psi b) psi') (upstream3 o F' (Psi b) psi').
  Proof.
    unfold upstream3. apply Forall2_app; [apply flux3_cov; cbn; auto|].
    constructor; [constructor|]. apply sum3_cov; cbn; auto 10.
  Qed.

  Lemma fct_adjust3_cov b corr : In corr vecs ->
    Forall2 mcov (fct_adjust3 o F (Psi b) corr) (fct_adjust3 o F' (Psi b) corr).
  Proof.
    intros Hv. unfold fct_adjust3. destruct (fct o); [|constructor].
    apply Forall2_app; [repeat constructor|].
    assert (HF : In (Flux : dim -> arr) vecs) by (cbn; auto 10).
    assert (M : Forall2 mcov (faces3 Mono (fun d => f_mono F d (Psi b) (corr d))) (faces3 Mono (fun d => f_mono F' d (Psi b) (corr d)))).
    { apply faces3_cov. intros d. apply (c_mono _ _ _ C _ b corr); auto using in_ds3. }
    pose proof (in_ds3 DX) as iX. pose proof (in_ds3 DY) as iY. pose proof (in_ds3 DZ) as iZ.
    cbv zeta. destruct (iga o); cbn [app].
    - apply Forall2_cons; [apply at3_cov; apply C; auto|]. apply Forall2_cons; [apply at3_cov; apply C; auto|]. exact M.
    - do 3 (apply Forall2_cons; [apply at3_cov; apply (c_flux _ _ _ C _ b corr); auto|]).
      do 2 (apply Forall2_cons; [apply at3_cov; apply C; auto|]).
      apply Forall2_cons; [apply mcov_refl|exact M].
  Qed.

  Lemma corrective3_cov b unco corr last : In unco vecs -> In corr vecs ->
    Forall2 mcov (corrective3 o F (Psi b) (Psi (negb b)) unco corr last)
                 (corrective3 o F' (Psi b) (Psi (negb b)) unco corr last).
  Proof.
    intros Hu Hc. unfold corrective3.
    apply Forall2_app; [apply faces3_cov; intros d; apply C; auto using in_ds3|].
    apply Forall2_app; [destruct (div3dt o); repeat constructor|].
    apply Forall2_app; [destruct (negb (fct o) && negb last); [|constructor]; destruct (dfl o); repeat constructor|].
    apply Forall2_app; [apply fct_adjust3_cov; auto|].
    assert (HF : In (Flux : dim -> arr) vecs) by (cbn; auto 10).
    assert (HM : In (if fct o then Mono else corr) vecs) by (destruct (fct o); cbn; auto 10).
    cbv zeta. destruct (iga o).
    - apply Forall2_app; [repeat constructor|]. apply sum3_cov; auto.
    - apply Forall2_app; [apply flux3_cov; auto|]. constructor; [constructor|]. apply sum3_cov; auto.
  Qed.
End Cov.
