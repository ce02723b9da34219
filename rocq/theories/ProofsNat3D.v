(** The three-dimensional formulae as functions of the fields they read. *)
From Coq Require Import ZArith List Bool Lia ZifyBool.
From Verif Require Import SpecIndex ModelIndex ModelRun Lang ProofsLang Stencil ProofsStencil
  FormCommon Form3D Solver1D Solver3D Macro ProofsMacro Foot1D Foot3D Lattice Fun1D ProofsFun1D FunN ProofsFunN ProofsRen2D ProofsRen3D.
Import ListNotations.
Local Open Scope Z_scope.

Lemma in_box3 d a is js ks b i : In (b, i) (box3 d a is js ks) -> b = a.
Proof.
  unfold box3. intros H. apply in_flat_map in H. destruct H as (x & _ & H). apply in_flat_map in H.
  destruct H as (y & _ & H). apply in_map_iff in H. destruct H as (z & E & _). inversion E. reflexivity.
Qed.

Lemma all_dims d : In d ds3.
Proof. destruct d; cbn; auto. Qed.

Section Nat.
  Variables (ar : arith) (o : fl) (sp : sptl) (tp : tmprl).
  Hypothesis OK : fl_ok3 o = true.
  Notation F := (forms3 o sp tp).
  Notation ds := [DX; DY; DZ].

  Lemma anti_leaves3 d a i : In (a, i) (leaves (f_antidiff F d (Psi false) (Psi true) GC)) ->
    match a with Psi _ | Gf => True | GC d' | NdtGC d' | NdttGC d' => In d' ds | _ => False end.
  Proof.
    intros H. apply (anti3_cov o sp tp d _ _ _ OK) in H.
    cbn [canon3 f_antidiff] in H. rewrite leaves_mk3 in H.
    rewrite !in_app_iff in H. destruct H as [H|[H|[H|[H|[H|[H|H]]]]]].
    - apply in_box3 in H. subst. exact I.
    - destruct (dt3 o); [|destruct H]. apply in_box3 in H. subst. exact I.
    - apply in_box3 in H. subst. apply all_dims.
    - apply in_box3 in H. subst. apply all_dims.
    - apply in_box3 in H. subst. apply all_dims.
    - destruct (nug o); [|destruct H]. apply in_box3 in H. subst. exact I.
    - destruct (div3 o || dt3 o); [|destruct H].
      rewrite !in_app_iff in H; destruct H as [H|[H|[H|H]]]; apply in_box3 in H; subst; apply all_dims.
  Qed.

  Lemma anti_ren3 d psi psin v : f_antidiff F d psi psin v =
    Rn (fun a => match a with Psi false => psi | Psi true => psin | GC d => v d | b => b end)
       (f_antidiff F d (Psi false) (Psi true) GC).
  Proof. unfold forms3, f_antidiff. rewrite r_antidiff3; reflexivity. Qed.

  Ltac brk := repeat match goal with H : In _ (_ :: _) |- _ => destruct H as [H|H] | H : In _ [] |- _ => destruct H
    | H : _ \/ _ |- _ => destruct H as [H|H] | H : False |- _ => destruct H | H : (_, _) = (_, _) |- _ => inversion H; clear H; subst end.

  Lemma natural3 : natural ar F ds.
  Proof.
    constructor.
    - intros g d psi psin v x Hd. rewrite (anti_ren3 d psi psin v). unfold Rn, evd, antiN. rewrite ev_emap. unfold evd.
      apply ev_ext. intros [a i] Hao. unfold renl. cbn [fst snd]. pose proof (anti_leaves3 d a i Hao) as K.
      destruct a as [[]| | | | | | | | | | | | |]; try destruct K; reflexivity.
    - intros g d psi a x Hd. unfold evd, fluxN, forms3, f_flux, make_flux3, Fx, pospart, negpart. destruct (npa o); reflexivity.
    - reflexivity.
    - reflexivity.
    - intros. unfold evd, bupN, forms3, f_bup, beta_up3, pospart, negpart, Gx. destruct (npa o), (nug o); reflexivity.
    - intros. unfold evd, bdnN, forms3, f_bdn, beta_dn3, pospart, negpart, Gx. destruct (npa o), (nug o); reflexivity.
    - intros g d psi a x Hd. unfold evd, monoN, forms3, f_mono, GC_mono3. destruct (negb (iga o) && oabs o); reflexivity.
    - intros. unfold evd, forms3, f_sum, sum3f, Gx. destruct (nug o); reflexivity.
    - intros. unfold evd, forms3, f_terms, terms3, Gx. destruct (nug o); reflexivity.
    - intros psi v e [a i] He Hao. unfold forms3, f_terms, terms3, Gx in He. cbn [fst].
      destruct He as [<-|[<-|[<-|[<-|[<-|[<-|[<-|[]]]]]]]]; destruct (nug o); cbn in Hao; brk;
        first [ left; reflexivity | right; right; reflexivity | right; left; exists DX; split; [cbn; auto|reflexivity]
              | right; left; exists DY; split; [cbn; auto|reflexivity] | right; left; exists DZ; split; [cbn; auto|reflexivity] ].
    - intros d a i Hd H. pose proof (anti_leaves3 d a i H) as K. destruct a; auto.
    - intros a i H. unfold forms3, f_bup, beta_up3, pospart, negpart, Gx in H.
      destruct a; try exact I. destruct (npa o), (nug o); cbn in H; brk; cbn; auto.
    - intros a i H. unfold forms3, f_bdn, beta_dn3, pospart, negpart, Gx in H.
      destruct a; try exact I. destruct (npa o), (nug o); cbn in H; brk; cbn; auto.
    - intros a i H. unfold forms3, f_sum, sum3f, Gx in H.
      destruct a; try exact I. destruct (nug o); cbn in H; brk; cbn; auto.
  Qed.
End Nat.
