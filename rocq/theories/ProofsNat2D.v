(** The two-dimensional formulae as functions of the fields they read. *)
From Coq Require Import ZArith List Bool Lia ZifyBool.
From Verif Require Import SpecIndex ModelIndex ModelRun Lang ProofsLang Stencil ProofsStencil
  FormCommon Form2D Solver1D Solver2D Macro ProofsMacro Foot1D Foot2D Lattice Fun1D ProofsFun1D FunN ProofsFunN ProofsRen2D.
Import ListNotations.
Local Open Scope Z_scope.

Lemma in_box2 d a is js b i : In (b, i) (box2 d a is js) -> b = a.
Proof.
  unfold box2. intros H. apply in_flat_map in H. destruct H as (x & _ & H). apply in_map_iff in H.
  destruct H as (y & E & _). inversion E. reflexivity.
Qed.

Lemma leaves_mk l : leaves (mk l) = l.
Proof. induction l as [|a l IH]; [reflexivity|]. cbn. rewrite IH. reflexivity. Qed.

Section Nat.
  Variables (ar : arith) (o : fl) (sp : sptl) (tp : tmprl).
  Hypothesis OK : fl_ok2 o = true.
  Notation F := (forms2 o sp tp).
  Notation ds := [DX; DY].

  Lemma od_in d : In d ds -> In (od d) ds.
  Proof. intros [<-|[<-|[]]]; cbn; auto. Qed.

  Lemma anti_leaves d a i : In d ds -> In (a, i) (leaves (f_antidiff F d (Psi false) (Psi true) GC)) ->
    match a with Psi _ | Gf => True | GC d' | NdtGC d' | NdttGC d' => In d' ds | _ => False end.
  Proof.
    intros Hd H. pose proof (od_in d Hd) as Ho.
    pose proof (forms2_cov o sp tp OK) as C. pose proof (c_antidiff _ _ _ C d false GC ltac:(auto) ltac:(cbn; auto)) as K. apply K in H; clear K. cbn [negb] in H.
    cbn [canon2 f_antidiff] in H. rewrite leaves_mk in H.
    rewrite !in_app_iff in H. destruct H as [H|[H|[H|[H|[H|H]]]]].
    - apply in_box2 in H. subst. exact I.
    - destruct (dt2 o); [|destruct H]. apply in_box2 in H. subst. exact I.
    - apply in_box2 in H. subst. auto.
    - apply in_box2 in H. subst. auto.
    - destruct (nug o); [|destruct H]. apply in_box2 in H. subst. exact I.
    - destruct (div3 o || dt2 o); [|destruct H].
      rewrite !in_app_iff in H; destruct H as [H|[H|H]]; apply in_box2 in H; subst; auto.
  Qed.

  Lemma anti_ren d psi psin v : f_antidiff F d psi psin v =
    Rn (fun a => match a with Psi false => psi | Psi true => psin | GC d => v d | b => b end)
       (f_antidiff F d (Psi false) (Psi true) GC).
  Proof. unfold forms2, f_antidiff. rewrite r_antidiff2; reflexivity. Qed.

  Ltac brk := repeat match goal with H : In _ (_ :: _) |- _ => destruct H as [H|H] | H : In _ [] |- _ => destruct H
    | H : _ \/ _ |- _ => destruct H as [H|H] | H : False |- _ => destruct H | H : (_, _) = (_, _) |- _ => inversion H; clear H; subst end.

  Lemma natural2 : natural ar F ds.
  Proof.
    constructor.
    - intros g d psi psin v x Hd. rewrite (anti_ren d psi psin v). unfold Rn, evd, antiN. rewrite ev_emap. unfold evd.
      apply ev_ext. intros [a i] Hao. unfold renl. cbn [fst snd]. pose proof (anti_leaves d a i Hd Hao) as K.
      destruct a as [[]| | | | | | | | | | | | |]; try destruct K; reflexivity.
    - intros g d psi a x Hd. unfold evd, fluxN, forms2, f_flux, make_flux2, Fx, pospart, negpart. destruct (npa o); reflexivity.
    - reflexivity.
    - reflexivity.
    - intros. unfold evd, bupN, forms2, f_bup, beta_up2, pospart, negpart, Gx. destruct (npa o), (nug o); reflexivity.
    - intros. unfold evd, bdnN, forms2, f_bdn, beta_dn2, pospart, negpart, Gx. destruct (npa o), (nug o); reflexivity.
    - intros g d psi a x Hd. unfold evd, monoN, forms2, f_mono, GC_mono2. destruct (negb (iga o) && oabs o); reflexivity.
    - intros. unfold evd, forms2, f_sum, sum2f, Gx. destruct (nug o); reflexivity.
    - intros. unfold evd, forms2, f_terms, terms2, Gx. destruct (nug o); reflexivity.
    - intros psi v e [a i] He Hao. unfold forms2, f_terms, terms2, Gx in He. cbn [fst].
      destruct He as [<-|[<-|[<-|[<-|[<-|[]]]]]]; destruct (nug o); cbn in Hao; brk;
        first [ left; reflexivity | right; right; reflexivity | right; left; exists DX; split; [cbn; auto|reflexivity]
              | right; left; exists DY; split; [cbn; auto|reflexivity] ].
    - intros d a i Hd H. pose proof (anti_leaves d a i Hd H) as K. destruct a; auto.
    - intros a i H. unfold forms2, f_bup, beta_up2, pospart, negpart, Gx in H.
      destruct a; try exact I. destruct (npa o), (nug o); cbn in H; brk; cbn; auto.
    - intros a i H. unfold forms2, f_bdn, beta_dn2, pospart, negpart, Gx in H.
      destruct a; try exact I. destruct (npa o), (nug o); cbn in H; brk; cbn; auto.
    - intros a i H. unfold forms2, f_sum, sum2f, Gx in H.
      destruct a; try exact I. destruct (nug o); cbn in H; brk; cbn; auto.
  Qed.
End Nat.
