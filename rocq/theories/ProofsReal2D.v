(** Closed forms of the stages of the 2D solver over the reals. *)
From Coq Require Import ZArith List Bool Lia ZifyBool Reals Lra.
From Verif Require Import ModelRun Lang ProofsLang Stencil FormCommon Form2D Solver1D Solver2D Fun1D FunN Arith SpecReal
  ProofsReal1D ProofsFunN ProofsNumN.
Import ListNotations.
Local Open Scope R_scope.

Lemma min_le_l a b c : a <= c -> Rmin a b <= c.
Proof. intros. eapply Rle_trans; [apply Rmin_l|auto]. Qed.
Lemma min_le_r a b c : b <= c -> Rmin a b <= c.
Proof. intros. eapply Rle_trans; [apply Rmin_r|auto]. Qed.
Lemma max_ge_l a b c : c <= a -> c <= Rmax a b.
Proof. intros. eapply Rle_trans; [|apply Rmax_l]. auto. Qed.
Lemma max_ge_r a b c : c <= b -> c <= Rmax a b.
Proof. intros. eapply Rle_trans; [|apply Rmax_r]. auto. Qed.
Ltac minle := first [apply Rle_refl | apply min_le_l; minle | apply min_le_r; minle].
Ltac maxge := first [apply Rle_refl | apply max_ge_l; maxge | apply max_ge_r; maxge].
(** nests of the same arguments *)
Ltac mineq := apply Rle_antisym; repeat apply Rmin_glb; minle.
Ltac maxeq := apply Rle_antisym; repeat apply Rmax_lub; maxge.

Section Real.
  Variables eps tiny : R.
  Notation AR := (arithR eps tiny).
  Variables (o : fl) (sp : sptl) (tp : tmprl).
  Notation F := (forms2 o sp tp).
  Notation ds := [DX; DY].

  Ltac ex := cbv [evd ev fst snd x2 izero arithR acst aun abin acmp Rcst Z.add Z.sub Z.opp Z.pos_sub Pos.add Pos.succ]; cbn [car].
  (** offsets are neighbours *)
  Ltac nb x := change (iadd x (1%Z, 0%Z, 0%Z)) with (nx DX x); change (iadd x (0%Z, 1%Z, 0%Z)) with (nx DY x);
    change (iadd x ((-1)%Z, 0%Z, 0%Z)) with (pv DX x); change (iadd x (0%Z, (-1)%Z, 0%Z)) with (pv DY x);
    repeat rewrite iadd_z.
  Lemma iadd_z' x : iadd x (0%Z, 0%Z, 0%Z) = x.
  Proof. apply iadd_z. Qed.

  Lemma closed2 : closed o ds eps tiny F.
  Proof.
    constructor.
    - intros psi C d x Hd. unfold fluxN, forms2, f_flux, make_flux2, Fx, pospart, negpart, P2, V2, q, sabs, smin, smax, donN.
      destruct Hd as [<-|[<-|[]]]; destruct (npa o); ex; nb x; rewrite ?iadd_z', ?div1, ?posR, ?negR; reflexivity.
    - intros psi phi G x. unfold sumN, divN, gN, forms2, f_sum, f_terms, sum2f, terms2, Gx, q. cbn [dsum].
      destruct (khn o); destruct (nug o); cbv [map fold_left kadd fst snd]; ex; nb x; rewrite ?iadd_z', ?div1;
        unfold Rdiv; rewrite ?Rplus_0_r, ?Rinv_1; toR; ring.
    - intros psi x. unfold minN, forms2, f_min, psi_min2, smin. cbn [nbmin]. ex. nb x. rewrite ?iadd_z'. mineq.
    - intros psi x. unfold maxN, forms2, f_max, psi_max2, smax. cbn [nbmax]. ex. nb x. rewrite ?iadd_z'. maxeq.
    - intros psi mx phi G x.
      unfold bupN, forms2, f_bup, beta_up2, fct_frac, pospart, negpart, Gx, q, smax, smin, sabs, gN, inN. cbn [dsum].
      assert (E : Rmax (mx x) (nbmax ds psi x) = Rmax (mx x) (Rmax (psi (nx DY x)) (Rmax (psi (pv DX x)) (Rmax (psi x) (Rmax (psi (nx DX x)) (psi (pv DY x))))))).
      { cbn [nbmax]. maxeq. }
      rewrite E. destruct (npa o), (nug o); ex; nb x; rewrite ?iadd_z', ?div1, ?posR, ?negR, ?Rplus_0_r; reflexivity.
    - intros psi mn phi G x.
      unfold bdnN, forms2, f_bdn, beta_dn2, fct_frac, pospart, negpart, Gx, q, smax, smin, sabs, gN, outN. cbn [dsum].
      assert (E : Rmin (mn x) (nbmin ds psi x) = Rmin (mn x) (Rmin (psi (nx DY x)) (Rmin (psi (pv DX x)) (Rmin (psi x) (Rmin (psi (nx DX x)) (psi (pv DY x))))))).
      { cbn [nbmin]. mineq. }
      rewrite E. destruct (npa o), (nug o); ex; nb x; rewrite ?iadd_z', ?div1, ?posR, ?negR, ?Rplus_0_r; reflexivity.
    - intros psi C up dn d x Hd. unfold monoN, forms2, f_mono, GC_mono2, P2, V2, q, smin, limfacN, limAN, limBN, gtb.
      destruct Hd as [<-|[<-|[]]]; destruct (iga o), (oabs o); cbn [negb andb]; ex; nb x; rewrite ?iadd_z', ?div1; unfold Rdiv; rewrite ?Rmult_0_l;
      repeat match goal with |- context [if Rlt_dec ?a ?b then _ else _] => destruct (Rlt_dec a b) end; reflexivity.
  Qed.
End Real.
