(** Closed forms of the stages of the 3D solver over the reals. *)
From Coq Require Import ZArith List Bool Lia ZifyBool Reals Lra.
From Verif Require Import ModelRun Lang ProofsLang Stencil FormCommon Form3D Solver1D Solver3D Fun1D FunN Arith SpecReal
  ProofsReal1D ProofsFunN ProofsNumN ProofsReal2D.
Import ListNotations.
Local Open Scope R_scope.

Section Real.
  Variables eps tiny : R.
  Notation AR := (arithR eps tiny).
  Variables (o : fl) (sp : sptl) (tp : tmprl).
  Notation F := (forms3 o sp tp).
  Notation ds := [DX; DY; DZ].

  Ltac ex := cbv [evd ev fst snd x3 izero arithR acst aun abin acmp Rcst Z.add Z.sub Z.opp Z.pos_sub Pos.add Pos.succ]; cbn [car].
  (** offsets are neighbours *)
  Ltac nb x := change (iadd x (1%Z, 0%Z, 0%Z)) with (nx DX x); change (iadd x (0%Z, 1%Z, 0%Z)) with (nx DY x);
    change (iadd x ((-1)%Z, 0%Z, 0%Z)) with (pv DX x); change (iadd x (0%Z, (-1)%Z, 0%Z)) with (pv DY x); change (iadd x (0%Z, 0%Z, 1%Z)) with (nx DZ x); change (iadd x (0%Z, 0%Z, (-1)%Z)) with (pv DZ x);
    repeat rewrite iadd_z.

  Lemma closed3 : closed o ds eps tiny F.
  Proof.
    constructor.
    - intros psi C d x Hd. unfold fluxN, forms3, f_flux, make_flux3, Fx, pospart, negpart, P3, V3, q, sabs, smin, smax, donN.
      destruct Hd as [<-|[<-|[<-|[]]]]; destruct (npa o); ex; nb x; rewrite ?iadd_z', ?div1, ?posR, ?negR; reflexivity.
    - intros psi phi G x. unfold sumN, divN, gN, forms3, f_sum, f_terms, sum3f, terms3, Gx, q. cbn [dsum].
      destruct (khn o); destruct (nug o); cbv [map fold_left kadd fst snd]; ex; nb x; rewrite ?iadd_z', ?div1;
        unfold Rdiv; rewrite ?Rplus_0_r, ?Rinv_1; toR; ring.
    - intros psi x. unfold minN, forms3, f_min, psi_min3, smin. cbn [nbmin]. ex. nb x. rewrite ?iadd_z'. mineq.
    - intros psi x. unfold maxN, forms3, f_max, psi_max3, smax. cbn [nbmax]. ex. nb x. rewrite ?iadd_z'. maxeq.
    - intros psi mx phi G x.
      unfold bupN, forms3, f_bup, beta_up3, fct_frac, pospart, negpart, Gx, q, smax, smin, sabs, gN, inN. cbn [dsum].
      assert (E : Rmax (mx x) (nbmax ds psi x) = Rmax (mx x) (Rmax (psi x) (Rmax (psi (nx DX x)) (Rmax (psi (pv DX x)) (Rmax (psi (nx DY x)) (Rmax (psi (pv DY x)) (Rmax (psi (nx DZ x)) (psi (pv DZ x))))))))).
      { cbn [nbmax]. maxeq. }
      rewrite E. destruct (npa o), (nug o); ex; nb x; rewrite ?iadd_z', ?div1, ?posR, ?negR, ?Rplus_0_r, ?Rplus_assoc; reflexivity.
    - intros psi mn phi G x.
      unfold bdnN, forms3, f_bdn, beta_dn3, fct_frac, pospart, negpart, Gx, q, smax, smin, sabs, gN, outN. cbn [dsum].
      assert (E : Rmin (mn x) (nbmin ds psi x) = Rmin (mn x) (Rmin (psi (nx DY x)) (Rmin (psi (pv DX x)) (Rmin (psi x) (Rmin (psi (nx DX x)) (Rmin (psi (nx DZ x)) (Rmin (psi (pv DZ x)) (psi (pv DY x))))))))).
      { cbn [nbmin]. mineq. }
      rewrite E. destruct (npa o), (nug o); ex; nb x; rewrite ?iadd_z', ?div1, ?posR, ?negR, ?Rplus_0_r, ?Rplus_assoc; reflexivity.
    - intros psi C up dn d x Hd. unfold monoN, forms3, f_mono, GC_mono3, P3, V3, q, smin, limfacN, limAN, limBN, gtb.
      destruct Hd as [<-|[<-|[<-|[]]]]; destruct (iga o), (oabs o); cbn [negb andb]; ex; nb x; rewrite ?iadd_z', ?div1; unfold Rdiv; rewrite ?Rmult_0_l;
      repeat match goal with |- context [if Rlt_dec ?a ?b then _ else _] => destruct (Rlt_dec a b) end; reflexivity.
  Qed.
End Real.
