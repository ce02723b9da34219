(** The functions of Fun1D.v over the reals in closed form. *)
From Coq Require Import ZArith List Bool Lia ZifyBool Reals Lra.
From Verif Require Import ModelRun Lang ProofsLang Stencil FormCommon Form1D Solver1D Fun1D Arith SpecReal.
Import ListNotations.
Local Open Scope R_scope.

Ltac toR := try match goal with |- @eq _ ?a ?b => change (@eq R a b) end.

Definition donor (psi C : Z -> R) (i : Z) : R := Rmax 0 (C i) * psi i + Rmin 0 (C i) * psi (i + 1)%Z.

Lemma posR x : (x + Rabs x) / 2 = Rmax 0 x.
Proof. unfold Rmax, Rabs. destruct (Rle_dec 0 x), (Rcase_abs x); lra. Qed.
Lemma negR x : (x - Rabs x) / 2 = Rmin 0 x.
Proof. unfold Rmin, Rabs. destruct (Rle_dec 0 x), (Rcase_abs x); lra. Qed.
Lemma div1 x : x / 1 = x.
Proof. field. Qed.

Section Real.
  Variables eps tiny : R.
  Notation AR := (arithR eps tiny).
  Variables (o : fl) (sp : sptl) (tp : tmprl).

  Ltac ex := cbv [evx ev comp fst snd x1 izero arithR acst aun abin acmp Rcst]; cbn [car].
  Ltac zz := repeat match goal with
    | |- context [(0 + ?k)%Z] => let v := eval compute in (0 + k)%Z in change (0 + k)%Z with v
    | |- context [(0 - ?k)%Z] => let v := eval compute in (0 - k)%Z in change (0 - k)%Z with v end;
    rewrite ?Z.add_0_r;
    repeat match goal with |- context [(?x + -1)%Z] => change (x + -1)%Z with (x - 1)%Z end.

  Lemma fluxF_R (psi C : Z -> R) i : fluxF AR o sp tp psi C i = donor psi C i.
  Proof.
    unfold fluxF, forms1, f_flux, make_flux, Fx, pospart, negpart, P, V, q, sabs, smin, smax, donor.
    destruct (npa o); ex; zz; rewrite ?div1, ?posR, ?negR; reflexivity.
  Qed.

  Definition gR (G : Z -> R) (i : Z) : R := if nug o then G i else 1.
  Lemma sumF_R (psi phi G : Z -> R) i :
    sumF AR o sp tp psi phi G i = psi i - (phi i - phi (i - 1)%Z) / gR G i.
  Proof.
    unfold sumF, gR, forms1, f_sum, f_terms, G1, Gx, P, V, q.
    destruct (khn o).
    - destruct (nug o); cbv [map fold_left kadd fst snd]; ex; zz; rewrite ?div1; unfold Rdiv; rewrite ?Rplus_0_r; ring.
    - destruct (nug o); ex; zz; rewrite ?div1; unfold Rdiv; rewrite ?Rplus_0_r; ring.
  Qed.

  Lemma minF_R (psi : Z -> R) i : minF AR o sp tp psi i = Rmin (Rmin (psi (i - 1)%Z) (psi i)) (psi (i + 1)%Z).
  Proof. unfold minF, forms1, f_min, P, smin. ex; zz. reflexivity. Qed.
  Lemma maxF_R (psi : Z -> R) i : maxF AR o sp tp psi i = Rmax (Rmax (psi (i - 1)%Z) (psi i)) (psi (i + 1)%Z).
  Proof. unfold maxF, forms1, f_max, P, smax. ex; zz. reflexivity. Qed.

  Lemma bupF_R (psi mx phi G : Z -> R) i :
    bupF AR o sp tp psi mx phi G i =
    (Rmax (mx i) (Rmax (psi (i - 1)%Z) (Rmax (psi i) (psi (i + 1)%Z))) - psi i) * gR G i /
    (Rmax 0 (phi (i - 1)%Z) - Rmin 0 (phi i) + eps).
  Proof.
    unfold bupF, forms1, f_bup, beta_up, fct_frac, pospart, negpart, G1, Gx, P, V, q, smax, smin, sabs, gR.
    destruct (npa o), (nug o); ex; zz; rewrite ?div1, ?posR, ?negR, ?Rplus_0_r; reflexivity.
  Qed.
  Lemma bdnF_R (psi mn phi G : Z -> R) i :
    bdnF AR o sp tp psi mn phi G i =
    (psi i - Rmin (mn i) (Rmin (psi (i - 1)%Z) (Rmin (psi i) (psi (i + 1)%Z)))) * gR G i /
    (Rmax 0 (phi i) - Rmin 0 (phi (i - 1)%Z) + eps).
  Proof.
    unfold bdnF, forms1, f_bdn, beta_dn, fct_frac, pospart, negpart, G1, Gx, P, V, q, smax, smin, sabs, gR.
    destruct (npa o), (nug o); ex; zz; rewrite ?div1, ?posR, ?negR, ?Rplus_0_r; reflexivity.
  Qed.
  Definition gtb (a b : R) : bool := if Rlt_dec b a then true else false.
  Definition limA (up dn : Z -> R) i := Rmin 1 (Rmin (dn i) (up (i + 1)%Z)).
  Definition limB (up dn : Z -> R) i := Rmin 1 (Rmin (up i) (dn (i + 1)%Z)).
  (** factor of the limited advector *)
  Definition limfac (psi C up dn : Z -> R) (i : Z) : R :=
    if negb (iga o) && oabs o then
      if gtb (C i) 0 then if gtb (psi i) 0 then limA up dn i else limB up dn i
      else if gtb (psi (i + 1)%Z) 0 then limB up dn i else limA up dn i
    else if gtb (C i) 0 then limA up dn i else limB up dn i.
  Lemma monoF_R (psi C up dn : Z -> R) i :
    monoF AR o sp tp psi C up dn i = C i * limfac psi C up dn i.
  Proof.
    unfold monoF, forms1, f_mono, GC_mono, P, V, q, smin, limfac, limA, limB, gtb.
    destruct (iga o), (oabs o); cbn [negb andb]; ex; zz; rewrite ?div1; unfold Rdiv; rewrite ?Rmult_0_l;
      repeat match goal with |- context [if Rlt_dec ?a ?b then _ else _] => destruct (Rlt_dec a b) end; reflexivity.
  Qed.
End Real.

(** scaling *)
Lemma two_pow (k : Z) : (0 <= k)%Z -> IZR (2 ^ k) <> 0.
Proof. intros H. apply not_0_IZR. apply Z.pow_nonzero; lia. Qed.

Definition sc (ex : Z) : R := if (ex =? 0)%Z then 1 else if (0 <? ex)%Z then / IZR (2 ^ ex) else IZR (2 ^ (- ex)).
Lemma scaleF_R eps tiny ex (psi : Z -> R) i : scaleF (arithR eps tiny) ex psi i = sc ex * psi i.
Proof.
  unfold scaleF, sc. change (car (arithR eps tiny)) with R. destruct (ex =? 0)%Z; [symmetry; apply Rmult_1_l|]. destruct (0 <? ex)%Z; cbn [arithR abin acst Rcst]; rewrite div1; unfold Rdiv; ring.
Qed.
Lemma sc_inv ex : sc (- ex) * sc ex = 1.
Proof.
  unfold sc. destruct (Z.eqb_spec (- ex) 0), (Z.eqb_spec ex 0); try lia; [ring|].
  destruct (Z.ltb_spec 0 (- ex)), (Z.ltb_spec 0 ex); try lia.
  - field. apply two_pow. lia.
  - rewrite Z.opp_involutive. field. apply two_pow. lia.
Qed.
Lemma sc_pos ex : 0 < sc ex.
Proof.
  unfold sc. destruct (ex =? 0)%Z; [lra|]. destruct (Z.ltb_spec 0 ex).
  - apply Rinv_0_lt_compat. apply IZR_lt. apply Z.pow_pos_nonneg; lia.
  - apply IZR_lt. destruct (Z.eq_dec ex 0) as [->|]; [reflexivity|]. apply Z.pow_pos_nonneg; lia.
Qed.
