(** The formulae of Form3D.v commute with renamings of arrays. *)
From Coq Require Import ZArith List Bool Lia.
From Verif Require Import Lang ProofsLang Stencil FormCommon Form3D ProofsRen2D.
Import ListNotations.
Local Open Scope Z_scope.

Create HintDb ren3 discriminated.
Section Ren.
  Variables (o : fl) (sp : sptl) (tp : tmprl).
  Variable r : arr -> arr.
  Hypothesis HG : r Gf = Gf.
  Notation R := (Rn r).
  Lemma R_if (c : bool) (x y x' y' : sexpr) : R x = x' -> R y = y' -> R (if c then x else y) = if c then x' else y'.
  Proof. intros <- <-. destruct c; reflexivity. Qed.
  Lemma R_bin p (x y x' y' : sexpr) : R x = x' -> R y = y' -> R (Bin p x y) = Bin p x' y'.
  Proof. intros <- <-. reflexivity. Qed.
  Lemma R_un p (x x' : sexpr) : R x = x' -> R (Un p x) = Un p x'.
  Proof. intros <-. reflexivity. Qed.
  Lemma R_abs (x x' : sexpr) : R x = x' -> R (sabs x) = sabs x'.
  Proof. intros <-. reflexivity. Qed.
  Lemma R_min (x y x' y' : sexpr) : R x = x' -> R y = y' -> R (smin x y) = smin x' y'.
  Proof. intros <- <-. reflexivity. Qed.
  Lemma R_ite c (x y z w x' y' z' w' : sexpr) : R x = x' -> R y = y' -> R z = z' -> R w = w' -> R (Ite c x y z w) = Ite c x' y' z' w'.
  Proof. intros <- <- <- <-. reflexivity. Qed.
  Lemma R_pow2 (x x' : sexpr) : R x = x' -> R (pow2 x) = pow2 x'.
  Proof. intros <-. reflexivity. Qed.
  Lemma R_pow3 (x x' : sexpr) : R x = x' -> R (pow3 x) = pow3 x'.
  Proof. intros <-. reflexivity. Qed.
  Lemma R_pow4 (x x' : sexpr) : R x = x' -> R (pow4 x) = pow4 x'.
  Proof. intros <-. reflexivity. Qed.
  Lemma R_q n : R (q n) = q n.
  Proof. reflexivity. Qed.
  Lemma R_qq n d : R (qq n d) = qq n d.
  Proof. reflexivity. Qed.
  Lemma R_frac (x y x' y' : sexpr) : R x = x' -> R y = y' -> R (frac o x y) = frac o x' y'.
  Proof. intros <- <-. unfold frac. destruct (pfc o); reflexivity. Qed.
  Lemma R_neg (x x' : sexpr) : R x = x' -> R (negpart o x) = negpart o x'.
  Proof. intros <-. unfold negpart. destruct (npa o); reflexivity. Qed.
  Lemma R_pos (x x' : sexpr) : R x = x' -> R (pospart o x) = pospart o x'.
  Proof. intros <-. unfold pospart. destruct (npa o); reflexivity. Qed.
  Lemma R_Fx (x y z x' y' z' : sexpr) : R x = x' -> R y = y' -> R z = z' -> R (Fx o x y z) = Fx o x' y' z'.
  Proof. intros <- <- <-. unfold Fx, pospart, negpart. destruct (npa o); reflexivity. Qed.
  Lemma R_leaf a i : R (Leaf (a, i)) = Leaf (r a, i).
  Proof. reflexivity. Qed.
  Lemma R_Gx i : R (Gx o i) = Gx o i.
  Proof. unfold Gx. destruct (nug o); [|reflexivity]. unfold Rn. cbn [emap renl fst snd]. unfold renl. cbn [fst snd]. rewrite HG. reflexivity. Qed.
  Lemma fold_adds l l' : Forall2 (fun x x' => R x = x') l l' -> forall a a', R a = a' ->
    R (fold_left (Bin Add) l a) = fold_left (Bin Add) l' a'.
  Proof. induction 1 as [|x x' l l' H F IH]; intros a a' Ha; cbn [fold_left]; auto. apply IH. apply R_bin; auto. Qed.
  Lemma R_adds l l' : Forall2 (fun x x' => R x = x') l l' -> R (adds l) = adds l'.
  Proof. intros [|x x' k k' H F]; [reflexivity|]. cbn [adds]. apply fold_adds; auto. Qed.
  Lemma F_nil : Forall2 (fun x x' => R x = x') [] [].
  Proof. constructor. Qed.
  Lemma F_cons x x' l l' : R x = x' -> Forall2 (fun x x' => R x = x') l l' -> Forall2 (fun x x' => R x = x') (x :: l) (x' :: l').
  Proof. intros. constructor; auto. Qed.
  Lemma F_app l l' k k' : Forall2 (fun x x' => R x = x') l l' -> Forall2 (fun x x' => R x = x') k k' ->
    Forall2 (fun x x' => R x = x') (l ++ k) (l' ++ k').
  Proof. apply Forall2_app. Qed.
  Hint Constants Opaque : ren3.
  Hint Resolve R_if R_bin R_un R_abs R_min R_ite R_pow2 R_pow3 R_pow4 R_q R_qq R_frac R_neg R_pos R_Fx R_adds F_nil F_cons F_app R_leaf R_Gx : ren3.
  Ltac push := cbv beta zeta; first [ solve [auto 100 with ren3 nocore] | destruct sp; solve [auto 100 with ren3 nocore] | destruct tp; solve [auto 100 with ren3 nocore] ].

  Lemma r_V3 (d : dim) (a1 : arr) (z2 : Z) (z3 : Z) (z4 : Z) : R (V3 d a1 z2 z3 z4) = V3 d (r a1) z2 z3 z4.
  Proof. reflexivity. Qed.
  Hint Resolve r_V3 : ren3.
  Lemma r_G3 (d : dim) (z2 : Z) (z3 : Z) (z4 : Z) : R (G3 o d z2 z3 z4) = G3 o d z2 z3 z4.
  Proof. unfold G3. push. Qed.
  Hint Resolve r_G3 : ren3.
  Lemma r_G_bar_x3 (d : dim) (z2 : Z) (z3 : Z) (z4 : Z) : R (G_bar_x3 o d z2 z3 z4) = G_bar_x3 o d z2 z3 z4.
  Proof. unfold G_bar_x3. push. Qed.
  Hint Resolve r_G_bar_x3 : ren3.
  Lemma r_G_bar_xy3 (d : dim) (z2 : Z) (z3 : Z) (z4 : Z) : R (G_bar_xy3 o d z2 z3 z4) = G_bar_xy3 o d z2 z3 z4.
  Proof. unfold G_bar_xy3. push. Qed.
  Hint Resolve r_G_bar_xy3 : ren3.
  Lemma r_G_bar_xz3 (d : dim) (z2 : Z) (z3 : Z) (z4 : Z) : R (G_bar_xz3 o d z2 z3 z4) = G_bar_xz3 o d z2 z3 z4.
  Proof. unfold G_bar_xz3. push. Qed.
  Hint Resolve r_G_bar_xz3 : ren3.
  Lemma r_P3 (d : dim) (a1 : arr) (z2 : Z) (z3 : Z) (z4 : Z) : R (P3 d a1 z2 z3 z4) = P3 d (r a1) z2 z3 z4.
  Proof. reflexivity. Qed.
  Hint Resolve r_P3 : ren3.
  Lemma r_pa3 (d : dim) (a2 : arr) (z3 : Z) (z4 : Z) (z5 : Z) : R (pa3 o d a2 z3 z4 z5) = pa3 o d (r a2) z3 z4 z5.
  Proof. unfold pa3. push. Qed.
  Hint Resolve r_pa3 : ren3.
  Lemma r_psi_bar_x3 (d : dim) (a2 : arr) (z3 : Z) (z4 : Z) (z5 : Z) : R (psi_bar_x3 o d a2 z3 z4 z5) = psi_bar_x3 o d (r a2) z3 z4 z5.
  Proof. unfold psi_bar_x3. push. Qed.
  Hint Resolve r_psi_bar_x3 : ren3.
  Lemma r_psi_bar_y3 (d : dim) (a2 : arr) (z3 : Z) (z4 : Z) (z5 : Z) : R (psi_bar_y3 o d a2 z3 z4 z5) = psi_bar_y3 o d (r a2) z3 z4 z5.
  Proof. unfold psi_bar_y3. push. Qed.
  Hint Resolve r_psi_bar_y3 : ren3.
  Lemma r_psi_bar_z3 (d : dim) (a2 : arr) (z3 : Z) (z4 : Z) (z5 : Z) : R (psi_bar_z3 o d a2 z3 z4 z5) = psi_bar_z3 o d (r a2) z3 z4 z5.
  Proof. unfold psi_bar_z3. push. Qed.
  Hint Resolve r_psi_bar_z3 : ren3.
  Lemma r_psi_bar_xy3 (d : dim) (a2 : arr) (z3 : Z) (z4 : Z) (z5 : Z) : R (psi_bar_xy3 o d a2 z3 z4 z5) = psi_bar_xy3 o d (r a2) z3 z4 z5.
  Proof. unfold psi_bar_xy3. push. Qed.
  Hint Resolve r_psi_bar_xy3 : ren3.
  Lemma r_psi_bar_xz3 (d : dim) (a2 : arr) (z3 : Z) (z4 : Z) (z5 : Z) : R (psi_bar_xz3 o d a2 z3 z4 z5) = psi_bar_xz3 o d (r a2) z3 z4 z5.
  Proof. unfold psi_bar_xz3. push. Qed.
  Hint Resolve r_psi_bar_xz3 : ren3.
  Lemma r_psi_bar_xyz3 (d : dim) (a2 : arr) (z3 : Z) (z4 : Z) (z5 : Z) : R (psi_bar_xyz3 o d a2 z3 z4 z5) = psi_bar_xyz3 o d (r a2) z3 z4 z5.
  Proof. unfold psi_bar_xyz3. push. Qed.
  Hint Resolve r_psi_bar_xyz3 : ren3.
  Lemma r_ndx_psi3 (d : dim) (a2 : arr) (z3 : Z) (z4 : Z) (z5 : Z) : R (ndx_psi3 o d a2 z3 z4 z5) = ndx_psi3 o d (r a2) z3 z4 z5.
  Proof. unfold ndx_psi3. push. Qed.
  Hint Resolve r_ndx_psi3 : ren3.
  Lemma r_ndy_psi3 (d : dim) (a2 : arr) (z3 : Z) (z4 : Z) (z5 : Z) : R (ndy_psi3 o d a2 z3 z4 z5) = ndy_psi3 o d (r a2) z3 z4 z5.
  Proof. unfold ndy_psi3. push. Qed.
  Hint Resolve r_ndy_psi3 : ren3.
  Lemma r_ndz_psi3 (d : dim) (a2 : arr) (z3 : Z) (z4 : Z) (z5 : Z) : R (ndz_psi3 o d a2 z3 z4 z5) = ndz_psi3 o d (r a2) z3 z4 z5.
  Proof. unfold ndz_psi3. push. Qed.
  Hint Resolve r_ndz_psi3 : ren3.
  Lemma r_ndxx_psi3 (d : dim) (a2 : arr) (z3 : Z) (z4 : Z) (z5 : Z) : R (ndxx_psi3 o d a2 z3 z4 z5) = ndxx_psi3 o d (r a2) z3 z4 z5.
  Proof. unfold ndxx_psi3. push. Qed.
  Hint Resolve r_ndxx_psi3 : ren3.
  Lemma r_ndxy_psi3 (d : dim) (a2 : arr) (z3 : Z) (z4 : Z) (z5 : Z) : R (ndxy_psi3 o d a2 z3 z4 z5) = ndxy_psi3 o d (r a2) z3 z4 z5.
  Proof. unfold ndxy_psi3. push. Qed.
  Hint Resolve r_ndxy_psi3 : ren3.
  Lemma r_ndxz_psi3 (d : dim) (a2 : arr) (z3 : Z) (z4 : Z) (z5 : Z) : R (ndxz_psi3 o d a2 z3 z4 z5) = ndxz_psi3 o d (r a2) z3 z4 z5.
  Proof. unfold ndxz_psi3. push. Qed.
  Hint Resolve r_ndxz_psi3 : ren3.
  Lemma r_ndyz_psi3 (d : dim) (a2 : arr) (z3 : Z) (z4 : Z) (z5 : Z) : R (ndyz_psi3 o d a2 z3 z4 z5) = ndyz_psi3 o d (r a2) z3 z4 z5.
  Proof. unfold ndyz_psi3. push. Qed.
  Hint Resolve r_ndyz_psi3 : ren3.
  Lemma r_ndtx_psi3 (d : dim) (a2 : arr) (a3 : arr) (z4 : Z) (z5 : Z) (z6 : Z) : R (ndtx_psi3 o d a2 a3 z4 z5 z6) = ndtx_psi3 o d (r a2) (r a3) z4 z5 z6.
  Proof. unfold ndtx_psi3. push. Qed.
  Hint Resolve r_ndtx_psi3 : ren3.
  Lemma r_ndt_psi3 (d : dim) (a2 : arr) (a3 : arr) (z4 : Z) (z5 : Z) (z6 : Z) : R (ndt_psi3 o d a2 a3 z4 z5 z6) = ndt_psi3 o d (r a2) (r a3) z4 z5 z6.
  Proof. unfold ndt_psi3. push. Qed.
  Hint Resolve r_ndt_psi3 : ren3.
  Lemma r_GC0_bar_x3 (d : dim) (a1 : arr) (z2 : Z) (z3 : Z) (z4 : Z) : R (GC0_bar_x3 d a1 z2 z3 z4) = GC0_bar_x3 d (r a1) z2 z3 z4.
  Proof. unfold GC0_bar_x3. push. Qed.
  Hint Resolve r_GC0_bar_x3 : ren3.
  Lemma r_GC0_bar_xy3 (d : dim) (a1 : arr) (z2 : Z) (z3 : Z) (z4 : Z) : R (GC0_bar_xy3 d a1 z2 z3 z4) = GC0_bar_xy3 d (r a1) z2 z3 z4.
  Proof. unfold GC0_bar_xy3. push. Qed.
  Hint Resolve r_GC0_bar_xy3 : ren3.
  Lemma r_GC0_bar_xz3 (d : dim) (a1 : arr) (z2 : Z) (z3 : Z) (z4 : Z) : R (GC0_bar_xz3 d a1 z2 z3 z4) = GC0_bar_xz3 d (r a1) z2 z3 z4.
  Proof. unfold GC0_bar_xz3. push. Qed.
  Hint Resolve r_GC0_bar_xz3 : ren3.
  Lemma r_GC1_bar_x3 (d : dim) (a1 : arr) (z2 : Z) (z3 : Z) (z4 : Z) : R (GC1_bar_x3 d a1 z2 z3 z4) = GC1_bar_x3 d (r a1) z2 z3 z4.
  Proof. unfold GC1_bar_x3. push. Qed.
  Hint Resolve r_GC1_bar_x3 : ren3.
  Lemma r_GC1_bar_xy3 (d : dim) (a1 : arr) (z2 : Z) (z3 : Z) (z4 : Z) : R (GC1_bar_xy3 d a1 z2 z3 z4) = GC1_bar_xy3 d (r a1) z2 z3 z4.
  Proof. unfold GC1_bar_xy3. push. Qed.
  Hint Resolve r_GC1_bar_xy3 : ren3.
  Lemma r_GC1_bar_xz3 (d : dim) (a1 : arr) (z2 : Z) (z3 : Z) (z4 : Z) : R (GC1_bar_xz3 d a1 z2 z3 z4) = GC1_bar_xz3 d (r a1) z2 z3 z4.
  Proof. unfold GC1_bar_xz3. push. Qed.
  Hint Resolve r_GC1_bar_xz3 : ren3.
  Lemma r_GC2_bar_x3 (d : dim) (a1 : arr) (z2 : Z) (z3 : Z) (z4 : Z) : R (GC2_bar_x3 d a1 z2 z3 z4) = GC2_bar_x3 d (r a1) z2 z3 z4.
  Proof. unfold GC2_bar_x3. push. Qed.
  Hint Resolve r_GC2_bar_x3 : ren3.
  Lemma r_GC2_bar_xz3 (d : dim) (a1 : arr) (z2 : Z) (z3 : Z) (z4 : Z) : R (GC2_bar_xz3 d a1 z2 z3 z4) = GC2_bar_xz3 d (r a1) z2 z3 z4.
  Proof. unfold GC2_bar_xz3. push. Qed.
  Hint Resolve r_GC2_bar_xz3 : ren3.
  Lemma r_GC2_bar_xy3 (d : dim) (a1 : arr) (z2 : Z) (z3 : Z) (z4 : Z) : R (GC2_bar_xy3 d a1 z2 z3 z4) = GC2_bar_xy3 d (r a1) z2 z3 z4.
  Proof. unfold GC2_bar_xy3. push. Qed.
  Hint Resolve r_GC2_bar_xy3 : ren3.
  Lemma r_ndx_GC03 (d : dim) (a1 : arr) (z2 : Z) (z3 : Z) (z4 : Z) : R (ndx_GC03 d a1 z2 z3 z4) = ndx_GC03 d (r a1) z2 z3 z4.
  Proof. unfold ndx_GC03. push. Qed.
  Hint Resolve r_ndx_GC03 : ren3.
  Lemma r_ndxx_GC03 (d : dim) (a2 : arr) (a3 : arr) (z4 : Z) (z5 : Z) (z6 : Z) : R (ndxx_GC03 o d a2 a3 z4 z5 z6) = ndxx_GC03 o d (r a2) (r a3) z4 z5 z6.
  Proof. unfold ndxx_GC03. push. Qed.
  Hint Resolve r_ndxx_GC03 : ren3.
  Lemma r_ndtt_GC03 (d : dim) (a2 : arr) (a3 : arr) (z4 : Z) (z5 : Z) (z6 : Z) : R (ndtt_GC03 o d a2 a3 z4 z5 z6) = ndtt_GC03 o d (r a2) (r a3) z4 z5 z6.
  Proof. unfold ndtt_GC03. push. Qed.
  Hint Resolve r_ndtt_GC03 : ren3.
  Lemma r_fdiv_centre3 (d : dim) (a2 : arr) (v3 : dim -> arr) (z4 : Z) (z5 : Z) (z6 : Z) : R (fdiv_centre3 o d a2 v3 z4 z5 z6) = fdiv_centre3 o d (r a2) (fun d => r (v3 d)) z4 z5 z6.
  Proof. unfold fdiv_centre3. push. Qed.
  Hint Resolve r_fdiv_centre3 : ren3.
  Lemma r_fdiv_corner_xy3 (d : dim) (a2 : arr) (v3 : dim -> arr) (z4 : Z) (z5 : Z) (z6 : Z) : R (fdiv_corner_xy3 o d a2 v3 z4 z5 z6) = fdiv_corner_xy3 o d (r a2) (fun d => r (v3 d)) z4 z5 z6.
  Proof. unfold fdiv_corner_xy3. push. Qed.
  Hint Resolve r_fdiv_corner_xy3 : ren3.
  Lemma r_fdiv_corner_xz3 (d : dim) (a2 : arr) (v3 : dim -> arr) (z4 : Z) (z5 : Z) (z6 : Z) : R (fdiv_corner_xz3 o d a2 v3 z4 z5 z6) = fdiv_corner_xz3 o d (r a2) (fun d => r (v3 d)) z4 z5 z6.
  Proof. unfold fdiv_corner_xz3. push. Qed.
  Hint Resolve r_fdiv_corner_xz3 : ren3.
  Lemma r_ten (d : dim) (a2 : arr) (z3 : Z) (z4 : Z) (z5 : Z) : Forall2 (fun x x' => R x = x') (ten o d a2 z3 z4 z5) (ten o d (r a2) z3 z4 z5).
  Proof. unfold ten. repeat (apply Forall2_cons; [push|]). apply Forall2_nil. Qed.
  Hint Resolve r_ten : ren3.
  Lemma r_nfdiv3 (d : dim) (a2 : arr) (v3 : dim -> arr) (z4 : Z) (z5 : Z) (z6 : Z) : R (nfdiv3 o d a2 v3 z4 z5 z6) = nfdiv3 o d (r a2) (fun d => r (v3 d)) z4 z5 z6.
  Proof. unfold nfdiv3. push. Qed.
  Hint Resolve r_nfdiv3 : ren3.
  Lemma r_twelve (d : dim) (a2 : arr) (z3 : Z) (z4 : Z) (z5 : Z) : R (twelve o d a2 z3 z4 z5) = twelve o d (r a2) z3 z4 z5.
  Proof. unfold twelve. push. Qed.
  Hint Resolve r_twelve : ren3.
  Lemma r_nfdiv_fdiv3 (d : dim) (a2 : arr) (v3 : dim -> arr) (z4 : Z) (z5 : Z) (z6 : Z) : R (nfdiv_fdiv3 o d a2 v3 z4 z5 z6) = nfdiv_fdiv3 o d (r a2) (fun d => r (v3 d)) z4 z5 z6.
  Proof. unfold nfdiv_fdiv3. push. Qed.
  Hint Resolve r_nfdiv_fdiv3 : ren3.
  Lemma r_twelve' (d : dim) (a2 : arr) (z3 : Z) (z4 : Z) (z5 : Z) : R (twelve' o d a2 z3 z4 z5) = twelve' o d (r a2) z3 z4 z5.
  Proof. unfold twelve'. push. Qed.
  Hint Resolve r_twelve' : ren3.
  Lemma r_ndx_fdiv3 (d : dim) (a2 : arr) (v3 : dim -> arr) (z4 : Z) (z5 : Z) (z6 : Z) : R (ndx_fdiv3 o d a2 v3 z4 z5 z6) = ndx_fdiv3 o d (r a2) (fun d => r (v3 d)) z4 z5 z6.
  Proof. unfold ndx_fdiv3. push. Qed.
  Hint Resolve r_ndx_fdiv3 : ren3.
  Lemma r_nfdiv_dt3 (d : dim) (a2 : arr) (a3 : arr) (v4 : dim -> arr) (z5 : Z) (z6 : Z) (z7 : Z) : R (nfdiv_dt3 o d a2 a3 v4 z5 z6 z7) = nfdiv_dt3 o d (r a2) (r a3) (fun d => r (v4 d)) z5 z6 z7.
  Proof. unfold nfdiv_dt3. push. Qed.
  Hint Resolve r_nfdiv_dt3 : ren3.
  Lemma r_ndxx_psi_coeff3 (d : dim) (v2 : dim -> arr) (z3 : Z) (z4 : Z) (z5 : Z) : R (ndxx_psi_coeff3 o d v2 z3 z4 z5) = ndxx_psi_coeff3 o d (fun d => r (v2 d)) z3 z4 z5.
  Proof. unfold ndxx_psi_coeff3. push. Qed.
  Hint Resolve r_ndxx_psi_coeff3 : ren3.
  Lemma r_ndxy_psi_coeff3 (d : dim) (v2 : dim -> arr) (z3 : Z) (z4 : Z) (z5 : Z) : R (ndxy_psi_coeff3 o d v2 z3 z4 z5) = ndxy_psi_coeff3 o d (fun d => r (v2 d)) z3 z4 z5.
  Proof. unfold ndxy_psi_coeff3. push. Qed.
  Hint Resolve r_ndxy_psi_coeff3 : ren3.
  Lemma r_ndxz_psi_coeff3 (d : dim) (v2 : dim -> arr) (z3 : Z) (z4 : Z) (z5 : Z) : R (ndxz_psi_coeff3 o d v2 z3 z4 z5) = ndxz_psi_coeff3 o d (fun d => r (v2 d)) z3 z4 z5.
  Proof. unfold ndxz_psi_coeff3. push. Qed.
  Hint Resolve r_ndxz_psi_coeff3 : ren3.
  Lemma r_ndyz_psi_coeff3 (d : dim) (v2 : dim -> arr) (z3 : Z) (z4 : Z) (z5 : Z) : R (ndyz_psi_coeff3 o d v2 z3 z4 z5) = ndyz_psi_coeff3 o d (fun d => r (v2 d)) z3 z4 z5.
  Proof. unfold ndyz_psi_coeff3. push. Qed.
  Hint Resolve r_ndyz_psi_coeff3 : ren3.
  Lemma r_TOT3 (d : dim) (a2 : arr) (v3 : dim -> arr) (z4 : Z) (z5 : Z) (z6 : Z) : R (TOT3 o d a2 v3 z4 z5 z6) = TOT3 o d (r a2) (fun d => r (v3 d)) z4 z5 z6.
  Proof. unfold TOT3. push. Qed.
  Hint Resolve r_TOT3 : ren3.
  Lemma r_DFL3 (d : dim) (a2 : arr) (v3 : dim -> arr) (z4 : Z) (z5 : Z) (z6 : Z) : R (DFL3 o d a2 v3 z4 z5 z6) = DFL3 o d (r a2) (fun d => r (v3 d)) z4 z5 z6.
  Proof. unfold DFL3. push. Qed.
  Hint Resolve r_DFL3 : ren3.
  Lemma r_div_2nd3 (d : dim) (a2 : arr) (v3 : dim -> arr) (z4 : Z) (z5 : Z) (z6 : Z) : R (div_2nd3 o d a2 v3 z4 z5 z6) = div_2nd3 o d (r a2) (fun d => r (v3 d)) z4 z5 z6.
  Proof. unfold div_2nd3. push. Qed.
  Hint Resolve r_div_2nd3 : ren3.
  Lemma r_div_3rd_upwind3 (d : dim) (a2 : arr) (v3 : dim -> arr) (z4 : Z) (z5 : Z) (z6 : Z) : R (div_3rd_upwind3 o d a2 v3 z4 z5 z6) = div_3rd_upwind3 o d (r a2) (fun d => r (v3 d)) z4 z5 z6.
  Proof. unfold div_3rd_upwind3. push. Qed.
  Hint Resolve r_div_3rd_upwind3 : ren3.
  Lemma r_div_3rd_temporal3 (d : dim) (a3 : arr) (v4 : dim -> arr) (z5 : Z) (z6 : Z) (z7 : Z) : R (div_3rd_temporal3 o tp d a3 v4 z5 z6 z7) = div_3rd_temporal3 o tp d (r a3) (fun d => r (v4 d)) z5 z6 z7.
  Proof. unfold div_3rd_temporal3. push. Qed.
  Hint Resolve r_div_3rd_temporal3 : ren3.
  Lemma r_div_3rd_spatial_helper3 (d : dim) (a3 : arr) (v4 : dim -> arr) (z5 : Z) (z6 : Z) (z7 : Z) : R (div_3rd_spatial_helper3 o sp d a3 v4 z5 z6 z7) = div_3rd_spatial_helper3 o sp d (r a3) (fun d => r (v4 d)) z5 z6 z7.
  Proof. unfold div_3rd_spatial_helper3. push. Qed.
  Hint Resolve r_div_3rd_spatial_helper3 : ren3.
  Lemma r_div_3rd_spatial3 (d : dim) (a3 : arr) (v4 : dim -> arr) (z5 : Z) (z6 : Z) (z7 : Z) : R (div_3rd_spatial3 o sp d a3 v4 z5 z6 z7) = div_3rd_spatial3 o sp d (r a3) (fun d => r (v4 d)) z5 z6 z7.
  Proof. unfold div_3rd_spatial3. push. Qed.
  Hint Resolve r_div_3rd_spatial3 : ren3.
  Lemma r_div_3rd3 (d : dim) (a4 : arr) (a5 : arr) (v6 : dim -> arr) (v7 : dim -> arr) (v8 : dim -> arr) (z9 : Z) (z10 : Z) (z11 : Z) : R (div_3rd3 o sp tp d a4 a5 v6 v7 v8 z9 z10 z11) = div_3rd3 o sp tp d (r a4) (r a5) (fun d => r (v6 d)) (fun d => r (v7 d)) (fun d => r (v8 d)) z9 z10 z11.
  Proof. unfold div_3rd3. push. Qed.
  Hint Resolve r_div_3rd3 : ren3.
  Lemma r_antidiff3 (d : dim) (a4 : arr) (a5 : arr) (v6 : dim -> arr) (v7 : dim -> arr) (v8 : dim -> arr) (z9 : Z) (z10 : Z) (z11 : Z) : R (antidiff3 o sp tp d a4 a5 v6 v7 v8 z9 z10 z11) = antidiff3 o sp tp d (r a4) (r a5) (fun d => r (v6 d)) (fun d => r (v7 d)) (fun d => r (v8 d)) z9 z10 z11.
  Proof. unfold antidiff3. push. Qed.
  Hint Resolve r_antidiff3 : ren3.
  Lemma r_make_flux3 (d : dim) (a2 : arr) (a3 : arr) (z4 : Z) (z5 : Z) (z6 : Z) : R (make_flux3 o d a2 a3 z4 z5 z6) = make_flux3 o d (r a2) (r a3) z4 z5 z6.
  Proof. unfold make_flux3. push. Qed.
  Hint Resolve r_make_flux3 : ren3.
  Lemma r_GC_mono3 (d : dim) (a1 a2 a3 a4 : arr) (i j k : Z) :
    R (GC_mono3 o d a1 a2 a3 a4 i j k) = GC_mono3 o d (r a1) (r a2) (r a3) (r a4) i j k.
  Proof. unfold GC_mono3. push. Qed.
End Ren.
