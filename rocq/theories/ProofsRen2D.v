(** The formulae of Form2D.v commute with renamings of arrays. *)
From Coq Require Import ZArith List Bool Lia.
From Verif Require Import Lang ProofsLang Stencil FormCommon Form2D.
Import ListNotations.
Local Open Scope Z_scope.

(** expressions with renamed arrays *)
Definition renl (r : arr -> arr) (ao : arr * idx) : arr * idx := (r (fst ao), snd ao).
Definition Rn (r : arr -> arr) (e : sexpr) : sexpr := emap (renl r) e.

Create HintDb ren discriminated.
Section Ren.
  Variables (o : fl) (sp : sptl) (tp : tmprl).
  Variable r : arr -> arr.
  Hypothesis HG : r Gf = Gf.
  Notation R := (Rn r).
  Lemma R_if (c : bool) (x y x' y' : sexpr) : R x = x' -> R y = y' -> R (if c then x else y) = if c then x' else y'.
  Proof. intros <- <-. destruct c; reflexivity. Qed.
  Lemma R_bin p (x y x' y' : sexpr) : R x = x' -> R y = y' -> R (Bin p x y) = Bin p x' y'.
  Proof. intros <- <-. reflexivity. Qed.
  Lemma R_un p (x x' : sexpr) : R x = x' -> R (Un p x) = Un p x'.
  Proof. intros <-. reflexivity. Qed.
  Lemma R_abs (x x' : sexpr) : R x = x' -> R (sabs x) = sabs x'.
  Proof. intros <-. reflexivity. Qed.
  Lemma R_min (x y x' y' : sexpr) : R x = x' -> R y = y' -> R (smin x y) = smin x' y'.
  Proof. intros <- <-. reflexivity. Qed.
  Lemma R_ite c (x y z w x' y' z' w' : sexpr) : R x = x' -> R y = y' -> R z = z' -> R w = w' -> R (Ite c x y z w) = Ite c x' y' z' w'.
  Proof. intros <- <- <- <-. reflexivity. Qed.
  Lemma R_pow2 (x x' : sexpr) : R x = x' -> R (pow2 x) = pow2 x'.
  Proof. intros <-. reflexivity. Qed.
  Lemma R_pow3 (x x' : sexpr) : R x = x' -> R (pow3 x) = pow3 x'.
  Proof. intros <-. reflexivity. Qed.
  Lemma R_pow4 (x x' : sexpr) : R x = x' -> R (pow4 x) = pow4 x'.
  Proof. intros <-. reflexivity. Qed.
  Lemma R_q n : R (q n) = q n.
  Proof. reflexivity. Qed.
  Lemma R_qq n d : R (qq n d) = qq n d.
  Proof. reflexivity. Qed.
  Lemma R_frac (x y x' y' : sexpr) : R x = x' -> R y = y' -> R (frac o x y) = frac o x' y'.
  Proof. intros <- <-. unfold frac. destruct (pfc o); reflexivity. Qed.
  Lemma R_neg (x x' : sexpr) : R x = x' -> R (negpart o x) = negpart o x'.
  Proof. intros <-. unfold negpart. destruct (npa o); reflexivity. Qed.
  Lemma R_pos (x x' : sexpr) : R x = x' -> R (pospart o x) = pospart o x'.
  Proof. intros <-. unfold pospart. destruct (npa o); reflexivity. Qed.
  Lemma R_Fx (x y z x' y' z' : sexpr) : R x = x' -> R y = y' -> R z = z' -> R (Fx o x y z) = Fx o x' y' z'.
  Proof. intros <- <- <-. unfold Fx, pospart, negpart. destruct (npa o); reflexivity. Qed.
  Lemma R_leaf a i : R (Leaf (a, i)) = Leaf (r a, i).
  Proof. reflexivity. Qed.
  Lemma R_Gx i : R (Gx o i) = Gx o i.
  Proof. unfold Gx. destruct (nug o); [|reflexivity]. unfold Rn. cbn [emap renl fst snd]. unfold renl. cbn [fst snd]. rewrite HG. reflexivity. Qed.
  Hint Constants Opaque : ren.
  Hint Resolve R_if R_bin R_un R_abs R_min R_ite R_pow2 R_pow3 R_pow4 R_q R_qq R_frac R_neg R_pos R_Fx R_leaf R_Gx : ren.
  Ltac push := cbv beta zeta; first [ solve [auto 100 with ren nocore] | destruct sp; solve [auto 100 with ren nocore] | destruct tp; solve [auto 100 with ren nocore] ].

  Lemma r_V2 (d : dim) (a2 : arr) (z3 : Z) (z4 : Z) : R (V2 d a2 z3 z4) = V2 d (r a2) z3 z4.
  Proof. reflexivity. Qed.
  Hint Resolve r_V2 : ren.
  Lemma r_G2 (d : dim) (z3 : Z) (z4 : Z) : R (G2 o d z3 z4) = G2 o d z3 z4.
  Proof. unfold G2. push. Qed.
  Hint Resolve r_G2 : ren.
  Lemma r_G_bar_x2 (d : dim) (z3 : Z) (z4 : Z) : R (G_bar_x2 o d z3 z4) = G_bar_x2 o d z3 z4.
  Proof. unfold G_bar_x2. push. Qed.
  Hint Resolve r_G_bar_x2 : ren.
  Lemma r_G_bar_xy2 (d : dim) (z3 : Z) (z4 : Z) : R (G_bar_xy2 o d z3 z4) = G_bar_xy2 o d z3 z4.
  Proof. unfold G_bar_xy2. push. Qed.
  Hint Resolve r_G_bar_xy2 : ren.
  Lemma r_P2 (d : dim) (a2 : arr) (z3 : Z) (z4 : Z) : R (P2 d a2 z3 z4) = P2 d (r a2) z3 z4.
  Proof. reflexivity. Qed.
  Hint Resolve r_P2 : ren.
  Lemma r_pa2 (d : dim) (a3 : arr) (z4 : Z) (z5 : Z) : R (pa2 o d a3 z4 z5) = pa2 o d (r a3) z4 z5.
  Proof. unfold pa2. push. Qed.
  Hint Resolve r_pa2 : ren.
  Lemma r_psi_bar_x2 (d : dim) (a3 : arr) (z4 : Z) (z5 : Z) : R (psi_bar_x2 o d a3 z4 z5) = psi_bar_x2 o d (r a3) z4 z5.
  Proof. unfold psi_bar_x2. push. Qed.
  Hint Resolve r_psi_bar_x2 : ren.
  Lemma r_psi_bar_y2 (d : dim) (a3 : arr) (z4 : Z) (z5 : Z) : R (psi_bar_y2 o d a3 z4 z5) = psi_bar_y2 o d (r a3) z4 z5.
  Proof. unfold psi_bar_y2. push. Qed.
  Hint Resolve r_psi_bar_y2 : ren.
  Lemma r_psi_bar_xy2 (d : dim) (a3 : arr) (z4 : Z) (z5 : Z) : R (psi_bar_xy2 o d a3 z4 z5) = psi_bar_xy2 o d (r a3) z4 z5.
  Proof. unfold psi_bar_xy2. push. Qed.
  Hint Resolve r_psi_bar_xy2 : ren.
  Lemma r_ndx_psi2 (d : dim) (a3 : arr) (z4 : Z) (z5 : Z) : R (ndx_psi2 o d a3 z4 z5) = ndx_psi2 o d (r a3) z4 z5.
  Proof. unfold ndx_psi2. push. Qed.
  Hint Resolve r_ndx_psi2 : ren.
  Lemma r_ndy_psi2 (d : dim) (a3 : arr) (z4 : Z) (z5 : Z) : R (ndy_psi2 o d a3 z4 z5) = ndy_psi2 o d (r a3) z4 z5.
  Proof. unfold ndy_psi2. push. Qed.
  Hint Resolve r_ndy_psi2 : ren.
  Lemma r_ndxx_psi2 (d : dim) (a3 : arr) (z4 : Z) (z5 : Z) : R (ndxx_psi2 o d a3 z4 z5) = ndxx_psi2 o d (r a3) z4 z5.
  Proof. unfold ndxx_psi2. push. Qed.
  Hint Resolve r_ndxx_psi2 : ren.
  Lemma r_ndxy_psi2 (d : dim) (a3 : arr) (z4 : Z) (z5 : Z) : R (ndxy_psi2 o d a3 z4 z5) = ndxy_psi2 o d (r a3) z4 z5.
  Proof. unfold ndxy_psi2. push. Qed.
  Hint Resolve r_ndxy_psi2 : ren.
  Lemma r_ndxxx_psi2 (d : dim) (a2 : arr) (z3 : Z) (z4 : Z) : R (ndxxx_psi2 d a2 z3 z4) = ndxxx_psi2 d (r a2) z3 z4.
  Proof. unfold ndxxx_psi2. push. Qed.
  Hint Resolve r_ndxxx_psi2 : ren.
  Lemma r_ndxxy_psi2 (d : dim) (a2 : arr) (z3 : Z) (z4 : Z) : R (ndxxy_psi2 d a2 z3 z4) = ndxxy_psi2 d (r a2) z3 z4.
  Proof. unfold ndxxy_psi2. push. Qed.
  Hint Resolve r_ndxxy_psi2 : ren.
  Lemma r_ndxyy_psi2 (d : dim) (a2 : arr) (z3 : Z) (z4 : Z) : R (ndxyy_psi2 d a2 z3 z4) = ndxyy_psi2 d (r a2) z3 z4.
  Proof. unfold ndxyy_psi2. push. Qed.
  Hint Resolve r_ndxyy_psi2 : ren.
  Lemma r_ndtx_psi2 (d : dim) (a3 : arr) (a4 : arr) (z5 : Z) (z6 : Z) : R (ndtx_psi2 o d a3 a4 z5 z6) = ndtx_psi2 o d (r a3) (r a4) z5 z6.
  Proof. unfold ndtx_psi2. push. Qed.
  Hint Resolve r_ndtx_psi2 : ren.
  Lemma r_ndt_psi2 (d : dim) (a3 : arr) (a4 : arr) (z5 : Z) (z6 : Z) : R (ndt_psi2 o d a3 a4 z5 z6) = ndt_psi2 o d (r a3) (r a4) z5 z6.
  Proof. unfold ndt_psi2. push. Qed.
  Hint Resolve r_ndt_psi2 : ren.
  Lemma r_GC0_bar_x2 (d : dim) (a2 : arr) (z3 : Z) (z4 : Z) : R (GC0_bar_x2 d a2 z3 z4) = GC0_bar_x2 d (r a2) z3 z4.
  Proof. unfold GC0_bar_x2. push. Qed.
  Hint Resolve r_GC0_bar_x2 : ren.
  Lemma r_GC0_bar_xy2 (d : dim) (a2 : arr) (z3 : Z) (z4 : Z) : R (GC0_bar_xy2 d a2 z3 z4) = GC0_bar_xy2 d (r a2) z3 z4.
  Proof. unfold GC0_bar_xy2. push. Qed.
  Hint Resolve r_GC0_bar_xy2 : ren.
  Lemma r_GC1_bar_x2 (d : dim) (a2 : arr) (z3 : Z) (z4 : Z) : R (GC1_bar_x2 d a2 z3 z4) = GC1_bar_x2 d (r a2) z3 z4.
  Proof. unfold GC1_bar_x2. push. Qed.
  Hint Resolve r_GC1_bar_x2 : ren.
  Lemma r_GC1_bar_xy2 (d : dim) (a2 : arr) (z3 : Z) (z4 : Z) : R (GC1_bar_xy2 d a2 z3 z4) = GC1_bar_xy2 d (r a2) z3 z4.
  Proof. unfold GC1_bar_xy2. push. Qed.
  Hint Resolve r_GC1_bar_xy2 : ren.
  Lemma r_ndx_GC02 (d : dim) (a2 : arr) (z3 : Z) (z4 : Z) : R (ndx_GC02 d a2 z3 z4) = ndx_GC02 d (r a2) z3 z4.
  Proof. unfold ndx_GC02. push. Qed.
  Hint Resolve r_ndx_GC02 : ren.
  Lemma r_ndxx_GC02 (d : dim) (a3 : arr) (a4 : arr) (z5 : Z) (z6 : Z) : R (ndxx_GC02 o d a3 a4 z5 z6) = ndxx_GC02 o d (r a3) (r a4) z5 z6.
  Proof. unfold ndxx_GC02. push. Qed.
  Hint Resolve r_ndxx_GC02 : ren.
  Lemma r_ndtt_GC02 (d : dim) (a3 : arr) (a4 : arr) (z5 : Z) (z6 : Z) : R (ndtt_GC02 o d a3 a4 z5 z6) = ndtt_GC02 o d (r a3) (r a4) z5 z6.
  Proof. unfold ndtt_GC02. push. Qed.
  Hint Resolve r_ndtt_GC02 : ren.
  Lemma r_fdiv_centre2 (d : dim) (a3 : arr) (v4 : dim -> arr) (z5 : Z) (z6 : Z) : R (fdiv_centre2 o d a3 v4 z5 z6) = fdiv_centre2 o d (r a3) (fun d => r (v4 d)) z5 z6.
  Proof. unfold fdiv_centre2. push. Qed.
  Hint Resolve r_fdiv_centre2 : ren.
  Lemma r_fdiv_corner_xy2 (d : dim) (a3 : arr) (v4 : dim -> arr) (z5 : Z) (z6 : Z) : R (fdiv_corner_xy2 o d a3 v4 z5 z6) = fdiv_corner_xy2 o d (r a3) (fun d => r (v4 d)) z5 z6.
  Proof. unfold fdiv_corner_xy2. push. Qed.
  Hint Resolve r_fdiv_corner_xy2 : ren.
  Lemma r_six (d : dim) (a3 : arr) (z4 : Z) (z5 : Z) : R (six o d a3 z4 z5) = six o d (r a3) z4 z5.
  Proof. unfold six. push. Qed.
  Hint Resolve r_six : ren.
  Lemma r_nfdiv2 (d : dim) (a3 : arr) (v4 : dim -> arr) (z5 : Z) (z6 : Z) : R (nfdiv2 o d a3 v4 z5 z6) = nfdiv2 o d (r a3) (fun d => r (v4 d)) z5 z6.
  Proof. unfold nfdiv2. push. Qed.
  Hint Resolve r_nfdiv2 : ren.
  Lemma r_eight (d : dim) (a3 : arr) (z4 : Z) (z5 : Z) : R (eight o d a3 z4 z5) = eight o d (r a3) z4 z5.
  Proof. unfold eight. push. Qed.
  Hint Resolve r_eight : ren.
  Lemma r_nfdiv_fdiv2 (d : dim) (a3 : arr) (v4 : dim -> arr) (z5 : Z) (z6 : Z) : R (nfdiv_fdiv2 o d a3 v4 z5 z6) = nfdiv_fdiv2 o d (r a3) (fun d => r (v4 d)) z5 z6.
  Proof. unfold nfdiv_fdiv2. push. Qed.
  Hint Resolve r_nfdiv_fdiv2 : ren.
  Lemma r_ndx_fdiv2 (d : dim) (a3 : arr) (v4 : dim -> arr) (z5 : Z) (z6 : Z) : R (ndx_fdiv2 o d a3 v4 z5 z6) = ndx_fdiv2 o d (r a3) (fun d => r (v4 d)) z5 z6.
  Proof. unfold ndx_fdiv2. push. Qed.
  Hint Resolve r_ndx_fdiv2 : ren.
  Lemma r_nfdiv_dt2 (d : dim) (a3 : arr) (a4 : arr) (v5 : dim -> arr) (z6 : Z) (z7 : Z) : R (nfdiv_dt2 o d a3 a4 v5 z6 z7) = nfdiv_dt2 o d (r a3) (r a4) (fun d => r (v5 d)) z6 z7.
  Proof. unfold nfdiv_dt2. push. Qed.
  Hint Resolve r_nfdiv_dt2 : ren.
  Lemma r_ndxx_psi_coeff2 (d : dim) (v3 : dim -> arr) (z4 : Z) (z5 : Z) : R (ndxx_psi_coeff2 o d v3 z4 z5) = ndxx_psi_coeff2 o d (fun d => r (v3 d)) z4 z5.
  Proof. unfold ndxx_psi_coeff2. push. Qed.
  Hint Resolve r_ndxx_psi_coeff2 : ren.
  Lemma r_ndxy_psi_coeff2 (d : dim) (v3 : dim -> arr) (z4 : Z) (z5 : Z) : R (ndxy_psi_coeff2 o d v3 z4 z5) = ndxy_psi_coeff2 o d (fun d => r (v3 d)) z4 z5.
  Proof. unfold ndxy_psi_coeff2. push. Qed.
  Hint Resolve r_ndxy_psi_coeff2 : ren.
  Lemma r_TOT2 (d : dim) (a3 : arr) (v4 : dim -> arr) (z5 : Z) (z6 : Z) : R (TOT2 o d a3 v4 z5 z6) = TOT2 o d (r a3) (fun d => r (v4 d)) z5 z6.
  Proof. unfold TOT2. push. Qed.
  Hint Resolve r_TOT2 : ren.
  Lemma r_ndxxx_psi_coeff2 (d : dim) (v3 : dim -> arr) (z4 : Z) (z5 : Z) : R (ndxxx_psi_coeff2 o d v3 z4 z5) = ndxxx_psi_coeff2 o d (fun d => r (v3 d)) z4 z5.
  Proof. unfold ndxxx_psi_coeff2. push. Qed.
  Hint Resolve r_ndxxx_psi_coeff2 : ren.
  Lemma r_ndxxy_psi_coeff2 (d : dim) (v3 : dim -> arr) (z4 : Z) (z5 : Z) : R (ndxxy_psi_coeff2 o d v3 z4 z5) = ndxxy_psi_coeff2 o d (fun d => r (v3 d)) z4 z5.
  Proof. unfold ndxxy_psi_coeff2. push. Qed.
  Hint Resolve r_ndxxy_psi_coeff2 : ren.
  Lemma r_ndxyy_psi_coeff2 (d : dim) (v3 : dim -> arr) (z4 : Z) (z5 : Z) : R (ndxyy_psi_coeff2 o d v3 z4 z5) = ndxyy_psi_coeff2 o d (fun d => r (v3 d)) z4 z5.
  Proof. unfold ndxyy_psi_coeff2. push. Qed.
  Hint Resolve r_ndxyy_psi_coeff2 : ren.
  Lemma r_FOT2 (d : dim) (a3 : arr) (v4 : dim -> arr) (z5 : Z) (z6 : Z) : R (FOT2 o d a3 v4 z5 z6) = FOT2 o d (r a3) (fun d => r (v4 d)) z5 z6.
  Proof. unfold FOT2. push. Qed.
  Hint Resolve r_FOT2 : ren.
  Lemma r_DFL2 (d : dim) (a3 : arr) (v4 : dim -> arr) (z5 : Z) (z6 : Z) : R (DFL2 o d a3 v4 z5 z6) = DFL2 o d (r a3) (fun d => r (v4 d)) z5 z6.
  Proof. unfold DFL2. push. Qed.
  Hint Resolve r_DFL2 : ren.
  Lemma r_div_2nd2 (d : dim) (a3 : arr) (v4 : dim -> arr) (z5 : Z) (z6 : Z) : R (div_2nd2 o d a3 v4 z5 z6) = div_2nd2 o d (r a3) (fun d => r (v4 d)) z5 z6.
  Proof. unfold div_2nd2. push. Qed.
  Hint Resolve r_div_2nd2 : ren.
  Lemma r_div_3rd_upwind2 (d : dim) (a3 : arr) (v4 : dim -> arr) (z5 : Z) (z6 : Z) : R (div_3rd_upwind2 o d a3 v4 z5 z6) = div_3rd_upwind2 o d (r a3) (fun d => r (v4 d)) z5 z6.
  Proof. unfold div_3rd_upwind2. push. Qed.
  Hint Resolve r_div_3rd_upwind2 : ren.
  Lemma r_div_3rd_temporal2 (d : dim) (a4 : arr) (v5 : dim -> arr) (z6 : Z) (z7 : Z) : R (div_3rd_temporal2 o tp d a4 v5 z6 z7) = div_3rd_temporal2 o tp d (r a4) (fun d => r (v5 d)) z6 z7.
  Proof. unfold div_3rd_temporal2. push. Qed.
  Hint Resolve r_div_3rd_temporal2 : ren.
  Lemma r_div_3rd_spatial_helper2 (d : dim) (a4 : arr) (v5 : dim -> arr) (z6 : Z) (z7 : Z) : R (div_3rd_spatial_helper2 o sp d a4 v5 z6 z7) = div_3rd_spatial_helper2 o sp d (r a4) (fun d => r (v5 d)) z6 z7.
  Proof. unfold div_3rd_spatial_helper2. push. Qed.
  Hint Resolve r_div_3rd_spatial_helper2 : ren.
  Lemma r_div_3rd_spatial2 (d : dim) (a4 : arr) (v5 : dim -> arr) (z6 : Z) (z7 : Z) : R (div_3rd_spatial2 o sp d a4 v5 z6 z7) = div_3rd_spatial2 o sp d (r a4) (fun d => r (v5 d)) z6 z7.
  Proof. unfold div_3rd_spatial2. push. Qed.
  Hint Resolve r_div_3rd_spatial2 : ren.
  Lemma r_div_3rd2 (d : dim) (a5 : arr) (a6 : arr) (v7 : dim -> arr) (v8 : dim -> arr) (v9 : dim -> arr) (z10 : Z) (z11 : Z) : R (div_3rd2 o sp tp d a5 a6 v7 v8 v9 z10 z11) = div_3rd2 o sp tp d (r a5) (r a6) (fun d => r (v7 d)) (fun d => r (v8 d)) (fun d => r (v9 d)) z10 z11.
  Proof. unfold div_3rd2. push. Qed.
  Hint Resolve r_div_3rd2 : ren.
  Lemma r_antidiff2 (d : dim) (a5 : arr) (a6 : arr) (v7 : dim -> arr) (v8 : dim -> arr) (v9 : dim -> arr) (z10 : Z) (z11 : Z) : R (antidiff2 o sp tp d a5 a6 v7 v8 v9 z10 z11) = antidiff2 o sp tp d (r a5) (r a6) (fun d => r (v7 d)) (fun d => r (v8 d)) (fun d => r (v9 d)) z10 z11.
  Proof. unfold antidiff2. push. Qed.
  Hint Resolve r_antidiff2 : ren.
  Lemma r_make_flux2 (d : dim) (a3 : arr) (a4 : arr) (z5 : Z) (z6 : Z) : R (make_flux2 o d a3 a4 z5 z6) = make_flux2 o d (r a3) (r a4) z5 z6.
  Proof. unfold make_flux2. push. Qed.
  Hint Resolve r_make_flux2 : ren.

  Lemma r_GC_mono2 (d : dim) (a1 a2 a3 a4 : arr) (i j : Z) :
    R (GC_mono2 o d a1 a2 a3 a4 i j) = GC_mono2 o d (r a1) (r a2) (r a3) (r a4) i j.
  Proof. unfold GC_mono2. push. Qed.
End Ren.
