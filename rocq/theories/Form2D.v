(** Two-dimensional formulae, for the component along [d].  Indices are given
    as in the source, first along [d], then across: [pi<0>(i, j)] is the index
    [(i, j)] and [pi<1>(j, i)] as well (libmpdata++/formulae/idxperm.hpp:24-41).
    [GC[dim+1]] and [GC[dim-1]] are the other component
    (arrvec_t.hpp: the subscript is taken modulo the length). *)

From Coq Require Import ZArith List Bool.
From Verif Require Import Lang Stencil FormCommon.
Import ListNotations.
Local Open Scope Z_scope.

(** Combinations that compile in two dimensions: those of [fl_ok], but not
    both [div_3rd] and [div_3rd_dt] in divergence form (the call of [div_3rd]
    is ambiguous, formulae_mpdata_2d.hpp:178,211); [fot] needs [iga] and
    [tot] or [div_3rd] (formulae_mpdata_hot_2d.hpp:149-150). *)
Definition fl_ok2 (o : fl) : bool :=
  fl_ok o && negb (div2 o && div3 o && div3dt o) && (negb (fot o) || ((tot o || div3 o) && iga o)).

(** the other dimension *)
Definition od (d : dim) : dim := match d with DX => DY | _ => DX end.
Definition x2 (d : dim) (i j : Z) : idx := match d with DX => (i, j, 0) | _ => (j, i, 0) end.

Section Form2D.
  Variable o : fl.
  Variable sp : sptl.
  Variable tp : tmprl.
  Variable d : dim.

  Definition V2 (a : arr) (i j : Z) : sexpr := Leaf (a, x2 d i j).
  Definition G2 (i j : Z) : sexpr := Gx o (x2 d i j).

  (** formulae_mpdata_g_2d.hpp:22-76 *)
  Definition G_bar_x2 (i j : Z) : sexpr :=
    if nug o then ((G2 (i+1) j + G2 i j) / q 2)%s else q 1.
  Definition G_bar_xy2 (i j : Z) : sexpr :=
    if nug o then ((G2 i j + G2 i (j+1) + G2 (i+1) j + G2 (i+1) (j+1)) / q 4)%s else q 1.

  Section Psi.
    Variable psi : arr.
    Definition P2 (i j : Z) : sexpr := V2 psi i j.
    Definition pa2 (i j : Z) : sexpr := if oabs o then sabs (P2 i j) else P2 i j.

    (** formulae_mpdata_psi_2d.hpp:22-122 *)
    Definition psi_bar_x2 (i j : Z) : sexpr := ((pa2 (i+1) j + pa2 i j) / q 2)%s.
    Definition psi_bar_y2 (i j : Z) : sexpr := ((pa2 i j + pa2 i (j+1)) / q 2)%s.
    Definition psi_bar_xy2 (i j : Z) : sexpr :=
      ((pa2 (i+1) j + pa2 i j + pa2 i (j+1) + pa2 (i+1) (j+1)) / q 4)%s.

    (** 125-182 *)
    Definition ndx_psi2 (i j : Z) : sexpr :=
      if iga o then (q 2 * (P2 (i+1) j - P2 i j) / (q 1 + q 1))%s
      else (q 2 * frac o (pa2 (i+1) j - pa2 i j) (pa2 (i+1) j + pa2 i j))%s.
    (** 186-240 *)
    Definition ndy_psi2 (i j : Z) : sexpr :=
      if iga o then ((P2 (i+1) (j+1) + P2 i (j+1) - P2 (i+1) (j-1) - P2 i (j-1)) / (q 1 + q 1 + q 1 + q 1))%s
      else frac o (pa2 (i+1) (j+1) + pa2 i (j+1) - pa2 (i+1) (j-1) - pa2 i (j-1))%s
                  (pa2 (i+1) (j+1) + pa2 i (j+1) + pa2 (i+1) (j-1) + pa2 i (j-1))%s.
    (** 244-300 *)
    Definition ndxx_psi2 (i j : Z) : sexpr :=
      if iga o then (q 2 * (P2 (i+2) j - P2 (i+1) j - P2 i j + P2 (i-1) j) / (q 1 + q 1 + q 1 + q 1))%s
      else (q 2 * frac o (pa2 (i+2) j - pa2 (i+1) j - pa2 i j + pa2 (i-1) j)
                         (pa2 (i+2) j + pa2 (i+1) j + pa2 i j + pa2 (i-1) j))%s.
    (** 303-360 *)
    Definition ndxy_psi2 (i j : Z) : sexpr :=
      if iga o then (q 2 * (P2 (i+1) (j+1) - P2 i (j+1) - P2 (i+1) (j-1) + P2 i (j-1)) / (q 1 + q 1 + q 1 + q 1))%s
      else (q 2 * frac o (pa2 (i+1) (j+1) - pa2 i (j+1) - pa2 (i+1) (j-1) + pa2 i (j-1))
                         (pa2 (i+1) (j+1) + pa2 i (j+1) + pa2 (i+1) (j-1) + pa2 i (j-1)))%s.
    (** 362-413, [iga] only *)
    Definition ndxxx_psi2 (i j : Z) : sexpr :=
      ((P2 (i+2) j - q 3 * P2 (i+1) j + q 3 * P2 i j - P2 (i-1) j) / (q 1 + q 1 + q 1 + q 1))%s.
    Definition ndxxy_psi2 (i j : Z) : sexpr :=
      ((P2 (i+2) (j+1) - P2 (i+1) (j+1) - P2 i (j+1) + P2 (i-1) (j+1)
        - P2 (i+2) (j-1) + P2 (i+1) (j-1) + P2 i (j-1) - P2 (i-1) (j-1))
       / (q 1 + q 1 + q 1 + q 1 + q 1 + q 1 + q 1 + q 1))%s.
    Definition ndxyy_psi2 (i j : Z) : sexpr :=
      ((P2 (i+1) (j+1) - q 2 * P2 (i+1) j + P2 (i+1) (j-1) - P2 i (j+1) + q 2 * P2 i j - P2 i (j-1))
       / (q 1 + q 1 + q 1 + q 1 + q 1 + q 1))%s.
  End Psi.

  (** 415-558, [psi_np1] and [psi_n] *)
  Definition ndtx_psi2 (np1 n : arr) (i j : Z) : sexpr :=
    if iga o then (P2 np1 (i+1) j - P2 n (i+1) j - P2 np1 i j + P2 n i j)%s
    else (q 4 * frac o (pa2 np1 (i+1) j - pa2 n (i+1) j - pa2 np1 i j + pa2 n i j)
                       (pa2 np1 (i+1) j + pa2 n (i+1) j + pa2 np1 i j + pa2 n i j))%s.
  Definition ndt_psi2 (np1 n : arr) (i j : Z) : sexpr :=
    if iga o then ((P2 np1 (i+1) j - P2 n (i+1) j + P2 np1 i j - P2 n i j) / q 2)%s
    else (q 2 * frac o (pa2 np1 (i+1) j - pa2 n (i+1) j + pa2 np1 i j - pa2 n i j)
                       (pa2 np1 (i+1) j + pa2 n (i+1) j + pa2 np1 i j + pa2 n i j))%s.

  (** formulae_mpdata_gc_2d.hpp:23-170; [gc]: one component *)
  Definition GC0_bar_x2 (gc : arr) (i j : Z) : sexpr := ((V2 gc i j + V2 gc (i-1) j) / q 2)%s.
  Definition GC0_bar_xy2 (gc : arr) (i j : Z) : sexpr :=
    ((V2 gc i j + V2 gc (i-1) j + V2 gc i (j+1) + V2 gc (i-1) (j+1)) / q 4)%s.
  Definition GC1_bar_x2 (gc : arr) (i j : Z) : sexpr := ((V2 gc (i+1) j + V2 gc i j) / q 2)%s.
  Definition GC1_bar_xy2 (gc : arr) (i j : Z) : sexpr :=
    ((V2 gc (i+1) j + V2 gc i j + V2 gc (i+1) (j-1) + V2 gc i (j-1)) / q 4)%s.
  Definition ndx_GC02 (gc : arr) (i j : Z) : sexpr := ((V2 gc (i+1) j - V2 gc (i-1) j) / q 2)%s.
  Definition ndxx_GC02 (psi gc : arr) (i j : Z) : sexpr :=
    let b := (V2 gc (i+1) j + V2 gc (i-1) j - q 2 * V2 gc i j)%s in
    if iga o then (b * psi_bar_x2 psi i j)%s else b.
  Definition ndtt_GC02 (psi ndtt : arr) (i j : Z) : sexpr :=
    if iga o then (V2 ndtt i j * psi_bar_x2 psi i j)%s else (V2 ndtt i j + q 0)%s.

  Section Advector.
    Variables (psi psin : arr) (gc ndt ndtt : dim -> arr).
    Notation g0 := (V2 (gc d)).
    Notation g1 := (gc (od d)).

    (** formulae_mpdata_fdiv_2d.hpp:26-67 *)
    Definition fdiv_centre2 (i j : Z) : sexpr :=
      ((g0 i j * psi_bar_x2 psi i j - g0 (i-1) j * psi_bar_x2 psi (i-1) j
        + V2 g1 i j * psi_bar_y2 psi i j - V2 g1 i (j-1) * psi_bar_y2 psi i (j-1)) / G2 i j)%s.
    Definition fdiv_corner_xy2 (i j : Z) : sexpr :=
      ((GC0_bar_xy2 (gc d) (i+1) j * psi_bar_y2 psi (i+1) j - GC0_bar_xy2 (gc d) i j * psi_bar_y2 psi i j
        + GC1_bar_xy2 g1 i (j+1) * psi_bar_x2 psi i (j+1) - GC1_bar_xy2 g1 i j * psi_bar_x2 psi i j)
       / G_bar_xy2 i j)%s.
    (** 69-153, for any vector *)
    Definition six (p : arr) (i j : Z) : sexpr :=
      (pa2 p (i+1) j + pa2 p i j + pa2 p i (j+1) + pa2 p (i+1) (j+1) + pa2 p i (j-1) + pa2 p (i+1) (j-1))%s.
    Definition nfdiv2 (v : dim -> arr) (i j : Z) : sexpr :=
      let nom := (GC0_bar_x2 (v d) (i+1) j * pa2 psi (i+1) j - GC0_bar_x2 (v d) i j * pa2 psi i j
                  + GC1_bar_x2 (v (od d)) i j * psi_bar_xy2 psi i j
                  - GC1_bar_x2 (v (od d)) i (j-1) * psi_bar_xy2 psi i (j-1))%s in
      if iga o then (nom / G_bar_x2 i j)%s
      else (q 6 * frac o nom (G_bar_x2 i j * six psi i j))%s.
    (** 155-243 *)
    Definition eight (i j : Z) : sexpr :=
      (pa2 psi (i+2) j + pa2 psi (i+1) j + pa2 psi i j + pa2 psi (i-1) j + pa2 psi i (j+1) + pa2 psi i (j-1)
       + pa2 psi (i+1) (j+1) + pa2 psi (i+1) (j-1))%s.
    Definition nfdiv_fdiv2 (i j : Z) : sexpr :=
      let nom := (GC0_bar_x2 (gc d) (i+1) j * fdiv_centre2 (i+1) j - GC0_bar_x2 (gc d) i j * fdiv_centre2 i j
                  + GC1_bar_x2 g1 i j * fdiv_corner_xy2 i j
                  - GC1_bar_x2 g1 i (j-1) * fdiv_corner_xy2 i (j-1))%s in
      if iga o then (nom / G_bar_x2 i j)%s
      else (q 8 * frac o nom (G_bar_x2 i j * eight i j))%s.
    (** 245-321 *)
    Definition ndx_fdiv2 (i j : Z) : sexpr :=
      let nom := (fdiv_centre2 (i+1) j - fdiv_centre2 i j)%s in
      if iga o then nom else (q 8 * frac o nom (eight i j))%s.
    (** 323-427 *)
    Definition nfdiv_dt2 (i j : Z) : sexpr :=
      let nom := (GC0_bar_x2 (gc d) (i+1) j * (pa2 psi (i+1) j - pa2 psin (i+1) j)
                  - GC0_bar_x2 (gc d) i j * (pa2 psi i j - pa2 psin i j)
                  + GC1_bar_x2 g1 i j * (psi_bar_xy2 psi i j - psi_bar_xy2 psin i j)
                  - GC1_bar_x2 g1 i (j-1) * (psi_bar_xy2 psi i (j-1) - psi_bar_xy2 psin i (j-1)))%s in
      if iga o then (nom / G_bar_x2 i j)%s
      else (q 12 * frac o nom (G_bar_x2 i j *
        (six psi i j + pa2 psin (i+1) j + pa2 psin i j + pa2 psin i (j+1) + pa2 psin (i+1) (j+1)
         + pa2 psin i (j-1) + pa2 psin (i+1) (j-1))))%s.

    (** formulae_mpdata_hot_2d.hpp:20-80 *)
    Definition ndxx_psi_coeff2 (i j : Z) : sexpr :=
      ((q 3 * g0 i j * sabs (g0 i j) / G_bar_x2 i j
        - q 2 * pow3 (g0 i j) / pow2 (G_bar_x2 i j)
        - g0 i j) / q 6)%s.
    Definition ndxy_psi_coeff2 (i j : Z) : sexpr :=
      ((sabs (g0 i j) - q 2 * pow2 (g0 i j) / G_bar_x2 i j) * GC1_bar_xy2 g1 i j / (q 2 * G_bar_x2 i j))%s.
    Definition TOT2 (i j : Z) : sexpr :=
      if tot o then (ndxx_psi2 psi i j * ndxx_psi_coeff2 i j + ndxy_psi2 psi i j * ndxy_psi_coeff2 i j)%s else q 0.
    (** 82-171 *)
    Definition ndxxx_psi_coeff2 (i j : Z) : sexpr :=
      ((q 6 * sabs (g0 i j) * pow2 (g0 i j) / pow2 (G_bar_x2 i j)
        - q 3 * pow2 (g0 i j) / G_bar_x2 i j
        - q 3 * pow4 (g0 i j) / pow3 (G_bar_x2 i j)) / q 2)%s.
    Definition ndxxy_psi_coeff2 (i j : Z) : sexpr :=
      (q 3 * (sabs (g0 i j) - pow2 (g0 i j) / G_bar_x2 i j) * g0 i j * GC1_bar_xy2 g1 i j / pow2 (G_bar_x2 i j))%s.
    Definition ndxyy_psi_coeff2 (i j : Z) : sexpr :=
      let G1 := GC1_bar_xy2 g1 i j in
      (q 3 * (q 3 * sabs G1 * pow2 (g0 i j) / G_bar_x2 i j
              + q 3 * pow2 G1 * sabs (g0 i j) / G_bar_x2 i j
              - q 2 * sabs G1 * sabs (g0 i j)
              - q 9 * pow2 G1 * pow2 (g0 i j) / pow2 (G_bar_x2 i j)) / G_bar_x2 i j / q 4)%s.
    Definition FOT2 (i j : Z) : sexpr :=
      if fot o then (ndxxx_psi2 psi i j * ndxxx_psi_coeff2 i j + ndxxy_psi2 psi i j * ndxxy_psi_coeff2 i j
                     + ndxyy_psi2 psi i j * ndxyy_psi_coeff2 i j)%s else q 0.

    (** formulae_mpdata_dfl_2d.hpp:19-97 *)
    Definition DFL2 (i j : Z) : sexpr :=
      if dfl o then
        let b := ((- qq 1 4) * g0 i j / G_bar_x2 i j *
                  ((g0 (i+1) j - g0 (i-1) j)
                   + (V2 g1 (i+1) j + V2 g1 i j - V2 g1 (i+1) (j-1) - V2 g1 i (j-1))))%s in
        if iga o then (b * psi_bar_x2 psi i j)%s else b
      else q 0.

    (** formulae_mpdata_2d.hpp:21-155 *)
    Definition div_2nd2 (i j : Z) : sexpr :=
      (sabs (g0 i j) / q 2 * ndx_psi2 psi i j - g0 i j / q 2 * nfdiv2 gc i j)%s.
    Definition div_3rd_upwind2 (i j : Z) : sexpr :=
      if iga o then q 0 else (sabs (div_2nd2 i j) / q 2 * ndx_psi2 psi i j)%s.
    Definition div_3rd_temporal2 (i j : Z) : sexpr :=
      match tp with noextrp => ndtt_GC02 psi (ndtt d) i j | linear2 => (q 10 * ndtt_GC02 psi (ndtt d) i j)%s end.
    Definition div_3rd_spatial_helper2 (i j : Z) : sexpr :=
      match sp with exact => ndxx_GC02 psi (gc d) i j | aver2 => (q 4 * ndxx_GC02 psi (gc d) i j)%s | aver4 => q 0 end.
    Definition div_3rd_spatial2 (i j : Z) : sexpr :=
      ((- qq 1 24) * (q 4 * g0 i j * ndxx_psi2 psi i j + q 2 * ndx_psi2 psi i j * ndx_GC02 (gc d) i j
                      + div_3rd_spatial_helper2 i j))%s.
    (** 157-238 *)
    Definition div_3rd2 (i j : Z) : sexpr :=
      if div3 o then
        (div_3rd_upwind2 i j + div_3rd_spatial2 i j
         + qq 1 2 * sabs (g0 i j) * ndx_fdiv2 i j
         + qq 1 24 * ((- q 8) * g0 i j * nfdiv_fdiv2 i j
                      + div_3rd_temporal2 i j
                      + q 2 * g0 i j * nfdiv2 ndt i j
                      - q 2 * V2 (ndt d) i j * nfdiv2 gc i j))%s
      else if div3dt o then
        (div_3rd_upwind2 i j + div_3rd_spatial2 i j
         - qq 1 2 * sabs (g0 i j) * ndtx_psi2 psi psin i j
         + qq 1 24 * (q 8 * g0 i j * nfdiv_dt2 i j
                      + q 1 * ndtt_GC02 psi (ndtt d) i j
                      + q 2 * g0 i j * nfdiv2 ndt i j
                      + q 2 * V2 (ndt d) i j * ndt_psi2 psi psin i j))%s
      else q 0.

    (** 241-305: right-hand side of res(pi<dim>(i + h, j)) = ... *)
    Definition antidiff2 (i j : Z) : sexpr :=
      if div2 o then (div_2nd2 i j + div_3rd2 i j + FOT2 i j)%s
      else (sabs (g0 i j) / q 2 * (q 1 - sabs (g0 i j) / G_bar_x2 i j) * ndx_psi2 psi i j
            - g0 i j * GC1_bar_xy2 g1 i j / (q 2 * G_bar_x2 i j) * ndy_psi2 psi i j
            + TOT2 i j + FOT2 i j + DFL2 i j)%s.
  End Advector.

  (** donorcell_formulae.hpp:52-64 *)
  Definition make_flux2 (psi gc : arr) (i j : Z) : sexpr := Fx o (P2 psi i j) (P2 psi (i+1) j) (V2 gc i j).

  (** formulae_mpdata_fct_2d.hpp:121-213 *)
  Definition GC_mono2 (psi up dn gc : arr) (i j : Z) : sexpr :=
    let A := smin (q 1) (smin (V2 dn i j) (V2 up (i+1) j)) in
    let B := smin (q 1) (smin (V2 up i j) (V2 dn (i+1) j)) in
    if negb (iga o) && oabs o then
      (V2 gc i j * Ite Gt (V2 gc i j) (q 0) (Ite Gt (P2 psi i j) (q 0) A B) (Ite Gt (P2 psi (i+1) j) (q 0) B A))%s
    else (V2 gc i j * Ite Gt (V2 gc i j) (q 0) A B)%s.
End Form2D.

(** formulae_mpdata_fct_2d.hpp:20-119; arguments are [(x, y)] *)
Section Beta2D.
  Variable o : fl.
  Notation at_ a i j := (Leaf (a, (i, j, 0))).
  Definition beta_up2 (psi psi_max : arr) (flx : dim -> arr) : sexpr :=
    fct_frac ((smax (at_ psi_max 0 0) (smax (at_ psi 0 1) (smax (at_ psi (-1) 0) (smax (at_ psi 0 0)
                (smax (at_ psi 1 0) (at_ psi 0 (-1)))))) - at_ psi 0 0) * Gx o izero)%s
             ((pospart o (at_ (flx DX) (-1) 0) - negpart o (at_ (flx DX) 0 0))
              + (pospart o (at_ (flx DY) 0 (-1)) - negpart o (at_ (flx DY) 0 0)))%s.
  Definition beta_dn2 (psi psi_min : arr) (flx : dim -> arr) : sexpr :=
    fct_frac ((at_ psi 0 0 - smin (at_ psi_min 0 0) (smin (at_ psi 0 1) (smin (at_ psi (-1) 0) (smin (at_ psi 0 0)
                (smin (at_ psi 1 0) (at_ psi 0 (-1))))))) * Gx o izero)%s
             ((pospart o (at_ (flx DX) 0 0) - negpart o (at_ (flx DX) (-1) 0))
              + (pospart o (at_ (flx DY) 0 0) - negpart o (at_ (flx DY) 0 (-1))))%s.
  (** mpdata_fct_2d.hpp:36-45 *)
  Definition psi_min2 (psi : arr) : sexpr :=
    smin (smin (smin (smin (at_ psi 0 1) (at_ psi (-1) 0)) (at_ psi 0 0)) (at_ psi 1 0)) (at_ psi 0 (-1)).
  Definition psi_max2 (psi : arr) : sexpr :=
    smax (smax (smax (smax (at_ psi 0 1) (at_ psi (-1) 0)) (at_ psi 0 0)) (at_ psi 1 0)) (at_ psi 0 (-1)).
  (** donorcell_formulae.hpp:106-133 *)
  Definition sum2f (psi : arr) (flx : dim -> arr) : sexpr :=
    (at_ psi 0 0 + (((- at_ (flx DX) 0 0) + at_ (flx DX) (-1) 0)
                    + ((- at_ (flx DY) 0 0) + at_ (flx DY) 0 (-1))) / Gx o izero)%s.
  Definition terms2 (psi : arr) (flx : dim -> arr) : list sexpr :=
    [ at_ psi 0 0; ((- at_ (flx DX) 0 0) / Gx o izero)%s; (at_ (flx DX) (-1) 0 / Gx o izero)%s;
      ((- at_ (flx DY) 0 0) / Gx o izero)%s; (at_ (flx DY) 0 (-1) / Gx o izero)%s ].
End Beta2D.
