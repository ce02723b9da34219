(** Three-dimensional formulae, for the component along [d].  Indices are given
    as in the source, first along [d], then along the next dimension, then
    along the one after: [pi<0>(i, j, k)], [pi<1>(j, k, i)] and [pi<2>(k, i, j)]
    are the index [(i, j, k)] (libmpdata++/formulae/idxperm.hpp:43-81).
    [GC[dim+1]] and [GC[dim-1]] are the next and the previous component
    (arrvec_t.hpp: the subscript is taken modulo the length). *)

From Coq Require Import ZArith List Bool.
From Verif Require Import Lang Stencil FormCommon.
Import ListNotations.
Local Open Scope Z_scope.

(** Combinations that compile in three dimensions: those of [fl_ok], but not
    both [div_3rd] and [div_3rd_dt] in divergence form (the call of [div_3rd]
    is ambiguous, formulae_mpdata_3d.hpp:200,233).  [fot] is accepted and has
    no effect: there are no fourth-order terms in formulae_mpdata_3d.hpp. *)
Definition fl_ok3 (o : fl) : bool := fl_ok o && negb (div2 o && div3 o && div3dt o).

(** [dim+1] and [dim-1] *)
Definition dp (d : dim) : dim := match d with DX => DY | DY => DZ | DZ => DX end.
Definition dm (d : dim) : dim := match d with DX => DZ | DY => DX | DZ => DY end.
Definition x3 (d : dim) (i j k : Z) : idx :=
  match d with DX => (i, j, k) | DY => (k, i, j) | DZ => (j, k, i) end.

Section Form3D.
  Variable o : fl.
  Variable sp : sptl.
  Variable tp : tmprl.
  Variable d : dim.

  Definition V3 (a : arr) (i j k : Z) : sexpr := Leaf (a, x3 d i j k).
  Definition G3 (i j k : Z) : sexpr := Gx o (x3 d i j k).

  (** formulae_mpdata_g_3d.hpp:23-116 *)
  Definition G_bar_x3 (i j k : Z) : sexpr :=
    if nug o then ((G3 (i+1) j k + G3 i j k) / q 2)%s else q 1.
  Definition G_bar_xy3 (i j k : Z) : sexpr :=
    if nug o then ((G3 i j k + G3 i (j+1) k + G3 (i+1) j k + G3 (i+1) (j+1) k) / q 4)%s else q 1.
  Definition G_bar_xz3 (i j k : Z) : sexpr :=
    if nug o then ((G3 i j k + G3 i j (k+1) + G3 (i+1) j k + G3 (i+1) j (k+1)) / q 4)%s else q 1.

  Section Psi.
    Variable psi : arr.
    Definition P3 (i j k : Z) : sexpr := V3 psi i j k.
    Definition pa3 (i j k : Z) : sexpr := if oabs o then sabs (P3 i j k) else P3 i j k.

    (** formulae_mpdata_psi_3d.hpp:23-257 *)
    Definition psi_bar_x3 (i j k : Z) : sexpr := ((pa3 (i+1) j k + pa3 i j k) / q 2)%s.
    Definition psi_bar_y3 (i j k : Z) : sexpr := ((pa3 i j k + pa3 i (j+1) k) / q 2)%s.
    Definition psi_bar_z3 (i j k : Z) : sexpr := ((pa3 i j k + pa3 i j (k+1)) / q 2)%s.
    Definition psi_bar_xy3 (i j k : Z) : sexpr :=
      ((pa3 (i+1) j k + pa3 i j k + pa3 i (j+1) k + pa3 (i+1) (j+1) k) / q 4)%s.
    Definition psi_bar_xz3 (i j k : Z) : sexpr :=
      ((pa3 (i+1) j k + pa3 i j k + pa3 i j (k+1) + pa3 (i+1) j (k+1)) / q 4)%s.
    Definition psi_bar_xyz3 (i j k : Z) : sexpr :=
      ((pa3 i j k + pa3 (i+1) j k + pa3 i (j+1) k + pa3 i j (k+1)
        + pa3 (i+1) (j+1) k + pa3 (i+1) j (k+1) + pa3 i (j+1) (k+1) + pa3 (i+1) (j+1) (k+1)) / q 8)%s.

    (** 259-316 *)
    Definition ndx_psi3 (i j k : Z) : sexpr :=
      if iga o then (P3 (i+1) j k - P3 i j k)%s
      else (q 2 * frac o (pa3 (i+1) j k - pa3 i j k) (pa3 (i+1) j k + pa3 i j k))%s.
    (** 318-390 *)
    Definition ndy_psi3 (i j k : Z) : sexpr :=
      if iga o then ((P3 (i+1) (j+1) k + P3 i (j+1) k - P3 (i+1) (j-1) k - P3 i (j-1) k) / q 4)%s
      else frac o (pa3 (i+1) (j+1) k + pa3 i (j+1) k - pa3 (i+1) (j-1) k - pa3 i (j-1) k)%s
                  (pa3 (i+1) (j+1) k + pa3 i (j+1) k + pa3 (i+1) (j-1) k + pa3 i (j-1) k)%s.
    (** 392-464 *)
    Definition ndz_psi3 (i j k : Z) : sexpr :=
      if iga o then ((P3 (i+1) j (k+1) + P3 i j (k+1) - P3 (i+1) j (k-1) - P3 i j (k-1)) / q 4)%s
      else frac o (pa3 (i+1) j (k+1) + pa3 i j (k+1) - pa3 (i+1) j (k-1) - pa3 i j (k-1))%s
                  (pa3 (i+1) j (k+1) + pa3 i j (k+1) + pa3 (i+1) j (k-1) + pa3 i j (k-1))%s.
    (** 466-540 *)
    Definition ndxx_psi3 (i j k : Z) : sexpr :=
      if iga o then (q 2 * (P3 (i+2) j k - P3 (i+1) j k - P3 i j k + P3 (i-1) j k) / q 4)%s
      else (q 2 * frac o (pa3 (i+2) j k - pa3 (i+1) j k - pa3 i j k + pa3 (i-1) j k)
                         (pa3 (i+2) j k + pa3 (i+1) j k + pa3 i j k + pa3 (i-1) j k))%s.
    (** 542-616 *)
    Definition ndxy_psi3 (i j k : Z) : sexpr :=
      if iga o then (q 2 * (P3 (i+1) (j+1) k - P3 i (j+1) k - P3 (i+1) (j-1) k + P3 i (j-1) k) / q 4)%s
      else (q 2 * frac o (pa3 (i+1) (j+1) k - pa3 i (j+1) k - pa3 (i+1) (j-1) k + pa3 i (j-1) k)
                         (pa3 (i+1) (j+1) k + pa3 i (j+1) k + pa3 (i+1) (j-1) k + pa3 i (j-1) k))%s.
    (** 618-692 *)
    Definition ndxz_psi3 (i j k : Z) : sexpr :=
      if iga o then (q 2 * (P3 (i+1) j (k+1) - P3 i j (k+1) - P3 (i+1) j (k-1) + P3 i j (k-1)) / q 4)%s
      else (q 2 * frac o (pa3 (i+1) j (k+1) - pa3 i j (k+1) - pa3 (i+1) j (k-1) + pa3 i j (k-1))
                         (pa3 (i+1) j (k+1) + pa3 i j (k+1) + pa3 (i+1) j (k-1) + pa3 i j (k-1)))%s.
    (** 694-790 *)
    Definition ndyz_psi3 (i j k : Z) : sexpr :=
      let nom (P : Z -> Z -> Z -> sexpr) :=
        (P (i+1)%Z (j+1)%Z (k+1)%Z + P (i+1)%Z (j-1)%Z (k-1)%Z - P (i+1)%Z (j+1)%Z (k-1)%Z - P (i+1)%Z (j-1)%Z (k+1)%Z
         + P i (j+1)%Z (k+1)%Z + P i (j-1)%Z (k-1)%Z - P i (j+1)%Z (k-1)%Z - P i (j-1)%Z (k+1)%Z)%s in
      let den (P : Z -> Z -> Z -> sexpr) :=
        (P (i+1)%Z (j+1)%Z (k+1)%Z + P (i+1)%Z (j-1)%Z (k-1)%Z + P (i+1)%Z (j+1)%Z (k-1)%Z + P (i+1)%Z (j-1)%Z (k+1)%Z
         + P i (j+1)%Z (k+1)%Z + P i (j-1)%Z (k-1)%Z + P i (j+1)%Z (k-1)%Z + P i (j-1)%Z (k+1)%Z)%s in
      if iga o then (nom P3 / (q 1 + q 1 + q 1 + q 1 + q 1 + q 1 + q 1 + q 1))%s
      else frac o (nom pa3) (den pa3).
  End Psi.

  (** 792-937, [psi_np1] and [psi_n] *)
  Definition ndtx_psi3 (np1 n : arr) (i j k : Z) : sexpr :=
    if iga o then (P3 np1 (i+1) j k - P3 n (i+1) j k - P3 np1 i j k + P3 n i j k)%s
    else (q 4 * frac o (pa3 np1 (i+1) j k - pa3 n (i+1) j k - pa3 np1 i j k + pa3 n i j k)
                       (pa3 np1 (i+1) j k + pa3 n (i+1) j k + pa3 np1 i j k + pa3 n i j k))%s.
  Definition ndt_psi3 (np1 n : arr) (i j k : Z) : sexpr :=
    if iga o then (qq 1 2 * (P3 np1 (i+1) j k - P3 n (i+1) j k + P3 np1 i j k - P3 n i j k))%s
    else (q 2 * frac o (pa3 np1 (i+1) j k - pa3 n (i+1) j k + pa3 np1 i j k - pa3 n i j k)
                       (pa3 np1 (i+1) j k + pa3 n (i+1) j k + pa3 np1 i j k + pa3 n i j k))%s.

  (** formulae_mpdata_gc_3d.hpp:26-273; [gc]: one component *)
  Definition GC0_bar_x3 (gc : arr) (i j k : Z) : sexpr := ((V3 gc i j k + V3 gc (i-1) j k) / q 2)%s.
  Definition GC0_bar_xy3 (gc : arr) (i j k : Z) : sexpr :=
    ((V3 gc i j k + V3 gc (i-1) j k + V3 gc i (j+1) k + V3 gc (i-1) (j+1) k) / q 4)%s.
  Definition GC0_bar_xz3 (gc : arr) (i j k : Z) : sexpr :=
    ((V3 gc i j k + V3 gc (i-1) j k + V3 gc i j (k+1) + V3 gc (i-1) j (k+1)) / q 4)%s.
  Definition GC1_bar_x3 (gc : arr) (i j k : Z) : sexpr := ((V3 gc (i+1) j k + V3 gc i j k) / q 2)%s.
  Definition GC1_bar_xy3 (gc : arr) (i j k : Z) : sexpr :=
    ((V3 gc (i+1) j k + V3 gc i j k + V3 gc (i+1) (j-1) k + V3 gc i (j-1) k) / q 4)%s.
  Definition GC1_bar_xz3 (gc : arr) (i j k : Z) : sexpr :=
    ((V3 gc (i+1) j k + V3 gc (i+1) j (k+1) + V3 gc i j k + V3 gc i j (k+1)) / q 4)%s.
  Definition GC2_bar_x3 (gc : arr) (i j k : Z) : sexpr := ((V3 gc (i+1) j k + V3 gc i j k) / q 2)%s.
  Definition GC2_bar_xz3 (gc : arr) (i j k : Z) : sexpr :=
    ((V3 gc (i+1) j k + V3 gc i j k + V3 gc (i+1) j (k-1) + V3 gc i j (k-1)) / q 4)%s.
  Definition GC2_bar_xy3 (gc : arr) (i j k : Z) : sexpr :=
    ((V3 gc (i+1) (j+1) k + V3 gc i (j+1) k + V3 gc (i+1) j k + V3 gc i j k) / q 4)%s.
  Definition ndx_GC03 (gc : arr) (i j k : Z) : sexpr := ((V3 gc (i+1) j k - V3 gc (i-1) j k) / q 2)%s.
  Definition ndxx_GC03 (psi gc : arr) (i j k : Z) : sexpr :=
    let b := (V3 gc (i+1) j k + V3 gc (i-1) j k - q 2 * V3 gc i j k)%s in
    if iga o then (b * psi_bar_x3 psi i j k)%s else b.
  Definition ndtt_GC03 (psi ndtt : arr) (i j k : Z) : sexpr :=
    if iga o then (V3 ndtt i j k * psi_bar_x3 psi i j k)%s else (V3 ndtt i j k + q 0)%s.

  Section Advector.
    Variables (psi psin : arr) (gc ndt ndtt : dim -> arr).
    Notation g0 := (V3 (gc d)).
    Notation g1 := (gc (dp d)).
    Notation g2 := (gc (dm d)).

    (** formulae_mpdata_fdiv_3d.hpp:26-103 *)
    Definition fdiv_centre3 (i j k : Z) : sexpr :=
      ((g0 i j k * psi_bar_x3 psi i j k - g0 (i-1) j k * psi_bar_x3 psi (i-1) j k
        + V3 g1 i j k * psi_bar_y3 psi i j k - V3 g1 i (j-1) k * psi_bar_y3 psi i (j-1) k
        + V3 g2 i j k * psi_bar_z3 psi i j k - V3 g2 i j (k-1) * psi_bar_z3 psi i j (k-1)) / G3 i j k)%s.
    Definition fdiv_corner_xy3 (i j k : Z) : sexpr :=
      ((GC0_bar_xy3 (gc d) (i+1) j k * psi_bar_y3 psi (i+1) j k - GC0_bar_xy3 (gc d) i j k * psi_bar_y3 psi i j k
        + GC1_bar_xy3 g1 i (j+1) k * psi_bar_x3 psi i (j+1) k - GC1_bar_xy3 g1 i j k * psi_bar_x3 psi i j k
        + GC2_bar_xy3 g2 i j k * psi_bar_xyz3 psi i j k - GC2_bar_xy3 g2 i j (k-1) * psi_bar_xyz3 psi i j (k-1))
       / G_bar_xy3 i j k)%s.
    Definition fdiv_corner_xz3 (i j k : Z) : sexpr :=
      ((GC0_bar_xz3 (gc d) (i+1) j k * psi_bar_z3 psi (i+1) j k - GC0_bar_xz3 (gc d) i j k * psi_bar_z3 psi i j k
        + GC1_bar_xz3 g1 i j k * psi_bar_xyz3 psi i j k - GC1_bar_xz3 g1 i (j-1) k * psi_bar_xyz3 psi i (j-1) k
        + GC2_bar_xz3 g2 i j (k+1) * psi_bar_x3 psi i j (k+1) - GC2_bar_xz3 g2 i j k * psi_bar_x3 psi i j k)
       / G_bar_xz3 i j k)%s.
    (** 105-215, for any vector *)
    Definition ten (p : arr) (i j k : Z) : list sexpr :=
      [ pa3 p (i+1) j k; pa3 p i j k; pa3 p i (j+1) k; pa3 p (i+1) (j+1) k; pa3 p i (j-1) k; pa3 p (i+1) (j-1) k;
        pa3 p (i+1) j (k+1); pa3 p (i+1) j (k-1); pa3 p i j (k-1); pa3 p i j (k+1) ].
    (** [a + b + c + ...] *)
    Definition adds (l : list sexpr) : sexpr :=
      match l with [] => q 0 | a :: l' => fold_left (Bin Add) l' a end.
    Definition nfdiv3 (v : dim -> arr) (i j k : Z) : sexpr :=
      let nom := (GC0_bar_x3 (v d) (i+1) j k * pa3 psi (i+1) j k - GC0_bar_x3 (v d) i j k * pa3 psi i j k
                  + GC1_bar_x3 (v (dp d)) i j k * psi_bar_xy3 psi i j k
                  - GC1_bar_x3 (v (dp d)) i (j-1) k * psi_bar_xy3 psi i (j-1) k
                  + GC2_bar_x3 (v (dm d)) i j k * psi_bar_xz3 psi i j k
                  - GC2_bar_x3 (v (dm d)) i j (k-1) * psi_bar_xz3 psi i j (k-1))%s in
      if iga o then (nom / G_bar_x3 i j k)%s
      else (q 10 * frac o nom (G_bar_x3 i j k * adds (ten psi i j k)))%s.
    (** 217-330 *)
    Definition twelve (i j k : Z) : sexpr :=
      adds [ pa3 psi (i+2) j k; pa3 psi (i+1) j k; pa3 psi i j k; pa3 psi (i-1) j k;
             pa3 psi i (j+1) k; pa3 psi i (j-1) k; pa3 psi (i+1) (j+1) k; pa3 psi (i+1) (j-1) k;
             pa3 psi i j (k+1); pa3 psi i j (k-1); pa3 psi (i+1) j (k+1); pa3 psi (i+1) j (k-1) ].
    Definition nfdiv_fdiv3 (i j k : Z) : sexpr :=
      let nom := (GC0_bar_x3 (gc d) (i+1) j k * fdiv_centre3 (i+1) j k - GC0_bar_x3 (gc d) i j k * fdiv_centre3 i j k
                  + GC1_bar_x3 g1 i j k * fdiv_corner_xy3 i j k
                  - GC1_bar_x3 g1 i (j-1) k * fdiv_corner_xy3 i (j-1) k
                  + GC2_bar_x3 g2 i j k * fdiv_corner_xz3 i j k
                  - GC2_bar_x3 g2 i j (k-1) * fdiv_corner_xz3 i j (k-1))%s in
      if iga o then (nom / G_bar_x3 i j k)%s
      else (q 12 * frac o nom (G_bar_x3 i j k * twelve i j k))%s.
    (** 332-420 *)
    Definition twelve' (i j k : Z) : sexpr :=
      adds [ pa3 psi (i+2) j k; pa3 psi (i+1) j k; pa3 psi i j k; pa3 psi (i-1) j k;
             pa3 psi i (j+1) k; pa3 psi i (j-1) k; pa3 psi i j (k-1); pa3 psi i j (k+1);
             pa3 psi (i+1) (j+1) k; pa3 psi (i+1) (j-1) k; pa3 psi (i+1) j (k-1); pa3 psi (i+1) j (k+1) ].
    Definition ndx_fdiv3 (i j k : Z) : sexpr :=
      let nom := (fdiv_centre3 (i+1) j k - fdiv_centre3 i j k)%s in
      if iga o then nom else (q 12 * frac o nom (twelve' i j k))%s.
    (** 422-572 *)
    Definition nfdiv_dt3 (i j k : Z) : sexpr :=
      let nom := (GC0_bar_x3 (gc d) (i+1) j k * (pa3 psi (i+1) j k - pa3 psin (i+1) j k)
                  - GC0_bar_x3 (gc d) i j k * (pa3 psi i j k - pa3 psin i j k)
                  + GC1_bar_x3 g1 i j k * (psi_bar_xy3 psi i j k - psi_bar_xy3 psin i j k)
                  - GC1_bar_x3 g1 i (j-1) k * (psi_bar_xy3 psi i (j-1) k - psi_bar_xy3 psin i (j-1) k)
                  + GC2_bar_x3 g2 i j k * (psi_bar_xz3 psi i j k - psi_bar_xz3 psin i j k)
                  - GC2_bar_x3 g2 i j (k-1) * (psi_bar_xz3 psi i j (k-1) - psi_bar_xz3 psin i j (k-1)))%s in
      if iga o then (nom / G_bar_x3 i j k)%s
      else (q 20 * frac o nom (G_bar_x3 i j k * adds (ten psi i j k ++ ten psin i j k)))%s.

    (** formulae_mpdata_hot_3d.hpp:20-122 *)
    Definition ndxx_psi_coeff3 (i j k : Z) : sexpr :=
      ((q 3 * g0 i j k * sabs (g0 i j k) / G_bar_x3 i j k
        - q 2 * pow3 (g0 i j k) / pow2 (G_bar_x3 i j k)
        - g0 i j k) / q 6)%s.
    Definition ndxy_psi_coeff3 (i j k : Z) : sexpr :=
      ((sabs (g0 i j k) - q 2 * pow2 (g0 i j k) / G_bar_x3 i j k) * GC1_bar_xy3 g1 i j k / (q 2 * G_bar_x3 i j k))%s.
    Definition ndxz_psi_coeff3 (i j k : Z) : sexpr :=
      ((sabs (g0 i j k) - q 2 * pow2 (g0 i j k) / G_bar_x3 i j k) * GC2_bar_xz3 g2 i j k / (q 2 * G_bar_x3 i j k))%s.
    Definition ndyz_psi_coeff3 (i j k : Z) : sexpr :=
      (q (-2) * g0 i j k * GC1_bar_xy3 g1 i j k * GC2_bar_xz3 g2 i j k / q 3 / pow2 (G_bar_x3 i j k))%s.
    Definition TOT3 (i j k : Z) : sexpr :=
      if tot o then (ndxx_psi3 psi i j k * ndxx_psi_coeff3 i j k + ndxy_psi3 psi i j k * ndxy_psi_coeff3 i j k
                     + ndxz_psi3 psi i j k * ndxz_psi_coeff3 i j k + ndyz_psi3 psi i j k * ndyz_psi_coeff3 i j k)%s
      else q 0.

    (** formulae_mpdata_dfl_3d.hpp:19-112 *)
    Definition DFL3 (i j k : Z) : sexpr :=
      if dfl o then
        let b := ((- qq 1 4) * g0 i j k / G_bar_x3 i j k *
                  ((g0 (i+1) j k - g0 (i-1) j k)
                   + (V3 g1 (i+1) j k + V3 g1 i j k - V3 g1 (i+1) (j-1) k - V3 g1 i (j-1) k)
                   + (V3 g2 (i+1) j k + V3 g2 i j k - V3 g2 (i+1) j (k-1) - V3 g2 i j (k-1))))%s in
        if iga o then (b * psi_bar_x3 psi i j k)%s else b
      else q 0.

    (** formulae_mpdata_3d.hpp:22-165 *)
    Definition div_2nd3 (i j k : Z) : sexpr :=
      (sabs (g0 i j k) / q 2 * ndx_psi3 psi i j k - g0 i j k / q 2 * nfdiv3 gc i j k)%s.
    Definition div_3rd_upwind3 (i j k : Z) : sexpr :=
      if iga o then q 0 else (sabs (div_2nd3 i j k) / q 2 * ndx_psi3 psi i j k)%s.
    Definition div_3rd_temporal3 (i j k : Z) : sexpr :=
      match tp with noextrp => ndtt_GC03 psi (ndtt d) i j k | linear2 => (q 10 * ndtt_GC03 psi (ndtt d) i j k)%s end.
    Definition div_3rd_spatial_helper3 (i j k : Z) : sexpr :=
      match sp with exact => ndxx_GC03 psi (gc d) i j k | aver2 => (q 4 * ndxx_GC03 psi (gc d) i j k)%s | aver4 => q 0 end.
    Definition div_3rd_spatial3 (i j k : Z) : sexpr :=
      ((- qq 1 24) * (q 4 * g0 i j k * ndxx_psi3 psi i j k + q 2 * ndx_psi3 psi i j k * ndx_GC03 (gc d) i j k
                      + div_3rd_spatial_helper3 i j k))%s.
    (** 167-257 *)
    Definition div_3rd3 (i j k : Z) : sexpr :=
      if div3 o then
        (div_3rd_upwind3 i j k + div_3rd_spatial3 i j k
         + qq 1 2 * sabs (g0 i j k) * ndx_fdiv3 i j k
         + qq 1 24 * (q (-8) * g0 i j k * nfdiv_fdiv3 i j k
                      + div_3rd_temporal3 i j k
                      + q 2 * g0 i j k * nfdiv3 ndt i j k
                      - q 2 * V3 (ndt d) i j k * nfdiv3 gc i j k))%s
      else if div3dt o then
        (div_3rd_upwind3 i j k + div_3rd_spatial3 i j k
         - qq 1 2 * sabs (g0 i j k) * ndtx_psi3 psi psin i j k
         + qq 1 24 * (q 8 * g0 i j k * nfdiv_dt3 i j k
                      + div_3rd_temporal3 i j k
                      + q 2 * g0 i j k * nfdiv3 ndt i j k
                      + q 2 * V3 (ndt d) i j k * ndt_psi3 psi psin i j k))%s
      else q 0.

    (** 259-340: right-hand side of res(pi<dim>(i, j, k)) = ... *)
    Definition antidiff3 (i j k : Z) : sexpr :=
      if div2 o then (div_2nd3 i j k + div_3rd3 i j k)%s
      else (sabs (g0 i j k) / q 2 * (q 1 - sabs (g0 i j k) / G_bar_x3 i j k) * ndx_psi3 psi i j k
            - g0 i j k / q 2 * (GC1_bar_xy3 g1 i j k * ndy_psi3 psi i j k + GC2_bar_xz3 g2 i j k * ndz_psi3 psi i j k)
              / G_bar_x3 i j k
            + TOT3 i j k + DFL3 i j k)%s.
  End Advector.

  (** donorcell_formulae.hpp:66-79 *)
  Definition make_flux3 (psi gc : arr) (i j k : Z) : sexpr := Fx o (P3 psi i j k) (P3 psi (i+1) j k) (V3 gc i j k).

  (** formulae_mpdata_fct_3d.hpp:147-246 *)
  Definition GC_mono3 (psi up dn gc : arr) (i j k : Z) : sexpr :=
    let A := smin (q 1) (smin (V3 dn i j k) (V3 up (i+1) j k)) in
    let B := smin (q 1) (smin (V3 up i j k) (V3 dn (i+1) j k)) in
    if negb (iga o) && oabs o then
      (V3 gc i j k * Ite Gt (V3 gc i j k) (q 0) (Ite Gt (P3 psi i j k) (q 0) A B) (Ite Gt (P3 psi (i+1) j k) (q 0) B A))%s
    else (V3 gc i j k * Ite Gt (V3 gc i j k) (q 0) A B)%s.
End Form3D.

(** formulae_mpdata_fct_3d.hpp:21-145; arguments are [(x, y, z)] *)
Section Beta3D.
  Variable o : fl.
  Notation at_ a i j k := (Leaf (a, (i, j, k))).
  Definition beta_up3 (psi psi_max : arr) (flx : dim -> arr) : sexpr :=
    fct_frac ((smax (at_ psi_max 0 0 0) (smax (at_ psi 0 0 0) (smax (at_ psi 1 0 0) (smax (at_ psi (-1) 0 0)
                (smax (at_ psi 0 1 0) (smax (at_ psi 0 (-1) 0) (smax (at_ psi 0 0 1) (at_ psi 0 0 (-1))))))))
               - at_ psi 0 0 0) * Gx o izero)%s
             ((pospart o (at_ (flx DX) (-1) 0 0) - negpart o (at_ (flx DX) 0 0 0))
              + (pospart o (at_ (flx DY) 0 (-1) 0) - negpart o (at_ (flx DY) 0 0 0))
              + (pospart o (at_ (flx DZ) 0 0 (-1)) - negpart o (at_ (flx DZ) 0 0 0)))%s.
  Definition beta_dn3 (psi psi_min : arr) (flx : dim -> arr) : sexpr :=
    fct_frac ((at_ psi 0 0 0 - smin (at_ psi_min 0 0 0) (smin (at_ psi 0 1 0) (smin (at_ psi (-1) 0 0) (smin (at_ psi 0 0 0)
                (smin (at_ psi 1 0 0) (smin (at_ psi 0 0 1) (smin (at_ psi 0 0 (-1)) (at_ psi 0 (-1) 0))))))))
               * Gx o izero)%s
             ((pospart o (at_ (flx DX) 0 0 0) - negpart o (at_ (flx DX) (-1) 0 0))
              + (pospart o (at_ (flx DY) 0 0 0) - negpart o (at_ (flx DY) 0 (-1) 0))
              + (pospart o (at_ (flx DZ) 0 0 0) - negpart o (at_ (flx DZ) 0 0 (-1))))%s.
  (** mpdata_fct_3d.hpp:31-57 *)
  Definition psi_min3 (psi : arr) : sexpr :=
    smin (smin (smin (smin (smin (smin (at_ psi 0 0 0) (at_ psi 1 0 0)) (at_ psi (-1) 0 0)) (at_ psi 0 1 0))
      (at_ psi 0 (-1) 0)) (at_ psi 0 0 1)) (at_ psi 0 0 (-1)).
  Definition psi_max3 (psi : arr) : sexpr :=
    smax (smax (smax (smax (smax (smax (at_ psi 0 0 0) (at_ psi 1 0 0)) (at_ psi (-1) 0 0)) (at_ psi 0 1 0))
      (at_ psi 0 (-1) 0)) (at_ psi 0 0 1)) (at_ psi 0 0 (-1)).
  (** donorcell_formulae.hpp:134-165 *)
  Definition sum3f (psi : arr) (flx : dim -> arr) : sexpr :=
    (at_ psi 0 0 0 + (((- at_ (flx DX) 0 0 0) + at_ (flx DX) (-1) 0 0)
                      + ((- at_ (flx DY) 0 0 0) + at_ (flx DY) 0 (-1) 0)
                      + ((- at_ (flx DZ) 0 0 0) + at_ (flx DZ) 0 0 (-1))) / Gx o izero)%s.
  Definition terms3 (psi : arr) (flx : dim -> arr) : list sexpr :=
    [ at_ psi 0 0 0; ((- at_ (flx DX) 0 0 0) / Gx o izero)%s; (at_ (flx DX) (-1) 0 0 / Gx o izero)%s;
      ((- at_ (flx DY) 0 0 0) / Gx o izero)%s; (at_ (flx DY) 0 (-1) 0 / Gx o izero)%s;
      ((- at_ (flx DZ) 0 0 0) / Gx o izero)%s; (at_ (flx DZ) 0 0 (-1) / Gx o izero)%s ].
End Beta3D.
