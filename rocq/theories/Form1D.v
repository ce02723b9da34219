(** One-dimensional formulae. *)

From Coq Require Import ZArith List Bool.
From Verif Require Import Lang Stencil FormCommon.
Import ListNotations.
Local Open Scope Z_scope.

Section Form1D.
  Variable o : fl.
  Variable sp : sptl.
  Variable tp : tmprl.
  Variables psi : arr.

  Definition x1 (i : Z) : idx := (i, 0, 0).
  Definition P (i : Z) : sexpr := Leaf (psi, x1 i).
  Definition V (gc : arr) (i : Z) : sexpr := Leaf (gc, x1 i).   (* gc(i+h) *)
  (** [psi(i)] or [abs(psi(i))] (the variable-sign versions) *)
  Definition pa (i : Z) : sexpr := if oabs o then sabs (P i) else P i.
  Definition G1 (i : Z) : sexpr := Gx o (x1 i).

  (** formulae_mpdata_g_1d.hpp:21-46 *)
  Definition G_bar_x (i : Z) : sexpr :=
    if nug o then ((G1 (i+1) + G1 i) / q 2)%s else q 1.

  (** formulae_mpdata_psi_1d.hpp:20-46 *)
  Definition psi_bar_x (i : Z) : sexpr := ((pa (i+1) + pa i) / q 2)%s.

  (** formulae_mpdata_psi_1d.hpp:50-106 *)
  Definition ndx_psi (i : Z) : sexpr :=
    if iga o then (q 2 * (P (i+1) - P i) / (q 1 + q 1))%s
    else (q 2 * frac o (pa (i+1) - pa i) (pa (i+1) + pa i))%s.

  (** formulae_mpdata_psi_1d.hpp:110-163 *)
  Definition ndxx_psi (i : Z) : sexpr :=
    if iga o then (q 2 * (P (i+2) - P (i+1) - P i + P (i-1)) / (q 1 + q 1 + q 1 + q 1))%s
    else (q 2 * frac o (pa (i+2) - pa (i+1) - pa i + pa (i-1)) (pa (i+2) + pa (i+1) + pa i + pa (i-1)))%s.

  (** formulae_mpdata_hot_1d.hpp:19-62 *)
  Definition ndxx_psi_coeff (gc : arr) (i : Z) : sexpr :=
    ((q 3 * V gc i * sabs (V gc i) / G_bar_x i
      - q 2 * pow3 (V gc i) / pow2 (G_bar_x i)
      - V gc i) / q 6)%s.
  Definition TOT (gc : arr) (i : Z) : sexpr :=
    if tot o then (ndxx_psi i * ndxx_psi_coeff gc i)%s else q 0.

  (** formulae_mpdata_dfl_1d.hpp:18-71 *)
  Definition DFL (gc : arr) (i : Z) : sexpr :=
    if dfl o then
      let b := ((- qq 1 2) * V gc i / (G1 (i+1) + G1 i) * (V gc (i+1) - V gc (i-1)))%s in
      if iga o then (b * qq 1 2 * (P (i+1) + P i))%s else b
    else q 0.

  (** formulae_mpdata_gc_1d.hpp:20-106 *)
  Definition GC0_bar_x (gc : arr) (i : Z) : sexpr := ((V gc i + V gc (i-1)) / q 2)%s.
  Definition ndx_GC0 (gc : arr) (i : Z) : sexpr := ((V gc (i+1) - V gc (i-1)) / q 2)%s.
  Definition ndxx_GC0 (gc : arr) (i : Z) : sexpr :=
    let b := (V gc (i+1) + V gc (i-1) - q 2 * V gc i)%s in
    if iga o then (b * psi_bar_x i)%s else b.
  Definition ndtt_GC0 (gc : arr) (i : Z) : sexpr :=
    if iga o then (V gc i * psi_bar_x i)%s else (V gc i + q 0)%s.

  (** formulae_mpdata_fdiv_1d.hpp:22-38 *)
  Definition fdiv_centre (gc : arr) (i : Z) : sexpr :=
    ((V gc i * psi_bar_x i - V gc (i-1) * psi_bar_x (i-1)) / G1 i)%s.
  (** formulae_mpdata_fdiv_1d.hpp:40-107 *)
  Definition nfdiv (gc : arr) (i : Z) : sexpr :=
    if iga o then
      ((GC0_bar_x gc (i+1) * P (i+1) - GC0_bar_x gc i * P i) / G_bar_x i)%s
    else
      (q 2 * frac o (GC0_bar_x gc (i+1) * pa (i+1) - GC0_bar_x gc i * pa i)
                    (G_bar_x i * (pa (i+1) + pa i)))%s.
  (** formulae_mpdata_fdiv_1d.hpp:109-182 *)
  Definition nfdiv_fdiv (gc : arr) (i : Z) : sexpr :=
    let nom := (GC0_bar_x gc (i+1) * fdiv_centre gc (i+1) - GC0_bar_x gc i * fdiv_centre gc i)%s in
    if iga o then (nom / G_bar_x i)%s
    else (q 4 * frac o nom (G_bar_x i * (pa (i+2) + pa (i+1) + pa i + pa (i-1))))%s.
  (** formulae_mpdata_fdiv_1d.hpp:184-253 *)
  Definition ndx_fdiv (gc : arr) (i : Z) : sexpr :=
    let nom := (fdiv_centre gc (i+1) - fdiv_centre gc i)%s in
    if iga o then nom
    else (q 4 * frac o nom (pa (i+2) + pa (i+1) + pa i + pa (i-1)))%s.

  (** formulae_mpdata_1d.hpp:21-176 *)
  Definition div_2nd (gc : arr) (i : Z) : sexpr :=
    (sabs (V gc i) / q 2 * ndx_psi i - V gc i / q 2 * nfdiv gc i)%s.
  Definition div_3rd_upwind (gc : arr) (i : Z) : sexpr :=
    if iga o then q 0 else (sabs (div_2nd gc i) / q 2 * ndx_psi i)%s.
  Definition div_3rd_temporal (ndtt : arr) (i : Z) : sexpr :=
    match tp with noextrp => ndtt_GC0 ndtt i | linear2 => (q 10 * ndtt_GC0 ndtt i)%s end.
  Definition div_3rd_spatial_helper (gc : arr) (i : Z) : sexpr :=
    match sp with exact => ndxx_GC0 gc i | aver2 => (q 4 * ndxx_GC0 gc i)%s | aver4 => q 0 end.
  Definition div_3rd_spatial (gc : arr) (i : Z) : sexpr :=
    ((- qq 1 24) * (q 4 * V gc i * ndxx_psi i + q 2 * ndx_psi i * ndx_GC0 gc i
                    + div_3rd_spatial_helper gc i))%s.
  Definition div_3rd (gc ndt ndtt : arr) (i : Z) : sexpr :=
    if div3 o then
      (div_3rd_upwind gc i
       + div_3rd_spatial gc i
       + qq 1 2 * sabs (V gc i) * ndx_fdiv gc i
       + qq 1 24 * ((- q 8) * V gc i * nfdiv_fdiv gc i
                    + div_3rd_temporal ndtt i
                    + q 2 * V gc i * nfdiv ndt i
                    - q 2 * V ndt i * nfdiv gc i))%s
    else q 0.

  (** formulae_mpdata_1d.hpp:178-232: right-hand side of res(i+h) = ... *)
  Definition antidiff (gc ndt ndtt : arr) (i : Z) : sexpr :=
    if div2 o then (div_2nd gc i + div_3rd gc ndt ndtt i)%s
    else (sabs (V gc i) / q 2 * (q 1 - sabs (V gc i) / G_bar_x i) * ndx_psi i
          + TOT gc i + DFL gc i)%s.

  (** donorcell_formulae.hpp:38-50 *)
  Definition make_flux (gc : arr) (i : Z) : sexpr := Fx o (P i) (P (i+1)) (V gc i).

  (** formulae_mpdata_fct_1d.hpp:29-103 *)
  Definition beta_up (psi_max flx : arr) (i : Z) : sexpr :=
    fct_frac ((smax (V psi_max i) (smax (P (i-1)) (smax (P i) (P (i+1)))) - P i) * G1 i)%s
             (pospart o (V flx (i-1)) - negpart o (V flx i))%s.
  Definition beta_dn (psi_min flx : arr) (i : Z) : sexpr :=
    fct_frac ((P i - smin (V psi_min i) (smin (P (i-1)) (smin (P i) (P (i+1))))) * G1 i)%s
             (pospart o (V flx i) - negpart o (V flx (i-1)))%s.

  (** formulae_mpdata_fct_1d.hpp:105-205 *)
  Definition GC_mono (up dn gc : arr) (i : Z) : sexpr :=
    let A := smin (q 1) (smin (V dn i) (V up (i+1))) in
    let B := smin (q 1) (smin (V up i) (V dn (i+1))) in
    if negb (iga o) && oabs o then
      (V gc i * Ite Gt (V gc i) (q 0) (Ite Gt (P i) (q 0) A B) (Ite Gt (P (i+1)) (q 0) B A))%s
    else (V gc i * Ite Gt (V gc i) (q 0) A B)%s.
End Form1D.
