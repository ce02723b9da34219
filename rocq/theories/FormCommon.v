(** Ingredients of the numerical formulae that do not depend on the number of
    dimensions, as stencil expressions.

    A formula of the source that is evaluated at an index [i] (an [int] or a
    [blitz::Range]) becomes an expression whose leaves are (array, offset)
    pairs, the offset being relative to the index of the assigned element.
    With the Arakawa-C convention of libmpdata++/formulae/arakawa_c.hpp the
    face [i + h] has array index [i] and the face [i - h] has index [i - 1].

    Integer literals and [fconst<...>(v)] are exact rational constants; how
    they are rounded is up to the arithmetic ([acst]). *)

From Coq Require Import ZArith List Bool.
From Verif Require Import Lang Stencil.
Import ListNotations.
Local Open Scope Z_scope.

(** ** Options: libmpdata++/opts.hpp:34-49 *)
Record fl := mkfl {
  fct : bool; oabs : bool; tot : bool; pfc : bool; npa : bool; iga : bool; nug : bool;
  dfl : bool; khn : bool; div2 : bool; div3 : bool; div3dt : bool; fot : bool }.

(** bit [k] of the option word is option [k] of opts.hpp:36-48 *)
Definition fl_of (o : N) : fl :=
  mkfl (N.testbit o 0) (N.testbit o 1) (N.testbit o 2) (N.testbit o 3) (N.testbit o 4) (N.testbit o 5)
       (N.testbit o 6) (N.testbit o 7) (N.testbit o 8) (N.testbit o 9) (N.testbit o 10) (N.testbit o 11)
       (N.testbit o 12).

(** formulae/mpdata/formulae_mpdata_common.hpp:18-34 *)
Inductive sptl := exact | aver2 | aver4.
Inductive tmprl := noextrp | linear2.

(** Combinations that compile: [abs] and [iga] exclude each other
    (static_assert in ndx_psi, formulae_mpdata_psi_1d.hpp:96); [antidiff] exists
    for [div_2nd] or for neither [div_2nd] nor [div_3rd]
    (formulae_mpdata_1d.hpp:190,218); the divergence form excludes [tot] and
    [dfl] (formulae_mpdata_1d.hpp:221-222). *)
Definition fl_ok (o : fl) : bool :=
  negb (oabs o && iga o) && (negb (div3 o) || div2 o) && negb (div2 o && (tot o || dfl o)).

(** ** Expressions over (array, offset) *)
Definition sexpr := expr (arr * idx).
Declare Scope sexpr_scope.
Delimit Scope sexpr_scope with s.
Bind Scope sexpr_scope with sexpr.
Notation "a + b" := (Bin Add a b) : sexpr_scope.
Notation "a - b" := (Bin Sub a b) : sexpr_scope.
Notation "a * b" := (Bin Mul a b) : sexpr_scope.
Notation "a / b" := (Bin Div a b) : sexpr_scope.
Notation "- a" := (Un Neg a) : sexpr_scope.
Definition q (n : Z) : sexpr := Cst (CQ n 1).
Definition qq (n : Z) (d : positive) : sexpr := Cst (CQ n d).
Definition sabs (e : sexpr) : sexpr := Un Abs e.
Definition smin (a b : sexpr) : sexpr := Bin Min a b.
Definition smax (a b : sexpr) : sexpr := Bin Max a b.
Definition pow2 (e : sexpr) : sexpr := (e * e)%s.
Definition pow3 (e : sexpr) : sexpr := (e * e * e)%s.
Definition pow4 (e : sexpr) : sexpr := (e * e * e * e)%s.

(** formulae/common.hpp:89-130 *)
Definition negpart (o : fl) (x : sexpr) : sexpr :=
  if npa o then ((x - sabs x) / q 2)%s else smin (q 0) x.
Definition pospart (o : fl) (x : sexpr) : sexpr :=
  if npa o then ((x + sabs x) / q 2)%s else smax (q 0) x.

(** formulae/mpdata/formulae_mpdata_common.hpp:66-90 *)
Definition frac (o : fl) (nom den : sexpr) : sexpr :=
  if pfc o then Ite Ne den (q 0) (nom / den)%s (q 0) else (nom / (den + Cst CTiny))%s.
(** formulae_mpdata_common.hpp:92-103 *)
Definition fct_frac (nom den : sexpr) : sexpr := (nom / (den + Cst CEps))%s.

(** formulae/donorcell_formulae.hpp:26-36 *)
Definition Fx (o : fl) (psi_l psi_r gc : sexpr) : sexpr :=
  (pospart o gc * psi_l + negpart o gc * psi_r)%s.

(** formulae/common.hpp:132-201, at an offset given as a whole index *)
Definition Gx (o : fl) (off : idx) : sexpr :=
  if nug o then (Leaf (Gf, off) + q 0)%s else q 1.

(** One-equation statements: like [desc], but the arrays carry no equation. *)
Record tdesc := { t_arr : arr; t_x : rdesc; t_y : rdesc; t_z : rdesc; t_exp : sexpr }.

(** the statement for equation [e] *)
Definition inst (e : nat) (s : tdesc) : desc :=
  {| d_arr := tag e (t_arr s); d_x := t_x s; d_y := t_y s; d_z := t_z s;
     d_exp := emap (fun ao => (tag e (fst ao), snd ao)) (t_exp s) |}.

Inductive tinstr := TDo (s : tdesc) | TBar.
Definition inst_i (e : nat) (i : tinstr) : dinstr :=
  match i with TDo s => DDo (inst e s) | TBar => DBar end.

(** ** Kahan summation: formulae/kahan_sum.hpp:12-27 (khn_tmp[0] = c,
    khn_tmp[1] = y, khn_tmp[2] = t) *)
Section Kahan.
  Variable at_ijk : arr -> sexpr -> tdesc.   (* [a(ijk) = e] *)
  Variable sum : arr.
  Notation here a := (Leaf (a, izero)).
  Definition kahan_zro : list tdesc := [ at_ijk sum (q 0); at_ijk (Khn 0) (q 0) ].
  Definition kahan_add (input : sexpr) : list tdesc :=
    [ at_ijk (Khn 1) (input - here (Khn 0))%s;
      at_ijk (Khn 2) (here sum + here (Khn 1))%s;
      at_ijk (Khn 0) ((here (Khn 2) - here sum) - here (Khn 1))%s;
      at_ijk sum (here (Khn 2)) ].
End Kahan.

(** mpdata_common.hpp:43-66, mpdata_fct_common.hpp:33-37: advector array used
    in the iterations; [tmp[0]] is [Cor true], [tmp[1]] is [Cor false] *)
Definition GC_corr (iter : nat) : dim -> arr := Cor (Nat.odd iter).
Definition GC_unco (iter : nat) : dim -> arr :=
  if Nat.eqb iter 1 then GC else Cor (negb (Nat.odd iter)).
Definition GC_iter (o : fl) (iter : nat) : dim -> arr :=
  if Nat.eqb iter 0 then GC else if fct o then Mono else GC_corr iter.

(** halo size: formulae_mpdata_common.hpp:53-64, donorcell_formulae.hpp:24,
    fct_min_halo in mpdata_fct_common.hpp:15; arguments of the solver templates
    (solvers/mpdata.hpp) take the maximum *)
Definition halo (o : fl) : Z :=
  if tot o || dfl o || div2 o || div3 o || div3dt o || fct o then 2 else 1.

(** ** Programs with halo exchanges
    [MXS a ext]: xchng_sclr of a scalar array; [MXVA v ad]: xchng_vctr_alng;
    [MXVN v ext]: xchng_vctr_nrml; [MXF v]: xchng_flux.  How an exchange is carried out depends on
    the number of dimensions and the boundary conditions (Solver1D.v, ...). *)
Inductive minstr :=
| MDo (s : tdesc) | MBar
| MXS (a : arr) (ext : Z) | MXVA (v : dim -> arr) (ad : bool) | MXVN (v : dim -> arr) (ext : Z)
| MXF (v : dim -> arr).

(** The expressions a solver is built from; one solver per choice of options
    and number of dimensions. *)
Record forms := {
  f_antidiff : dim -> arr -> arr -> (dim -> arr) -> sexpr;  (* component, psi, psi of previous level, advector *)
  f_flux : dim -> arr -> arr -> sexpr;                      (* component, psi, advector component *)
  f_min : arr -> sexpr;
  f_max : arr -> sexpr;
  f_bup : arr -> (dim -> arr) -> sexpr;                     (* psi, flux *)
  f_bdn : arr -> (dim -> arr) -> sexpr;
  f_mono : dim -> arr -> arr -> sexpr;                      (* component, psi, advector component *)
  f_sum : arr -> (dim -> arr) -> sexpr;                     (* psi, flux: the plain donor-cell sum *)
  f_terms : arr -> (dim -> arr) -> list sexpr               (* ... its terms for Kahan summation *)
}.
