(** Integer layer of the model: ranges, domain decomposition, index
    permutations, cyclic array-vector indexing, option flags.

    Each definition cites the C++ it models (paths relative to /repo). *)

From Coq Require Import ZArith List Bool.
Import ListNotations.
Local Open Scope Z_scope.

(** A blitz [Range] with unit stride: [(first, last)], empty when [last < first].
    libmpdata++/blitz.hpp (rng_t). *)
Definition rng := (Z * Z)%type.
Definition first (r : rng) : Z := fst r.
Definition last (r : rng) : Z := snd r.
Definition rlen (r : rng) : Z := last r - first r + 1.
Definition in_rng (i : Z) (r : rng) : Prop := first r <= i <= last r.
Definition in_rngb (i : Z) (r : rng) : bool := (first r <=? i) && (i <=? last r).

(** ** Domain decomposition *)

(** libmpdata++/formulae/domain_decomposition.hpp:18-21 [detail::min]:
    [rank * span / size] (C++ truncated division), unbounded integers. *)
Definition dd_min (span rank size : Z) : Z := Z.quot (rank * span) size.

(** domain_decomposition.hpp:23-26 [detail::max]. *)
Definition dd_max (span rank size : Z) : Z := dd_min span (rank + 1) size - 1.

(** domain_decomposition.hpp:30-39 [slab]. *)
Definition slab (span : rng) (rank size : Z) : rng :=
  (first span + dd_min (rlen span) rank size,
   first span + dd_max (rlen span) rank size).

(** The same in 32-bit signed arithmetic.  Signed overflow is undefined
    behaviour in C++: it is a distinct outcome [None] here.
    [Some] results are exact. *)
Definition int_min : Z := - 2 ^ 31.
Definition int_max : Z := 2 ^ 31 - 1.
Definition int32 (x : Z) : option Z :=
  if (int_min <=? x) && (x <=? int_max) then Some x else None.

(** domain_decomposition.hpp:18-21 with [int] operands. *)
Definition dd_min32 (span rank size : Z) : option Z :=
  match int32 (rank * span) with
  | Some p => if size =? 0 then None else int32 (Z.quot p size)
  | None => None
  end.

(** domain_decomposition.hpp:23-26 with [int] operands. *)
Definition dd_max32 (span rank size : Z) : option Z :=
  match int32 (rank + 1) with
  | Some r1 =>
      match dd_min32 span r1 size with
      | Some m => int32 (m - 1)
      | None => None
      end
  | None => None
  end.

(** domain_decomposition.hpp:30-39 with [int] operands. *)
Definition slab32 (span : rng) (rank size : Z) : option rng :=
  match int32 (rlen span) with
  | Some l =>
      match dd_min32 l rank size, dd_max32 l rank size with
      | Some a, Some b =>
          match int32 (first span + a), int32 (first span + b) with
          | Some a', Some b' => Some (a', b')
          | _, _ => None
          end
      | _, _ => None
      end
  | None => None
  end.

(** What two's-complement hardware computes for the overflowing product
    (used only to show what the undefined behaviour looks like in practice). *)
Definition wrap32 (x : Z) : Z := (x + 2 ^ 31) mod 2 ^ 32 - 2 ^ 31.
Definition dd_min_hw (span rank size : Z) : Z := Z.quot (wrap32 (rank * span)) size.

(** ** Staggered ranges: libmpdata++/formulae/arakawa_c.hpp *)

(** [i + h] is [i], [i - h] is [i - 1] for ints and ranges. *)
Definition plus_h (i : Z) : Z := i.
Definition minus_h (i : Z) : Z := i - 1.

(** [r ^ n] for an integer n: [((r - n).first(), (r + n).last())]. *)
Definition rng_ext (r : rng) (n : Z) : rng := (first r - n, last r + n).
(** [r ^ h]. *)
Definition rng_exth (r : rng) : rng := (minus_h (first r), plus_h (last r)).
Definition rng_shift (r : rng) (n : Z) : rng := (first r + n, last r + n).

(** libmpdata++/solvers/detail/solver_common.hpp:370-371. *)
Definition rng_vctr (halo : Z) (r : rng) : rng := rng_ext (rng_exth r) (halo - 1).
Definition rng_sclr (halo : Z) (r : rng) : rng := rng_ext r halo.

(** ** Index permutations: libmpdata++/formulae/idxperm.hpp *)

(** 2D: [pi<0>(i,j) = (i,j)], [pi<1>(j,i) = (i,j)]. *)
Definition pi2 (d : nat) (p : Z * Z) : Z * Z :=
  match d with
  | O => p
  | _ => (snd p, fst p)
  end.

(** 3D: [pi<0>(i,j,k)=(i,j,k)], [pi<1>(j,k,i)=(i,j,k)], [pi<2>(k,i,j)=(i,j,k)]. *)
Definition pi3 (d : nat) (p : Z * Z * Z) : Z * Z * Z :=
  let '(a, b, c) := p in
  match d with
  | O => (a, b, c)
  | S O => (c, a, b)
  | _ => (b, c, a)
  end.

(** ** Cyclic indexing of array vectors: libmpdata++/blitz.hpp:89-101 *)

(** [at((i + size()) % size())] with [int i] converted to a 64-bit unsigned:
    the addition wraps modulo 2^64, and [at] throws for an empty vector
    ([None]: remainder by zero is undefined behaviour). *)
Definition arrvec_index (i size : Z) : option Z :=
  if size =? 0 then None
  else Some (((i mod 2 ^ 64 + size) mod 2 ^ 64) mod size).

(** ** Option flags: libmpdata++/opts.hpp *)

Definition opts_t := N.
(** opts.hpp:18-21; [unsigned long] has 64 bits (shift by 64 or more is
    undefined and not modelled). *)
Definition bit (x : N) : opts_t := N.shiftl 1 x.
(** opts.hpp:23-26. *)
Definition isset (x y : opts_t) : bool := negb (N.eqb 0 (N.land x y)).
(** opts.hpp:29-32, with exact logarithms. *)
Definition most_significant (x : opts_t) : N :=
  if N.eqb x 0 then 0%N else (N.log2 x + 1)%N.

(** opts.hpp:34-49. *)
Definition o_fct : opts_t := bit 0.
Definition o_abs : opts_t := bit 1.
Definition o_tot : opts_t := bit 2.
Definition o_pfc : opts_t := bit 3.
Definition o_npa : opts_t := bit 4.
Definition o_iga : opts_t := bit 5.
Definition o_nug : opts_t := bit 6.
Definition o_dfl : opts_t := bit 7.
Definition o_khn : opts_t := bit 8.
Definition o_div_2nd : opts_t := bit 9.
Definition o_div_3rd : opts_t := bit 10.
Definition o_div_3rd_dt : opts_t := bit 11.
Definition o_fot : opts_t := bit 12.

(** opts.hpp:51-64, 69: order in which names are printed.  The textual name is
    represented by the flag it stands for (the names are pairwise different);
    [opts_string] is the list of names, the empty list standing for "0". *)
Definition opt_order : list opts_t :=
  [o_nug; o_iga; o_abs; o_dfl; o_div_2nd; o_tot; o_div_3rd; o_fot; o_fct; o_pfc; o_npa; o_khn].

(** opts.hpp:66-78. *)
Definition opts_string (o : opts_t) : list opts_t := filter (fun f => isset o f) opt_order.

(** All flags a user can combine (opts.hpp:34-49). *)
Definition all_flags : list opts_t :=
  [o_fct; o_abs; o_tot; o_pfc; o_npa; o_iga; o_nug; o_dfl; o_khn;
   o_div_2nd; o_div_3rd; o_div_3rd_dt; o_fot].
