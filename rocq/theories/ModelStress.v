(** Viscous (molecular or eddy) forces of the solvers with a closure:
    libmpdata++/solvers/detail/mpdata_rhs_vip_prs_sgs_{common,dns,smg,smgani}.hpp
    and libmpdata++/formulae/{nabla,stress}_formulae.hpp.

    Fields are functions on the lattice of cell indices.  Simplified: the
    lattice is unbounded, standing for a domain with cyclic edges, where the
    halo fills repeat the fields periodically; threads and halo exchanges are
    left out here; the surface
    drag is left out (it only enters at the ground of bounded domains).
    A face-centred array holds at index i the face i + 1/2, so "i + h" is [i]
    and "i - h" is [i - 1] (formulae/arakawa_c.hpp:17-40).  In 2D the last
    coordinate is carried along unused. *)
From Coq Require Import ZArith Reals.
From Verif Require Import Stencil.
Local Open Scope R_scope.

(** cell- or face-centred array; vector of arrays, as arrvec_t *)
Definition field := idx -> R.
Definition fields := nat -> field.

(** stress_diff_t (solvers/detail/mpdata_rhs_vip_prs_sgs_common.hpp:18-31) *)
Inductive sdiff := normal | pade | compact.
(** the closures and their run-time parameters (…_dns.hpp:46-49, …_smg.hpp:61-64, …_smgani.hpp:55-58) *)
Inductive closure := Dns (eta : R) | Smg (smg_c : R) | SmgAni (smg_c : R).
Inductive ndims := two | three.
(** ct_params_t::n_dims *)
Definition ndn (nd : ndims) : nat := match nd with two => 2 | three => 3 end.

Section Stress.
  (** grid spacings [dijk] (solvers/detail/solver_common.hpp); option nug and array G *)
  Variable dijk : nat -> R.
  Variable nug : bool.
  Variable G : field.

  (** formulae/opts.hpp, formulae/common.hpp: G<opts> is 1 without nug *)
  Definition Gop (i : idx) : R := if nug then G i else 1.

  (** nabla_formulae.hpp:54-70, 2D 37-52 *)
  Definition grad (d : nat) (x : field) (dx : R) : field := fun '(i, j, k) =>
    match d with
    | 0%nat => (x (i + 1, j, k)%Z - x (i - 1, j, k)%Z) / dx / 2
    | 1%nat => (x (i, j + 1, k)%Z - x (i, j - 1, k)%Z) / dx / 2
    | _ => (x (i, j, k + 1)%Z - x (i, j, k - 1)%Z) / dx / 2
    end.

  (** ** Differencing centred at cells *)

  (** stress_formulae.hpp:22-34 *)
  Definition calc_vgrad2 (v : fields) : fields := fun c =>
    match c with
    | 0%nat => grad 0 (v 0%nat) (dijk 0) | 1%nat => grad 0 (v 1%nat) (dijk 0)
    | 2%nat => grad 1 (v 0%nat) (dijk 1) | _ => grad 1 (v 1%nat) (dijk 1)
    end.
  (** stress_formulae.hpp:37-55 *)
  Definition calc_vgrad3 (v : fields) : fields := fun c =>
    match c with
    | 0%nat => grad 0 (v 0%nat) (dijk 0) | 1%nat => grad 0 (v 1%nat) (dijk 0) | 2%nat => grad 0 (v 2%nat) (dijk 0)
    | 3%nat => grad 1 (v 0%nat) (dijk 1) | 4%nat => grad 1 (v 1%nat) (dijk 1) | 5%nat => grad 1 (v 2%nat) (dijk 1)
    | 6%nat => grad 2 (v 0%nat) (dijk 2) | 7%nat => grad 2 (v 1%nat) (dijk 2) | _ => grad 2 (v 2%nat) (dijk 2)
    end.

  (** stress_formulae.hpp:59-68 *)
  Definition calc_deform2 (vg : fields) : fields := fun c i =>
    match c with
    | 0%nat => 2 * vg 0%nat i
    | 1%nat => vg 1%nat i + vg 2%nat i
    | _ => 2 * vg 3%nat i
    end.
  (** stress_formulae.hpp:71-83 *)
  Definition calc_deform3 (vg : fields) : fields := fun c i =>
    match c with
    | 0%nat => 2 * vg 0%nat i
    | 1%nat => vg 3%nat i + vg 1%nat i
    | 2%nat => vg 6%nat i + vg 2%nat i
    | 3%nat => 2 * vg 4%nat i
    | 4%nat => vg 5%nat i + vg 7%nat i
    | _ => 2 * vg 8%nat i
    end.

  (** stress_formulae.hpp:87-99 *)
  Definition calc_stress_div2 (tau : fields) : fields := fun c =>
    match c with
    | 0%nat => grad 0 (tau 0%nat) (dijk 0) | 1%nat => grad 0 (tau 1%nat) (dijk 0)
    | 2%nat => grad 1 (tau 1%nat) (dijk 1) | _ => grad 1 (tau 2%nat) (dijk 1)
    end.
  (** stress_formulae.hpp:102-120 *)
  Definition calc_stress_div3 (tau : fields) : fields := fun c =>
    match c with
    | 0%nat => grad 0 (tau 0%nat) (dijk 0) | 1%nat => grad 0 (tau 1%nat) (dijk 0) | 2%nat => grad 0 (tau 2%nat) (dijk 0)
    | 3%nat => grad 1 (tau 1%nat) (dijk 1) | 4%nat => grad 1 (tau 3%nat) (dijk 1) | 5%nat => grad 1 (tau 4%nat) (dijk 1)
    | 6%nat => grad 2 (tau 2%nat) (dijk 2) | 7%nat => grad 2 (tau 4%nat) (dijk 2) | _ => grad 2 (tau 5%nat) (dijk 2)
    end.

  (** stress_formulae.hpp:125-130 *)
  Definition calc_stress_rhs2 (rhs drv : fields) (coeff : R) : fields := fun c i =>
    match c with
    | 0%nat => rhs 0%nat i + coeff * (drv 0%nat i + drv 2%nat i)
    | 1%nat => rhs 1%nat i + coeff * (drv 1%nat i + drv 3%nat i)
    | _ => rhs c i
    end.
  (** stress_formulae.hpp:133-139 *)
  Definition calc_stress_rhs3 (rhs drv : fields) (coeff : R) : fields := fun c i =>
    match c with
    | 0%nat => rhs 0%nat i + coeff * (drv 0%nat i + drv 3%nat i + drv 6%nat i)
    | 1%nat => rhs 1%nat i + coeff * (drv 1%nat i + drv 4%nat i + drv 7%nat i)
    | 2%nat => rhs 2%nat i + coeff * (drv 2%nat i + drv 5%nat i + drv 8%nat i)
    | _ => rhs c i
    end.

  Definition pow2 (x : R) : R := x * x.

  (** stress_formulae.hpp:143-153 *)
  Definition calc_tdef_sq2 (tau : fields) : field := fun i =>
    pow2 (tau 0%nat i) / 2 + pow2 (tau 1%nat i) + pow2 (tau 2%nat i) / 2.
  (** stress_formulae.hpp:156-171 *)
  Definition calc_tdef_sq3 (tau : fields) : field := fun i =>
    pow2 (tau 0%nat i) / 2 + pow2 (tau 1%nat i) + pow2 (tau 2%nat i) + pow2 (tau 3%nat i) / 2 +
    pow2 (tau 4%nat i) + pow2 (tau 5%nat i) / 2.

  (** Pade correction: stress_formulae.hpp:852-862, 884-895 *)
  Definition pade_helper (d : nat) (x : field) : field := fun '(i, j, k) =>
    match d with
    | 0%nat => x (i + 1, j, k)%Z + 2 * x (i, j, k) + x (i - 1, j, k)%Z
    | 1%nat => x (i, j + 1, k)%Z + 2 * x (i, j, k) + x (i, j - 1, k)%Z
    | _ => x (i, j, k + 1)%Z + 2 * x (i, j, k) + x (i, j, k - 1)%Z
    end.
  (** direction of element [c] of drv: stress_formulae.hpp:864-881 and 897-919 *)
  Definition pade_dir (nd : ndims) (c : nat) : nat :=
    match nd with
    | two => match c with 0%nat | 1%nat => 0%nat | _ => 1%nat end
    | three => match c with 0%nat | 1%nat | 2%nat => 0%nat | 3%nat | 4%nat | 5%nat => 1%nat | _ => 2%nat end
    end.
  (** the loop of pade_deriv: mpdata_rhs_vip_prs_sgs_common.hpp:80-95 *)
  Fixpoint pade_wrk (m : nat) (d : nat) (drv : field) : field :=
    match m with
    | O => drv
    | S m' => fun i => pade_wrk m' d drv i + (drv i - 1 / 4 * pade_helper d (pade_wrk m' d drv) i)
    end.
  Definition pade_deriv (nd : ndims) (drv : fields) : fields := fun c => pade_wrk 3 (pade_dir nd c) (drv c).

  (** ** Compact differencing *)

  (** stress_formulae.hpp:225-236, 239-250; zero without G: …_sgs_common.hpp:112-122 *)
  Definition calc_vip_div_cmpct (nd : ndims) (v : fields) : field := fun '(i, j, k) =>
    if nug then
      match nd with
      | two => - (v 1%nat (i, j + 1, k)%Z + v 1%nat (i, j, k)) * (G (i, j + 1, k)%Z - G (i, j, k)) /
               (dijk 1 * (G (i, j + 1, k)%Z + G (i, j, k)))
      | three => - (v 2%nat (i, j, k + 1)%Z + v 2%nat (i, j, k)) * (G (i, j, k + 1)%Z - G (i, j, k)) /
                 (dijk 2 * (G (i, j, k + 1)%Z + G (i, j, k)))
      end
    else 0.

  (** stress_formulae.hpp:254-290 *)
  Definition calc_deform_cmpct2 (v : fields) (div_v : field) : fields := fun c '(i, j, k) =>
    match c with
    | 0%nat => 2 * ((v 0%nat (i + 1, j, k)%Z - v 0%nat (i, j, k)) / dijk 0
                    - 25 / 100 / 2 * (div_v (i, j, k) + div_v (i, j - 1, k)%Z + div_v (i + 1, j, k)%Z + div_v (i + 1, j - 1, k)%Z))
    | 1%nat => 2 * ((v 1%nat (i, j + 1, k)%Z - v 1%nat (i, j, k)) / dijk 1 - 1 / 2 * div_v (i, j, k))
    | _ => 1 / 2 * ((v 0%nat (i, j + 1, k)%Z - v 0%nat (i, j, k) + v 0%nat (i + 1, j + 1, k)%Z - v 0%nat (i + 1, j, k)%Z) / dijk 1
                    + (v 1%nat (i + 1, j, k)%Z - v 1%nat (i, j, k) + v 1%nat (i + 1, j + 1, k)%Z - v 1%nat (i, j + 1, k)%Z) / dijk 0)
    end.
  (** stress_formulae.hpp:293-363 *)
  Definition calc_deform_cmpct3 (v : fields) (div_v : field) : fields := fun c '(i, j, k) =>
    match c with
    | 0%nat => 2 * ((v 0%nat (i + 1, j, k)%Z - v 0%nat (i, j, k)) / dijk 0
                    - 25 / 100 / 3 * (div_v (i, j, k) + div_v (i, j, k - 1)%Z + div_v (i + 1, j, k)%Z + div_v (i + 1, j, k - 1)%Z))
    | 1%nat => 2 * ((v 1%nat (i, j + 1, k)%Z - v 1%nat (i, j, k)) / dijk 1
                    - 25 / 100 / 3 * (div_v (i, j, k) + div_v (i, j, k - 1)%Z + div_v (i, j + 1, k)%Z + div_v (i, j + 1, k - 1)%Z))
    | 2%nat => 2 * ((v 2%nat (i, j, k + 1)%Z - v 2%nat (i, j, k)) / dijk 2 - 1 / 3 * div_v (i, j, k))
    | 3%nat => 1 / 2 * ((v 0%nat (i, j + 1, k)%Z - v 0%nat (i, j, k) + v 0%nat (i + 1, j + 1, k)%Z - v 0%nat (i + 1, j, k)%Z) / dijk 1
                        + (v 1%nat (i + 1, j, k)%Z - v 1%nat (i, j, k) + v 1%nat (i + 1, j + 1, k)%Z - v 1%nat (i, j + 1, k)%Z) / dijk 0)
    | 4%nat => 1 / 2 * ((v 0%nat (i, j, k + 1)%Z - v 0%nat (i, j, k) + v 0%nat (i + 1, j, k + 1)%Z - v 0%nat (i + 1, j, k)%Z) / dijk 2
                        + (v 2%nat (i + 1, j, k)%Z - v 2%nat (i, j, k) + v 2%nat (i + 1, j, k + 1)%Z - v 2%nat (i, j, k + 1)%Z) / dijk 0)
    | _ => 1 / 2 * ((v 1%nat (i, j, k + 1)%Z - v 1%nat (i, j, k) + v 1%nat (i, j + 1, k + 1)%Z - v 1%nat (i, j + 1, k)%Z) / dijk 2
                    + (v 2%nat (i, j + 1, k)%Z - v 2%nat (i, j, k) + v 2%nat (i, j + 1, k + 1)%Z - v 2%nat (i, j, k + 1)%Z) / dijk 1)
    end.

  (** maxima of four: formulae/common.hpp *)
  Definition max4 (a b c d : R) : R := Rmax (Rmax a b) (Rmax c d).
  (** stress_formulae.hpp:367-391 *)
  Definition calc_tdef_sq_cmpct2 (tau : fields) : field := fun '(i, j, k) =>
    let t0p := pow2 (tau 0%nat (i, j, k)) in let t0m := pow2 (tau 0%nat (i - 1, j, k)%Z) in
    let t1p := pow2 (tau 1%nat (i, j, k)) in let t1m := pow2 (tau 1%nat (i, j - 1, k)%Z) in
    let t2pp := pow2 (tau 2%nat (i, j, k)) in let t2mp := pow2 (tau 2%nat (i - 1, j, k)%Z) in
    let t2pm := pow2 (tau 2%nat (i, j - 1, k)%Z) in let t2mm := pow2 (tau 2%nat (i - 1, j - 1, k)%Z) in
    (t0p + t0m + t1p + t1m + t2pp + t2mp + t2pm + t2mm) / 8
    + (Rmax t0p t0m + Rmax t1p t1m + 2 * max4 t2pp t2mp t2pm t2mm) / 4.
  (** stress_formulae.hpp:394-428 *)
  Definition calc_tdef_sq_cmpct3 (tau : fields) : field := fun '(i, j, k) =>
    let t0p := pow2 (tau 0%nat (i, j, k)) in let t0m := pow2 (tau 0%nat (i - 1, j, k)%Z) in
    let t1p := pow2 (tau 1%nat (i, j, k)) in let t1m := pow2 (tau 1%nat (i, j - 1, k)%Z) in
    let t2p := pow2 (tau 2%nat (i, j, k)) in let t2m := pow2 (tau 2%nat (i, j, k - 1)%Z) in
    let t3pp := pow2 (tau 3%nat (i, j, k)) in let t3mp := pow2 (tau 3%nat (i - 1, j, k)%Z) in
    let t3pm := pow2 (tau 3%nat (i, j - 1, k)%Z) in let t3mm := pow2 (tau 3%nat (i - 1, j - 1, k)%Z) in
    let t4pp := pow2 (tau 4%nat (i, j, k)) in let t4mp := pow2 (tau 4%nat (i - 1, j, k)%Z) in
    let t4pm := pow2 (tau 4%nat (i, j, k - 1)%Z) in let t4mm := pow2 (tau 4%nat (i - 1, j, k - 1)%Z) in
    let t5pp := pow2 (tau 5%nat (i, j, k)) in let t5mp := pow2 (tau 5%nat (i, j - 1, k)%Z) in
    let t5pm := pow2 (tau 5%nat (i, j, k - 1)%Z) in let t5mm := pow2 (tau 5%nat (i, j - 1, k - 1)%Z) in
    (t0p + t0m + t1p + t1m + t2p + t2m + t3pp + t3mp + t3pm + t3mm + t4pp + t4mp + t4pm + t4mm + t5pp + t5mp + t5pm + t5mm) / 8
    + (Rmax t0p t0m + Rmax t1p t1m + Rmax t2p t2m
       + 2 * max4 t3pp t3mp t3pm t3mm + 2 * max4 t4pp t4mp t4pm t4mm + 2 * max4 t5pp t5mp t5pm t5mm) / 4.

  (** constant viscosity: stress_formulae.hpp:551-571 (and 432-453) *)
  Definition multiply_tnsr_const (av : fields) (coeff : R) : fields := fun c i => av c i * coeff.

  (** stress_formulae.hpp:575-595 with 456-471: variable viscosity; the
      anisotropic variant 648-668 with 499-520 (vh = true) differs in the array
      used for the last component *)
  Definition multiply_tnsr_cmpct2 (av : fields) (coeff : R) (kh kv : field) : fields := fun c '(i, j, k) =>
    match c with
    | 0%nat => av 0%nat (i, j, k) * (coeff * (5 / 10) * (kh (i + 1, j, k)%Z + kh (i, j, k)) * (5 / 10) * (Gop (i + 1, j, k)%Z + Gop (i, j, k)))
    | 1%nat => av 1%nat (i, j, k) * (coeff * (5 / 10) * (kh (i, j + 1, k)%Z + kh (i, j, k)) * (5 / 10) * (Gop (i, j + 1, k)%Z + Gop (i, j, k)))
    | _ => av 2%nat (i, j, k) *
           (coeff * (25 / 100) * (kv (i + 1, j, k)%Z + kv (i, j, k) + kv (i + 1, j + 1, k)%Z + kv (i, j + 1, k)%Z) *
            (25 / 100) * (Gop (i + 1, j, k)%Z + Gop (i, j, k) + Gop (i + 1, j + 1, k)%Z + Gop (i, j + 1, k)%Z))
    end.
  (** stress_formulae.hpp:598-642 with 474-493; anisotropic 671-715 with 522-547
      (vh = true): [kh] for the diagonal and for component 3, [kv] for 4 and 5 *)
  Definition multiply_tnsr_cmpct3 (av : fields) (coeff : R) (kh kv : field) : fields := fun c '(i, j, k) =>
    match c with
    | 0%nat => av 0%nat (i, j, k) * (coeff * (5 / 10) * (kh (i + 1, j, k)%Z + kh (i, j, k)) * (5 / 10) * (Gop (i + 1, j, k)%Z + Gop (i, j, k)))
    | 1%nat => av 1%nat (i, j, k) * (coeff * (5 / 10) * (kh (i, j + 1, k)%Z + kh (i, j, k)) * (5 / 10) * (Gop (i, j + 1, k)%Z + Gop (i, j, k)))
    | 2%nat => av 2%nat (i, j, k) * (coeff * (5 / 10) * (kh (i, j, k + 1)%Z + kh (i, j, k)) * (5 / 10) * (Gop (i, j, k + 1)%Z + Gop (i, j, k)))
    | 3%nat => av 3%nat (i, j, k) *
           (coeff * (25 / 100) * (kh (i + 1, j, k)%Z + kh (i, j, k) + kh (i + 1, j + 1, k)%Z + kh (i, j + 1, k)%Z) *
            (25 / 100) * (Gop (i + 1, j, k)%Z + Gop (i, j, k) + Gop (i + 1, j + 1, k)%Z + Gop (i, j + 1, k)%Z))
    | 4%nat => av 4%nat (i, j, k) *
           (coeff * (25 / 100) * (kv (i + 1, j, k)%Z + kv (i, j, k) + kv (i + 1, j, k + 1)%Z + kv (i, j, k + 1)%Z) *
            (25 / 100) * (Gop (i + 1, j, k)%Z + Gop (i, j, k) + Gop (i + 1, j, k + 1)%Z + Gop (i, j, k + 1)%Z))
    | _ => av 5%nat (i, j, k) *
           (coeff * (25 / 100) * (kv (i, j, k + 1)%Z + kv (i, j, k) + kv (i, j + 1, k + 1)%Z + kv (i, j + 1, k)%Z) *
            (25 / 100) * (Gop (i, j, k + 1)%Z + Gop (i, j, k) + Gop (i, j + 1, k + 1)%Z + Gop (i, j + 1, k)%Z))
    end.

  (** stress_formulae.hpp:758-789 *)
  Definition calc_stress_rhs_cmpct2 (rhs tau : fields) (coeff : R) : fields := fun c '(i, j, k) =>
    match c with
    | 0%nat => rhs 0%nat (i, j, k) + coeff *
        ((tau 0%nat (i, j, k) - tau 0%nat (i - 1, j, k)%Z) / dijk 0
         + 5 / 10 * (tau 2%nat (i, j, k) - tau 2%nat (i, j - 1, k)%Z + tau 2%nat (i - 1, j, k)%Z - tau 2%nat (i - 1, j - 1, k)%Z) / dijk 1)
        / Gop (i, j, k)
    | 1%nat => rhs 1%nat (i, j, k) + coeff *
        (5 / 10 * (tau 2%nat (i, j, k) - tau 2%nat (i - 1, j, k)%Z + tau 2%nat (i, j - 1, k)%Z - tau 2%nat (i - 1, j - 1, k)%Z) / dijk 0
         + (tau 1%nat (i, j, k) - tau 1%nat (i, j - 1, k)%Z) / dijk 1)
        / Gop (i, j, k)
    | _ => rhs c (i, j, k)
    end.
  (** stress_formulae.hpp:792-847 *)
  Definition calc_stress_rhs_cmpct3 (rhs tau : fields) (coeff : R) : fields := fun c '(i, j, k) =>
    match c with
    | 0%nat => rhs 0%nat (i, j, k) + coeff *
        ((tau 0%nat (i, j, k) - tau 0%nat (i - 1, j, k)%Z) / dijk 0
         + 5 / 10 * (tau 3%nat (i, j, k) - tau 3%nat (i, j - 1, k)%Z + tau 3%nat (i - 1, j, k)%Z - tau 3%nat (i - 1, j - 1, k)%Z) / dijk 1
         + 5 / 10 * (tau 4%nat (i, j, k) - tau 4%nat (i, j, k - 1)%Z + tau 4%nat (i - 1, j, k)%Z - tau 4%nat (i - 1, j, k - 1)%Z) / dijk 2)
        / Gop (i, j, k)
    | 1%nat => rhs 1%nat (i, j, k) + coeff *
        (5 / 10 * (tau 3%nat (i, j, k) - tau 3%nat (i - 1, j, k)%Z + tau 3%nat (i, j - 1, k)%Z - tau 3%nat (i - 1, j - 1, k)%Z) / dijk 0
         + (tau 1%nat (i, j, k) - tau 1%nat (i, j - 1, k)%Z) / dijk 1
         + 5 / 10 * (tau 5%nat (i, j, k) - tau 5%nat (i, j, k - 1)%Z + tau 5%nat (i, j - 1, k)%Z - tau 5%nat (i, j - 1, k - 1)%Z) / dijk 2)
        / Gop (i, j, k)
    | 2%nat => rhs 2%nat (i, j, k) + coeff *
        (5 / 10 * (tau 4%nat (i, j, k) - tau 4%nat (i - 1, j, k)%Z + tau 4%nat (i, j, k - 1)%Z - tau 4%nat (i - 1, j, k - 1)%Z) / dijk 0
         + 5 / 10 * (tau 5%nat (i, j, k) - tau 5%nat (i, j - 1, k)%Z + tau 5%nat (i, j, k - 1)%Z - tau 5%nat (i, j - 1, k - 1)%Z) / dijk 1
         + (tau 2%nat (i, j, k) - tau 2%nat (i, j, k - 1)%Z) / dijk 2)
        / Gop (i, j, k)
    | _ => rhs c (i, j, k)
    end.

  (** ** Closures *)

  (** filter width: mpdata_rhs_vip_prs_sgs_smg.hpp:33 (a third of the sum in 2D too) *)
  Definition dlta (nd : ndims) : R :=
    match nd with two => (dijk 0 + dijk 1) / 3 | three => (dijk 0 + dijk 1 + dijk 2) / 3 end.
  (** …_smgani.hpp:36-37 *)
  Definition dlta_h (nd : ndims) : R := match nd with two => dijk 0 / 1 | three => (dijk 0 + dijk 1) / 2 end.
  Definition dlta_v (nd : ndims) : R := match nd with two => dijk 1 | three => dijk 2 end.

  Definition tdef_sq (nd : ndims) (tau : fields) : field :=
    match nd with two => calc_tdef_sq2 tau | three => calc_tdef_sq3 tau end.
  Definition tdef_sq_cmpct (nd : ndims) (tau : fields) : field :=
    match nd with two => calc_tdef_sq_cmpct2 tau | three => calc_tdef_sq_cmpct3 tau end.

  (** horizontal and vertical viscosity arrays: …_smg.hpp:37, 50; …_smgani.hpp:40-41; Dns has none *)
  Definition k_m (nd : ndims) (cl : closure) (tdef : field) : field * field :=
    match cl with
    | Dns eta => (fun _ => eta, fun _ => eta)
    | Smg c => (fun i => pow2 (c * dlta nd) * tdef i, fun i => pow2 (c * dlta nd) * tdef i)
    | SmgAni c => (fun i => pow2 (c * dlta_h nd) * tdef i, fun i => pow2 (c * dlta_v nd) * tdef i)
    end.

  Definition multiply_tnsr_cmpct (nd : ndims) (tau : fields) (k : field * field) : fields :=
    match nd with
    | two => multiply_tnsr_cmpct2 tau 1 (fst k) (snd k)
    | three => multiply_tnsr_cmpct3 tau 1 (fst k) (snd k)
    end.

  (** multiply_sgs_visc: …_dns.hpp:26-42, …_smg.hpp:31-57, …_smgani.hpp:31-51
      (the latter for compact differencing only) *)
  Definition multiply_sgs_visc (nd : ndims) (df : sdiff) (cl : closure) (tau : fields) : fields :=
    match df with
    | compact => match cl with
                 | Dns eta => multiply_tnsr_const tau eta
                 | _ => multiply_tnsr_cmpct nd tau (k_m nd cl (tdef_sq_cmpct nd tau))
                 end
    | _ => match cl with
           | Dns eta => fun c i => tau c i * eta
           | _ => fun c i => tau c i * fst (k_m nd cl (tdef_sq nd tau)) i
           end
    end.

  Definition calc_vgrad (nd : ndims) (v : fields) := match nd with two => calc_vgrad2 v | three => calc_vgrad3 v end.
  Definition calc_deform (nd : ndims) (vg : fields) := match nd with two => calc_deform2 vg | three => calc_deform3 vg end.
  Definition calc_stress_div (nd : ndims) (tau : fields) := match nd with two => calc_stress_div2 tau | three => calc_stress_div3 tau end.
  Definition calc_stress_rhs (nd : ndims) rhs drv coeff := match nd with two => calc_stress_rhs2 rhs drv coeff | three => calc_stress_rhs3 rhs drv coeff end.
  Definition calc_deform_cmpct (nd : ndims) v dv := match nd with two => calc_deform_cmpct2 v dv | three => calc_deform_cmpct3 v dv end.
  Definition calc_stress_rhs_cmpct (nd : ndims) rhs tau coeff :=
    match nd with two => calc_stress_rhs_cmpct2 rhs tau coeff | three => calc_stress_rhs_cmpct3 rhs tau coeff end.

  (** deformation tensor: mpdata_rhs_vip_prs_sgs_common.hpp:108-127, 143-154 *)
  Definition deform (nd : ndims) (df : sdiff) (v : fields) : fields :=
    match df with
    | compact => calc_deform_cmpct nd v (calc_vip_div_cmpct nd v)
    | pade => calc_deform nd (pade_deriv nd (calc_vgrad nd v))
    | normal => calc_deform nd (calc_vgrad nd v)
    end.
  (** forces from stresses: mpdata_rhs_vip_prs_sgs_common.hpp:132-138, 164-175 *)
  Definition forces (nd : ndims) (df : sdiff) (rhs tau : fields) : fields :=
    match df with
    | compact => calc_stress_rhs_cmpct nd rhs tau 2
    | pade => calc_stress_rhs nd rhs (pade_deriv nd (calc_stress_div nd tau)) 2
    | normal => calc_stress_rhs nd rhs (calc_stress_div nd tau) 2
    end.
  (** vip_rhs_expl_calc after the parent's part: mpdata_rhs_vip_prs_sgs_common.hpp:97-177 *)
  Definition vip_rhs_expl_calc (nd : ndims) (df : sdiff) (cl : closure) (v rhs : fields) : fields :=
    forces nd df rhs (multiply_sgs_visc nd df cl (deform nd df v)).
End Stress.
