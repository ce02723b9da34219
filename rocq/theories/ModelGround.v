(** Viscous forces (compact differencing) above a ground with surface drag:
    libmpdata++/solvers/detail/mpdata_rhs_vip_prs_sgs_common.hpp, …_dns.hpp, …_smg.hpp,
    …_smgani.hpp, libmpdata++/formulae/stress_formulae.hpp and
    libmpdata++/bcond/{gndsky,rigid}_{2d,3d}.hpp. *)
From Coq Require Import ZArith Reals.
From Verif Require Import Stencil ModelStress ModelHeat.
Local Open Scope R_scope.

(** Domain as in ModelHeat.v: cyclic horizontally (fields extended periodically), ground
    below and rigid lid above (cells 0 to nz - 1 of the last axis).  Face i + 1/2 is stored
    at i.  Fields at levels outside of the domain are what they are: all values computed
    from them are overwritten by the fills below. *)
Section Ground.
  Variables (nd : ndims) (dijk : nat -> R) (nug : bool) (G : idx -> R) (nz : Z) (cdrag : R).

  (** stress_formulae.hpp:175-219 [calc_drag_cmpct], level 0 *)
  Definition calc_drag_cmpct (v : fields) (c : nat) (i : idx) : R :=
    match nd with
    | two => cdrag / 8 * Rabs (v 0%nat (ax 0 1 i) + v 0%nat i) * (v 0%nat (ax 0 1 i) + v 0%nat i) * (Gv nug G (ax 0 1 i) + Gv nug G i)
    | three => cdrag / 8 * sqrt (pow2 (v 0%nat (ax c 1 i) + v 0%nat i) + pow2 (v 1%nat (ax c 1 i) + v 1%nat i)) *
               (v c (ax c 1 i) + v c i) * (Gv nug G (ax c 1 i) + Gv nug G i)
    end.

  (** solver_2d.hpp:103-117, solver_3d.hpp [xchng_sgs_div]: rigid_2d.hpp:80-89, 177-186,
      gndsky_2d.hpp:31-40, the same in 3D *)
  Definition fill_div (a : field) : field := fun i =>
    if (lev nd i =? -1)%Z then 2 * a (ax (vax nd) 1 i) - a (ax (vax nd) 2 i)
    else if (lev nd i =? nz - 1)%Z then 2 * a (ax (vax nd) (-1) i) - a (ax (vax nd) (-2) i)
    else a i.

  (** number of the horizontal axis of a stress between it and the vertical *)
  Definition offdiag (c : nat) : option nat :=
    match nd, c with two, 2%nat => Some 0%nat | three, 4%nat => Some 0%nat | three, 5%nat => Some 1%nat | _, _ => None end.
  (** solver_2d.hpp:135-169, solver_3d.hpp:156-205 [xchng_sgs_tnsr_diag], [xchng_sgs_tnsr_offdiag]:
      at the ground gndsky_2d.hpp:42-62, gndsky_3d.hpp:42-62, at the lid rigid_2d.hpp:188-203 and
      rigid_3d.hpp ([w] the vertical velocity, [bv] the stresses at the surface) *)
  Definition fill_tnsr (w div : field) (bv : fields) (tau : fields) : fields := fun c i =>
    match offdiag c with
    | Some b =>
        if (lev nd i =? -1)%Z then 2 * bv b (ax (vax nd) 1 i) - tau c (ax (vax nd) 1 i)
        else if (lev nd i =? nz - 1)%Z then - tau c (ax (vax nd) (-1) i)
        else tau c i
    | None =>
        if Nat.eqb c (vax nd) then
          if (lev nd i =? -1)%Z then 2 * ((3 * w (ax (vax nd) 2 i) - 2 * w (ax (vax nd) 1 i) - w (ax (vax nd) 3 i)) / dijk (vax nd) - div i)
          else if (lev nd i =? nz - 1)%Z then 2 * tau c (ax (vax nd) (-1) i) - tau c (ax (vax nd) (-2) i)
          else tau c i
        else tau c i
    end.

  (** mpdata_rhs_vip_prs_sgs_common.hpp:97-138 with stress_diff = compact; the fills before
      and after the multiplication by viscosity: …_common.hpp:126-127, …_dns.hpp:32-33, …_smg.hpp:45-46 *)
  Definition ground_rhs (cl : closure) (v rhs : fields) : fields :=
    let srfc := calc_drag_cmpct v in
    let div := fill_div (calc_vip_div_cmpct dijk nug G nd v) in
    let fill := fill_tnsr (v (vax nd)) div srfc in
    let strain := fill (calc_deform_cmpct dijk nd v div) in
    let tau := fill (multiply_sgs_visc dijk nug G nd compact cl strain) in
    calc_stress_rhs_cmpct dijk nug G nd rhs tau 2.
End Ground.
