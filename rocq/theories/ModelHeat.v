(** Heat fluxes and eddy viscosity of the Boussinesq solvers with a Smagorinsky
    closure: libmpdata++/solvers/detail/boussinesq_sgs_common.hpp,
    libmpdata++/formulae/{nabla,stress}_formulae.hpp and
    libmpdata++/bcond/{gndsky_3d,rigid_3d}.hpp. *)
From Coq Require Import ZArith Reals.
From Verif Require Import Stencil ModelStress.
Local Open Scope R_scope.

(** ** Heat flux forcing
    Domain: cyclic horizontally (fields extended periodically), ground below and
    rigid lid above (cells 0 to nz - 1 of the last axis).  Face i + 1/2 of axis d
    is stored at i. *)
Section HeatFlux.
  Variables (nd : ndims) (dx : nat -> R) (nug : bool) (G : idx -> R).
  Variables (nz : Z) (hflux_const prandtl_num : R).
  Variable km : nat -> idx -> R.      (* eddy viscosity for axis [d]: smg one array, smgani two (stress_formulae.hpp:454-545) *)
  Variable full_tht : idx -> R.

  Definition ax (d : nat) (k : Z) (i : idx) : idx :=
    let '(x, y, z) := i in
    match d with 0%nat => (x + k, y, z)%Z | 1%nat => (x, y + k, z)%Z | _ => (x, y, z + k)%Z end.
  Definition vax : nat := match nd with two => 1%nat | three => 2%nat end.
  Definition lev (i : idx) : Z := let '(_, y, z) := i in match nd with two => y | three => z end.
  Definition Gv (i : idx) : R := if nug then G i else 1.

  (** boussinesq_sgs_common.hpp:55-67, at the ground *)
  Definition hflux_srfc (i : idx) : R := if nug then - hflux_const * G i else - hflux_const.
  (** nabla_formulae.hpp:148-163 [calc_grad_cmpct] *)
  Definition grad_tht (d : nat) (i : idx) : R := (full_tht (ax d 1 i) - full_tht i) / dx d.
  (** stress_formulae.hpp:454-545 [multiply_vctr_cmpct], coefficient 1 / prandtl_num (boussinesq_sgs_common.hpp:132-136) *)
  Definition heat_flux (d : nat) (i : idx) : R :=
    grad_tht d i * (1 / prandtl_num * (1 / 2) * (km d (ax d 1 i) + km d i) * (1 / 2) * (Gv (ax d 1 i) + Gv i)).
  (** solver_2d.hpp:119-133, solver_3d.hpp [xchng_sgs_vctr]: ground (gndsky_3d.hpp:42-49),
      lid (rigid_3d.hpp:191-198) *)
  Definition filled (d : nat) (i : idx) : R :=
    if Nat.eqb d vax then
      if (lev i =? -1)%Z then 2 * hflux_srfc (ax vax 1 i) - heat_flux d (ax vax 1 i)
      else if (lev i =? nz - 1)%Z then - heat_flux d (ax vax (-1) i)
      else heat_flux d i
    else heat_flux d i.
  (** stress_formulae.hpp:718-753 [flux_div_cmpct] *)
  Definition hflux_frc (i : idx) : R :=
    match nd with
    | two => ((filled 0 i - filled 0 (ax 0 (-1) i)) / dx 0%nat + (filled 1 i - filled 1 (ax 1 (-1) i)) / dx 1%nat) / Gv i
    | three => ((filled 0 i - filled 0 (ax 0 (-1) i)) / dx 0%nat + (filled 1 i - filled 1 (ax 1 (-1) i)) / dx 1%nat
                + (filled 2 i - filled 2 (ax 2 (-1) i)) / dx 2%nat) / Gv i
    end.
End HeatFlux.

(** ** Eddy viscosity
    Numbers with infinities and NaN, otherwise exact.  A zero divisor counts as
    +0: the only ones here are tdef_sq, a sum of squares, times positive factors. *)
Inductive xr := Fin (x : R) | Inf (neg : bool) | NaN.
Definition isneg (x : R) : bool := if Rlt_dec x 0 then true else false.
Definition xadd (a b : xr) : xr :=
  match a, b with
  | Fin x, Fin y => Fin (x + y)
  | NaN, _ | _, NaN => NaN
  | Inf s, Inf t => if Bool.eqb s t then Inf s else NaN
  | Inf s, _ | _, Inf s => Inf s
  end.
Definition xopp (a : xr) : xr := match a with Fin x => Fin (- x) | Inf s => Inf (negb s) | NaN => NaN end.
Definition xsub (a b : xr) : xr := xadd a (xopp b).
Definition xmul (a b : xr) : xr :=
  match a, b with
  | Fin x, Fin y => Fin (x * y)
  | NaN, _ | _, NaN => NaN
  | Inf s, Inf t => Inf (xorb s t)
  | Inf s, Fin x | Fin x, Inf s => if Req_EM_T x 0 then NaN else Inf (xorb s (isneg x))
  end.
Definition xdiv (a b : xr) : xr :=
  match a, b with
  | NaN, _ | _, NaN => NaN
  | Inf _, Inf _ => NaN
  | Fin _, Inf _ => Fin 0
  | Inf s, Fin y => Inf (xorb s (isneg y))
  | Fin x, Fin y => if Req_EM_T y 0 then (if Req_EM_T x 0 then NaN else Inf (isneg x)) else Fin (x / y)
  end.
Definition xsqrt (a : xr) : xr :=
  match a with Fin x => if Rlt_dec x 0 then NaN else Fin (sqrt x) | Inf false => Inf false | _ => NaN end.
Definition xlt (a b : xr) : bool :=
  match a, b with
  | NaN, _ | _, NaN => false
  | Fin x, Fin y => if Rlt_dec x y then true else false
  | Inf s, Inf t => andb s (negb t)
  | Inf s, Fin _ => s
  | Fin _, Inf t => negb t
  end.

Section Visc.
  Variables (g Tht_ref prandtl_num smg_c : R).
  (** boussinesq_sgs_common.hpp:31-47: [ga], [gb] are the vertical gradients of
      temperature at the faces below and above *)
  Definition rcdsn_num (ga gb tdef_sq : R) : xr := xdiv (Fin (g * (1 / 2) * (ga + gb))) (Fin (Tht_ref * tdef_sq)).
  (** boussinesq_sgs_common.hpp:78-99 (k_m; k_m[0], k_m[1] with mix_len_h, mix_len_v) *)
  Definition k_m (mix_len ga gb tdef_sq : R) : xr :=
    let r := xdiv (rcdsn_num ga gb tdef_sq) (Fin prandtl_num) in
    if xlt r (Fin 1) then xmul (Fin (Rsqr (smg_c * mix_len))) (xsqrt (xmul (Fin tdef_sq) (xsub (Fin 1) r))) else Fin 0.
  (** the heating of a cell between two faces of the vertical axis, as in [heat_flux]
      and [hflux_frc] above, without G *)
  Definition face_flux (grad : R) (ka kb : xr) : xr :=
    xmul (Fin grad) (xmul (xmul (Fin (1 / prandtl_num)) (Fin (1 / 2))) (xadd kb ka)).
  Definition col_heating (dz : R) (fa fb : xr) : xr := xdiv (xsub fb fa) (Fin dz).
End Visc.
