(** The two-dimensional shallow-water solver: solvers/shallow_water.hpp on top of
    solvers/mpdata_rhs_vip.hpp, detail/mpdata_rhs_vip_common.hpp, mpdata_rhs.hpp
    and the advection of FunN.v (equal to what the threads compute on a domain
    with cyclic edges: run2_fun in ProofsResults2D.v).  Fields live on the whole lattice: on a cyclic
    domain the halo exchanges make every array periodic.  Exact arithmetic.

    Modelled: rhs_scheme = trapez (the assertion of shallow_water.hpp:67-74
    excludes the Euler schemes), var_dt = false, vip_vab = 0, options without
    the third-order corrections div_3rd, div_3rd_dt (which would also need
    calc_ndt_gc).  Not modelled: the 1D variant, edges other than cyclic. *)
From Coq Require Import ZArith List Bool Reals.
From Verif Require Import ModelRun Lang Stencil FormCommon Solver1D Form2D Solver2D Fun1D FunN Arith ModelVip.
Import ListNotations.
Local Open Scope R_scope.

Notation lattice := (idx -> R).

(** ct_params and rt_params *)
Record shallow := {
  w_eps : R; w_tiny : R;               (* machine constants of the formulae (Arith.v) *)
  w_o : fl; w_sp : sptl; w_tp : tmprl; (* opts, sptl_intrp, tmprl_extrp *)
  w_nit : nat; w_freq : Z;             (* n_iters, upwind_filter_freq *)
  w_scq : dim -> Z; w_sch : Z;         (* hint_scale of the momenta and of the depth *)
  w_dt : R; w_di : dim -> R;           (* dt, di and dj *)
  w_grav : R;                          (* shallow_water.hpp:93 *)
  w_veps : R;                          (* vip_eps, mpdata_rhs_vip_common.hpp:345 *)
  w_G : lattice                        (* mem->G, present with option nug *)
}.

(** state(ix::qx), state(ix::qy) / state(ix::h) / rhs of the momenta /
    vip_stash(0), which is vip_stash(-1) here (mpdata_rhs_vip_common.hpp:62-70) /
    timestep / dt_stash[0] *)
Record water := { q_ : dim -> lattice; h_ : lattice; rhs_ : dim -> lattice; stash_ : dim -> lattice; step_ : Z; dts_ : R }.

Section Step.
  Variable p : shallow.

  (** nabla_formulae.hpp:37-51 *)
  Definition sw_grad (d : dim) (a : lattice) : lattice := fun x =>
    (a (step_in d 1 x) - a (step_in d (-1) x)) / w_di p d / 2.
  (** shallow_water.hpp:147-175; the parent zeroes the rhs (mpdata_rhs.hpp:63-71) *)
  Definition update_rhs (h : lattice) : dim -> lattice := fun d x =>
    0 - w_grav p * h x * sw_grad d h x.
  (** mpdata_rhs.hpp:77-90; the rhs of the depth is zero *)
  Definition apply_rhs (dt : R) (rhs q : dim -> lattice) : dim -> lattice := fun d x => q d x + dt * rhs d x.

  (** mpdata_rhs_vip_common.hpp:99-124 [fill_stash_helper] *)
  Definition velocity (q h : lattice) : lattice := fun x => vel_of (w_veps p) (Some (h x)) (q x).
  (** mpdata_rhs_vip_common.hpp:131-167 [extrp], mpdata_rhs_vip.hpp:139-149 *)
  Definition extrapolated (s : water) : dim -> lattice := fun d x =>
    let beta := if Rlt_dec 0 (dts_ s) then w_dt p / (2 * dts_ s) else 0 in
    stash_ s d x * - beta + (1 + beta) * velocity (q_ s d) (h_ s) x.
  (** mpdata_rhs_vip.hpp:97-136 [interpolate_in_space] into mem->GC *)
  Definition advector (s : water) : dim -> lattice := fun d =>
    intrp (w_dt p) (w_di p d) (if nug (w_o p) then Some (w_G p) else None) (extrapolated s d) d.

  (** solve_loop_body of one equation (FunN.v) with advector [C] *)
  Definition fixed_by (C : dim -> lattice) : fixedN (arithR (w_eps p) (w_tiny p)) :=
    Build_fixedN (arithR (w_eps p) (w_tiny p)) C (w_G p) (fun _ _ => 0) (fun _ _ => 0).
  Definition advect (C : dim -> lattice) (ts sc : Z) (psi : lattice) : lattice :=
    stepN (arithR (w_eps p) (w_tiny p)) (w_o p) (forms2 (w_o p) (w_sp p) (w_tp p)) (fixed_by C)
      (passes (w_nit p) (w_freq p) ts) sc psi.

  (** One time step (solver_common.hpp:300-347): calc_gc
      (mpdata_rhs_vip_common.hpp:278-290); hook_ante_step: stash of the velocities
      (327-341), half of the old forcing (mpdata_rhs.hpp:160-162); advection;
      hook_post_step: new forcing, half of it (mpdata_rhs.hpp:183-186). *)
  Definition sw_step (s : water) : water :=
    let C := advector s in
    let v := fun d => velocity (q_ s d) (h_ s) in
    let q1 := apply_rhs (w_dt p / 2) (rhs_ s) (q_ s) in
    let q2 := fun d => advect C (step_ s) (w_scq p d) (q1 d) in
    let h2 := advect C (step_ s) (w_sch p) (h_ s) in
    let r := update_rhs h2 in
    {| q_ := apply_rhs (w_dt p / 2) r q2; h_ := h2; rhs_ := r; stash_ := v; step_ := step_ s + 1; dts_ := w_dt p |}.

  (** before the first step: hook_ante_loop (mpdata_rhs_vip_common.hpp:258-276,
      mpdata_rhs.hpp:124-141), dt_stash zero (solver_common.hpp:231) *)
  Definition sw_start (q : dim -> lattice) (h : lattice) : water :=
    {| q_ := q; h_ := h; rhs_ := update_rhs h; stash_ := fun _ _ => 0; step_ := 0; dts_ := 0 |}.

  (** [n] steps without a division by zero: with vip_eps = 0 every momentum is
      divided by the depth (mpdata_rhs_vip_common.hpp:105-110, 150-155) *)
  Inductive sw_run : nat -> water -> water -> Prop :=
  | sw_none s : sw_run 0 s s
  | sw_more n s s' : sw_run n s s' -> (w_veps p = 0 -> forall x, h_ s' x <> 0) -> sw_run (S n) s (sw_step s').
End Step.
