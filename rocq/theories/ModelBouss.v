(** Boussinesq solvers: libmpdata++/solvers/detail/boussinesq_{common,expl,impl}.hpp
    on top of mpdata_rhs.hpp (trapezoidal right-hand sides),
    detail/mpdata_rhs_vip_common.hpp (velocity forces, absorber) and
    detail/mpdata_rhs_vip_prs_common.hpp (pressure).

    Fields are functions on the lattice of cells, exact (real) arithmetic.
    Simplified: advection (everything between the two hooks of a step), the
    gradient returned by the pressure solver and the explicit forces of a
    closure are arbitrary functions; the edge values set by open or rigid edges
    (set_edges) are left out; the time step is fixed; [vip_den == -1] (the
    velocities themselves are advected).  Velocity components are numbered from
    0, the last one is the vertical one. *)
From Coq Require Import ZArith List Bool Reals.
From Verif Require Import Stencil ModelVip ModelStress.
Local Open Scope R_scope.

(** what is advected: velocities and potential temperature *)
Definition dyn := ((nat -> idx -> R) * (idx -> R))%type.

(** members of the solver: state(vip_ixs[d]), state(ix::tht), rhs.at(vip_ixs[d]),
    rhs.at(ix::tht), vip_rhs[d], hflux_frc, and the pressure gradient last
    subtracted (tmp_uvw) *)
Record bst := { vel : nat -> idx -> R; tht : idx -> R;
                r_vel : nat -> idx -> R; r_tht : idx -> R;
                v_rhs : nat -> idx -> R; hfx : idx -> R; p_grad : nat -> idx -> R }.

Section Bouss.
  Variable impl_tht : bool.            (* ct_params_t::impl_tht: boussinesq.hpp:24-52 *)
  Variable nd : ndims.
  Variable ab : vab.                   (* ct_params_t::vip_vab *)
  Variables dt dz g Tht_ref : R.       (* dz: dijk of the last axis *)
  Variables tht_e tht_abs : idx -> R.
  Variables (coeff : idx -> R) (relax : nat -> idx -> R).  (* vab_coeff, vab_relax *)
  Variable buoy_filter : bool.
  (** advection in step [n]; gradient of the pressure solution in step [n], given
      the velocities with all forces known by then *)
  Variable adv : nat -> dyn -> dyn.
  Variable prs : nat -> (nat -> idx -> R) -> nat -> idx -> R.
  (** gradient of the potential pressure (ini_pressure) given initial velocities *)
  Variable prs_ini : (nat -> idx -> R) -> nat -> idx -> R.
  (** [None]: iles.  [Some]: a closure; forces it adds to vip_rhs and the heat flux
      forcing it stores, in step [n] (boussinesq_sgs_common.hpp:50-144) *)
  Variable sgs : option (nat -> dyn -> (nat -> idx -> R) * (idx -> R)).
  (** hflux_frc as the user has set it (iles; boussinesq_common.hpp:60-63); the
      constructor sets zero (boussinesq_common.hpp:51) *)
  Variable hflux_user : idx -> R.

  Definition wd : nat := match nd with two => 1%nat | three => 2%nat end.
  Definition wdim : dim := match nd with two => DY | three => DZ end.

  (** boussinesq_impl.hpp:38-50, nabla_formulae.hpp:22-70 [grad] *)
  Definition dtht_e (i : idx) : R := (tht_e (step_in wdim 1 i) - tht_e (step_in wdim (-1) i)) / dz / 2.

  (** boussinesq_impl.hpp:63-82 (and mpdata_rhs_vip_common.hpp:238-247 when explicit) *)
  Definition strat (i : idx) : R := 1 / 4 * dt * dt * g / Tht_ref * dtht_e i / (1 + 1 / 2 * dt * tht_abs i).
  Definition normalize (v : nat -> idx -> R) : nat -> idx -> R := fun d i =>
    if impl_tht then
      match ab with
      | Impl => if Nat.eqb d wd then v d i / (1 + 1 / 2 * dt * coeff i + strat i)
                else v d i / (1 + 1 / 2 * dt * coeff i)
      | _ => if Nat.eqb d wd then v d i / (1 + strat i) else v d i
      end
    else match ab with Impl => v d i / (1 + 1 / 2 * dt * coeff i) | _ => v d i end.

  (** boussinesq_expl.hpp:37-51; halos of cyclic edges *)
  Definition filter (f : idx -> R) (i : idx) : R :=
    1 / 4 * (f (step_in wdim 1 i) + 2 * f i + f (step_in wdim (-1) i)).
  (** boussinesq_expl.hpp:54-73 *)
  Definition buoy_at_0 (s : bst) (i : idx) : R := g * (tht s i - tht_e i) / Tht_ref.
  Definition tht_at_1 (s : bst) (i : idx) : R :=
    (tht s i + 1 / 2 * dt * hfx s i + 1 / 2 * dt * tht_abs i * tht_e i) / (1 + 1 / 2 * dt * tht_abs i).
  Definition buoy_at_1 (s : bst) (i : idx) : R := g * (tht_at_1 s i - tht_e i) / Tht_ref.
  Definition filtered (f : idx -> R) : idx -> R := if buoy_filter then filter f else f.

  (** mpdata_rhs.hpp:53-75 (zero), then boussinesq_expl.hpp:81-133 or
      boussinesq_impl.hpp:84-117 *)
  Definition update_rhs (at1 : bool) (s : bst) : bst :=
    let rt := fun i =>
      if impl_tht then
        if at1 then 0 + hfx s i else 0 + (- vel s wd i * dtht_e i + hfx s i - tht_abs i * tht s i)
      else
        if at1 then 0 + (hfx s i - tht_abs i * (tht_at_1 s i - tht_e i))
        else 0 + (hfx s i - tht_abs i * (tht s i - tht_e i)) in
    let rw := fun i =>
      if impl_tht then
        if at1 then 0 + g * (tht s i + 1 / 2 * dt * rt i) / (Tht_ref * (1 + 1 / 2 * dt * tht_abs i))
        else 0 + g * tht s i / Tht_ref
      else
        if at1 then 0 + filtered (buoy_at_1 s) i else 0 + filtered (buoy_at_0 s) i in
    {| vel := vel s; tht := tht s; r_vel := fun d => if Nat.eqb d wd then rw else fun _ => 0; r_tht := rt;
       v_rhs := v_rhs s; hfx := hfx s; p_grad := p_grad s |}.

  (** mpdata_rhs.hpp:77-89 *)
  Definition apply_rhs (d : R) (s : bst) : bst :=
    {| vel := fun c i => vel s c i + d * r_vel s c i; tht := fun i => tht s i + d * r_tht s i;
       r_vel := r_vel s; r_tht := r_tht s; v_rhs := v_rhs s; hfx := hfx s; p_grad := p_grad s |}.

  (** boussinesq_common.hpp:38-53 and the user's settings *)
  Definition start (u : dyn) : bst :=
    {| vel := fst u; tht := snd u; r_vel := fun _ _ => 0; r_tht := fun _ => 0; v_rhs := fun _ _ => 0;
       hfx := match sgs with None => hflux_user | Some _ => fun _ => 0 end; p_grad := fun _ _ => 0 |}.

  (** mpdata_rhs_vip_prs_common.hpp:141-169, after the initial velocities have been
      corrected: mpdata_rhs.hpp:127-138 (trapez), mpdata_rhs_vip_common.hpp:182-196,
      and the potential pressure *)
  Definition ante_loop (s : bst) : bst :=
    let s := update_rhs false s in
    let init := fun d i => match ab with Impl => - coeff i * (vel s d i - relax d i) | _ => 0 end in
    let pg := prs_ini (vel s) in
    {| vel := vel s; tht := tht s; r_vel := r_vel s; r_tht := r_tht s;
       v_rhs := fun d i => init d i - pg d i; hfx := hfx s; p_grad := pg |}.

  (** mpdata_rhs_vip_common.hpp:198-209 and mpdata_rhs_vip_prs_sgs_common.hpp:97-177 *)
  Definition expl_calc (n : nat) (s : bst) : bst :=
    let vr := fun d i => match ab with Expl => v_rhs s d i + -2 * coeff i * (vel s d i - relax d i) | _ => v_rhs s d i end in
    match sgs with
    | None => {| vel := vel s; tht := tht s; r_vel := r_vel s; r_tht := r_tht s; v_rhs := vr; hfx := hfx s; p_grad := p_grad s |}
    | Some f =>
        {| vel := vel s; tht := tht s; r_vel := r_vel s; r_tht := r_tht s;
           v_rhs := fun d i => vr d i + fst (f n (vel s, tht s)) d i; hfx := snd (f n (vel s, tht s)); p_grad := p_grad s |}
    end.

  (** mpdata_rhs_vip_common.hpp:229-236 *)
  Definition vip_rhs_apply (s : bst) : bst :=
    {| vel := fun d i => vel s d i + 1 / 2 * dt * v_rhs s d i; tht := tht s; r_vel := r_vel s; r_tht := r_tht s;
       v_rhs := fun _ _ => 0; hfx := hfx s; p_grad := p_grad s |}.

  (** mpdata_rhs_vip_common.hpp:327-341, mpdata_rhs.hpp:147-173 (trapez) *)
  Definition ante_step (n : nat) (s : bst) : bst := vip_rhs_apply (apply_rhs (dt / 2) (expl_calc n s)).

  Definition advect (n : nat) (s : bst) : bst :=
    let u := adv n (vel s, tht s) in
    {| vel := fst u; tht := snd u; r_vel := r_vel s; r_tht := r_tht s; v_rhs := v_rhs s; hfx := hfx s; p_grad := p_grad s |}.

  (** mpdata_rhs_vip_prs_common.hpp:171-189 *)
  Definition prs_fnlz (n : nat) (s : bst) : bst :=
    let u0 := vel s in
    let u1 := fun d i => match ab with Impl => u0 d i + 1 / 2 * dt * coeff i * relax d i | _ => u0 d i end in
    let pg := prs n u1 in
    let u2 := normalize (fun d i => u1 d i - pg d i) in
    {| vel := u2; tht := tht s; r_vel := r_vel s; r_tht := r_tht s;
       v_rhs := fun d i => (- u0 d i + u2 d i) / (1 / 2 * dt); hfx := hfx s; p_grad := pg |}.
  (** boussinesq_impl.hpp:119-129 *)
  Definition tht_fnlz (s : bst) : bst :=
    if impl_tht then
      let t := fun i => (tht s i - 1 / 2 * dt * vel s wd i * dtht_e i) / (1 + 1 / 2 * dt * tht_abs i) in
      {| vel := vel s; tht := t; r_vel := r_vel s;
         r_tht := fun i => r_tht s i + (- vel s wd i * dtht_e i - tht_abs i * t i);
         v_rhs := v_rhs s; hfx := hfx s; p_grad := p_grad s |}
    else s.

  (** mpdata_rhs.hpp:175-188 (trapez), mpdata_rhs_vip_common.hpp:343-347 *)
  Definition post_step (n : nat) (s : bst) : bst :=
    tht_fnlz (prs_fnlz n (apply_rhs (dt / 2) (update_rhs true s))).

  Definition step (n : nat) (s : bst) : bst := post_step n (advect n (ante_step n s)).
  Fixpoint run (n : nat) (u : dyn) : bst :=
    match n with O => ante_loop (start u) | S m => step m (run m u) end.
End Bouss.
