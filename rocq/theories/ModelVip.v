(** Solvers with velocities obtained from the advected fields:
    libmpdata++/solvers/detail/mpdata_rhs_vip_common.hpp (stash of previous
    velocities, extrapolation in time, velocity absorber) and
    libmpdata++/solvers/mpdata_rhs_vip.hpp (interpolation to faces).
    Exact (real) arithmetic. *)
From Coq Require Import ZArith List Bool Reals.
From Verif Require Import Stencil.
Import ListNotations.
Local Open Scope R_scope.

(** ** Stash (one velocity component in one cell) *)

(** Which of the arrays [stash[d + k * n_dims]] is [vip_stash(t_lev)[d]]: the
    value of k.  mpdata_rhs_vip_common.hpp:58-97. *)
Definition stash_slot (var_dt div3 : bool) (timestep : Z) (t_lev : Z) : Z :=
  if negb var_dt && negb div3 then 0%Z
  else if negb div3 then (- t_lev)%Z
  else if (t_lev =? 0)%Z then 0%Z
  else if (timestep mod 2 =? 0)%Z then (- t_lev)%Z
  else (3 + t_lev)%Z.

(** how many arrays per dimension are allocated: mpdata_rhs_vip_common.hpp:361-362 *)
Definition stash_count (var_dt div3 : bool) : Z := if div3 then 3%Z else if var_dt then 2%Z else 1%Z.

(** velocity from the advected quantity: mpdata_rhs_vip_common.hpp:99-124, 146-163;
    [den] = None when [vip_den == -1] *)
Definition vel_of (eps : R) (den : option R) (q : R) : R :=
  match den with
  | None => q
  | Some r => if Req_EM_T eps 0 then q / r else if Rlt_dec eps r then q / r else 0
  end.

Record vst := { slots : Z -> R; v_step : Z; stash0 : R; stash1 : R }.
Definition setz (f : Z -> R) (k : Z) (v : R) : Z -> R := fun j => if (j =? k)%Z then v else f j.

Section Vip.
  Variables (var_dt div3 : bool) (eps : R).
  Notation slot s t := (stash_slot var_dt div3 (v_step s) t).

  (** mpdata_rhs_vip_common.hpp:258-276, and the constructor
      (solver_common.hpp:231: [dt_stash] zeroed, [timestep] = 0) *)
  Definition vip_init (garbage : Z -> R) : vst :=
    let s0 := {| slots := garbage; v_step := 0; stash0 := 0; stash1 := 0 |} in
    let f := setz garbage (slot s0 (-1)%Z) 0 in
    let f := if div3 then setz f (slot s0 (-2)%Z) 0 else f in
    {| slots := f; v_step := 0; stash0 := 0; stash1 := 0 |}.

  (** mpdata_rhs_vip_common.hpp:131-167 [extrp] *)
  Definition extrp (dt : R) (v : R) (s : vst) : vst :=
    let beta := if Rlt_dec 0 (stash0 s) then dt / (2 * stash0 s) else 0 in
    let out := slot s 0%Z in
    let f := slots s in
    let f := if negb var_dt && negb div3 then setz f out (f out * - beta)
             else setz f out (- beta * f (slot s (-1)%Z)) in
    let f := setz f out (f out + (1 + beta) * v) in
    {| slots := f; v_step := v_step s; stash0 := stash0 s; stash1 := stash1 s |}.

  (** mpdata_rhs_vip_common.hpp:292-325 [calc_ndt_gc]: the fields whose
      interpolations are [ndt_GC] and [ndtt_GC]; the current value [w] is
      taken from [vips()], without division by the density *)
  Definition ndt (dt : R) (w : R) (s : vst) : option R * option R :=
    if div3 then
      (if Rlt_dec 0 (stash0 s) then Some (dt * (w - slots s (slot s (-1)%Z)) / stash0 s) else None,
       if Rlt_dec 0 (stash0 s) then
         if Rlt_dec 0 (stash1 s) then
           Some (dt * dt * (stash1 s * w - (stash1 s + stash0 s) * slots s (slot s (-1)%Z) + stash0 s * slots s (slot s (-2)%Z))
                 / (stash0 s * stash1 s * (1 / 2) * (stash0 s + stash1 s)))
         else None
       else None)
    else (None, None).

  (** One step of solver_common.hpp:309-351 as seen by the stash: [calc_gc]
      for every attempted time step (the last one is the one kept; exactly one
      attempt without var_dt), [calc_ndt_gc], [fill_stash] at the head of
      [hook_ante_step] (mpdata_rhs_vip_common.hpp:327-341), new [dt_stash].
      Output: velocity used for the advector, and the time derivatives. *)
  Record vin := { q : R; den : option R; tries : list R; dt_used : R }.
  Definition vip_step (x : vin) (s : vst) : (R * (option R * option R)) * vst :=
    let v := vel_of eps (den x) (q x) in
    let s1 := fold_left (fun s dt => extrp dt v s) (tries x ++ [dt_used x]) s in
    let out := slots s1 (slot s1 0%Z) in
    let d := ndt (dt_used x) (q x) s1 in
    let save := slot s1 (if div3 then (-2)%Z else (-1)%Z) in
    ((out, d),
     {| slots := setz (slots s1) save v; v_step := (v_step s + 1)%Z;
        stash0 := dt_used x; stash1 := if div3 then stash0 s else stash1 s |}).

  Fixpoint vip_run (xs : list vin) (s : vst) : list (R * (option R * option R)) :=
    match xs with
    | [] => []
    | x :: r => let (o, s') := vip_step x s in o :: vip_run r s'
    end.
End Vip.

(** ** Interpolation to faces and divergences *)

(** mpdata_rhs_vip.hpp:98-125, 208-237 [intrp] (and 39-57 in 1D, without G);
    the value at the face between [x] and its neighbour in direction [d] *)
Definition step_in (d : dim) (k : Z) (x : idx) : idx :=
  match d with DX => iadd x (k, 0, 0)%Z | DY => iadd x (0, k, 0)%Z | DZ => iadd x (0, 0, k)%Z end.
Definition intrp (dt di : R) (G : option (idx -> R)) (src : idx -> R) (d : dim) (x : idx) : R :=
  match G with
  | None => dt / di * (1 / 2) * (src x + src (step_in d 1 x))
  | Some g => dt / di * (1 / 2) * (g x * src x + g (step_in d 1 x) * src (step_in d 1 x))
  end.
(** nabla_formulae.hpp:163-197 [div] (2D, 3D) *)
Definition div (dims : list dim) (di : dim -> R) (v : dim -> idx -> R) (x : idx) : R :=
  match dims with
  | [] => 0
  | d :: r => fold_left (fun a d => a + (v d (step_in d 1 x) - v d (step_in d (-1) x)) / di d / 2) r
                ((v d (step_in d 1 x) - v d (step_in d (-1) x)) / di d / 2)
  end.
(** divergence of an advector, e.g. solver_2d.hpp:304-311, solver_3d.hpp:400-409
    (before taking the absolute value and dividing by G) *)
Definition vctr_div (dims : list dim) (gc : dim -> idx -> R) (x : idx) : R :=
  match dims with
  | [] => 0
  | d :: r => fold_left (fun a d => a + (gc d x - gc d (step_in d (-1) x))) r (gc d x - gc d (step_in d (-1) x))
  end.

(** ** Velocity absorber (one component) *)
Inductive vab := NoAb | Expl | Impl.
Section Vab.
  Variable X : Type.
  Variables (ab : vab) (dt : R) (coeff relax : X -> R).
  Variable adv : (X -> R) -> (X -> R).       (* everything between the two hooks *)
  Definition vf := X -> R.

  (** mpdata_rhs_vip_common.hpp:182-196 *)
  Definition rhs_impl_init (u : vf) : vf :=
    match ab with Impl => fun x => - coeff x * (u x - relax x) | _ => fun _ => 0 end.
  (** mpdata_rhs_vip_common.hpp:198-209 *)
  Definition rhs_expl_calc (u rhs : vf) : vf :=
    match ab with Expl => fun x => rhs x + -2 * coeff x * (u x - relax x) | _ => rhs end.
  (** mpdata_rhs_vip_common.hpp:229-236 *)
  Definition rhs_apply (dt : R) (u rhs : vf) : vf * vf :=
    (fun x => u x + 1 / 2 * dt * rhs x, fun _ => 0).
  (** mpdata_rhs_vip_common.hpp:238-256 *)
  Definition normalize_vip (dt : R) (u : vf) : vf :=
    match ab with Impl => fun x => u x / (1 + 1 / 2 * dt * coeff x) | _ => u end.
  Definition add_relax (dt : R) (u : vf) : vf := fun x => u x + 1 / 2 * dt * coeff x * relax x.
  (** mpdata_rhs_vip_common.hpp:211-227 *)
  Definition rhs_impl_fnlz (dt : R) (u rhs : vf) : vf * vf :=
    match ab with
    | Impl =>
        let rhs := fun x => - u x in
        let u := normalize_vip dt (add_relax dt u) in
        let rhs := fun x => rhs x + u x in
        (u, fun x => rhs x / (1 / 2 * dt))
    | _ => (u, rhs)
    end.
  (** one step: mpdata_rhs_vip_common.hpp:327-347 *)
  Definition vab_step_dt (dt : R) (s : vf * vf) : vf * vf :=
    let '(u, rhs) := s in
    let rhs := rhs_expl_calc u rhs in
    let '(u, rhs) := rhs_apply dt u rhs in
    rhs_impl_fnlz dt (adv u) rhs.
  Definition vab_step := vab_step_dt dt.
  Definition vab_start (u : vf) : vf * vf := (u, rhs_impl_init u).
  Definition vab_run (k : nat) (u : vf) : vf * vf := Nat.iter k vab_step (vab_start u).
  (** steps of different lengths *)
  Definition vab_run_dts (dts : list R) (u : vf) : vf * vf :=
    fold_left (fun s dt => vab_step_dt dt s) dts (vab_start u).
End Vab.
