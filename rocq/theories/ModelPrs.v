(** Pressure solvers: libmpdata++/solvers/detail/mpdata_rhs_vip_prs_common.hpp,
    mpdata_rhs_vip_prs_mr.hpp, mpdata_rhs_vip_prs_gcrk.hpp.  Exact (real)
    arithmetic; global sums and extrema are those of C18.  The preconditioned
    solver (mpdata_rhs_vip_prs_pc.hpp) is not modelled: it calls [lap] with too
    few arguments (line 57) and cannot be instantiated. *)
From Coq Require Import ZArith List Bool Reals.
From Verif Require Import Stencil ModelVip.
Import ListNotations.
Local Open Scope R_scope.

(** ** The operator *)
Record prs_env := {
  pdims : list dim;
  pdi : dim -> R;                               (* dijk *)
  pG : option (idx -> R);                       (* mem->G *)
  pcells : list idx;                            (* all cells of the domain *)
  pfill : (idx -> R) -> (idx -> R);             (* xchng_pres: values with halos filled *)
  pedge : dim -> idx -> option R;               (* edge cells of the component and their saved velocity *)
  pnorm : idx -> R                              (* divisor of normalize_vip: 1 + dt/2 c, or 1 *)
}.
Section Lap.
  Variable E : prs_env.
  Definition Gv (x : idx) : R := match pG E with Some g => g x | None => 1 end.
  (** nabla_formulae.hpp:18-35 [grad] *)
  Definition pgrad (a : idx -> R) (d : dim) (x : idx) : R :=
    (a (step_in d 1 x) - a (step_in d (-1) x)) / pdi E d / 2.
  (** solver_2d.hpp:222-237 [set_edges] with e.g. bcond/open_2d.hpp:62-65,
      rigid_2d.hpp:52-56 ([saved] = 0), cyclic_2d.hpp:42 (no edge).  The extra
      halo value written by the left open boundary is overwritten by the halo
      fill that follows and left out. *)
  Definition set_edges (sign : R) (v : dim -> idx -> R) (d : dim) (x : idx) : R :=
    match pedge E d x with Some s => sign * s | None => v d x end.
  (** mpdata_rhs_vip_prs_common.hpp:50-82 [lap] *)
  Definition lap (err_init simple : bool) (uvw : dim -> idx -> R) (arr : idx -> R) : idx -> R :=
    let a := pfill E arr in
    let t := fun d x => pgrad a d x - (if err_init then uvw d x else 0) in
    let t := set_edges (if err_init then -1 else 0) t in
    let t := fun d x => match pG E with Some g => t d x * g x | None => t d x end in
    let t := fun d x => if simple then t d x else t d x / pnorm E x in
    let t := fun d => pfill E (t d) in
    fun x => div (pdims E) (pdi E) t x / Gv x.
  (** velocity after [pressure_solver_apply], [normalize_vip] and
      [set_edges(..., 1)]: mpdata_rhs_vip_prs_common.hpp:128-130 (tmp_uvw),
      133-139, 180-182 and, with [simple] = true, 152-155 *)
  Definition corrected (simple : bool) (uvw : dim -> idx -> R) (phi : idx -> R) : dim -> idx -> R :=
    set_edges 1 (fun d x =>
      let v := uvw d x - pgrad (pfill E phi) d x in
      if simple then v else v / pnorm E x).
End Lap.

(** ** Iterations, for any operator *)
Section Iter.
  Variable X : Type.
  Variables (cells : list X) (L : (X -> R) -> (X -> R)) (tol : R).
  Definition vec := X -> R.
  Definition sumv (f : X -> R) : R := fold_right (fun x a => f x + a) 0 cells.
  (** prs_sum *)
  Definition dot (u v : vec) : R := sumv (fun x => u x * v x).
  Definition axpy (u : vec) (a : R) (v : vec) : vec := fun x => u x + a * v x.
  (** mem->max, mem->min over the (non-empty) domain *)
  Definition maxv (u : vec) : R := match cells with [] => 0 | c :: r => fold_left (fun a x => Rmax a (u x)) r (u c) end.
  Definition minv (u : vec) : R := match cells with [] => 0 | c :: r => fold_left (fun a x => Rmin a (u x)) r (u c) end.
  Definition error_of (u : vec) : R := Rmax (Rabs (maxv u)) (Rabs (minv u)).
  Definition is_zero (a : R) : bool := if Req_EM_T a 0 then true else false.
  Definition le_b (a b : R) : bool := if Rle_dec a b then true else false.

  Inductive outcome (S : Type) := Done (s : S) | Stuck.
  Arguments Done {S}. Arguments Stuck {S}.

  (** mpdata_rhs_vip_prs_common.hpp:116-126: the pseudo-time loop; [None] = out of fuel *)
  Fixpoint prs_loop {S : Type} (body : S -> S) (conv : S -> bool) (fuel : nat) (iters : Z) (s : S) : option (outcome S) :=
    if conv s then Some (Done s)
    else match fuel with
         | O => None
         | S f =>
             let s' := body s in
             if (10000 <? iters + 1)%Z then Some Stuck
             else prs_loop body conv f (iters + 1) s'
         end.

  (** mpdata_rhs_vip_prs_mr.hpp:38-56 *)
  Record mr_st := { m_phi : vec; m_err : vec; m_beta : R; m_conv : bool }.
  Definition mr_body (s : mr_st) : mr_st :=
    let le := L (m_err s) in
    let den := dot le le in
    let beta := if is_zero den then m_beta s else - dot (m_err s) le / den in
    let err := axpy (m_err s) beta le in
    {| m_phi := axpy (m_phi s) beta (m_err s); m_err := err; m_beta := beta;
       m_conv := le_b (error_of err) tol || m_conv s |}.
  Definition mr_start (phi err : vec) (beta : R) : mr_st := {| m_phi := phi; m_err := err; m_beta := beta; m_conv := false |}.

  (** mpdata_rhs_vip_prs_gcrk.hpp:39-92 *)
  Record gc_st := {
    g_phi : vec; g_err : vec; g_beta : R; g_conv : bool;
    g_p : nat -> vec; g_lp : nat -> vec; g_alpha : nat -> R; g_den : nat -> R
  }.
  Definition setv {A : Type} (f : nat -> A) (k : nat) (v : A) : nat -> A := fun j => if Nat.eqb j k then v else f j.
  Definition gc_start (phi err : vec) (beta : R) (p lp : nat -> vec) (alpha den : nat -> R) : gc_st :=
    {| g_phi := phi; g_err := err; g_beta := beta; g_conv := false;
       g_p := setv p 0 err; g_lp := setv lp 0 (L err); g_alpha := alpha; g_den := den |}.
  (** one pass of the loop over [v] *)
  Definition gc_iter (k v : nat) (s : gc_st) : gc_st :=
    let den := setv (g_den s) v (dot (g_lp s v) (g_lp s v)) in
    let beta := if is_zero (den v) then g_beta s else - dot (g_err s) (g_lp s v) / den v in
    let phi := axpy (g_phi s) beta (g_p s v) in
    let err := axpy (g_err s) beta (g_lp s v) in
    let conv := le_b (error_of err) tol || g_conv s in
    let le := L err in
    let alpha := fold_left (fun al l => if is_zero (den l) then al else setv al l (- dot le (g_lp s l) / den l)) (seq 0 (S v)) (g_alpha s) in
    if Nat.ltb v (k - 1) then
      let p := fold_left (fun p l => setv p (S v) (axpy (p (S v)) (alpha l) (p l))) (seq 0 (S v)) (setv (g_p s) (S v) err) in
      let lp := fold_left (fun p l => setv p (S v) (axpy (p (S v)) (alpha l) (p l))) (seq 0 (S v)) (setv (g_lp s) (S v) le) in
      {| g_phi := phi; g_err := err; g_beta := beta; g_conv := conv; g_p := p; g_lp := lp; g_alpha := alpha; g_den := den |}
    else
      let p := setv (g_p s) 0 (axpy err (alpha 0%nat) (g_p s 0%nat)) in
      let lp := setv (g_lp s) 0 (axpy le (alpha 0%nat) (g_lp s 0%nat)) in
      let p := fold_left (fun p l => setv p 0 (axpy (p 0%nat) (alpha l) (p l))) (seq 1 v) p in
      let lp := fold_left (fun p l => setv p 0 (axpy (p 0%nat) (alpha l) (p l))) (seq 1 v) lp in
      {| g_phi := phi; g_err := err; g_beta := beta; g_conv := conv; g_p := p; g_lp := lp; g_alpha := alpha; g_den := den |}.
  Definition gc_body (k : nat) (s : gc_st) : gc_st := fold_left (fun s v => gc_iter k v s) (seq 0 k) s.
End Iter.
Arguments Done {S}. Arguments Stuck {S}.

(** [pressure_solver_update], mpdata_rhs_vip_prs_common.hpp:101-131: start from
    the current potential and velocities; [beta] (and for gcrk the scratch
    arrays and [alpha], [tmp_den]) keep whatever the previous call left. *)
Definition mr_update (E : prs_env) (tol : R) (simple : bool) (uvw : dim -> idx -> R) (phi : idx -> R) (beta : R)
  : option (outcome (mr_st idx)) :=
  prs_loop (mr_body idx (pcells E) (lap E false simple uvw) tol) (m_conv idx) (Z.to_nat 10001) 0
    (mr_start idx phi (lap E true simple uvw phi) beta).
Definition gcrk_update (k : nat) (E : prs_env) (tol : R) (simple : bool) (uvw : dim -> idx -> R) (phi : idx -> R)
  (beta : R) (p lp : nat -> idx -> R) (alpha den : nat -> R) : option (outcome (gc_st idx)) :=
  prs_loop (gc_body idx (pcells E) (lap E false simple uvw) tol k) (g_conv idx) (Z.to_nat 10001) 0
    (gc_start idx (lap E false simple uvw) phi (lap E true simple uvw phi) beta p lp alpha den).
