(** Time-stepping bookkeeping: equation ordering, time levels, the main loop
    of [solver_common::solve] for fixed and adaptive time steps.

    Paths are relative to /repo/libmpdata++. *)

From Coq Require Import ZArith QArith List Bool.
From Verif Require Import ModelIndex.
Import ListNotations.
Local Open Scope Z_scope.

(** Compile-time parameters used by the loop (ct_params_t::n_eqns,
    ct_params_t::delayed_step). *)
Record cfg := { n_eqns : nat; delayed_step : opts_t }.

Definition eqns (c : cfg) : list nat := seq 0 (n_eqns c).

Definition is_delayed (c : cfg) (e : nat) : bool :=
  isset (delayed_step c) (bit (N.of_nat e)).

(** solvers/detail/solver_common.hpp:84-90 [is_last_eqn]. *)
Definition is_last_eqn (c : cfg) (e : nat) : bool :=
  let ms := Z.of_N (most_significant (delayed_step c)) in
  ((ms =? 0) && (Z.of_nat e =? Z.of_nat (n_eqns c) - 1))
  || (Z.of_nat e =? ms - 1).

(** solver_common.hpp:93 and concurr/detail/sharedmem.hpp:85:
    [n = (n + 1) % n_tlev - n_tlev] with C++ (truncated) remainder. *)
Definition cycle_n (n_tlev n : Z) : Z := Z.rem (n + 1) n_tlev - n_tlev.

(** Buffer of a two-time-level field selected by index [n]:
    [mem->psi[e][n]] (blitz.hpp:89-101). *)
Definition buf_of (n : Z) : option Z := arrvec_index n 2.

(** Bookkeeping state: [nvec e] is the solver's [n[e]], [mem_n] is the shared
    [mem->n], and the ghost [written e] is the buffer most recently written for
    equation [e] (initially the buffer the user's initial condition went to,
    i.e. the one [advectee(e)] returns with [n = 0]). *)
Record tlev := { nvec : nat -> Z; mem_n : Z; written : nat -> option Z }.

Definition tlev_init : tlev :=
  {| nvec := fun _ => 0; mem_n := 0; written := fun _ => buf_of 0 |}.

Definition upd {A} (f : nat -> A) (e : nat) (v : A) : nat -> A :=
  fun x => if Nat.eqb x e then v else f x.

(** solver_common.hpp:91-95 [cycle]; the barriers of mem->cycle
    (sharedmem.hpp:82-87) make it one atomic flip of the shared index. *)
Definition cycle (c : cfg) (e : nat) (t : tlev) : tlev :=
  {| nvec := upd (nvec t) e (cycle_n 2 (nvec t e));
     mem_n := if is_last_eqn c e then cycle_n 2 (mem_n t) else mem_n t;
     written := written t |}.

(** One donor-cell pass writes [psi[e][n[e]+1]]
    (solvers/detail/mpdata_osc_1d.hpp:102-110). *)
Definition write_next (e : nat) (t : tlev) : tlev :=
  {| nvec := nvec t; mem_n := mem_n t; written := upd (written t) e (buf_of (nvec t e + 1)) |}.

(** mpdata_osc_1d.hpp:57-118 [advop]: [passes] donor-cell passes, with a flip
    before every pass but the first. [more] counts the corrective passes. *)
Fixpoint advop_more (c : cfg) (e : nat) (more : nat) (t : tlev) : tlev :=
  match more with
  | O => t
  | S m => advop_more c e m (write_next e (cycle c e t))
  end.
Definition advop_tl (c : cfg) (e : nat) (passes : nat) (t : tlev) : tlev :=
  match passes with
  | O => t
  | S m => advop_more c e m (write_next e t)
  end.

(** mpdata_osc_1d.hpp:60,112-115: number of passes in a given time step:
    the loop is left after the first pass in "upwind filter" steps. *)
Definition passes (n_iters : nat) (upwind_filter_freq : Z) (timestep : Z) : nat :=
  if (0 <? upwind_filter_freq) && (Z.rem timestep upwind_filter_freq =? 0)
  then Nat.min n_iters 1 else n_iters.

(** solver_common.hpp:127-136 [solve_loop_body], time-level part. *)
Definition loop_body_tl (c : cfg) (k : nat) (t : tlev) (e : nat) : tlev :=
  cycle c e (advop_tl c e k t).

Definition plain_eqns (c : cfg) : list nat := filter (fun e => negb (is_delayed c e)) (eqns c).
Definition delayed_eqns (c : cfg) : list nat := filter (is_delayed c) (eqns c).

(** solver_common.hpp:326-338: the two equation loops of one time step. *)
Definition step_tl (c : cfg) (k : nat) (t : tlev) : tlev :=
  fold_left (loop_body_tl c k) (delayed_eqns c)
    (fold_left (loop_body_tl c k) (plain_eqns c) t).

(** Any number of time steps, [ks] listing the number of passes of each. *)
Definition steps_tl (c : cfg) (ks : list nat) (t : tlev) : tlev :=
  fold_left (fun t k => step_tl c k t) ks t.

(** concurr/detail/sharedmem.hpp:332-337 [advectee(e)]: the buffer the user sees. *)
Definition advectee_buf (t : tlev) : option Z := buf_of (mem_n t).

(** ** The main loop with a fixed time step *)

(** Everything the loop calls, over an arbitrary state [U] (fields, output
    files, ...).  The first argument is the value of [timestep] at the call.
    [h_panic] is the flag read at the head of the loop. *)
Record hooks (U : Type) := {
  h_ante_loop : Z -> Z -> U -> U;     (* timestep, nt *)
  h_calc_gc : Z -> U -> U;
  h_ante_step : Z -> U -> U;
  h_adv : Z -> nat -> U -> U;         (* solve_loop_body(e) *)
  h_ante_delayed : Z -> U -> U;
  h_post_step : Z -> U -> U;
  h_panic : U -> bool
}.
Arguments h_ante_loop {U}. Arguments h_calc_gc {U}. Arguments h_ante_step {U}.
Arguments h_adv {U}. Arguments h_ante_delayed {U}. Arguments h_post_step {U}.
Arguments h_panic {U}.

Section FixedDt.
  Context {U : Type}.
  Variable (c : cfg) (h : hooks U).

  (** solver_common.hpp:296-345: one pass through the body of the while loop
      (after the panic check). *)
  Definition one_step (s : Z * U) : Z * U :=
    let '(ts, u) := s in
    let u := h_calc_gc h ts u in
    let u := h_ante_step h ts u in
    let u := fold_left (fun u e => h_adv h ts e u) (plain_eqns c) u in
    let u := h_ante_delayed h ts u in
    let u := fold_left (fun u e => h_adv h ts e u) (delayed_eqns c) u in
    let u := h_post_step h (ts + 1) u in
    (ts + 1, u).

  (** solver_common.hpp:292-349 with var_dt = false; [None] = out of fuel. *)
  Fixpoint main_loop (fuel : nat) (nt : Z) (s : Z * U) : option (Z * U) :=
    match fuel with
    | O => None
    | S f =>
        if fst s <? nt then
          if h_panic h (snd s) then Some s
          else main_loop f nt (one_step s)
        else Some s
    end.

  (** solver_common.hpp:270-356 [solve] with var_dt = false.  [nt] is an [int]:
      [nt += timestep] is computed in 64 bits and converted back to 32. *)
  Definition solve (nt : Z) (s : Z * U) : option (Z * U) :=
    let nt := wrap32 (nt + fst s) in
    let s := if fst s =? 0 then (fst s, h_ante_loop h (fst s) nt (snd s)) else s in
    main_loop (S (Z.to_nat (nt - fst s))) nt s.

  (** A history of calls to advance() (concurr_common.hpp:380-385). *)
  Fixpoint advances (calls : list Z) (s : Z * U) : option (Z * U) :=
    match calls with
    | [] => Some s
    | nt :: rest =>
        match solve nt s with
        | Some s' => advances rest s'
        | None => None
        end
    end.
End FixedDt.

(** Instance recording the calls made by the loop. *)
Inductive event :=
| AnteLoop (nt : Z) | CalcGC | AnteStep | Adv (e : nat) | AnteDelayed | PostStep.

Definition tracer (panic : list event -> bool) : hooks (list event) := {|
  h_ante_loop := fun _ nt u => u ++ [AnteLoop nt];
  h_calc_gc := fun _ u => u ++ [CalcGC];
  h_ante_step := fun _ u => u ++ [AnteStep];
  h_adv := fun _ e u => u ++ [Adv e];
  h_ante_delayed := fun _ u => u ++ [AnteDelayed];
  h_post_step := fun _ u => u ++ [PostStep];
  h_panic := panic
|}.

(** ** The main loop with an adaptive time step *)

Section VarDt.
  Context {U : Type}.
  (** [vstep] performs one complete step on the user state and returns the
      step length used, [out_intrp_ord] is ct_params_t::out_intrp_ord. *)
  Variable (vstep : Z -> Q -> U -> Q * U) (vante_loop : Q -> U -> U) (vpanic : U -> bool).
  Variable out_intrp_ord : Z.

  Record vstate := { v_ts : Z; v_time : Q; v_u : U }.

  (** solver_common.hpp:292-349 with var_dt = true. *)
  Fixpoint var_loop (fuel : nat) (nt : Q) (extra : Z) (s : vstate) : option vstate :=
    match fuel with
    | O => None
    | S f =>
        if negb (Qle_bool nt (v_time s)) || (0 <? extra) then
          if vpanic (v_u s) then Some s
          else
            let '(dt, u) := vstep (v_ts s) (v_time s) (v_u s) in
            let s' := {| v_ts := v_ts s + 1; v_time := Qplus (v_time s) dt; v_u := u |} in
            let extra' := if Qle_bool nt (v_time s') then extra - 1 else extra in
            var_loop f nt extra' s'
        else Some s
    end.

  (** solver_common.hpp:270-356 [solve] with var_dt = true. *)
  Definition var_solve (fuel : nat) (nt : Q) (s : vstate) : option vstate :=
    let nt := Qplus nt (v_time s) in
    let s := if v_ts s =? 0
             then {| v_ts := v_ts s; v_time := v_time s; v_u := vante_loop nt (v_u s) |} else s in
    var_loop fuel nt out_intrp_ord s.
End VarDt.
Arguments v_ts {U}. Arguments v_time {U}. Arguments v_u {U}.

(** ** Corrective-velocity buffers: solvers/detail/mpdata_common.hpp *)

(** Storage identities: the advector [mem->GC], the temporaries [*tmp[b]], and the
    limited velocity GC_mono (mpdata_fct_common.hpp). *)
Inductive gcbuf := MemGC | TmpGC (b : Z) | MonoGC.

(** mpdata_common.hpp:36-43 [GC_unco]. *)
Definition GC_unco (iter : Z) : gcbuf :=
  if iter =? 1 then MemGC else if negb (Z.rem iter 2 =? 0) then TmpGC 1 else TmpGC 0.
(** mpdata_common.hpp:45-50 [GC_corr]. *)
Definition GC_corr (iter : Z) : gcbuf :=
  if negb (Z.rem iter 2 =? 0) then TmpGC 0 else TmpGC 1.
(** mpdata_common.hpp:52-56 and mpdata_fct_common.hpp:28-32 [GC]. *)
Definition GC_used (fct : bool) (iter : Z) : gcbuf :=
  if iter =? 0 then MemGC else if fct then MonoGC else GC_corr iter.
(** mpdata_common.hpp:63-66 [n_tmp]. *)
Definition n_tmp (n_iters : Z) : Z := if 2 <? n_iters then 2 else 1.

(** ** Thread counts: concurr/cxx11_thread.hpp *)

(** cxx11_thread.hpp:81-93 [mem_t::size(max_threads)]: [env] is the value of
    atoi(getenv("OMP_NUM_THREADS")) if set, [hw] is hardware_concurrency().
    The comparison is unsigned, the result is converted to int. *)
Definition nthreads (env : option Z) (hw : Z) (max_threads : Z) : Z :=
  wrap32 (Z.min (match env with Some v => v mod 2 ^ 32 | None => hw end) (max_threads mod 2 ^ 32)).

(** cxx11_thread.hpp:96-99: barrier parties (and size of the reduction buffer). *)
Definition barrier_parties (env : option Z) (hw : Z) (grid : list Z) : Z :=
  nthreads env hw (nth 0 grid 0).

(** cxx11_thread.hpp:121-123: number of solver threads. *)
Definition solver_threads (env : option Z) (hw : Z) (grid : list Z) : Z :=
  nthreads env hw (nth (if (length grid <? 3)%nat then 0 else 1) grid 0).
