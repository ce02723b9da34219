(** Property theorems about time stepping, hooks, buffers and thread counts. *)
From Coq Require Import ZArith QArith NArith List Bool Lia Lqa.
From Verif Require Import SpecRun ModelIndex ModelRun ProofsRun.
Import ListNotations.
Local Open Scope Z_scope.

(** C03: after any number of steps, with any number of iterations, upwind
    filtering and a valid mask of delayed equations, the buffer advectee(e)
    refers to is the one written last, for every equation. *)
Theorem C03_advectee_newest : forall c n_iters freq t0 steps,
  (0 < n_eqns c)%nat -> mask_names_existing (n_eqns c) (delayed_step c) -> (0 < n_iters)%nat ->
  let t := steps_tl c (map (fun s => passes n_iters freq (t0 + Z.of_nat s)) (seq 0 steps)) tlev_init in
  forall e, (e < n_eqns c)%nat -> advectee_buf t = written t e /\ advectee_buf t <> None.
Proof. exact newest_state. Qed.
Print Assumptions C03_advectee_newest.

Definition C03_cfg : cfg := {| n_eqns := 3; delayed_step := bit 1 |}.
Example C03_example :
  (0 < n_eqns C03_cfg)%nat /\ mask_names_existing 3 (bit 1) /\
  advectee_buf (steps_tl C03_cfg (map (fun s => passes 3 2 (0 + Z.of_nat s)) (seq 0 3)) tlev_init) = Some 1.
Proof.
  split; [vm_compute; lia|]. split; [|vm_compute; reflexivity].
  intros k Hk. assert (k = 1%N); [|subst; vm_compute; lia].
  unfold bit in Hk. rewrite N.shiftl_1_l, N.pow2_bits_eqb in Hk. symmetry. now apply N.eqb_eq.
Qed.

(** C04: with a bit naming a non-existing equation the shared index never
    moves and advectee() returns a stale buffer. *)
Theorem C04_stray_mask_refuted :
  exists c n_iters, (0 < n_eqns c)%nat /\ (0 < n_iters)%nat /\
    let t := steps_tl c [passes n_iters 0 0] tlev_init in
    advectee_buf t <> written t 0.
Proof. exact stale_state. Qed.
Print Assumptions C04_stray_mask_refuted.

(** C05 *)
Theorem C05_advance_exact : forall (U : Type) c (h : hooks U) calls s,
  Forall (fun n => 0 <= n) calls -> 0 <= fst s -> fst s + total calls <= int_max ->
  (forall u, h_panic h u = false) ->
  exists s', advances c h calls s = Some s' /\ fst s' = fst s + total calls.
Proof. exact @advances_ts. Qed.
Print Assumptions C05_advance_exact.

Theorem C05_advance_nonpositive : forall (U : Type) c (h : hooks U) nt s,
  nt <= 0 -> int_min <= nt + fst s <= int_max ->
  solve c h nt s = Some (ante h (nt + fst s) s).
Proof. exact @solve_negative. Qed.
Print Assumptions C05_advance_nonpositive.

Theorem C05_advance_additive : forall (U : Type) c (h : hooks U) a b s,
  1 <= a -> 0 <= b -> 0 <= fst s -> fst s + a + b <= int_max ->
  (forall u, h_panic h u = false) ->
  (forall ts nt nt' u, h_ante_loop h ts nt u = h_ante_loop h ts nt' u) ->
  advances c h [a; b] s = advances c h [a + b] s.
Proof. exact @solve_additive. Qed.
Print Assumptions C05_advance_additive.

Definition C05_hooks : hooks (Z * Z) := {|
  h_ante_loop := fun _ _ u => u;
  h_calc_gc := fun _ u => u;
  h_ante_step := fun ts u => (fst u + ts, snd u);
  h_adv := fun _ e u => (fst u, snd u + Z.of_nat e);
  h_ante_delayed := fun _ u => (snd u, fst u);
  h_post_step := fun _ u => u;
  h_panic := fun _ => false |}.
Example C05_example :
  (forall u, h_panic C05_hooks u = false) /\
  (forall ts nt nt' u, h_ante_loop C05_hooks ts nt u = h_ante_loop C05_hooks ts nt' u) /\
  advances C03_cfg C05_hooks [2; 3] (0, (1, 2)) = advances C03_cfg C05_hooks [5] (0, (1, 2)) /\
  option_map fst (advances C03_cfg C05_hooks [2; 3] (0, (1, 2))) = Some 5.
Proof. repeat split. Qed.

(** The total number of steps is limited by [int]: at 2^31-1 steps a further
    advance(1) returns without doing anything. *)
Theorem C05_advance_beyond_int_refuted :
  exists (s : Z * list event) nt, 0 <= fst s <= int_max /\ 0 < nt <= int_max /\
    exists s', solve {| n_eqns := 1; delayed_step := 0%N |} (tracer no_panic) nt s = Some s' /\ fst s' = fst s.
Proof. exact advance_overflow. Qed.
Print Assumptions C05_advance_beyond_int_refuted.

(** C06 *)
Theorem C06_hook_order : forall c z n rest,
  Forall (fun n => 0 <= n) rest -> 0 < n -> n + total rest <= int_max ->
  advances c (tracer no_panic) (repeat 0 z ++ n :: rest) (0, []) =
  Some (n + total rest,
        repeat (AnteLoop 0) z ++ [AnteLoop n]
        ++ concat (repeat (step_events c) (Z.to_nat (n + total rest)))).
Proof. exact advances_trace. Qed.
Print Assumptions C06_hook_order.

Theorem C06_each_equation_once : forall c e, (e < n_eqns c)%nat ->
  length (filter (is_adv e) (step_events c)) = 1%nat.
Proof. exact step_events_once. Qed.
Print Assumptions C06_each_equation_once.

Example C06_example :
  advances C03_cfg (tracer no_panic) [0; 1] (0, []) =
  Some (1, [AnteLoop 0; AnteLoop 1; CalcGC; AnteStep; Adv 0; Adv 2; AnteDelayed; Adv 1; PostStep]).
Proof. reflexivity. Qed.

(** C07 *)
Theorem C07_panic_stops : forall (U : Type) c (h : hooks U) nt s,
  int_min <= nt + fst s <= int_max ->
  exists k s', solve c h nt s = Some s' /\ s' = iter_steps c h k (ante h (nt + fst s) s) /\
    (k <= Z.to_nat nt)%nat /\
    (forall j, (j < k)%nat -> h_panic h (snd (iter_steps c h j (ante h (nt + fst s) s))) = false) /\
    ((k < Z.to_nat nt)%nat -> h_panic h (snd s') = true) /\
    (fst s' <> 0 -> h_panic h (snd s') = true ->
       forall calls, Forall (fun n => int_min <= n + fst s' <= int_max) calls ->
       advances c h calls s' = Some s').
Proof. exact @panic_stops. Qed.
Print Assumptions C07_panic_stops.

Example C07_example :
  solve C03_cfg (tracer (fun l => Nat.leb 15 (length l))) 5 (0, []) =
  Some (2, [AnteLoop 5; CalcGC; AnteStep; Adv 0; Adv 2; AnteDelayed; Adv 1; PostStep;
            CalcGC; AnteStep; Adv 0; Adv 2; AnteDelayed; Adv 1; PostStep]).
Proof. reflexivity. Qed.

(** C08 *)
Theorem C08_var_dt_reaches_target : forall (U : Type) vstep vante (vpanic : U -> bool) ord fuel T s s',
  (forall u, vpanic u = false) -> 0 <= ord ->
  var_solve vstep vante vpanic ord fuel T s = Some s' ->
  (T + v_time s <= v_time s')%Q /\ v_ts s + ord <= v_ts s'.
Proof. exact @var_solve_reaches. Qed.
Print Assumptions C08_var_dt_reaches_target.

Theorem C08_var_dt_terminates : forall (U : Type) vstep vante (vpanic : U -> bool) ord (d : Q) T s k,
  (0 < d)%Q -> (forall ts t u, d <= fst (vstep ts t u))%Q -> 0 <= ord ->
  (T <= inject_Z (Z.of_nat k) * d)%Q ->
  exists fuel s', var_solve vstep vante vpanic ord fuel T s = Some s' /\
    v_ts s' <= v_ts s + Z.of_nat k + ord.
Proof. exact @var_solve_terminates. Qed.
Print Assumptions C08_var_dt_terminates.

Definition C08_vstep : Z -> Q -> unit -> Q * unit := fun ts _ u => (1 + inject_Z ts * inject_Z ts, u)%Q.
Example C08_example :
  (forall ts t u, 1 <= fst (C08_vstep ts t u))%Q /\
  var_solve C08_vstep (fun _ u => u) (fun _ => false) 1 10 (5#2) {| v_ts := 0; v_time := 0; v_u := tt |}
  = Some {| v_ts := 2; v_time := 3; v_u := tt |}.
Proof.
  split; [|reflexivity]. intros ts t u. cbn [C08_vstep fst].
  assert (0 <= inject_Z ts * inject_Z ts)%Q; [|lra].
  rewrite <- inject_Z_mult. change 0%Q with (inject_Z 0). rewrite <- Zle_Qle. nia.
Qed.

(** C11 *)
Theorem C11_gc_buffers : forall n_iters iter, 1 <= iter < n_iters ->
  GC_corr iter <> GC_unco iter /\
  GC_unco iter = (if iter =? 1 then MemGC else GC_corr (iter - 1)) /\
  (forall b, GC_corr iter = TmpGC b \/ GC_unco iter = TmpGC b -> 0 <= b < n_tmp n_iters).
Proof. exact gc_buffers. Qed.
Print Assumptions C11_gc_buffers.

Example C11_example : GC_corr 3 = TmpGC 0 /\ GC_unco 3 = TmpGC 1 /\ n_tmp 4 = 2 /\ n_tmp 2 = 1.
Proof. repeat split. Qed.

(** C14 *)
Theorem C14_parties_1d_2d : forall env hw grid, (length grid < 3)%nat ->
  barrier_parties env hw grid = solver_threads env hw grid.
Proof. exact parties_match. Qed.
Print Assumptions C14_parties_1d_2d.

Example C14_example : barrier_parties (Some 8) 4 [5; 100] = 5 /\ solver_threads (Some 8) 4 [5; 100] = 5.
Proof. split; reflexivity. Qed.

(** In 3D both too few parties (barrier opens early) and too many (deadlock)
    are possible. *)
Theorem C14_parties_3d_refuted :
  exists env hw gridA gridB, 1 <= hw /\ length gridA = 3%nat /\ length gridB = 3%nat /\
    Forall (fun n => 1 <= n) gridA /\ Forall (fun n => 1 <= n) gridB /\
    barrier_parties env hw gridA < solver_threads env hw gridA /\
    solver_threads env hw gridB < barrier_parties env hw gridB.
Proof. exact parties_mismatch. Qed.
Print Assumptions C14_parties_3d_refuted.

(** C47: thread count between one and the grid length, unless the environment
    variable converts to zero. *)
Theorem C47_thread_count_range : forall env hw max_threads,
  1 <= max_threads <= int_max -> 1 <= hw < 2 ^ 31 ->
  (forall v, env = Some v -> v mod 2 ^ 32 <> 0) ->
  1 <= nthreads env hw max_threads <= max_threads.
Proof. exact nthreads_range. Qed.
Print Assumptions C47_thread_count_range.

Example C47_example : nthreads (Some (-1)) 4 10 = 10 /\ nthreads (Some 3) 4 10 = 3 /\ nthreads None 4 10 = 4.
Proof. repeat split. Qed.

Theorem C47_zero_threads_refuted :
  exists env hw max_threads, 1 <= hw /\ 1 <= max_threads /\ nthreads env hw max_threads = 0.
Proof. exact no_threads. Qed.
Print Assumptions C47_zero_threads_refuted.
