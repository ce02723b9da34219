(** Property theorems about the thread barrier. *)
From Coq Require Import ZArith List Bool Lia.
From Verif Require Import ModelBarrier ProofsBarrier.
Import ListNotations.
Local Open Scope Z_scope.

(** C12: a thread returns from its g-th call only after all threads entered theirs,
    for every schedule and any number of threads, as long as no thread has
    made more than 2^32 calls. *)
Theorem C12_barrier_safe : forall k evs s, (0 < k)%nat -> Z.of_nat k < 2 ^ 64 ->
  brun k (binit k) evs = Some s ->
  (forall t, (t < k)%nat -> entered (b_thr s t) <= 2 ^ 32) ->
  forall t u, (t < k)%nat -> (u < k)%nat -> returned (b_thr s t) <= entered (b_thr s u).
Proof. exact barrier_safe. Qed.
Print Assumptions C12_barrier_safe.

(** No deadlock: in every reachable state some thread can make a step that does
    not rely on a spurious wake-up and strictly increases the total number of
    entered plus returned calls ... *)
Theorem C12_barrier_progress : forall k evs s, (0 < k)%nat -> Z.of_nat k < 2 ^ 64 ->
  brun k (binit k) evs = Some s ->
  (forall t, (t < k)%nat -> entered (b_thr s t) <= 2 ^ 32) ->
  exists ev s', productive s ev /\ bstep k s ev = Some s' /\ work k (b_thr s) < work k (b_thr s').
Proof. exact barrier_progress. Qed.
Print Assumptions C12_barrier_progress.

(** ... and no step ever decreases it. *)
Theorem C12_barrier_work_monotone : forall k s ev s',
  bstep k s ev = Some s' -> work k (b_thr s) <= work k (b_thr s').
Proof. exact barrier_work_mono. Qed.
Print Assumptions C12_barrier_work_monotone.

Example C12_example :
  exists s, brun 3 (binit 3) [Enter 2; Wake 2; Enter 0; Enter 1; Enter 1; Wake 2] = Some s /\
    map (fun t => (entered (b_thr s t), returned (b_thr s t))) [0%nat; 1%nat; 2%nat]
    = [(1, 0); (2, 1); (1, 1)].
Proof. eexists. split; reflexivity. Qed.

(** C13: beyond 2^32 calls the guarantee is lost. *)
Theorem C13_barrier_long_run_refuted :
  exists evs s, brun 2 (binit 2) evs = Some s /\
    returned (b_thr s 0%nat) = 2 ^ 32 + 1 /\ entered (b_thr s 1%nat) = 2 ^ 32.
Proof. exact barrier_breaks. Qed.
Print Assumptions C13_barrier_long_run_refuted.
