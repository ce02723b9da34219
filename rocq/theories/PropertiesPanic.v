(** Property theorems about stopping a run from outside. *)
From Coq Require Import Arith List Bool Lia.
From Verif Require Import ModelPanic SpecPanic ProofsPanic.
Import ListNotations.

(** C48: if the stop flag is set during a step after its first barrier (as from
    hook_post_step), then in every interleaving of any number of threads all threads
    leave the loop after the same number of steps ... *)
Theorem C48_panic_agreement : forall B nt, 0 < B -> forall n f es s, safe_run B nt (pinit nt n f) es s ->
  forall t u a b, nth_error (thr s) t = Some (a, Done) -> nth_error (thr s) u = Some (b, Done) -> a = b.
Proof. exact panic_agree. Qed.
Print Assumptions C48_panic_agreement.

(** ... nobody waits for ever: when no thread can move, all have returned, and there
    are finitely many moves ... *)
Theorem C48_panic_no_deadlock : forall B nt, 0 < B -> forall n f es s, safe_run B nt (pinit nt n f) es s ->
  (stuck B nt s -> all_done s) /\ moves es <= n * ((nt + 1) * (2 * B + 5)).
Proof. intros B nt HB n f es s R. split; [exact (panic_progress B nt HB n f es s R)|exact (panic_terminates B nt HB n f es s R)]. Qed.
Print Assumptions C48_panic_no_deadlock.

(** ... and no thread starts another step after the one in which it was set. *)
Theorem C48_panic_stops : forall B nt, 0 < B -> forall n f es1 s t a k s1 es2 s2, safe_run B nt (pinit nt n f) es1 s ->
  nth_error (thr s) t = Some (a, Work (S k)) -> pstep B nt s (Raise t) = Some s1 -> safe_run B nt s1 es2 s2 ->
  forall th, In th (thr s2) -> fst th <= S a.
Proof. exact panic_stops. Qed.
Print Assumptions C48_panic_stops.

Example C48_example : exists s1 s2, safe_run 1 5 (pinit 5 2 false) [Release; Run 0; Run 1; Run 0; Run 1; Release] s1 /\
  nth_error (thr s1) 1 = Some (0, Work 1) /\
  safe_run 1 5 s1 [Run 0; Raise 1; Run 1; Release; Run 1; Run 0; Release] s2 /\ thr s2 = [(1, Done); (1, Done)].
Proof.
  eexists. eexists. split; [|split].
  - eapply Sf_release; [discriminate|reflexivity|]. do 4 (eapply Sf_run; [reflexivity|]). eapply Sf_release; [discriminate|reflexivity|]. apply Sf_nil.
  - reflexivity.
  - split; [|shelve]. eapply Sf_run; [reflexivity|]. eapply (Sf_raise _ _ _ 1 0 0); [reflexivity|reflexivity|]. eapply Sf_run; [reflexivity|].
    eapply Sf_release; [discriminate|reflexivity|]. do 2 (eapply Sf_run; [reflexivity|]). eapply Sf_release; [discriminate|reflexivity|]. apply Sf_nil.
  Unshelve. reflexivity.
Qed.

(** If the flag is set at another moment (by a signal handler, or by a thread before
    the first barrier of its step) some threads may leave the loop while others go
    on, which then wait for ever. *)
Theorem C48_panic_any_time_refuted : exists B nt es s, 0 < B /\ prun B nt (pinit nt 2 false) es = Some s /\
  stuck B nt s /\ nth_error (thr s) 0 = Some (0, Wait (Inner 1)) /\ nth_error (thr s) 1 = Some (0, Done).
Proof.
  destruct early_raise_stuck as (s & R & K & E). exists 2, 3, early_raise, s. split; [lia|]. split; [exact R|]. split; [exact K|].
  rewrite E. split; reflexivity.
Qed.
Print Assumptions C48_panic_any_time_refuted.
