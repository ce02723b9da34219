(** What is said about runs with a stop flag. *)
From Coq Require Import Arith List Bool.
From Verif Require Import ModelPanic.
Import ListNotations.

(** somebody can go on without the flag being touched *)
Definition stuck (B nt : nat) (s : pstate) : Prop :=
  pstep B nt s Release = None /\ forall t, pstep B nt s (Run t) = None.
Definition all_done (s : pstate) : Prop := Forall (fun th => snd th = Done) (thr s).
(** executions in which the flag is only set from inside a step that has already
    passed a barrier (as in hook_post_step) *)
Inductive safe_run (B nt : nat) : pstate -> list pevent -> pstate -> Prop :=
| Sf_nil s : safe_run B nt s [] s
| Sf_run s t s1 es s2 : pstep B nt s (Run t) = Some s1 -> safe_run B nt s1 es s2 -> safe_run B nt s (Run t :: es) s2
| Sf_release s s1 es s2 : thr s <> [] -> pstep B nt s Release = Some s1 -> safe_run B nt s1 es s2 -> safe_run B nt s (Release :: es) s2
| Sf_raise s t n k s1 es s2 : nth_error (thr s) t = Some (n, Work (S k)) ->
    pstep B nt s (Raise t) = Some s1 -> safe_run B nt s1 es s2 -> safe_run B nt s (Raise t :: es) s2.
(** moves of threads in an execution *)
Definition moves (es : list pevent) : nat := length (filter (fun e => match e with Raise _ => false | _ => true end) es).
