(** The stop flag of the main loop and the barriers around it, for any number of
    threads.

    Paths are relative to /repo/libmpdata++. *)
From Coq Require Import Arith List Bool.
Import ListNotations.

(** Where a thread waits for the others: at the head of the loop
    (solvers/detail/solver_common.hpp:301), at the [k]-th barrier inside a step, or
    after the loop (solver_common.hpp:353). *)
Inductive place := Head | Inner (k : nat) | Final.
(** What a thread does next: wait, read the flag (solver_common.hpp:302), execute the
    part of a step that follows [k] barriers of the step, or nothing (it returned from
    solve()). *)
Inductive pc := Wait (p : place) | Read | Work (k : nat) | Done.
Definition thread := (nat * pc)%type.       (* steps made so far (timestep), position *)

Section Panic.
  (** [B]: barriers inside one step (at least the one of mem->cycle(),
      concurr/detail/sharedmem.hpp:82-87); [nt]: requested number of steps. *)
  Variables (B nt : nat).

  (** solver_common.hpp:296-353: what a thread does without waiting; [flag]: mem->panic
      (concurr/detail/sharedmem.hpp:49).  Simplified: reading the flag is one atomic
      action (it is an unsynchronised access to a bool in the code). *)
  Definition advance_thread (flag : bool) (th : thread) : thread :=
    match snd th with
    | Read => (fst th, if flag then Wait Final else Work 0)
    | Work k => if k <? B then (fst th, Wait (Inner k))
                else (S (fst th), Wait (if S (fst th) <? nt then Head else Final))
    | _ => th
    end.
  (** return from the barrier *)
  Definition pass_barrier (th : thread) : thread :=
    match snd th with
    | Wait Head => (fst th, Read)
    | Wait (Inner k) => (fst th, Work (S k))
    | Wait Final => (fst th, Done)
    | _ => th
    end.
  Definition can_run (th : thread) : bool := match snd th with Read | Work _ => true | _ => false end.
  Definition waits (th : thread) : bool := match snd th with Wait _ => true | _ => false end.

  (** solver_common.hpp:296: the loop is entered if there are steps to make *)
  Definition start : thread := (0, Wait (if 0 <? nt then Head else Final)).

  Record pstate := { flag : bool; thr : list thread }.
  (** [Run t]: thread [t] goes on; [Release]: all threads are at the barrier and leave
      it (the barrier is one object for all places; C12); [Raise t]: the flag is set
      ([panic_ptr], concurr/detail/concurr_common.hpp:435-438, concurr/any.hpp:55) at a
      moment when thread [t] is where it is. *)
  Inductive pevent := Run (t : nat) | Release | Raise (t : nat).
  Definition set_thr (l : list thread) (t : nat) (x : thread) : list thread :=
    firstn t l ++ x :: skipn (S t) l.
  Definition pstep (s : pstate) (e : pevent) : option pstate :=
    match e with
    | Run t => match nth_error (thr s) t with
               | Some th => if can_run th then Some {| flag := flag s; thr := set_thr (thr s) t (advance_thread (flag s) th) |} else None
               | None => None
               end
    | Release => if forallb waits (thr s) then Some {| flag := flag s; thr := map pass_barrier (thr s) |} else None
    | Raise t => if t <? length (thr s) then Some {| flag := true; thr := thr s |} else None
    end.
  Definition pinit (n : nat) (f : bool) : pstate := {| flag := f; thr := repeat start n |}.
  Fixpoint prun (s : pstate) (es : list pevent) : option pstate :=
    match es with
    | [] => Some s
    | e :: es => match pstep s e with Some s' => prun s' es | None => None end
    end.
End Panic.
