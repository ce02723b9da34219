(** The condition-variable barrier of concurr/cxx11_thread.hpp:27-59 under
    arbitrary thread schedules.

    The body of [barrier::wait] runs under one mutex which is only released
    inside [m_cond.wait]; hence two kinds of atomic steps suffice: entering
    [wait] (up to returning or blocking on the condition variable) and waking
    up inside [m_cond.wait] (either notified or spuriously) and re-evaluating
    the loop condition. *)

From Coq Require Import ZArith List Bool.
Import ListNotations.
Local Open Scope Z_scope.

(** State of a thread. [returned] counts completed calls of wait().
    [Blocked g r b]: inside m_cond.wait during call number [r+1], the local
    variable [unsigned int gen] holds [g], [b]: a notification has been sent
    since it blocked. *)
Inductive tstate := Out (r : Z) | Blocked (g r : Z) (notified : bool).

(** cxx11_thread.hpp:30-34: m_generation, m_count (size_t), per-thread state;
    m_threshold is the parameter [k] below. *)
Record bstate := { b_gen : Z; b_count : Z; b_thr : nat -> tstate }.

Inductive bevent := Enter (t : nat) | Wake (t : nat).

Definition bupd (f : nat -> tstate) (t : nat) (v : tstate) : nat -> tstate :=
  fun x => if Nat.eqb x t then v else f x.

(** m_cond.notify_all() *)
Definition notify (s : tstate) : tstate :=
  match s with Out r => Out r | Blocked g r _ => Blocked g r true end.

Definition u64 (x : Z) : Z := x mod 2 ^ 64.
Definition u32 (x : Z) : Z := x mod 2 ^ 32.

(** cxx11_thread.hpp:38-59 [wait]; [None]: the event is impossible (the thread
    is not in the required state). *)
Definition bstep (k : nat) (s : bstate) (ev : bevent) : option bstate :=
  match ev with
  | Enter t =>
      if (t <? k)%nat then
        match b_thr s t with
        | Blocked _ _ _ => None
        | Out r =>
            let gen := u32 (b_gen s) in                     (* unsigned int gen = m_generation *)
            let count := u64 (b_count s - 1) in             (* --m_count *)
            if count =? 0 then
              Some {| b_gen := u64 (b_gen s + 1);           (* m_generation++ *)
                      b_count := Z.of_nat k;                (* m_count = m_threshold *)
                      b_thr := bupd (fun x => notify (b_thr s x)) t (Out (r + 1)) |}
            else if gen =? b_gen s then                     (* while (gen == m_generation) wait *)
              Some {| b_gen := b_gen s; b_count := count;
                      b_thr := bupd (b_thr s) t (Blocked gen r false) |}
            else
              Some {| b_gen := b_gen s; b_count := count;
                      b_thr := bupd (b_thr s) t (Out (r + 1)) |}
        end
      else None
  | Wake t =>
      if (t <? k)%nat then
        match b_thr s t with
        | Out _ => None
        | Blocked g r _ =>
            if g =? b_gen s then
              Some {| b_gen := b_gen s; b_count := b_count s;
                      b_thr := bupd (b_thr s) t (Blocked g r false) |}
            else
              Some {| b_gen := b_gen s; b_count := b_count s;
                      b_thr := bupd (b_thr s) t (Out (r + 1)) |}
        end
      else None
  end.

Fixpoint brun (k : nat) (s : bstate) (evs : list bevent) : option bstate :=
  match evs with
  | [] => Some s
  | ev :: rest =>
      match bstep k s ev with
      | Some s' => brun k s' rest
      | None => None
      end
  end.

(** cxx11_thread.hpp:36 constructor. *)
Definition binit (k : nat) : bstate :=
  {| b_gen := 0; b_count := Z.of_nat k; b_thr := fun _ => Out 0 |}.

(** Observations: calls entered and calls returned from, per thread. *)
Definition returned (s : tstate) : Z := match s with Out r => r | Blocked _ r _ => r end.
Definition entered (s : tstate) : Z := match s with Out r => r | Blocked _ r _ => r + 1 end.
