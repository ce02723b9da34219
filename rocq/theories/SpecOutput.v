(** What users expect of output scheduling. *)
From Coq Require Import ZArith List Reals.
Import ListNotations.
Local Open Scope Z_scope.

(** step [s] is to be recorded: it lies in a window of [outwindow] steps that
    starts at a multiple of [outfreq] not before [outstart] *)
Definition requested (outfreq outstart outwindow s : Z) : Prop :=
  exists w, (outfreq | w) /\ outstart <= w /\ w <= s < w + outwindow.

Inductive increasing : list Z -> Prop :=
| inc_nil : increasing []
| inc_one : forall a, increasing [a]
| inc_cons : forall a b l, a < b -> increasing (b :: l) -> increasing (a :: b :: l).

Local Open Scope R_scope.
(** states of a run: times and values after each step, starting at (t,y) *)
Fixpoint states (t y : R) (xs : list (R * R)) : list (R * R) :=
  match xs with
  | [] => [(t, y)]
  | (dt, y') :: r => (t, y) :: states (t + dt) y' r
  end.
Definition run_states (y0 : R) (xs : list (R * R)) := states 0 y0 xs.

(** straight line / parabola through given states *)
Definition linear (a b : R * R) (t : R) : R :=
  snd a + (snd b - snd a) * ((t - fst a) / (fst b - fst a)).
Definition quadratic (a b c : R * R) (t : R) : R :=
  snd a * ((t - fst b) * (t - fst c)) / ((fst a - fst b) * (fst a - fst c))
  + snd b * ((t - fst a) * (t - fst c)) / ((fst b - fst a) * (fst b - fst c))
  + snd c * ((t - fst a) * (t - fst b)) / ((fst c - fst a) * (fst c - fst b)).
Definition between (a b x : R) : Prop := (a <= x <= b) \/ (b <= x <= a).
(** any two consecutive steps fit into one output interval *)
Fixpoint pairs_fit (f : R) (xs : list (R * R)) : Prop :=
  match xs with
  | x :: ((y :: _) as r) => fst x + fst y <= f /\ pairs_fit f r
  | _ => True
  end.
