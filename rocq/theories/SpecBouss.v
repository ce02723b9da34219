(** Specification of the Boussinesq solvers: the equations, integrated with the
    trapezoidal rule along the flow.  Independent of the order in which the
    solvers apply, store and undo forces. *)
From Coq Require Import ZArith List Bool Reals.
From Verif Require Import Stencil ModelVip ModelStress ModelBouss SpecStress.
Import ListNotations.
Local Open Scope R_scope.

(** velocity components and potential temperature (a perturbation of the ambient
    profile in the implicit variant) *)
Definition flow := ((nat -> idx -> R) * (idx -> R))%type.
Definition plus (c : R) (r s : flow) : flow :=
  (fun d i => fst s d i + c * fst r d i, fun i => snd s i + c * snd r i).

(** the physics: gravity over reference temperature, ambient temperature and its
    vertical gradient, absorbers, smoothing of the buoyancy; [up]: number of the
    vertical component *)
Record phys := { up : nat; gT : R; amb : idx -> R; damb : idx -> R; al : idx -> R;
                 nu : idx -> R; rel : nat -> idx -> R; smooth : (idx -> R) -> idx -> R }.

(** rates of change along the flow, given heating [F] and pressure force [p].
    Implicit variant: [snd s] is the deviation from the ambient profile. *)
Definition rate_dev (P : phys) (F : idx -> R) (p : nat -> idx -> R) (s : flow) : flow :=
  (fun d i => (if Nat.eqb d (up P) then gT P * snd s i else 0) - nu P i * (fst s d i - rel P d i) - p d i,
   fun i => F i - fst s (up P) i * damb P i - al P i * snd s i).
(** explicit variant: [snd s] is the full potential temperature *)
Definition rate_full (P : phys) (F : idx -> R) (p : nat -> idx -> R) (s : flow) : flow :=
  (fun d i => (if Nat.eqb d (up P) then smooth P (fun j => gT P * (snd s j - amb P j)) i else 0)
              - nu P i * (fst s d i - rel P d i) - p d i,
   fun i => F i - al P i * (snd s i - amb P i)).

(** one step of the trapezoidal rule along the flow: half of the rates at the old
    state are added before advection [A], half of those at the new state after;
    [E] are forces applied in full before advection *)
Definition trapezoidal (dt : R) (A : flow -> flow) (old new : flow) (rate_old rate_new E : flow) : Prop :=
  new = plus (dt / 2) rate_new (A (plus dt E (plus (dt / 2) rate_old old))).

(** sum over a list of cells *)
Definition sum_over (L : list idx) (f : idx -> R) : R := fold_right (fun i a => f i + a) 0 L.
(** sum of the first [n] terms *)
Fixpoint sum_to (n : nat) (f : nat -> R) : R := match n with O => 0 | S m => sum_to m f + f m end.
(** kinetic plus available potential energy (times two) in a cell *)
Definition energy (n : nat) (P : phys) (s : flow) (i : idx) : R :=
  axes n (fun d => fst s d i * fst s d i) + gT P / damb P i * (snd s i * snd s i).

(** ** Runs of the solvers *)

(** everything a run depends on but the initial state *)
Record case := { c_impl : bool; c_nd : ndims; c_ab : vab; c_dt : R; c_dz : R; c_g : R; c_T : R;
                 c_e : idx -> R; c_abs : idx -> R; c_coeff : idx -> R; c_relax : nat -> idx -> R; c_filter : bool;
                 c_adv : nat -> flow -> flow; c_prs : nat -> (nat -> idx -> R) -> nat -> idx -> R;
                 c_ini : (nat -> idx -> R) -> nat -> idx -> R;
                 c_sgs : option (nat -> flow -> (nat -> idx -> R) * (idx -> R)); c_heat : idx -> R }.
(** members of the solver after [n] steps *)
Definition after (c : case) (n : nat) (u : flow) : bst :=
  run (c_impl c) (c_nd c) (c_ab c) (c_dt c) (c_dz c) (c_g c) (c_T c) (c_e c) (c_abs c) (c_coeff c) (c_relax c)
      (c_filter c) (c_adv c) (c_prs c) (c_ini c) (c_sgs c) (c_heat c) n u.
Definition flow_of (s : bst) : flow := (vel s, tht s).
Definition state (c : case) (n : nat) (u : flow) : flow := flow_of (after c n u).

(** vertical gradient of the ambient profile, centred *)
Definition profile (c : case) (i : idx) : R :=
  (c_e c (step (match c_nd c with two => 1%nat | three => 2%nat end) 1 i) - c_e c (step (match c_nd c with two => 1%nat | three => 2%nat end) (-1) i)) / c_dz c / 2.
Definition phys_of (c : case) : phys :=
  {| up := match c_nd c with two => 1%nat | three => 2%nat end; gT := c_g c / c_T c; amb := c_e c; damb := profile c; al := c_abs c;
     nu := match c_ab c with Impl => c_coeff c | _ => fun _ => 0 end; rel := c_relax c;
     smooth := if c_filter c then fun f i => (f (step (match c_nd c with two => 1%nat | three => 2%nat end) 1 i) + 2 * f i +
                                              f (step (match c_nd c with two => 1%nat | three => 2%nat end) (-1) i)) / 4
               else fun f => f |}.
Definition rate (c : case) := if c_impl c then rate_dev (phys_of c) else rate_full (phys_of c).

(** heating that the solver applies with state number [n]: the user's, or what the
    closure has computed in the step before *)
Definition heating (c : case) (n : nat) (u : flow) : idx -> R :=
  match c_sgs c with
  | None => c_heat c
  | Some f => match n with O => fun _ => 0 | S m => snd (f m (state c m u)) end
  end.
(** force of pressure: the solver's gradients are those of pressure times half of dt *)
Definition p_force (c : case) (n : nat) (u : flow) : nat -> idx -> R :=
  match n with O => p_grad (after c n u) | S _ => fun d i => p_grad (after c n u) d i / (c_dt c / 2) end.
(** explicit forces: of the explicit absorber and (half of the values added) of the closure *)
Definition ahead (c : case) (n : nat) (u : flow) : flow :=
  (fun d i => (match c_ab c with Expl => - c_coeff c i * (fst (state c n u) d i - c_relax c d i) | _ => 0 end) +
              (match c_sgs c with None => 0 | Some f => fst (f n (state c n u)) d i / 2 end), fun _ => 0).

(** the divisors of a step do not vanish *)
Definition solvable (c : case) : Prop :=
  c_dt c <> 0 /\ c_T c <> 0 /\ (forall i, 1 + c_dt c / 2 * c_abs c i <> 0) /\
  (forall i, 1 + c_dt c / 2 * nu (phys_of c) i <> 0) /\
  (forall i, c_impl c = true ->
     (1 + c_dt c / 2 * nu (phys_of c) i) * (1 + c_dt c / 2 * c_abs c i) + (c_dt c / 2) * (c_dt c / 2) * (c_g c / c_T c) * profile c i <> 0).

(** work of pressure and what absorbers take, over step [m] (times two over dt) *)
Definition p_work (c : case) (u : flow) (m : nat) (i : idx) : R :=
  axes (ndn (c_nd c)) (fun d => (p_force c m u d i + p_force c (S m) u d i) * (fst (state c m u) d i + fst (state c (S m) u) d i)).
Definition drain (c : case) (u : flow) (m : nat) (i : idx) : R :=
  axes (ndn (c_nd c)) (fun d => nu (phys_of c) i * (fst (state c m u) d i + fst (state c (S m) u) d i) ^ 2) +
  gT (phys_of c) / profile c i * (c_abs c i * (snd (state c m u) i + snd (state c (S m) u) i) ^ 2).
(** air at rest with the ambient temperature *)
Definition rest (c : case) : flow := (fun _ _ => 0, if c_impl c then fun _ => 0 else c_e c).

(** the cells of a domain, listed *)
Definition upto (k : Z) : list Z := map Z.of_nat (seq 0 (Z.to_nat k)).
Definition all_cells (n : nat -> Z) : list idx :=
  flat_map (fun x => flat_map (fun y => map (fun z => (x, y, z)) (upto (n 2%nat))) (upto (n 1%nat))) (upto (n 0%nat)).
(** velocities without divergence; pressure forces being gradients (both centred), repeating *)
Definition div_free (n : nat -> Z) (k : nat) (dx : nat -> R) (v : nat -> idx -> R) : Prop :=
  (forall d, (d < k)%nat -> periodic n (v d)) /\ forall i, axes k (fun d => cdiff dx d (v d) i) = 0.
Definition gradient (n : nat -> Z) (k : nat) (dx : nat -> R) (p : nat -> idx -> R) : Prop :=
  exists phi, periodic n phi /\ forall d i, (d < k)%nat -> p d i = cdiff dx d phi i.
