(** Solvers with right-hand sides: libmpdata++/solvers/mpdata_rhs.hpp, as an
    instance of the main loop of ModelRun.v (fixed time step).

    Simplified: advection of one equation is an arbitrary function of the
    state; halo exchanges inside [update_rhs] (mpdata_rhs.hpp:75) do not change
    cell values and are left out; the [mixed] scheme calls user hooks only and
    is not modelled. *)
From Coq Require Import ZArith List Bool NArith.
From Verif Require Import ModelIndex ModelRun Lang.
Import ListNotations.
Local Open Scope Z_scope.

(** mpdata_rhs.hpp:19-25 *)
Inductive scheme := EulerA | EulerB | Trapez.

Section Rhs.
  Variable ar : arith.
  Notation V := (car ar).
  Variable X : Type.                               (* cells *)
  Definition fields := nat -> X -> V.               (* one field per equation *)
  Variable c : cfg.
  Variable sch : scheme.
  Variable hint_norhs : opts_t.
  Variables dt half_dt : V.                         (* dt and dt / 2 *)
  (** [solve_loop_body(e)]: new field of equation [e], from the current state *)
  Variable adv : Z -> nat -> fields -> X -> V.
  (** the part of [update_rhs] written by the user, called after the parent's:
      arguments dt, [at] (false: n, true: n+1), state, rhs *)
  Variable user_rhs : V -> bool -> fields -> fields -> fields.

  Definition norhs (e : nat) : bool := isset hint_norhs (bit (N.of_nat e)).

  Definition ust := (fields * fields)%type.          (* state, rhs *)

  (** mpdata_rhs.hpp:55-76 followed by the user's part *)
  Definition update_rhs (d : V) (at_next : bool) (u : ust) : ust :=
    let '(s, r) := u in
    let zeroed := fun e => if norhs e then r e else fun _ => acst ar (CQ 0 1) in
    (s, user_rhs d at_next s zeroed).

  (** mpdata_rhs.hpp:78-91 *)
  Definition apply_rhs (d : V) (u : ust) : ust :=
    let '(s, r) := u in
    (fun e => if norhs e then s e else fun x => abin ar Add (s e x) (abin ar Mul d (r e x)), r).

  (** mpdata_rhs.hpp:130-149 *)
  Definition rhs_ante_loop (u : ust) : ust :=
    match sch with EulerA | EulerB => u | Trapez => update_rhs half_dt false u end.
  (** mpdata_rhs.hpp:151-177 *)
  Definition rhs_ante_step (u : ust) : ust :=
    match sch with
    | EulerA => update_rhs dt false u
    | EulerB => apply_rhs dt (update_rhs dt false u)
    | Trapez => apply_rhs half_dt u
    end.
  (** mpdata_rhs.hpp:179-199 *)
  Definition rhs_post_step (u : ust) : ust :=
    match sch with
    | EulerA => apply_rhs dt u
    | EulerB => u
    | Trapez => apply_rhs half_dt (update_rhs half_dt true u)
    end.

  Definition rhs_hooks : hooks ust := {|
    h_ante_loop := fun _ _ => rhs_ante_loop;
    h_calc_gc := fun _ u => u;
    h_ante_step := fun _ => rhs_ante_step;
    h_adv := fun ts e u => (fun e' => if Nat.eqb e' e then adv ts e (fst u) else fst u e', snd u);
    h_ante_delayed := fun _ u => u;
    h_post_step := fun _ => rhs_post_step;
    h_panic := fun _ => false
  |}.

  (** what the two loops over equations do to the state in one step *)
  Definition advect (ts : Z) (s : fields) : fields :=
    fold_left (fun s e => fun e' => if Nat.eqb e' e then adv ts e s else s e') (plain_eqns c ++ delayed_eqns c) s.
End Rhs.
