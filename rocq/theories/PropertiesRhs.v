(** Property theorems: right-hand-side schemes (C38). *)
From Coq Require Import ZArith NArith QArith List Bool.
From Verif Require Import SpecRun ModelIndex ModelRun Lang Arith ModelRhs SpecRhs ProofsRhs.
Import ListNotations.
Local Open Scope Z_scope.

(** C38: for every arithmetic, set of cells, number of equations, mask of
    equations without forcing, advection, forcing and every history of
    advance() calls, the state is the one the documented scheme gives after
    the total number of steps. *)
Theorem C38_euler_a : forall ar X c mask dt half_dt adv (user_rhs : car ar -> bool -> fields ar X -> fields ar X -> fields ar X),
  (forall d b s r r', (forall e, norhs mask e = false -> r e = r' e) ->
     forall e, norhs mask e = false -> user_rhs d b s r e = user_rhs d b s r' e) ->
  forall calls s0 r0, Forall (fun n => 0 <= n) calls -> calls <> [] -> total calls <= int_max ->
  exists r, advances c (rhs_hooks ar X EulerA mask dt half_dt adv user_rhs) calls (0, (s0, r0)) =
    Some (total calls,
      (euler_a ar X (fun e => negb (norhs mask e)) (advect ar X c adv)
         (fun b s => user_rhs dt b s (fun _ _ => acst ar (CQ 0 1))) dt (Z.to_nat (total calls)) s0, r)).
Proof. intros ar X c mask dt half_dt adv user_rhs F. exact (schemes ar X c mask dt half_dt adv user_rhs F EulerA). Qed.
Print Assumptions C38_euler_a.

Theorem C38_euler_b : forall ar X c mask dt half_dt adv (user_rhs : car ar -> bool -> fields ar X -> fields ar X -> fields ar X),
  (forall d b s r r', (forall e, norhs mask e = false -> r e = r' e) ->
     forall e, norhs mask e = false -> user_rhs d b s r e = user_rhs d b s r' e) ->
  forall calls s0 r0, Forall (fun n => 0 <= n) calls -> calls <> [] -> total calls <= int_max ->
  exists r, advances c (rhs_hooks ar X EulerB mask dt half_dt adv user_rhs) calls (0, (s0, r0)) =
    Some (total calls,
      (euler_b ar X (fun e => negb (norhs mask e)) (advect ar X c adv)
         (fun b s => user_rhs dt b s (fun _ _ => acst ar (CQ 0 1))) dt (Z.to_nat (total calls)) s0, r)).
Proof. intros ar X c mask dt half_dt adv user_rhs F. exact (schemes ar X c mask dt half_dt adv user_rhs F EulerB). Qed.
Print Assumptions C38_euler_b.

Theorem C38_trapez : forall ar X c mask dt half_dt adv (user_rhs : car ar -> bool -> fields ar X -> fields ar X -> fields ar X),
  (forall d b s r r', (forall e, norhs mask e = false -> r e = r' e) ->
     forall e, norhs mask e = false -> user_rhs d b s r e = user_rhs d b s r' e) ->
  forall calls s0 r0, Forall (fun n => 0 <= n) calls -> calls <> [] -> total calls <= int_max ->
  exists r, advances c (rhs_hooks ar X Trapez mask dt half_dt adv user_rhs) calls (0, (s0, r0)) =
    Some (total calls,
      (fst (trapez ar X (fun e => negb (norhs mask e)) (advect ar X c adv)
         (fun b s => user_rhs half_dt b s (fun _ _ => acst ar (CQ 0 1))) half_dt (Z.to_nat (total calls)) s0), r)).
Proof. intros ar X c mask dt half_dt adv user_rhs F. exact (schemes ar X c mask dt half_dt adv user_rhs F Trapez). Qed.
Print Assumptions C38_trapez.

(** Two equations, the second without forcing, decay of the first, advection
    that adds 1 (equation 0) or 2 (equation 1): three steps in two calls. *)
Example C38_example :
  let ar := arithQ 0 0 in
  let user := fun (_ : Q) (_ : bool) (s r : nat -> unit -> Q) => fun e x => if Nat.eqb e 0 then Qred (r e x - s e x)%Q else r e x in
  let adv := fun (_ : Z) (e : nat) (s : nat -> unit -> Q) (x : unit) => Qred (s e x + (if Nat.eqb e 0 then 1 else 2))%Q in
  let c := {| n_eqns := 2; delayed_step := 0%N |} in
  (forall d b s r r', (forall e, norhs 2%N e = false -> r e = r' e) ->
     forall e, norhs 2%N e = false -> user d b s r e = user d b s r' e) /\
  option_map (fun s => (fst (snd s) 0%nat tt, fst (snd s) 1%nat tt))
    (advances c (rhs_hooks ar unit Trapez 2%N (1 # 2) (1 # 4) adv user)
      [1; 2] (0, ((fun _ _ => 3%Q), (fun _ _ => 7%Q)))) = Some ((111 # 64)%Q, 9%Q).
Proof.
  intros ar user adv c. split; [|vm_compute; reflexivity]. intros d b s r r' H e He.
  unfold user. rewrite (H e He). reflexivity.
Qed.
