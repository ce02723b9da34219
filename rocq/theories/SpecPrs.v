(** What a user of the pressure solvers expects (C42). *)
From Coq Require Import ZArith List Bool Reals.
From Verif Require Import Stencil ModelVip ModelPrs.
Import ListNotations.
Local Open Scope R_scope.

(** centred divergence of the mass flux G u of a cell-centred velocity, divided
    by G; values outside the domain follow from those inside by the boundary
    conditions ([pfill]) *)
Definition flow_div (E : prs_env) (u : dim -> idx -> R) (x : idx) : R :=
  let g y := match pG E with Some g => g y | None => 1 end in
  fold_right (fun d a =>
      let F := pfill E (fun y => g y * u d y) in
      (F (step_in d 1 x) - F (step_in d (-1) x)) / (2 * pdi E d) + a) 0 (pdims E)
  / g x.

(** sum over the domain of the squared divergence *)
Definition div_energy (E : prs_env) (u : dim -> idx -> R) : R :=
  fold_right (fun x a => flow_div E u x * flow_div E u x + a) 0 (pcells E).

(** halo filling: linear, and a function of the values in the domain only,
    which it keeps (cyclic: copies; open and rigid: linear extrapolation) *)
Definition fills (E : prs_env) : Prop :=
  (forall a b u v y, pfill E (fun z => a * u z + b * v z) y = a * pfill E u y + b * pfill E v y) /\
  (forall u v, (forall y, In y (pcells E) -> u y = v y) -> forall y, pfill E u y = pfill E v y) /\
  (forall u y, In y (pcells E) -> pfill E u y = u y).

(** the absorber does not act where an edge velocity other than zero is prescribed *)
Definition edges_compatible (E : prs_env) (simple : bool) : Prop :=
  simple = true \/ forall d x s, pedge E d x = Some s -> s = 0 \/ pnorm E x = 1.

(** the velocity field takes the prescribed values at the edges *)
Definition on_edges (E : prs_env) (u : dim -> idx -> R) : Prop :=
  forall d x s, pedge E d x = Some s -> u d x = s.

(** states after [n] iterations without the stopping criterion *)
Definition mr_at (E : prs_env) (tol : R) (simple : bool) (uvw : dim -> idx -> R) (phi : idx -> R) (beta : R) (n : nat) : mr_st idx :=
  Nat.iter n (mr_body idx (pcells E) (lap E false simple uvw) tol) (mr_start idx phi (lap E true simple uvw phi) beta).
Definition gc_at (E : prs_env) (k : nat) (tol : R) (simple : bool) (uvw : dim -> idx -> R) (phi : idx -> R)
  (beta : R) (p lp : nat -> idx -> R) (alpha den : nat -> R) (n : nat) : gc_st idx :=
  Nat.iter n (gc_body idx (pcells E) (lap E false simple uvw) tol k)
    (gc_start idx (lap E false simple uvw) phi (lap E true simple uvw phi) beta p lp alpha den).
