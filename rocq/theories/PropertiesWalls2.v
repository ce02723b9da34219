(** Property C113: the 2D upwind scheme in a box closed by rigid walls. *)
From Coq Require Import ZArith List Bool Lia Reals Lra.
From Verif Require Import ModelIndex ModelRun Lang Stencil FormCommon Form2D Solver1D Solver2D Arith SpecThreads SpecFields2
  SpecNum2 SpecReal SpecWalls2 SpecWalls3 ProofsThread2D ProofsStale2D ProofsOne2D ProofsCyclic2D ProofsWallsUp ProofsWallsWit ProofsWallsUpWit.
Import ListNotations.
Local Open Scope R_scope.

(** C113: one pass per step keeps the advectee nonnegative if no cell loses more than
    it contains, the losses through faces next to walls counted twice ... *)
Theorem C113_box_upwind_sign : forall eps tiny r n nt (m m' : loc -> R), walled_end2 (arithR eps tiny) r n nt m m' ->
  forall e, (e < n_eqns (s_cfg r))%nat -> s_nit r = 1%nat -> box_outflow_ok (s_lo r) (s_hi r) (nug (s_o r)) m ->
  (forall i j, on_grid (s_lo r) (s_hi r) i j -> 0 <= cell2 m e false i j) ->
  forall i j, on_grid (s_lo r) (s_hi r) i j -> 0 <= cell2 m' e (newest2 r nt) i j.
Proof. exact (fun eps tiny r n nt m m' W e => box_keeps_sign eps tiny r n nt m m' e W). Qed.
Print Assumptions C113_box_upwind_sign.
(** ... and within its bounds if moreover the flow is free of divergence. *)
Theorem C113_box_upwind_bounds : forall eps tiny r n nt (m m' : loc -> R), walled_end2 (arithR eps tiny) r n nt m m' ->
  forall e, (e < n_eqns (s_cfg r))%nat -> s_nit r = 1%nat -> forall a b, box_outflow_ok (s_lo r) (s_hi r) (nug (s_o r)) m ->
  box_divergence_free (s_lo r) (s_hi r) m ->
  (forall i j, on_grid (s_lo r) (s_hi r) i j -> a <= cell2 m e false i j <= b) ->
  forall i j, on_grid (s_lo r) (s_hi r) i j -> a <= cell2 m' e (newest2 r nt) i j <= b.
Proof. exact (fun eps tiny r n nt m m' W e => box_keeps_bounds eps tiny r n nt m m' e W). Qed.
Print Assumptions C113_box_upwind_bounds.
(** a swirl in 4 x 4 cells, 9 steps *)
Example C113_example : (exists m', walled_end2 (arithR 1 1) (box_run (box_opts false false false) 1) 1 9 sw_mem m') /\
  box_outflow_ok (fun _ => 0%Z) (fun _ => 3%Z) false sw_mem /\ box_divergence_free (fun _ => 0%Z) (fun _ => 3%Z) sw_mem /\
  (forall i j, on_grid (fun _ => 0%Z) (fun _ => 3%Z) i j -> 1 <= cell2 sw_mem 0 false i j <= 5).
Proof. split; [apply up_end|]. split; [exact sw_outflow|]. split; [exact sw_divfree|exact sw_bounds]. Qed.

(** Losses that do not exceed the contents are not enough if those through faces next
    to walls are counted once: one step makes 1 become -1/2 in a cell with Courant
    number 3/4 away from the wall. *)
Theorem C113_wall_courant_limit_refuted : exists eps tiny r n nt (m m' : loc -> R) i j,
  walled_end2 (arithR eps tiny) r n nt m m' /\ s_nit r = 1%nat /\ solid_outflow_ok (s_lo r) (s_hi r) (nug (s_o r)) m /\
  (forall i j, on_grid (s_lo r) (s_hi r) i j -> 0 <= cell2 m 0 false i j) /\
  on_grid (s_lo r) (s_hi r) i j /\ cell2 m' 0 (newest2 r nt) i j < 0.
Proof. exact wall_sign_lost. Qed.
Print Assumptions C113_wall_courant_limit_refuted.
