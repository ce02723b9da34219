(** Properties C114 and C115: the 2D solver in a domain with open edges. *)
From Coq Require Import ZArith QArith List Bool Lia Reals Lra.
From Verif Require Import ModelIndex ModelRun Lang Stencil FormCommon Form2D Solver1D Solver2D Arith SpecThreads SpecFields SpecFields2
  SpecNum2 SpecSym2 SpecReal SpecWalls3 SpecOpen2 ProofsThread2D ProofsWitness2D ProofsCyclic2D ProofsStale2D ProofsWallsWit ProofsOpenUp ProofsOpenWit.
Import ListNotations.
Local Open Scope R_scope.

(** C114: with one pass per step the result does not depend on anything outside the
    domain: velocities through the open edges and halos the user happened to set, or
    that earlier steps left, do not matter.  It is [nt] times [open_step]. *)
Theorem C114_open_upwind : forall eps tiny r n nt (m m' : loc -> R), open_end2 (arithR eps tiny) r n nt m m' ->
  forall e, (e < n_eqns (s_cfg r))%nat -> s_nit r = 1%nat ->
  forall i j, on_grid (s_lo r) (s_hi r) i j ->
  cell2 m' e (newest2 r nt) i j = Nat.iter nt (open_step (s_lo r) (s_hi r) (nug (s_o r)) m) (cell2 m e false) i j.
Proof. exact (fun eps tiny r n nt m m' W e He N => open_run eps tiny r n nt m m' e W He N). Qed.
Print Assumptions C114_open_upwind.
(** a peak of 5 next to an open edge is carried towards it *)
Example C114_example : exists m' : loc -> R, open_end2 (arithR 1 1) (open_run_of (box_opts false false false) 1) 1 1 obl_mem m' /\
  cell2 m' 0 (newest2 (open_run_of (box_opts false false false) 1) 1) 1 2 = 7 / 2 /\
  cell2 m' 0 (newest2 (open_run_of (box_opts false false false) 1) 1) 1 3 = 3 / 2.
Proof. exact (obl_peak 1 1). Qed.
(** The advectee stays nonnegative if no cell in the interior loses more than it
    contains and no cell at the edges gets more from within than it can hold ... *)
Theorem C114_open_upwind_sign : forall eps tiny r n nt (m m' : loc -> R), open_end2 (arithR eps tiny) r n nt m m' ->
  forall e, (e < n_eqns (s_cfg r))%nat -> s_nit r = 1%nat -> open_flow_ok (s_lo r) (s_hi r) (nug (s_o r)) m ->
  (forall i j, on_grid (s_lo r) (s_hi r) i j -> 0 <= cell2 m e false i j) ->
  forall i j, on_grid (s_lo r) (s_hi r) i j -> 0 <= cell2 m' e (newest2 r nt) i j.
Proof. exact (fun eps tiny r n nt m m' W e He N => open_keeps_sign eps tiny r n nt m m' e W He N). Qed.
Print Assumptions C114_open_upwind_sign.
(** ... and within its bounds if moreover the flow is free of divergence in the interior. *)
Theorem C114_open_upwind_bounds : forall eps tiny r n nt (m m' : loc -> R), open_end2 (arithR eps tiny) r n nt m m' ->
  forall e, (e < n_eqns (s_cfg r))%nat -> s_nit r = 1%nat -> forall a b, open_flow_ok (s_lo r) (s_hi r) (nug (s_o r)) m ->
  open_divergence_free (s_lo r) (s_hi r) m ->
  (forall i j, on_grid (s_lo r) (s_hi r) i j -> a <= cell2 m e false i j <= b) ->
  forall i j, on_grid (s_lo r) (s_hi r) i j -> a <= cell2 m' e (newest2 r nt) i j <= b.
Proof. exact (fun eps tiny r n nt m m' W e He N => open_keeps_bounds eps tiny r n nt m m' e W He N). Qed.
Print Assumptions C114_open_upwind_bounds.
Example C114_example_flow : (exists m', open_end2 (arithR 1 1) (open_run_of (box_opts false false false) 1) 1 9 obl_mem m') /\
  open_flow_ok (fun _ => 0%Z) (fun _ => 3%Z) false obl_mem /\ open_divergence_free (fun _ => 0%Z) (fun _ => 3%Z) obl_mem /\
  (forall i j, on_grid (fun _ => 0%Z) (fun _ => 3%Z) i j -> 1 <= cell2 obl_mem 0 false i j <= 5).
Proof. split; [apply opn_end|]. split; [exact obl_flow|]. split; [exact obl_divfree|exact obl_bounds]. Qed.

(** C115: exchanging the axes of an open domain exchanges the axes of the result if
    there is one pass per step ... *)
Theorem C115_open_axes_upwind : forall eps tiny r n1 n2 nt (m1 m1' m2 m2' : loc -> R) e,
  open_end2 (arithR eps tiny) r n1 nt m1 m1' -> open_end2 (arithR eps tiny) (transpose_run r) n2 nt m2 m2' ->
  transposed2 (s_lo (transpose_run r)) (s_hi (transpose_run r)) (n_eqns (s_cfg r)) (nug (s_o r)) m1 m2 ->
  (e < n_eqns (s_cfg r))%nat -> s_nit r = 1%nat ->
  forall i j, on_grid (s_lo (transpose_run r)) (s_hi (transpose_run r)) i j -> cell2 m2' e (newest2 r nt) i j = cell2 m1' e (newest2 r nt) j i.
Proof. exact open_transp. Qed.
Print Assumptions C115_open_axes_upwind.
Example C115_example : transposed2 (fun _ => 0%Z) (fun _ => 3%Z) 1 false obl_mem obl_memT /\
  (exists m', open_end2 (arithR 1 1) (open_run_of (box_opts false false false) 1) 1 9 obl_mem m') /\
  (exists m', open_end2 (arithR 1 1) (transpose_run (open_run_of (box_opts false false false) 1)) 1 9 obl_memT m').
Proof. split; [apply obl_transposed|]. split; [apply opn_end|apply (opn_end 1 1 false false false)]. Qed.
(** ... but not if there are more: at corners all that leaves the cell is taken to
    leave along the first axis. *)
Theorem C115_open_axes_refuted : exists r n nt (m1 m2 m1' m2' : loc -> Q) i j,
  open_end2 A0 r n nt m1 m1' /\ open_end2 A0 (transpose_run r) n nt m2 m2' /\ on_grid (s_lo (transpose_run r)) (s_hi (transpose_run r)) i j /\
  transposed2 (s_lo (transpose_run r)) (s_hi (transpose_run r)) (n_eqns (s_cfg r)) true m1 m2 /\
  ~ (cell2 m2' 0 (newest2 r nt) i j == cell2 m1' 0 (newest2 r nt) j i)%Q.
Proof. exact opn_transp_differs. Qed.
Print Assumptions C115_open_axes_refuted.
