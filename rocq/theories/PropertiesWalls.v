(** Properties C109 and C110: the 2D solver in a box closed by rigid walls. *)
From Coq Require Import ZArith QArith List Bool Lia Reals Lra.
From Verif Require Import ModelIndex ModelRun Lang Stencil FormCommon Form2D Solver1D Solver2D Arith SpecReal SpecThreads SpecFields SpecFields2 SpecNum2
  SpecBcond SpecSym2 SpecWalls2 ProofsThread2D ProofsCyclic2D ProofsStale2D ProofsWalls2D ProofsWallsWit.
Import ListNotations.
Local Open Scope R_scope.

(** C109: what a closed box holds does not change, for every set of options, any
    number of iterations, steps and equations, and any data. *)
Theorem C109_box_mass : forall eps tiny r n nt (m m' : loc -> R), walled_end2 (arithR eps tiny) r n nt m m' ->
  (forall i j, on_grid (s_lo r) (s_hi r) i j -> G2of (nug (s_o r)) m i j <> 0) ->
  forall e, (e < n_eqns (s_cfg r))%nat ->
  box_mass (s_lo r) (s_hi r) (fun i j => G2of (nug (s_o r)) m i j * cell2 m' e (newest2 r nt) i j) =
  box_mass (s_lo r) (s_hi r) (fun i j => G2of (nug (s_o r)) m i j * cell2 m e false i j).
Proof. intros eps tiny r n nt m m' W Z e He. exact (box_keeps_mass eps tiny r n nt m m' e W He Z). Qed.
Print Assumptions C109_box_mass.
(** a box of 4 x 4 cells with a swirl, all options of [box_opts], 7 steps *)
Example C109_example : forall f i d2, exists m',
  walled_end2 (arithR 1 1) (box_run (box_opts f i d2) 3) 1 7 box_memR m' /\
  (forall i j, G2of false box_memR i j <> 0) /\ box_mass (fun _ => 0%Z) (fun _ => 3%Z) (cell2 box_memR 0 false) = 3 / 2.
Proof.
  intros f i d2. destruct (box_end 1 1 f i d2 3 7) as [m' E]; [lia|]. exists m'. split; [exact E|]. split.
  - intros. cbn. lra.
  - unfold box_mass, walled_mass, sum_from, cell2. change (Z.to_nat (last (0%Z, 3%Z) - first (0%Z, 3%Z) - 1)) with 2%nat.
    cbn. lra.
Qed.

(** C110: the result of the mirrored run is not the mirror image of the result:
    with [fct], [iga] and [div_2nd], 3 iterations, one thread and one step they
    differ next to the wall.  The two memories are mirror images of each other
    everywhere, halos and temporaries included. *)
Theorem C110_box_mirror_refuted : exists r n nt (m1 m2 m1' m2' : loc -> Q) i j,
  walled_end2 A0 r n nt m1 m1' /\ walled_end2 A0 r n nt m2 m2' /\ on_grid (s_lo r) (s_hi r) i j /\
  mirrored2 Qopp (s_lo r) (s_hi r) (n_eqns (s_cfg r)) true DX m1 m2 /\
  ~ (cell2 m2' 0 (newest2 r nt) i j == cell2 m1' 0 (newest2 r nt) (s_lo r DX + s_hi r DX - i) j)%Q.
Proof. exact box_mirror_differs. Qed.
Print Assumptions C110_box_mirror_refuted.
