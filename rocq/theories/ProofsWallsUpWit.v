(** Examples for the upwind scheme in a closed box: a swirl, and a flow away from a wall. *)
From Coq Require Import ZArith List Bool Lia Reals Lra.
From Verif Require Import ModelIndex ModelRun Lang Stencil FormCommon Form2D Solver1D Solver2D Arith SpecThreads SpecFields2
  SpecNum2 SpecReal SpecWalls2 SpecWalls3 ProofsThread2D ProofsStale2D ProofsOne2D ProofsCyclic2D ProofsWallsUp ProofsWallsWit.
Import ListNotations.
Local Open Scope R_scope.

(** a swirl of Courant number [1 / 4] around the centre of 4 x 4 cells *)
Definition sw_mem : loc -> R := fun l =>
  match l with
  | (O, Psi false, (i, j, _)) => match i, j with 1%Z, 2%Z => 5 | 3%Z, _ => 2 | _, _ => 1 end
  | (O, GC DX, (i, j, _)) => match i, j with 1%Z, 1%Z => 1 / 4 | 1%Z, 2%Z => - (1 / 4) | _, _ => 0 end
  | (O, GC DY, (i, j, _)) => match i, j with 1%Z, 1%Z => - (1 / 4) | 2%Z, 1%Z => 1 / 4 | _, _ => 0 end
  | _ => 0
  end.
(** flow away from the wall in one row *)
Definition aw_mem : loc -> R := fun l =>
  match l with
  | (O, Psi false, (i, j, _)) => 1
  | (O, GC DX, (i, j, _)) => match i, j with 0%Z, 1%Z => 3 / 4 | _, _ => 0 end
  | _ => 0
  end.
Lemma up_end eps tiny f i d2 nt m : exists m', walled_end2 (arithR eps tiny) (box_run (box_opts f i d2) 1) 1 nt m m'.
Proof.
  destruct (can_end_exec2 (box_run (box_opts f i d2) 1) nt (arithR eps tiny) m (box_ok f i d2 1 ltac:(lia))) as (m' & E & _).
  exists m'. constructor; auto; try reflexivity; [apply box_ok; lia|vm_compute; discriminate|left; reflexivity].
Qed.
Ltac cases4 i j := let Hi := fresh in let Hj := fresh in intros i j [Hi Hj]; cbn in Hi, Hj;
  assert (i = 0 \/ i = 1 \/ i = 2 \/ i = 3)%Z as [->|[->|[->| ->]]] by lia; assert (j = 0 \/ j = 1 \/ j = 2 \/ j = 3)%Z as [->|[->|[->| ->]]] by lia.
Ltac minmax := unfold Rmax, Rmin; repeat destruct Rle_dec; lra.
Lemma sw_outflow : box_outflow_ok (fun _ => 0%Z) (fun _ => 3%Z) false sw_mem.
Proof. cases4 i j; (split; [cbn; lra|]); cbn; minmax. Qed.
Lemma sw_divfree : box_divergence_free (fun _ => 0%Z) (fun _ => 3%Z) sw_mem.
Proof. cases4 i j; cbn; lra. Qed.
Lemma sw_bounds i j : on_grid (fun _ => 0%Z) (fun _ => 3%Z) i j -> 1 <= cell2 sw_mem 0 false i j <= 5.
Proof. revert i j. cases4 i j; cbn; lra. Qed.
Lemma aw_outflow : solid_outflow_ok (fun _ => 0%Z) (fun _ => 3%Z) false aw_mem.
Proof. cases4 i j; (split; [cbn; lra|]); cbn; minmax. Qed.

Lemma wall_cell_negative eps tiny : let r := box_run (box_opts false false false) 1 in
  exists m' : loc -> R, walled_end2 (arithR eps tiny) r 1 1 aw_mem m' /\ cell2 m' 0 (newest2 r 1) 0 1 = - (1 / 2).
Proof.
  intros r. destruct (up_end eps tiny false false false 1 aw_mem) as [m' E]. exists m'. split; [exact E|].
  rewrite (box_upwind eps tiny r 1 1 aw_mem m' 0 E); [|cbn; lia|reflexivity|unfold on_grid; cbn; lia].
  cbn [Nat.iter nat_rect]. unfold bup, bgain, fxw, fyw, fin, don, cell2, face2, G2of. cbn. unfold Rmax, Rmin. repeat destruct Rle_dec; lra.
Qed.
Lemma wall_sign_lost : exists eps tiny r n nt (m m' : loc -> R) i j,
  walled_end2 (arithR eps tiny) r n nt m m' /\ s_nit r = 1%nat /\ solid_outflow_ok (s_lo r) (s_hi r) (nug (s_o r)) m /\
  (forall i j, on_grid (s_lo r) (s_hi r) i j -> 0 <= cell2 m 0 false i j) /\
  on_grid (s_lo r) (s_hi r) i j /\ cell2 m' 0 (newest2 r nt) i j < 0.
Proof.
  destruct (wall_cell_negative 1 1) as (m' & E & V).
  exists 1, 1, (box_run (box_opts false false false) 1), 1%nat, 1%nat, aw_mem, m', 0%Z, 1%Z.
  split; [exact E|]. split; [reflexivity|]. split; [exact aw_outflow|]. split; [intros; cbn; lra|]. split; [unfold on_grid; cbn; lia|]. rewrite V. lra.
Qed.
