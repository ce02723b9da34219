(** Examples of runs in a domain with open edges. *)
From Coq Require Import ZArith QArith List Bool Lia Reals Lra.
From Verif Require Import ModelIndex ModelRun Lang Stencil FormCommon Form2D Solver1D Solver2D Arith Exec SpecThreads SpecFields SpecFields2
  SpecNum2 SpecSym2 SpecReal SpecWalls3 SpecOpen2 ProofsThread2D ProofsWitness2D ProofsCyclic2D ProofsStale2D ProofsOne2D ProofsWallsWit ProofsWallsUpWit ProofsOpenUp.
Import ListNotations.
Local Open Scope Z_scope.

Definition open_run_of (o : fl) (nit : nat) : run2 :=
  {| s_o := o; s_sp := exact; s_tp := noextrp; s_cfg := {| n_eqns := 1; delayed_step := 0%N |};
     s_nit := nit; s_freq := 0; s_scale := fun e => 0; s_bl := fun _ => Open2; s_br := fun _ => Open2;
     s_lo := fun _ => 0; s_hi := fun d => 3 |}.
Lemma opn_ok f i d2 nit : (0 < nit)%nat -> run2_ok (open_run_of (box_opts f i d2) nit).
Proof.
  intros H. constructor; [destruct f, i, d2; reflexivity|exact H|]. intros d _. destruct f, i, d2; vm_compute; discriminate.
Qed.
(** a uniform oblique flow; the same with the axes exchanged *)
Definition opn_m1 : loc -> Q := box_mem box_p (fun _ _ => 1 # 4)%Q (fun _ _ => 1 # 8)%Q.
Definition opn_m2 : loc -> Q := box_mem (fun i j => box_p j i) (fun _ _ => 1 # 8)%Q (fun _ _ => 1 # 4)%Q.
Lemma opn_transposed g : transposed2 (fun _ => 0) (fun _ => 3) 1 g opn_m1 opn_m2.
Proof.
  split; [|split; [|split]]; try reflexivity.
Qed.
Lemma opn_transp_breaks : let r := open_run_of (box_opts false false false) 2 in
  exists m1 m2 m1' m2' : loc -> Q,
    open_end2 A0 r 1 1 m1 m1' /\ open_end2 A0 (transpose_run r) 1 1 m2 m2' /\
    transposed2 (s_lo (transpose_run r)) (s_hi (transpose_run r)) 1 true m1 m2 /\
    ~ (cell2 m2' 0 (newest2 r 1) 0 0 == cell2 m1' 0 (newest2 r 1) 0 0)%Q.
Proof.
  intros r. assert (K : run2_ok r) by (apply opn_ok; lia). assert (K2 : run2_ok (transpose_run r)) by (apply (opn_ok false false false 2); lia).
  destruct (can_end_exec2 r 1 A0 opn_m1 K) as (m1' & E1 & H1). destruct (can_end_exec2 (transpose_run r) 1 A0 opn_m2 K2) as (m2' & E2 & H2).
  exists opn_m1, opn_m2, m1', m2'.
  split; [constructor; auto; try reflexivity; [vm_compute; discriminate|left; reflexivity]|].
  split; [constructor; auto; try reflexivity; [vm_compute; discriminate|left; reflexivity]|].
  split; [apply (opn_transposed true)|].
  unfold cell2. rewrite H1. replace (newest2 r 1) with (newest2 (transpose_run r) 1) at 1 by reflexivity. rewrite H2. intros H. apply Qeq_bool_iff in H. vm_compute in H. discriminate.
Qed.
Lemma opn_transp_differs : exists r n nt (m1 m2 m1' m2' : loc -> Q) i j,
  open_end2 A0 r n nt m1 m1' /\ open_end2 A0 (transpose_run r) n nt m2 m2' /\ on_grid (s_lo (transpose_run r)) (s_hi (transpose_run r)) i j /\
  transposed2 (s_lo (transpose_run r)) (s_hi (transpose_run r)) (n_eqns (s_cfg r)) true m1 m2 /\
  ~ (cell2 m2' 0 (newest2 r nt) i j == cell2 m1' 0 (newest2 r nt) j i)%Q.
Proof.
  destruct opn_transp_breaks as (m1 & m2 & m1' & m2' & A & B & C & D).
  exists (open_run_of (box_opts false false false) 2), 1%nat, 1%nat, m1, m2, m1', m2', 0%Z, 0%Z.
  split; [exact A|]. split; [exact B|]. split; [unfold on_grid; cbn; lia|]. split; [exact C|exact D].
Qed.

Local Open Scope R_scope.
(** an oblique flow that slows down towards the last edge of the first axis *)
Definition obl_mem : loc -> R := fun l =>
  match l with
  | (O, Psi false, (i, j, _)) => match i, j with 1%Z, 2%Z => 5 | 3%Z, _ => 2 | _, _ => 1 end
  | (O, GC DX, (i, j, _)) => 1 / 4
  | (O, GC DY, (i, j, _)) => match i with 0%Z => 1 / 2 | 1%Z => 1 / 8 | _ => - (1 / 8) end
  | _ => 0
  end.
Definition obl_memT : loc -> R := fun l =>
  match l with
  | (O, Psi false, (i, j, _)) => match j, i with 1%Z, 2%Z => 5 | 3%Z, _ => 2 | _, _ => 1 end
  | (O, GC DY, (i, j, _)) => 1 / 4
  | (O, GC DX, (i, j, _)) => match j with 0%Z => 1 / 2 | 1%Z => 1 / 8 | _ => - (1 / 8) end
  | _ => 0
  end.
Lemma opn_end eps tiny f i d2 nt m : exists m', open_end2 (arithR eps tiny) (open_run_of (box_opts f i d2) 1) 1 nt m m'.
Proof.
  destruct (can_end_exec2 (open_run_of (box_opts f i d2) 1) nt (arithR eps tiny) m (opn_ok f i d2 1 ltac:(lia))) as (m' & E & _).
  exists m'. constructor; auto; try reflexivity; [apply opn_ok; lia|vm_compute; discriminate|left; reflexivity].
Qed.
Lemma obl_flow : open_flow_ok (fun _ => 0%Z) (fun _ => 3%Z) false obl_mem.
Proof. cases4 i j; (split; [cbn; lra|]); split; intros _; unfold inner_inflow; cbn; minmax. Qed.
Lemma obl_divfree : open_divergence_free (fun _ => 0%Z) (fun _ => 3%Z) obl_mem.
Proof. intros i j [Hi Hj]. cbn in Hi, Hj. assert (i = 1 \/ i = 2)%Z as [->| ->] by lia; assert (j = 1 \/ j = 2)%Z as [->| ->] by lia; cbn; lra. Qed.
Lemma obl_bounds i j : on_grid (fun _ => 0%Z) (fun _ => 3%Z) i j -> 1 <= cell2 obl_mem 0 false i j <= 5.
Proof. revert i j. cases4 i j; cbn; lra. Qed.
Lemma obl_transposed g : transposed2 (fun _ => 0%Z) (fun _ => 3%Z) 1 g obl_mem obl_memT.
Proof.
  split; [|split; [|split]]; try reflexivity.
Qed.
(** the peak spreads *)
Lemma obl_peak eps tiny : exists m' : loc -> R, open_end2 (arithR eps tiny) (open_run_of (box_opts false false false) 1) 1 1 obl_mem m' /\
  cell2 m' 0 (newest2 (open_run_of (box_opts false false false) 1) 1) 1 2 = 7 / 2 /\
  cell2 m' 0 (newest2 (open_run_of (box_opts false false false) 1) 1) 1 3 = 3 / 2.
Proof.
  destruct (opn_end eps tiny false false false 1 obl_mem) as [m' E]. exists m'. split; [exact E|].
  split; (rewrite (open_run eps tiny _ 1 1 obl_mem m' 0 E); [|cbn; lia|reflexivity|unfold on_grid; cbn; lia]);
  cbn [Nat.iter nat_rect]; unfold open_step, upwind, cell2, face2, G2of; cbn; unfold Rmax, Rmin; repeat destruct Rle_dec; lra.
Qed.
