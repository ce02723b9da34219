(** Concrete 2D runs in which properties of the scheme fail. *)
From Coq Require Import ZArith QArith List Bool Lia.
From Verif Require Import ModelIndex ModelRun Lang ProofsLang Stencil ProofsStencil FormCommon Form2D Solver1D Solver2D
  Proofs1D ProofsThread1D ProofsThread2D ProofsOne2D ProofsValid2D ProofsCyclic2D ProofsStale2D Arith Exec ProofsExec SpecThreads SpecFields2 SpecRun2.
Import ListNotations.
Local Open Scope Z_scope.

(** two passes on 4 x 4 cells *)
Definition two_run2 (o : fl) : run2 :=
  {| s_o := o; s_sp := exact; s_tp := noextrp; s_cfg := {| n_eqns := 1; delayed_step := 0%N |};
     s_nit := 2; s_freq := 0; s_scale := fun e => 0; s_bl := fun _ => Cyclic2; s_br := fun _ => Cyclic2;
     s_lo := fun _ => 0; s_hi := fun d => 4 |}.
(** advectee and velocities given as functions of the cell, repeated periodically *)
Definition mem2 (p cx cy : Z -> Z -> Q) : loc -> Q := fun l =>
  match l with
  | (O, Psi false, (i, j, _)) => p (i mod 4) (j mod 4)
  | (O, GC DX, (i, j, _)) => cx (i mod 4) (j mod 4)
  | (O, GC DY, (i, j, _)) => cy (i mod 4) (j mod 4)
  | _ => 0%Q
  end.
Definition opt_basic := mkfl false false false true false false false false false false false false false.
Definition opt_iga := mkfl false false false true false true false false false false false false false.
Definition opt_div2 := mkfl false false false true false false false false false true false false false.
Definition opt_div3 := mkfl false false false true false false false false false true true false false.

Definition neg_psi (i j : Z) : Q := match i, j with
  | 1, 1 | 0, 0 => 1%Q
  | 3, 2 | 2, 3 => 20%Q
  | 0, 1 | 1, 0 => 1 # 100
  | _, _ => 0%Q end.
Definition spike (i j : Z) : Q := match i, j with 1, 1 => 1%Q | _, _ => 0%Q end.
Definition bump (i j : Z) : Q := match i, j with 1, 1 => 3%Q | _, _ => 1%Q end.
Definition eddy_x (i j : Z) : Q := match i, j with 1, 1 => 1#8 | 1, 2 => -1#8 | _, _ => 0%Q end.
Definition eddy_y (i j : Z) : Q := match i, j with 1, 1 => -1#8 | 2, 1 => 1#8 | _, _ => 0%Q end.

Lemma two_ok o : fl_ok2 o = true -> (halo o <= 2)%Z -> run2_ok (two_run2 o).
Proof. intros H1 H2. constructor; [exact H1|cbn; lia|]. intros d _. cbn. lia. Qed.
Lemma mem2_cyclic p cx cy : cyclic_data2 (fun _ => 0) (fun _ => 4) 1 false (mem2 p cx cy).
Proof. split; [|split; [|split]]; try reflexivity; [|discriminate]. intros e He. assert (e = 0%nat) by lia. subst. split; reflexivity. Qed.
Lemma two_end o m : fl_ok2 o = true -> (halo o <= 2)%Z -> nug o = false -> cyclic_data2 (fun _ => 0) (fun _ => 4) 1 false m ->
  exists m', cyclic_end2 A0 (two_run2 o) 1 1 m m' /\ forall l, m' l = look A0 m (exec A0 m 1 (program2 (two_run2 o) 1 1)) l.
Proof.
  intros H1 H2 H3 CD. destruct (can_end_exec2 (two_run2 o) 1 A0 m (two_ok o H1 H2)) as (m' & E & H). exists m'. split; auto.
  constructor; auto; try reflexivity.
  - apply two_ok; auto.
  - cbn. lia.
  - left. reflexivity.
  - unfold no_stale2. cbn. rewrite !orb_true_r. reflexivity.
  - cbn [s_o two_run2]. rewrite H3. exact CD.
Qed.

Lemma negative_witness2 : exists m', cyclic_end2 A0 (two_run2 opt_basic) 1 1 (mem2 neg_psi (fun _ _ => 1 # 2) (fun _ _ => 1 # 2)) m' /\ (cell2 m' 0 (newest2 (two_run2 opt_basic) 1) 1 1 < 0)%Q.
Proof.
  destruct (two_end opt_basic (mem2 neg_psi (fun _ _ => 1 # 2) (fun _ _ => 1 # 2)) eq_refl ltac:(vm_compute; discriminate) eq_refl (mem2_cyclic _ _ _)) as (m' & E & H).
  exists m'. split; [exact E|]. unfold cell2. rewrite H. vm_compute. reflexivity.
Qed.
Lemma iga_witness2 : exists m', cyclic_end2 A0 (two_run2 opt_iga) 1 1 (mem2 spike (fun _ _ => 1 # 2) (fun _ _ => 0%Q)) m' /\ (cell2 m' 0 (newest2 (two_run2 opt_iga) 1) 0 1 < 0)%Q.
Proof.
  destruct (two_end opt_iga (mem2 spike (fun _ _ => 1 # 2) (fun _ _ => 0%Q)) eq_refl ltac:(vm_compute; discriminate) eq_refl (mem2_cyclic _ _ _)) as (m' & E & H).
  exists m'. split; [exact E|]. unfold cell2. rewrite H. vm_compute. reflexivity.
Qed.
Lemma unit_witness2 : exists m', cyclic_end2 A0 (two_run2 opt_div2) 1 1 (mem2 bump (fun _ _ => 1%Q) (fun _ _ => 0%Q)) m' /\ ~ (cell2 m' 0 (newest2 (two_run2 opt_div2) 1) 2 1 == 3)%Q.
Proof.
  destruct (two_end opt_div2 (mem2 bump (fun _ _ => 1%Q) (fun _ _ => 0%Q)) eq_refl ltac:(vm_compute; discriminate) eq_refl (mem2_cyclic _ _ _)) as (m' & E & H).
  exists m'. split; [exact E|]. unfold cell2. rewrite H. intros Q. apply Qeq_bool_iff in Q. vm_compute in Q. discriminate.
Qed.
Lemma constant_witness2 : exists m', cyclic_end2 A0 (two_run2 opt_div3) 1 1 (mem2 (fun _ _ => 1%Q) eddy_x eddy_y) m' /\ ~ (cell2 m' 0 (newest2 (two_run2 opt_div3) 1) 0 1 == 1)%Q.
Proof.
  destruct (two_end opt_div3 (mem2 (fun _ _ => 1%Q) eddy_x eddy_y) eq_refl ltac:(vm_compute; discriminate) eq_refl (mem2_cyclic _ _ _)) as (m' & E & H).
  exists m'. split; [exact E|]. unfold cell2. rewrite H. intros Q. apply Qeq_bool_iff in Q. vm_compute in Q. discriminate.
Qed.
