(** Concrete 3D runs in which properties of the scheme fail. *)
From Coq Require Import ZArith QArith List Bool Lia.
From Verif Require Import ModelIndex ModelRun Lang Stencil FormCommon Form3D Solver1D Solver3D Arith
  SpecThreads SpecFields3 SpecRun3 FunN ProofsGeom3D ProofsThread3D ProofsValid3D ProofsCyclic3D ProofsFun3D.
Import ListNotations.
Local Open Scope Z_scope.

(** two passes on 4 x 4 x 2 cells *)
Definition h442 (d : dim) : Z := match d with DZ => 2 | _ => 4 end.
Definition two_run3 (o : fl) : run3 :=
  {| s3_o := o; s3_sp := exact; s3_tp := noextrp; s3_cfg := {| n_eqns := 1; delayed_step := 0%N |};
     s3_nit := 2; s3_freq := 0; s3_scale := fun e => 0; s3_lo := fun _ => 0; s3_hi := h442 |}.
(** advectee and velocities given as functions of the cell, repeated periodically *)
Definition mem3 (p cx cy cz : Z -> Z -> Z -> Q) : loc -> Q := fun l =>
  match l with
  | (O, Psi false, (i, j, k)) => p (i mod 4) (j mod 4) (k mod 2)
  | (O, GC DX, (i, j, k)) => cx (i mod 4) (j mod 4) (k mod 2)
  | (O, GC DY, (i, j, k)) => cy (i mod 4) (j mod 4) (k mod 2)
  | (O, GC DZ, (i, j, k)) => cz (i mod 4) (j mod 4) (k mod 2)
  | _ => 0%Q
  end.
Definition opt3_basic := mkfl false false false true false false false false false false false false false.
Definition opt3_iga := mkfl false false false true false true false false false false false false false.
Definition opt3_div2 := mkfl false false false true false false false false false true false false false.
Definition opt3_div3 := mkfl false false false true false false false false false true true false false.

Definition neg3 (i j k : Z) : Q := match i, j with
  | 1, 1 | 0, 0 => 1%Q
  | 3, 2 | 2, 3 => 20%Q
  | 0, 1 | 1, 0 => 1 # 100
  | _, _ => 0%Q end.
Definition spike3 (i j k : Z) : Q := match i, j, k with 1, 1, 1 => 1%Q | _, _, _ => 0%Q end.
Definition bump3 (i j k : Z) : Q := match i, j, k with 1, 1, 1 => 3%Q | _, _, _ => 1%Q end.
(** an eddy around an edge along z *)
Definition eddy3_x (i j k : Z) : Q := match i, j with 1, 1 => 1#8 | 1, 2 => -1#8 | _, _ => 0%Q end.
Definition eddy3_y (i j k : Z) : Q := match i, j with 1, 1 => -1#8 | 2, 1 => 1#8 | _, _ => 0%Q end.
Definition flat3 (q : Q) (i j k : Z) : Q := q.

Lemma two3_ok o : fl_ok3 o = true -> (halo o <= 2)%Z -> run3_ok (two_run3 o).
Proof. intros H1 H2. constructor; [exact H1|cbn; lia|]. intros []; cbn; lia. Qed.
Lemma mem3_cyclic p cx cy cz : cyclic_data3 (fun _ => 0) h442 1 false (mem3 p cx cy cz).
Proof.
  split; [|split; [|discriminate]].
  - intros e d [[x y] z] He _ H. assert (e = 0%nat) by lia. subst. destruct d; cbn [comp fst snd h442] in H; subst; reflexivity.
  - intros c d [[x y] z] _ H. destruct c, d; cbn [comp fst snd h442] in H; subst; reflexivity.
Qed.
(** the run ends, with the values of the function [stepsN] *)
Lemma two3_end o m : fl_ok3 o = true -> (halo o <= 2)%Z -> nug o = false -> cyclic_data3 (fun _ => 0) h442 1 false m ->
  exists m', cyclic_end3 (arithQ 0 0) (two_run3 o) 1 1 m m' /\
  forall i, inside (fun _ => 0) h442 i -> cell3 m' 0 (newest3 (two_run3 o) 1) i =
    stepsN (arithQ 0 0) o (s3_forms (two_run3 o)) (cycX3 (two_run3 o) (arithQ 0 0) m) 2 0 0 1 0 (fun x => m ((0%nat, Psi false), wrap3 (fun _ => 0) h442 x)) i.
Proof.
  intros H1 H2 H3 CD. pose proof (two3_ok o H1 H2) as RK.
  destruct (finish3 (two_run3 o) 1 1 (arithQ 0 0) m RK ltac:(lia) ltac:(cbn; lia) (or_introl eq_refl)) as ((m' & E) & _).
  assert (NS : no_stale3 o 2 = true) by (unfold no_stale3; cbn; rewrite !orb_true_r; reflexivity).
  exists m'. split.
  - constructor; auto; try reflexivity; [cbn; lia|left; reflexivity|]. cbn [s3_o two_run3]. rewrite H3. exact CD.
  - intros i Hi. apply (cyclic_fun3 (two_run3 o) RK (arithQ 0 0) 1 1 m m'); auto; try (cbn; lia).
    + left. reflexivity.
    + cbn [s3_o two_run3]. rewrite H3. exact CD.
Qed.
Lemma in442 i j k : 0 <= i <= 3 -> 0 <= j <= 3 -> 0 <= k <= 1 -> inside (fun _ => 0) h442 (i, j, k).
Proof. intros A B C []; unfold comp; cbn [fst snd h442]; lia. Qed.

Ltac witness3 o m i j k :=
  destruct (two3_end o m eq_refl ltac:(vm_compute; discriminate) eq_refl (mem3_cyclic _ _ _ _)) as (m' & E & H);
  exists m'; split; [exact E|]; rewrite (H (i, j, k)) by (apply in442; lia).
Lemma negative_witness3 : exists m', cyclic_end3 (arithQ 0 0) (two_run3 opt3_basic) 1 1 (mem3 neg3 (flat3 (1 # 2)) (flat3 (1 # 2)) (flat3 0)) m' /\
  (cell3 m' 0 (newest3 (two_run3 opt3_basic) 1) (1, 1, 1)%Z < 0)%Q.
Proof. witness3 opt3_basic (mem3 neg3 (flat3 (1 # 2)) (flat3 (1 # 2)) (flat3 0)) 1 1 1. vm_compute. reflexivity. Qed.
Lemma iga_witness3 : exists m', cyclic_end3 (arithQ 0 0) (two_run3 opt3_iga) 1 1 (mem3 spike3 (flat3 0) (flat3 (1 # 2)) (flat3 0)) m' /\
  (cell3 m' 0 (newest3 (two_run3 opt3_iga) 1) (1, 0, 1)%Z < 0)%Q.
Proof. witness3 opt3_iga (mem3 spike3 (flat3 0) (flat3 (1 # 2)) (flat3 0)) 1 0 1. vm_compute. reflexivity. Qed.
Lemma unit_witness3 : exists m', cyclic_end3 (arithQ 0 0) (two_run3 opt3_div2) 1 1 (mem3 bump3 (flat3 1) (flat3 0) (flat3 0)) m' /\
  ~ (cell3 m' 0 (newest3 (two_run3 opt3_div2) 1) (2, 1, 1)%Z == 3)%Q.
Proof. witness3 opt3_div2 (mem3 bump3 (flat3 1) (flat3 0) (flat3 0)) 2 1 1. intros Q. apply Qeq_bool_iff in Q. vm_compute in Q. discriminate. Qed.
Lemma constant_witness3 : exists m', cyclic_end3 (arithQ 0 0) (two_run3 opt3_div3) 1 1 (mem3 (flat3 1) eddy3_x eddy3_y (flat3 0)) m' /\
  ~ (cell3 m' 0 (newest3 (two_run3 opt3_div3) 1) (0, 1, 0)%Z == 1)%Q.
Proof. witness3 opt3_div3 (mem3 (flat3 1) eddy3_x eddy3_y (flat3 0)) 0 1 0. intros Q. apply Qeq_bool_iff in Q. vm_compute in Q. discriminate. Qed.

(** the 4 x 4 x 2 cells one by one *)
Ltac cells442 := intros [[i j] k] Ho;
  let X := fresh in let Y := fresh in let W := fresh in
  pose proof (Ho DX) as X; pose proof (Ho DY) as Y; pose proof (Ho DZ) as W; cbn [comp fst snd h442 s3_lo s3_hi two_run3] in X, Y, W; clear Ho;
  let I := fresh in let J := fresh in let K := fresh in
  assert (I : (i = 0 \/ i = 1 \/ i = 2 \/ i = 3)%Z) by (clear - X; lia); assert (J : (j = 0 \/ j = 1 \/ j = 2 \/ j = 3)%Z) by (clear - Y; lia);
  assert (K : (k = 0 \/ k = 1)%Z) by (clear - W; lia); clear X Y W;
  destruct I as [->|[->|[->| ->]]], J as [->|[->|[->| ->]]], K as [->| ->].
