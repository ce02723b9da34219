(** Examples of runs in closed boxes, and one that is not half of the run with its image. *)
From Coq Require Import ZArith QArith List Bool Lia Reals Lra.
From Verif Require Import ModelIndex ModelRun Lang Stencil FormCommon Form2D Solver1D Solver2D Arith Exec SpecReal SpecThreads SpecFields SpecFields2
  SpecRun2 SpecNum2 SpecWalls2 SpecWalls3 SpecChannel2 SpecImages2 SpecImagesBox ProofsThread2D ProofsWitness2D ProofsCyclic2D ProofsStale2D ProofsValid2D ProofsOne2D
  ProofsWallsUp ProofsWallsWit ProofsWallsUpWit.
Import ListNotations.
Local Open Scope Z_scope.

Lemma box_end eps tiny f i d2 nit nt m : (0 < nit)%nat -> exists m', walled_end2 (arithR eps tiny) (box_run (box_opts f i d2) nit) 1 nt m m'.
Proof.
  intros H. destruct (can_end_exec2 (box_run (box_opts f i d2) nit) nt (arithR eps tiny) m (box_ok f i d2 nit H)) as (m' & E & _).
  exists m'. constructor; auto; try reflexivity; [apply box_ok; auto|vm_compute; discriminate|left; reflexivity].
Qed.
Lemma sw_gentle : box_gentle (fun _ => 0) (fun _ => 3) false sw_mem 1 (1 / 4) (1 / 4).
Proof.
  split; [lra|]. split; [lra|]. split; [intros; cbn; lra|].
  assert (C : forall i j, 0 <= i <= 3 -> 0 <= j <= 3 -> (i = 0 \/ i = 1 \/ i = 2 \/ i = 3) /\ (j = 0 \/ j = 1 \/ j = 2 \/ j = 3)) by (intros; lia).
  split; intros i j Hi Hj; destruct (C i j ltac:(lia) ltac:(lia)) as [[-> |[-> |[-> | ->]]] [-> |[-> |[-> | ->]]]]; unfold face2, sw_mem; cbn; unfold Rabs; destruct Rcase_abs; lra.
Qed.
(** a constant in the swirl *)
Definition sw_const : loc -> R := fun l => match l with (O, Psi false, _) => 4%R | _ => sw_mem l end.
Lemma sw_const_div : box_divergence_free (fun _ => 0) (fun _ => 3) sw_const.
Proof. exact sw_divfree. Qed.

Definition bi_m2 : loc -> Q :=
  box_mem (fun i j => box_p (imaged 3 i) j) (fun i j => if i <? 3 then box_cx i j else (- box_cx (5 - i) j)%Q) (fun i j => box_cy (imaged 3 i) j).

Lemma box_image_breaks : let r := box_run (box_opts true true true) 3 in
  exists m m2 m' m2' : loc -> Q,
    walled_end2 A0 r 1 1 m m' /\ with_image_along Qopp (s_lo r) (s_hi r) 1 true m m2 /\ channel_end2 A0 (long r) 1 1 m2 m2' /\
    ~ (cell2 m2' 0 (newest2 r 1) 3 1 == cell2 m' 0 (newest2 r 1) 3 1)%Q.
Proof.
  intros r. assert (K : run2_ok r) by (apply box_ok; lia).
  assert (K2 : run2_ok (long r)) by (constructor; [reflexivity|unfold long; cbn; lia|intros d _; destruct d; vm_compute; discriminate]).
  destruct (can_end_exec2 r 1 A0 box_m1 K) as (m1' & E1 & H1). destruct (can_end_exec2 (long r) 1 A0 bi_m2 K2) as (m2' & E2 & H2).
  exists box_m1, bi_m2, m1', m2'. split; [|split; [|split]].
  - constructor; auto; try reflexivity; [vm_compute; discriminate|left; reflexivity].
  - split; [|split; [|split; [|split]]]; try reflexivity; intros i j Hi Hj; cbn in Hi; unfold face2, box_m1, bi_m2, box_mem; cbn [s_hi r box_run];
      destruct (Z.ltb_spec i 3); try lia; reflexivity.
  - constructor; auto; try reflexivity; [vm_compute; discriminate|left; reflexivity| |].
    + right. split; [right; split; reflexivity|left; reflexivity].
    + split; [|split]; reflexivity.
  - unfold cell2. rewrite H1, H2. intros H. apply Qeq_bool_iff in H. vm_compute in H. discriminate.
Qed.
Lemma box_image_differs : exists r (m m2 m' m2' : loc -> Q) i j,
  walled_end2 A0 r 1 1 m m' /\ with_image_along Qopp (s_lo r) (s_hi r) (n_eqns (s_cfg r)) true m m2 /\ channel_end2 A0 (long r) 1 1 m2 m2' /\
  on_grid (s_lo r) (s_hi r) i j /\
  ~ (cell2 m2' 0 (newest2 r 1) i j == cell2 m' 0 (newest2 r 1) (imaged (s_hi r DX) i) j)%Q.
Proof.
  destruct box_image_breaks as (m & m2 & m' & m2' & A & B & C & D).
  exists (box_run (box_opts true true true) 3), m, m2, m', m2', 3, 1.
  split; [exact A|]. split; [exact B|]. split; [exact C|]. split; [unfold on_grid; cbn; lia|exact D].
Qed.
