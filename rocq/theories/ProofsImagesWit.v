(** A channel run that is not half of the run with its image. *)
From Coq Require Import ZArith QArith List Bool Lia.
From Verif Require Import ModelIndex ModelRun Lang Stencil FormCommon Form2D Solver1D Solver2D Arith Exec SpecThreads SpecFields SpecFields2
  SpecRun2 SpecChannel2 SpecImages2 ProofsThread2D ProofsWitness2D ProofsCyclic2D ProofsStale2D ProofsValid2D ProofsOne2D ProofsWallsWit ProofsChannelEx.
Import ListNotations.
Local Open Scope Z_scope.

Definition im_p (i j : Z) : Q := match i, j with 1, 3 => 5 | 2, 2 => 1 | 1, 1 => 2 | _, _ => 1 # 2 end.
Definition im_cx (i j : Z) : Q := match j with 3 => 1 # 8 | 2 => 1 # 4 | _ => 1 # 8 end.
Definition im_cy (i j : Z) : Q := match i, j with 1, 2 => 1 # 4 | 1, 1 => 1 # 8 | 2, 2 => - 1 # 8 | _, _ => 0%Q end.
Definition im_m1 : loc -> Q := box_mem im_p im_cx im_cy.
Definition im_m2 : loc -> Q :=
  box_mem (fun i j => im_p i (imaged 3 j)) (fun i j => im_cx i (imaged 3 j)) (fun i j => if j <? 3 then im_cy i j else (- im_cy i (5 - j))%Q).

Lemma image_breaks : let r := chan_run (box_opts true true true) 3 in
  exists m m2 m' m2' : loc -> Q,
    channel_end2 A0 r 1 1 m m' /\ with_image Qopp (s_lo r) (s_hi r) 1 true m m2 /\ cyclic_end2 A0 (wide r) 1 1 m2 m2' /\
    ~ (cell2 m2' 0 (newest2 r 1) 1 3 == cell2 m' 0 (newest2 r 1) 1 3)%Q.
Proof.
  intros r. assert (K : run2_ok r) by (apply chan_ok; lia).
  assert (K2 : run2_ok (wide r)) by (constructor; [reflexivity|unfold wide; cbn; lia|intros d _; destruct d; vm_compute; discriminate]).
  destruct (can_end_exec2 r 1 A0 im_m1 K) as (m1' & E1 & H1). destruct (can_end_exec2 (wide r) 1 A0 im_m2 K2) as (m2' & E2 & H2).
  exists im_m1, im_m2, m1', m2'. split; [|split; [|split]].
  - constructor; auto; try reflexivity; [vm_compute; discriminate|left; reflexivity| |].
    + right. split; [right; split; reflexivity|left; reflexivity].
    + split; [|split]; reflexivity.
  - split; [|split; [|split; [|split]]]; try reflexivity; intros i j Hi Hj; cbn in Hj; unfold face2, im_m1, im_m2, box_mem; cbn [s_hi r chan_run];
      destruct (Z.ltb_spec j 3); try lia; reflexivity.
  - constructor; auto; try reflexivity; [vm_compute; discriminate|left; reflexivity|].
    split; [|split; [|split]]; [intros e He; split; reflexivity|reflexivity|reflexivity|intros _; split; reflexivity].
  - unfold cell2. rewrite H1, H2. intros H. apply Qeq_bool_iff in H. vm_compute in H. discriminate.
Qed.
Lemma image_differs : exists r (m m2 m' m2' : loc -> Q) i j,
  channel_end2 A0 r 1 1 m m' /\ with_image Qopp (s_lo r) (s_hi r) (n_eqns (s_cfg r)) true m m2 /\ cyclic_end2 A0 (wide r) 1 1 m2 m2' /\
  SpecNum2.on_grid (s_lo r) (s_hi r) i j /\
  ~ (cell2 m2' 0 (newest2 r 1) i j == cell2 m' 0 (newest2 r 1) i (imaged (s_hi r DY) j))%Q.
Proof.
  destruct image_breaks as (m & m2 & m' & m2' & A & B & C & D).
  exists (chan_run (box_opts true true true) 3), m, m2, m', m2', 1, 3.
  split; [exact A|]. split; [exact B|]. split; [exact C|]. split; [unfold SpecNum2.on_grid; cbn; lia|exact D].
Qed.
