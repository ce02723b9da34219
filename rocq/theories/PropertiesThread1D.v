(** Property theorems: multi-threaded execution of the 1D solver. *)
From Coq Require Import ZArith QArith List Bool Lia.
From Verif Require Import ModelIndex ModelRun Lang Stencil ProofsStencil FormCommon Form1D Solver1D
  SpecThreads Proofs1D ProofsThread1D Arith.
Import ListNotations.
Local Open Scope Z_scope.

(** C15: for every option set that compiles, every number of equations,
    iterations and steps, cyclic or open edges, every arithmetic and every
    initial memory: all runs with any number of threads (up to the grid size),
    however the threads are interleaved, end in the same memory. *)
Theorem C15_threads_agree : forall r n1 n2 nt ar m m1 m2, run_ok r ->
  (0 < n1)%nat -> Z.of_nat n1 <= r_hi r - r_lo r + 1 ->
  (0 < n2)%nat -> Z.of_nat n2 <= r_hi r - r_lo r + 1 ->
  can_end loc_eq_dec ar n1 (program1 r n1 nt) m m1 ->
  can_end loc_eq_dec ar n2 (program1 r n2 nt) m m2 ->
  forall l, m1 l = m2 l.
Proof. exact threads_agree. Qed.
Print Assumptions C15_threads_agree.

(** ... some run finishes, and no run gets stuck half-way. *)
Theorem C15_threads_finish : forall r n nt ar m, run_ok r ->
  (0 < n)%nat -> Z.of_nat n <= r_hi r - r_lo r + 1 ->
  (exists m', can_end loc_eq_dec ar n (program1 r n nt) m m') /\
  never_stuck loc_eq_dec ar n (program1 r n nt) m.
Proof. exact threads_finish. Qed.
Print Assumptions C15_threads_finish.

Definition example_run : run1 :=
  {| r_o := mkfl true false true false false false true true false false false false false;
     r_sp := aver2; r_tp := noextrp; r_cfg := {| n_eqns := 2; delayed_step := 1%N |};
     r_nit := 3; r_freq := 0; r_scale := fun e => Z.of_nat e; r_bl := Cyclic; r_br := Cyclic;
     r_lo := 0; r_hi := 9 |}.
Example C15_example : run_ok example_run /\ Z.of_nat 3 <= r_hi example_run - r_lo example_run + 1 /\
  length (run_prog1 example_run 2) = 235%nat.
Proof. split; [constructor; vm_compute; try reflexivity; try discriminate; lia|]. split; vm_compute; [discriminate|reflexivity]. Qed.

(** C16: with two or more threads every step has a data race in the sense of
    the C++ memory model (both neighbours write the shared face). *)
Theorem C16_race_free_refuted : forall r n nt, run_ok r -> (2 <= n)%nat ->
  Z.of_nat n <= r_hi r - r_lo r + 1 -> (0 < nt)%nat -> eq_order r <> [] ->
  exists ph, In ph (phases (program1 r n nt)) /\ race n ph.
Proof. exact threads_race. Qed.
Print Assumptions C16_race_free_refuted.
