(** Property theorems: multi-threaded execution of the 2D solver. *)
From Coq Require Import ZArith QArith List Bool Lia.
From Verif Require Import ModelIndex ModelRun Lang Stencil ProofsStencil FormCommon Form2D Solver1D Solver2D
  SpecThreads SpecFields2 ProofsThread2D Arith ProofsRefute2D.
Import ListNotations.
Local Open Scope Z_scope.

(** C17: for every option set that compiles except [fct] without [iga], every
    combination of cyclic, open and rigid edges, every number of equations,
    iterations and steps, every arithmetic and every initial memory: all runs
    with any number of threads (up to the grid size), however the threads are
    interleaved, end in the same memory. *)
Theorem C17_threads_agree : forall r n1 n2 nt ar m m1 m2, run2_ok r ->
  fct (s_o r) && negb (iga (s_o r)) = false ->
  (0 < n1)%nat -> Z.of_nat n1 <= s_hi r DX - s_lo r DX + 1 ->
  (0 < n2)%nat -> Z.of_nat n2 <= s_hi r DX - s_lo r DX + 1 ->
  can_end loc_eq_dec ar n1 (program2 r n1 nt) m m1 ->
  can_end loc_eq_dec ar n2 (program2 r n2 nt) m m2 ->
  forall l, m1 l = m2 l.
Proof. exact threads_agree2. Qed.
Print Assumptions C17_threads_agree.

(** ... some run finishes, and no run gets stuck half-way. *)
Theorem C17_threads_finish : forall r n nt ar m, run2_ok r ->
  fct (s_o r) && negb (iga (s_o r)) = false ->
  (0 < n)%nat -> Z.of_nat n <= s_hi r DX - s_lo r DX + 1 ->
  (exists m', can_end loc_eq_dec ar n (program2 r n nt) m m') /\
  never_stuck loc_eq_dec ar n (program2 r n nt) m.
Proof. exact threads_finish2. Qed.
Print Assumptions C17_threads_finish.

Definition example_run2 : run2 :=
  {| s_o := mkfl true false true false false true true true false false false false false;
     s_sp := aver2; s_tp := noextrp; s_cfg := {| n_eqns := 2; delayed_step := 1%N |};
     s_nit := 3; s_freq := 0; s_scale := fun e => Z.of_nat e;
     s_bl := fun d => match d with DX => Cyclic2 | _ => Rigid2 end;
     s_br := fun d => match d with DX => Cyclic2 | _ => Open2 end;
     s_lo := fun _ => 0; s_hi := fun d => match d with DX => 9 | _ => 5 end |}.
Example C17_example : run2_ok example_run2 /\ fct (s_o example_run2) && negb (iga (s_o example_run2)) = false /\
  Z.of_nat 3 <= s_hi example_run2 DX - s_lo example_run2 DX + 1 /\ length (run_prog2 example_run2 2) = 453%nat.
Proof.
  split; [constructor; [reflexivity|cbn; lia|intros d [-> | ->]; cbn; lia]|].
  split; [reflexivity|]. split; [cbn; lia|]. vm_compute. reflexivity.
Qed.

(** With [fct] and without [iga] the claim fails: two threads, the same initial
    memory, two interleavings, different results in the domain (exact rational
    arithmetic).  Thread [t] evaluates the limiters at [first - 1] from
    flux[0](first - 2), which only thread [t - 1] computes, in the same phase. *)
Theorem C17_fct_threads_agree_refuted : exists r m m1 m2, run2_ok r /\
  fct (s_o r) = true /\ iga (s_o r) = false /\
  can_end loc_eq_dec (arithQ 0 0) 2 (program2 r 2 1) m m1 /\
  can_end loc_eq_dec (arithQ 0 0) 2 (program2 r 2 1) m m2 /\
  ~ (cell2 m1 0 (level_after2 r 1 0 false) 0%Z 1%Z ==
     cell2 m2 0 (level_after2 r 1 0 false) 0%Z 1%Z)%Q.
Proof.
  exists race_run, race_mem. destruct threads_disagree2 as (m1 & m2 & H).
  exists m1, m2. repeat (split; [first [exact race_run_ok|reflexivity]|]). exact H.
Qed.
Print Assumptions C17_fct_threads_agree_refuted.
