(** Property theorems: data races of the 2D and 3D solvers. *)
From Coq Require Import ZArith List Bool Lia.
From Verif Require Import ModelIndex ModelRun Lang Stencil FormCommon Form2D Form3D Solver1D Solver2D Solver3D
  SpecThreads ProofsThread2D ProofsGeom3D ProofsRace ProofsRace3.
Import ListNotations.
Local Open Scope Z_scope.

(** C99: without the flux limiter no phase (stretch between two barriers) of a
    2D run has a data race: no element is written by one thread while another
    one reads or writes it, for every option set that compiles, every kind of
    edge, any number of threads, equations, iterations and steps. *)
Theorem C99_race_free_2d : forall r n nt, run2_ok r -> fct (s_o r) = false ->
  (0 < n)%nat -> Z.of_nat n <= s_hi r DX - s_lo r DX + 1 ->
  forall ph, In ph (phases (program2 r n nt)) -> ~ race n ph.
Proof. exact race_free2. Qed.
Print Assumptions C99_race_free_2d.

Definition plain2 : run2 :=
  {| s_o := mkfl false true true false false false true true true false false false false;
     s_sp := aver2; s_tp := noextrp; s_cfg := {| n_eqns := 2; delayed_step := 1%N |};
     s_nit := 3; s_freq := 0; s_scale := fun e => Z.of_nat e;
     s_bl := fun d => match d with DX => Cyclic2 | _ => Rigid2 end;
     s_br := fun d => match d with DX => Cyclic2 | _ => Open2 end;
     s_lo := fun _ => 0; s_hi := fun d => match d with DX => 9 | _ => 5 end |}.
Definition limited2 : run2 :=
  {| s_o := mkfl true false true false false true true true false false false false false;
     s_sp := aver2; s_tp := noextrp; s_cfg := {| n_eqns := 2; delayed_step := 1%N |};
     s_nit := 3; s_freq := 0; s_scale := fun e => Z.of_nat e;
     s_bl := fun d => match d with DX => Cyclic2 | _ => Rigid2 end;
     s_br := fun d => match d with DX => Cyclic2 | _ => Open2 end;
     s_lo := fun _ => 0; s_hi := fun d => match d with DX => 9 | _ => 5 end |}.

Example C99_example : run2_ok plain2 /\ fct (s_o plain2) = false /\ iga (s_o plain2) = false /\
  Z.of_nat 3 <= s_hi plain2 DX - s_lo plain2 DX + 1 /\ (100 < length (phases (program2 plain2 3 2)))%nat.
Proof.
  split; [constructor; [reflexivity|cbn; lia|intros d [-> | ->]; cbn; lia]|].
  split; [reflexivity|]. split; [reflexivity|]. split; [cbn; lia|].
  apply Nat.ltb_lt. vm_compute. reflexivity.
Qed.

(** With the limiter every step of a run with two or more threads has a race:
    neighbouring threads both store the extrema of the cells at their common
    border. *)
Theorem C99_race_free_fct_refuted : forall r n nt, run2_ok r -> fct (s_o r) = true ->
  (2 <= n)%nat -> Z.of_nat n <= s_hi r DX - s_lo r DX + 1 -> (0 < nt)%nat -> eq_order2 r <> [] ->
  exists ph, In ph (phases (program2 r n nt)) /\ race n ph.
Proof. exact race2. Qed.
Print Assumptions C99_race_free_fct_refuted.

Example C99_fct_example : run2_ok limited2 /\ fct (s_o limited2) = true /\ eq_order2 limited2 <> [].
Proof. split; [constructor; [reflexivity|cbn; lia|intros d [-> | ->]; cbn; lia]|]. split; [reflexivity|discriminate]. Qed.

(** In 3D every step of a run with two or more threads has one, whatever the
    options: while the first thread copies rows from the far end of the cut
    dimension into its halo, the owners of these rows are filling the cells
    of the rows that lie beyond the right edge of the first dimension. *)
Theorem C99_race_free_3d_refuted : forall r n nt, run3_ok r ->
  (2 <= n)%nat -> Z.of_nat n <= s3_hi r DY - s3_lo r DY + 1 -> 3 <= s3_hi r DY - s3_lo r DY ->
  (0 < nt)%nat -> eq_order3 r <> [] ->
  exists ph, In ph (phases (program3 r n nt)) /\ race n ph.
Proof. exact race3. Qed.
Print Assumptions C99_race_free_3d_refuted.

Definition plain3 : run3 :=
  {| s3_o := mkfl false false false false false false false false false false false false false;
     s3_sp := exact; s3_tp := noextrp; s3_cfg := {| n_eqns := 1; delayed_step := 0%N |};
     s3_nit := 1; s3_freq := 0; s3_scale := fun e => 0;
     s3_lo := fun _ => 0; s3_hi := fun d => match d with DY => 7 | _ => 4 end |}.
Example C99_3d_example : run3_ok plain3 /\ Z.of_nat 2 <= s3_hi plain3 DY - s3_lo plain3 DY + 1 /\
  3 <= s3_hi plain3 DY - s3_lo plain3 DY /\ eq_order3 plain3 <> [].
Proof.
  split; [constructor; [reflexivity|cbn; lia|intros []; cbn; lia]|]. split; [cbn; lia|]. split; [cbn; lia|discriminate].
Qed.
