(** A two-thread run of the two-dimensional solver with flux-corrected transport
    whose result depends on the interleaving. *)
From Coq Require Import ZArith QArith List Bool Lia.
From Verif Require Import ModelIndex ModelRun Lang ProofsLang Stencil ProofsStencil FormCommon Form2D Solver1D Solver2D
  ProofsThread2D Arith Exec ProofsExec SpecThreads SpecFields2 ProofsSched.
Import ListNotations.
Local Open Scope Z_scope.

(** [fct] (with the default [pfc]) on 4 x 3 cells, two iterations, cyclic edges *)
Definition race_run : run2 :=
  {| s_o := mkfl true false false true false false false false false false false false false;
     s_sp := exact; s_tp := noextrp; s_cfg := {| n_eqns := 1; delayed_step := 0%N |};
     s_nit := 2; s_freq := 0; s_scale := fun e => 0; s_bl := fun _ => Cyclic2; s_br := fun _ => Cyclic2;
     s_lo := fun _ => 0; s_hi := fun d => match d with DX => 3 | _ => 2 end |}.
Definition race_mem : loc -> Q := fun l =>
  match fst l with
  | (O, Psi false) => match snd l with (1, 0, _) => 3%Q | (0, 1, _) => 2%Q | (2, 2, _) => 2%Q| _ => 1%Q end
  | (O, GC DX) => 1 # 2
  | (O, GC DY) => 1 # 4
  | _ => 0%Q
  end.
Lemma race_run_ok : run2_ok race_run.
Proof. constructor; [reflexivity|cbn; lia|]. intros d [-> | ->]; cbn; lia. Qed.

(** thread 0 first in every phase *)
Definition fair (k : nat) : list act := [Run 0 1000; Run 1 1000].
(** in the phase of the limiters thread 1 reads the operands of
    beta_up(first - 1, .) before thread 0 has written flux[0](first - 2, .), and
    writes it after thread 0 has written the same element *)
Definition unfair (k : nat) : list act :=
  if Nat.eqb k 33 then [Run 1 46; Hold 1; Run 0 1000; Run 1 1000] else fair k.

Notation AQ := (arithQ 0 0).
Definition race_phases := phases (program2 race_run 2 1).
Definition at_cell (T : list (loc * Q)) : Q := Qred (look AQ race_mem T ((O, Psi false), (0, 1, 0))).

Lemma fair_runs : option_map at_cell (run_sched AQ race_mem 2 0 fair race_phases []) = Some (1025 # 896).
Proof. vm_compute. reflexivity. Qed.
Lemma unfair_runs : option_map at_cell (run_sched AQ race_mem 2 0 unfair race_phases []) = Some (94238665 # 81687424).
Proof. vm_compute. reflexivity. Qed.

Lemma run_gives sch v : option_map at_cell (run_sched AQ race_mem 2 0 sch race_phases []) = Some v ->
  exists m', can_end loc_eq_dec AQ 2 (program2 race_run 2 1) race_mem m' /\
    Qred (m' ((O, Psi false), (0, 1, 0))) = v.
Proof.
  intros H. destruct (run_sched AQ race_mem 2 0 sch race_phases []) as [T|] eqn:E; [|discriminate].
  destruct (can_end_sched AQ race_mem 2 ltac:(lia) sch (program2 race_run 2 1) T E) as (m' & C & L).
  exists m'. split; auto. cbn [option_map] in H. unfold at_cell in H. rewrite <- L in H. congruence.
Qed.

Lemma threads_disagree2 : exists m1 m2,
  can_end loc_eq_dec AQ 2 (program2 race_run 2 1) race_mem m1 /\
  can_end loc_eq_dec AQ 2 (program2 race_run 2 1) race_mem m2 /\
  ~ (cell2 m1 0 (level_after2 race_run 1 0 false) 0%Z 1%Z ==
     cell2 m2 0 (level_after2 race_run 1 0 false) 0%Z 1%Z)%Q.
Proof.
  destruct (run_gives fair _ fair_runs) as (m1 & C1 & V1). destruct (run_gives unfair _ unfair_runs) as (m2 & C2 & V2).
  exists m1, m2. split; [exact C1|]. split; [exact C2|]. intros H.
  change (level_after2 race_run 1 0 false) with false in H. apply Qred_complete in H. unfold cell2 in H. rewrite V1, V2 in H. discriminate.
Qed.
