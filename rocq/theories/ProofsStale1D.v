(** Concrete run showing a dependence on uninitialised memory: option [div_2nd]
    without [fct], three iterations. *)
From Coq Require Import ZArith QArith List Bool Lia.
From Verif Require Import ModelIndex ModelRun Lang ProofsLang Stencil ProofsStencil FormCommon Form1D Solver1D
  ProofsThread1D ProofsValid1D ProofsCyclic1D Arith Exec ProofsExec SpecThreads SpecFields.
Import ListNotations.
Local Open Scope Z_scope.

Definition stale_run : run1 :=
  {| r_o := mkfl false false false true false false false false false true false false false;
     r_sp := exact; r_tp := noextrp; r_cfg := {| n_eqns := 1; delayed_step := 0%N |};
     r_nit := 3; r_freq := 0; r_scale := fun e => 0; r_bl := Cyclic; r_br := Cyclic;
     r_lo := 0; r_hi := 4 |}.
(** [s]: content of the temporary arrays before the run *)
Definition stale_mem (s : Q) : loc -> Q := fun l =>
  match fst l with
  | (O, Psi false) => match snd l with (1, _, _) => 3%Q | _ => 1%Q end
  | (O, GC DX) => 1 # 2
  | (O, Cor _ _) => s
  | _ => 0%Q
  end.
Definition A0 : arith := arithQ 0 0.

Lemma stale_run_ok : run_ok stale_run.
Proof. constructor; vm_compute; try reflexivity; try discriminate; lia. Qed.
Lemma can_end_exec r n nt ar m : run_ok r -> (0 < n)%nat -> Z.of_nat n <= r_hi r - r_lo r + 1 ->
  exists m', can_end loc_eq_dec ar n (program1 r n nt) m m' /\
    forall l, m' l = look ar m (exec ar m n (program1 r n nt)) l.
Proof.
  intros RK Hn Hs. destruct (threads_finish r n nt ar m RK Hn Hs) as [(m' & E) _]. exists m'. split; auto.
  intros l. rewrite exec_look. apply (can_end_run r RK ar n nt m m' Hn Hs E).
Qed.

Lemma stale_differs : exists m1' m2',
  same_data 0 4 1 false (stale_mem 0) (stale_mem 1) /\
  cyclic_data 0 4 1 false (stale_mem 1) /\
  can_end loc_eq_dec A0 1 (program1 stale_run 1 1) (stale_mem 0) m1' /\
  can_end loc_eq_dec A0 1 (program1 stale_run 1 1) (stale_mem 1) m2' /\
  cell m1' 0 (newest stale_run 1) 4 <> cell m2' 0 (newest stale_run 1) 4 /\
  cell m2' 0 (newest stale_run 1) 0 <> cell m2' 0 (newest stale_run 1) 4.
Proof.
  destruct (can_end_exec stale_run 1 1 A0 (stale_mem 0) stale_run_ok ltac:(lia) ltac:(vm_compute; discriminate)) as (m1 & E1 & H1).
  destruct (can_end_exec stale_run 1 1 A0 (stale_mem 1) stale_run_ok ltac:(lia) ltac:(vm_compute; discriminate)) as (m2 & E2 & H2).
  exists m1, m2. split; [|split; [|split; [exact E1|split; [exact E2|split]]]].
  - split; [|split; [reflexivity|discriminate]]. intros e i He Hi. assert (e = 0%nat) by lia. subst. reflexivity.
  - split; [|discriminate]. intros e He. assert (e = 0%nat) by lia. subst. reflexivity.
  - unfold cell. rewrite H1, H2. vm_compute. discriminate.
  - unfold cell. rewrite !H2. vm_compute. discriminate.
Qed.

(** ... and what is in the domain is not conserved *)
Lemma stale_leaks : exists m',
  cyclic_data 0 4 1 false (stale_mem 1) /\
  can_end loc_eq_dec A0 1 (program1 stale_run 1 2) (stale_mem 1) m' /\
  ~ (cell m' 0 (newest stale_run 2) 0%Z + cell m' 0 (newest stale_run 2) 1%Z +
     cell m' 0 (newest stale_run 2) 2%Z + cell m' 0 (newest stale_run 2) 3%Z ==
     cell (stale_mem 1) 0 false 0%Z + cell (stale_mem 1) 0 false 1%Z +
     cell (stale_mem 1) 0 false 2%Z + cell (stale_mem 1) 0 false 3%Z)%Q.
Proof.
  destruct (can_end_exec stale_run 1 2 A0 (stale_mem 1) stale_run_ok ltac:(lia) ltac:(vm_compute; discriminate)) as (m2 & E2 & H2).
  exists m2. split; [|split; [exact E2|]].
  - split; [|discriminate]. intros e He. assert (e = 0%nat) by lia. subst. reflexivity.
  - unfold cell at 1 2 3 4. rewrite !H2. intros H. vm_compute in H. discriminate.
Qed.
