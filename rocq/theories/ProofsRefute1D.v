(** Concrete runs violating symmetries one would expect. *)
From Coq Require Import ZArith QArith List Bool Lia.
From Verif Require Import ModelIndex ModelRun Lang ProofsLang Stencil ProofsStencil FormCommon Form1D Solver1D
  ProofsThread1D ProofsValid1D ProofsCyclic1D Arith Exec ProofsExec SpecThreads SpecFields ProofsStale1D.
Import ListNotations.
Local Open Scope Z_scope.

(** open boundaries with a halo of two cells (here because of [tot]), one upwind
    pass, one step; velocity varying along the domain *)
Definition open_run : run1 :=
  {| r_o := mkfl false false true true false false false false false false false false false;
     r_sp := exact; r_tp := noextrp; r_cfg := {| n_eqns := 1; delayed_step := 0%N |};
     r_nit := 1; r_freq := 0; r_scale := fun e => 0; r_bl := Open; r_br := Open;
     r_lo := 0; r_hi := 4 |}.
(** velocities 0, 1/4, 1/2, 3/4 at the faces between cells 0..4; all cells 1 *)
Definition open_mem : loc -> Q := fun l =>
  match fst l with
  | (O, Psi false) => 1%Q
  | (O, GC DX) => match snd l with (1, _, _) => 1 # 4 | (2, _, _) => 1 # 2 | (3, _, _) => 3 # 4 | _ => 0%Q end
  | _ => 0%Q
  end.
Definition open_mem' : loc -> Q := fun l =>
  match fst l with
  | (O, Psi false) => 1%Q
  | (O, GC DX) => match snd l with (0, _, _) => (- (3 # 4))%Q | (1, _, _) => (- (1 # 2))%Q | (2, _, _) => (- (1 # 4))%Q | _ => 0%Q end
  | _ => 0%Q
  end.
Lemma open_run_ok : run_ok open_run.
Proof. constructor; vm_compute; try reflexivity; try discriminate; lia. Qed.
Lemma open_mirror_differs : exists m1' m2',
  mirrored Qopp 0 4 1 false open_mem open_mem' /\
  can_end loc_eq_dec A0 1 (program1 open_run 1 1) open_mem m1' /\
  can_end loc_eq_dec A0 1 (program1 open_run 1 1) open_mem' m2' /\
  ~ (cell m2' 0 (newest open_run 1) 0%Z == cell m1' 0 (newest open_run 1) 4%Z)%Q.
Proof.
  destruct (can_end_exec open_run 1 1 A0 open_mem open_run_ok ltac:(lia) ltac:(vm_compute; discriminate)) as (m1 & E1 & H1).
  destruct (can_end_exec open_run 1 1 A0 open_mem' open_run_ok ltac:(lia) ltac:(vm_compute; discriminate)) as (m2 & E2 & H2).
  exists m1, m2. split; [|split; [exact E1|split; [exact E2|]]].
  - split; [|split; [|discriminate]].
    + intros e i He Hi. assert (e = 0%nat) by lia. subst. reflexivity.
    + intros i Hi. assert (I : i = 0 \/ i = 1 \/ i = 2 \/ i = 3) by lia. destruct I as [->|[->|[->| ->]]]; reflexivity.
  - unfold cell. rewrite H1, H2. intros H. vm_compute in H. discriminate.
Qed.

(** flux-corrected transport is not homogeneous: the small number added to the
    denominators of the limiters has a fixed size, so a power-of-two rescaling
    by [hint_scale] changes the result *)
Definition hint_run (s : Z) : run1 :=
  {| r_o := mkfl true false false true false false false false false false false false false;
     r_sp := exact; r_tp := noextrp; r_cfg := {| n_eqns := 1; delayed_step := 0%N |};
     r_nit := 2; r_freq := 0; r_scale := fun e => s; r_bl := Cyclic; r_br := Cyclic;
     r_lo := 0; r_hi := 8 |}.
Definition hint_mem : loc -> Q := fun l =>
  match fst l with
  | (O, Psi false) => match snd l with (1, _, _) => 4%Q | (2, _, _) => 5%Q | (4, _, _) => 4%Q | (5, _, _) => 5%Q | (6, _, _) => 9 # 2 | _ => 1%Q end
  | (O, GC DX) => 1 # 4
  | _ => 0%Q
  end.
Lemma hint_run_ok s : run_ok (hint_run s).
Proof. constructor; vm_compute; try reflexivity; try discriminate; lia. Qed.
Definition Aeps : arith := arithQ (1 # 1048576) 0.
Lemma hint_differs : exists m1' m2',
  can_end loc_eq_dec Aeps 1 (program1 (hint_run 0) 1 1) hint_mem m1' /\
  can_end loc_eq_dec Aeps 1 (program1 (hint_run 1) 1 1) hint_mem m2' /\
  ~ (cell m2' 0 (newest (hint_run 1) 1) 2%Z == cell m1' 0 (newest (hint_run 0) 1) 2%Z)%Q.
Proof.
  destruct (can_end_exec (hint_run 0) 1 1 Aeps hint_mem (hint_run_ok 0) ltac:(lia) ltac:(vm_compute; discriminate)) as (m1 & E1 & H1).
  destruct (can_end_exec (hint_run 1) 1 1 Aeps hint_mem (hint_run_ok 1) ltac:(lia) ltac:(vm_compute; discriminate)) as (m2 & E2 & H2).
  exists m1, m2. split; [exact E1|split; [exact E2|]].
  unfold cell. rewrite H1, H2. intros H. vm_compute in H. discriminate.
Qed.

(** without flux-corrected transport the infinite-gauge variant does not keep the sign *)
Definition iga_run : run1 :=
  {| r_o := mkfl false false false false false true false false false false false false false;
     r_sp := exact; r_tp := noextrp; r_cfg := {| n_eqns := 1; delayed_step := 0%N |};
     r_nit := 2; r_freq := 0; r_scale := fun e => 0; r_bl := Cyclic; r_br := Cyclic;
     r_lo := 0; r_hi := 5 |}.
Definition iga_mem : loc -> Q := fun l =>
  match fst l with
  | (O, Psi false) => match snd l with (2, _, _) => 1%Q | _ => 0%Q end
  | (O, GC DX) => 1 # 2
  | _ => 0%Q
  end.
Lemma iga_run_ok : run_ok iga_run.
Proof. constructor; vm_compute; try reflexivity; try discriminate; lia. Qed.
Lemma iga_negative : exists m' i, 0 <= i <= 5 /\
  can_end loc_eq_dec A0 1 (program1 iga_run 1 1) iga_mem m' /\
  (cell m' 0 (newest iga_run 1) i < 0)%Q.
Proof.
  destruct (can_end_exec iga_run 1 1 A0 iga_mem iga_run_ok ltac:(lia) ltac:(vm_compute; discriminate)) as (m1 & E1 & H1).
  exists m1, 1. split; [lia|split; [exact E1|]].
  unfold cell. rewrite H1. vm_compute. reflexivity.
Qed.
