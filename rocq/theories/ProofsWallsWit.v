(** A run in a closed box whose result is not the mirror image of the result of the
    mirrored run; a closed box for the examples. *)
From Coq Require Import ZArith QArith List Bool Lia Reals Lra.
From Verif Require Import ModelIndex ModelRun Lang Stencil FormCommon Form2D Solver1D Solver2D Arith Exec SpecThreads SpecFields SpecFields2
  SpecNum2 SpecSym2 SpecReal SpecWalls2 ProofsThread2D ProofsWitness2D ProofsCyclic2D ProofsStale2D ProofsValid2D ProofsOne2D.
Import ListNotations.
Local Open Scope Z_scope.

(** [fct], [iga], [div_2nd] *)
Definition box_opts (f i d2 : bool) : fl := mkfl f false false true false i false false false d2 false false false.
Definition box_run (o : fl) (nit : nat) : run2 :=
  {| s_o := o; s_sp := exact; s_tp := noextrp; s_cfg := {| n_eqns := 1; delayed_step := 0%N |};
     s_nit := nit; s_freq := 0; s_scale := fun e => 0; s_bl := fun _ => Rigid2; s_br := fun _ => Rigid2;
     s_lo := fun _ => 0; s_hi := fun d => 3 |}.
Lemma box_ok f i d2 nit : (0 < nit)%nat -> run2_ok (box_run (box_opts f i d2) nit).
Proof.
  intros H. constructor; [destruct f, i, d2; reflexivity|exact H|]. intros d _. destruct f, i, d2; vm_compute; discriminate.
Qed.

Definition box_p (i j : Z) : Q := match i, j with 3, 1 => 5 | 2, 2 => 1 | 1, 1 => 2 | _, _ => 1 # 2 end.
Definition box_cx (i j : Z) : Q := match i with 2 => 1 # 2 | 1 => 1 # 4 | _ => 1 # 8 end.
Definition box_cy (i j : Z) : Q := match i, j with 2, 1 => 1 # 4 | 3, 1 => 1 # 8 | 3, 0 => - 1 # 8 | _, _ => 0%Q end.
Definition box_mem (p cx cy : Z -> Z -> Q) : loc -> Q := fun l =>
  match l with
  | (O, Psi false, (i, j, _)) => p i j
  | (O, GC DX, (i, j, _)) => cx i j
  | (O, GC DY, (i, j, _)) => cy i j
  | _ => 0%Q
  end.
Definition box_m1 : loc -> Q := box_mem box_p box_cx box_cy.
(** the mirror image, including halos *)
Definition box_m2 : loc -> Q :=
  box_mem (fun i j => box_p (3 - i) j) (fun i j => (- box_cx (2 - i) j)%Q) (fun i j => box_cy (3 - i) j).

Lemma box_mirrored g : mirrored2 Qopp (fun _ => 0) (fun _ => 3) 1 g DX box_m1 box_m2.
Proof.
  split; [|split; [|split]]; try reflexivity.
Qed.

Lemma box_mirror_breaks : let r := box_run (box_opts true true true) 3 in
  exists m1 m2 m1' m2' : loc -> Q,
    walled_end2 A0 r 1 1 m1 m1' /\ walled_end2 A0 r 1 1 m2 m2' /\
    mirrored2 Qopp (s_lo r) (s_hi r) 1 true DX m1 m2 /\
    ~ (cell2 m2' 0 (newest2 r 1) 0 2 == cell2 m1' 0 (newest2 r 1) 3 2)%Q.
Proof.
  intros r. assert (K : run2_ok r) by (apply box_ok; lia).
  destruct (can_end_exec2 r 1 A0 box_m1 K) as (m1' & E1 & H1). destruct (can_end_exec2 r 1 A0 box_m2 K) as (m2' & E2 & H2).
  exists box_m1, box_m2, m1', m2'.
  split; [constructor; auto; try reflexivity; [vm_compute; discriminate|left; reflexivity]|].
  split; [constructor; auto; try reflexivity; [vm_compute; discriminate|left; reflexivity]|].
  split; [apply (box_mirrored true)|].
  unfold cell2. rewrite H1, H2. intros H. apply Qeq_bool_iff in H. vm_compute in H. discriminate.
Qed.

Local Open Scope R_scope.
(** a box with a swirl and a peak *)
Definition box_memR : loc -> R := fun l =>
  match l with
  | (O, Psi false, (i, j, _)) => match i, j with 1%Z, 2%Z => 5 | 3%Z, _ => 2 | _, _ => -1 end
  | (O, GC DX, (i, j, _)) => match i, j with 1%Z, 1%Z => 1 / 4 | 1%Z, 2%Z => - (1 / 4) | _, _ => 0 end
  | (O, GC DY, (i, j, _)) => match i, j with 1%Z, 1%Z => - (1 / 4) | 2%Z, 1%Z => 1 / 4 | _, _ => 0 end
  | _ => 0
  end.
Lemma box_end eps tiny f i d2 nit nt : (0 < nit)%nat ->
  exists m', walled_end2 (arithR eps tiny) (box_run (box_opts f i d2) nit) 1 nt box_memR m'.
Proof.
  intros H. destruct (can_end_exec2 (box_run (box_opts f i d2) nit) nt (arithR eps tiny) box_memR (box_ok f i d2 nit H)) as (m' & E & _).
  exists m'. constructor; auto; try reflexivity; [apply box_ok; exact H|vm_compute; discriminate|left; reflexivity].
Qed.
Lemma box_mirror_differs : exists r n nt (m1 m2 m1' m2' : loc -> Q) i j,
  walled_end2 A0 r n nt m1 m1' /\ walled_end2 A0 r n nt m2 m2' /\ on_grid (s_lo r) (s_hi r) i j /\
  mirrored2 Qopp (s_lo r) (s_hi r) (n_eqns (s_cfg r)) true DX m1 m2 /\
  ~ (cell2 m2' 0 (newest2 r nt) i j == cell2 m1' 0 (newest2 r nt) (s_lo r DX + s_hi r DX - i) j)%Q.
Proof.
  destruct box_mirror_breaks as (m1 & m2 & m1' & m2' & A & B & C & D).
  exists (box_run (box_opts true true true) 3), 1%nat, 1%nat, m1, m2, m1', m2', 0%Z, 2%Z.
  split; [exact A|]. split; [exact B|]. split; [unfold on_grid; cbn; lia|]. split; [exact C|exact D].
Qed.
