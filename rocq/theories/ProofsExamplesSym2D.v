(** Data for the examples beside the properties in PropertiesSym2D.v, and a run in
    which the 2D solver differs from the 1D solver. *)
From Coq Require Import ZArith QArith List Bool Lia Reals Lra.
From Verif Require Import ModelIndex ModelRun Lang Stencil FormCommon Form2D Solver1D Solver2D Arith Exec
  SpecThreads SpecFields SpecFields2 SpecReal SpecNum2 SpecRun2 SpecSym2 ProofsThread1D ProofsCyclic1D ProofsThread2D ProofsOne2D ProofsValid2D ProofsCyclic2D
  ProofsStale1D ProofsStale2D ProofsExamples2D ProofsWitness2D.
Import ListNotations.
Local Open Scope R_scope.

Lemma end2_exists ar r nt m : run2_ok r -> (forall d, s_bl r d = Cyclic2) -> (forall d, s_br r d = Cyclic2) ->
  no_stale2 (s_o r) (s_nit r) = true -> cyclic_data2 (s_lo r) (s_hi r) (n_eqns (s_cfg r)) (nug (s_o r)) m ->
  exists m', cyclic_end2 ar r 1 nt m m'.
Proof.
  intros H1 H2 H3 H4 H5. destruct (can_end_exec2 r nt ar m H1) as (m' & E & _). exists m'. constructor; auto.
  - pose proof (ok2_grid r H1 DX (or_introl eq_refl)). pose proof (halo_pos (s_o r)). lia.
  - left. reflexivity.
Qed.

Definition ex2_run0 (o : fl) (nit : nat) : run2 := with_scale2 (ex2_run o nit) (fun _ => 0%Z).
Definition mir2_mem (d : dim) (m : loc -> R) : loc -> R := fun l =>
  match l with
  | (k, GC d', (i, j, z)) =>
      let ij := opposite d (if dim_eqb d d' then 3 else 4)%Z (i, j) in
      (if dim_eqb d d' then -1 else 1) * m (k, GC d', (fst ij, snd ij, z))
  | (k, a, (i, j, z)) => let ij := opposite d 4%Z (i, j) in m (k, a, (fst ij, snd ij, z))
  end.
Definition tr_mem (m : loc -> R) : loc -> R := fun l =>
  match l with
  | (k, GC d, (i, j, z)) => m (k, GC (swap_axis d), (j, i, z))
  | (k, a, (i, j, z)) => m (k, a, (j, i, z))
  end.
Definition mul2_mem (lam : R) (m : loc -> R) : loc -> R := fun l => match snd (fst l) with Psi _ => lam * m l | _ => m l end.

Lemma ex2_mirrored d g cx cy s : d = DX \/ d = DY ->
  mirrored2 Ropp (fun _ => 0%Z) (fun _ => 4%Z) 1 g d (ex2_mem cx cy s) (mir2_mem d (ex2_mem cx cy s)).
Proof.
  intros [-> | ->]; (split; [|split; [|split]]); try reflexivity;
    intros; unfold face2, mir2_mem; cbn [dim_eqb opposite fst snd];
    match goal with |- -1 * ?a = _ => change (-1 * a = - a) | |- 1 * ?a = _ => change (1 * a = a) end; ring.
Qed.
Lemma ex2_transposed g cx cy s : transposed2 (fun _ => 0%Z) (fun _ => 4%Z) 1 g (ex2_mem cx cy s) (tr_mem (ex2_mem cx cy s)).
Proof. split; [|split; [|split]]; reflexivity. Qed.
Lemma ex2_mul_flow o nit lam m : same_flow2 (ex2_run o nit) m (mul2_mem lam m).
Proof. split; [|split]; reflexivity. Qed.
Lemma ex2_mul_cyclic lam m ne g : cyclic_data2 (fun _ => 0%Z) (fun _ => 4%Z) ne g m -> cyclic_data2 (fun _ => 0%Z) (fun _ => 4%Z) ne g (mul2_mem lam m).
Proof.
  intros (H1 & H2 & H3 & H4). split; [|split; [|split]].
  - intros e He. destruct (H1 e He) as [A B]. split; intros k Hk; unfold cell2, mul2_mem; cbn [fst snd]; apply (f_equal (Rmult lam)); [apply (A k Hk)|apply (B k Hk)].
  - exact H2.
  - exact H3.
  - exact H4.
Qed.

(** 1D data and their extension along the second axis *)
Definition ex_line : loc -> R := fun l =>
  match l with
  | (O, Psi false, (i, _, _)) => pick 1 3 2 1 i
  | (O, GC DX, (i, _, _)) => pick (1 / 4) (1 / 2) (1 / 4) 0 i
  | (O, Gf, (i, _, _)) => pick 1 (3 / 2) 1 1 i
  | _ => 0
  end.
Lemma ex_uniform o nit : uniform_along_y 0 (ex2_run o nit) ex_line ex_line.
Proof.
  split; [|split; [|split]]; try reflexivity.
Qed.

(** ** 1D and 2D solvers differ with [div_3rd] unless [iga] is set *)
Definition line_p (i j : Z) : Q := match i with 1%Z => 3%Q | 2%Z => 2%Q | _ => 1%Q end.
Definition line_mem : loc -> Q := mem2 line_p (fun _ _ => 1 # 2) (fun _ _ => 0%Q).
Lemma slice_run_ok : run_ok (slice_run (two_run2 opt_div3)).
Proof. constructor; vm_compute; try reflexivity; try discriminate; lia. Qed.
Lemma slice_differs : exists m' m1', cyclic_end2 A0 (two_run2 opt_div3) 1 1 line_mem m' /\
  can_end loc_eq_dec A0 1 (program1 (slice_run (two_run2 opt_div3)) 1 1) line_mem m1' /\
  ~ (cell2 m' 0 (newest2 (two_run2 opt_div3) 1) 1 1 == cell m1' 0 (newest (slice_run (two_run2 opt_div3)) 1) 1)%Q.
Proof.
  destruct (two_end opt_div3 line_mem eq_refl ltac:(vm_compute; discriminate) eq_refl (mem2_cyclic _ _ _)) as (m' & E & H).
  destruct (can_end_exec (slice_run (two_run2 opt_div3)) 1 1 A0 line_mem slice_run_ok ltac:(lia) ltac:(vm_compute; discriminate)) as (m1' & E1 & H1).
  exists m', m1'. split; [exact E|]. split; [exact E1|]. unfold cell2, cell. rewrite H, H1. intros Q. apply Qeq_bool_iff in Q. vm_compute in Q. discriminate.
Qed.
