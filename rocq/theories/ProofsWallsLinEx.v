(** Examples of superposed and one-dimensional flows in channels and boxes. *)
From Coq Require Import ZArith List Bool Lia Reals Lra.
From Verif Require Import ModelIndex ModelRun Lang Stencil FormCommon Form2D Solver1D Solver2D Arith SpecReal SpecThreads SpecFields SpecFields2
  SpecRun2 SpecNum2 SpecSym2 SpecWalls2 SpecChannel2 SpecImages2 ProofsThread1D ProofsThread2D ProofsStale1D ProofsStale2D ProofsCyclic2D ProofsOne2D
  ProofsWallsWit ProofsWallsUpWit ProofsExamplesSym2D ProofsChannelEx ProofsImagesEx.
Import ListNotations.
Local Open Scope R_scope.

Lemma chan_end_of eps tiny r nt m : run2_ok r -> s_bl r DX = Cyclic2 -> s_br r DX = Cyclic2 -> s_bl r DY = Rigid2 -> s_br r DY = Rigid2 ->
  plain_passes (s_o r) (s_nit r) -> (s_lo r DX <= s_hi r DX)%Z -> channel_data2 (s_lo r) (s_hi r) (n_eqns (s_cfg r)) (nug (s_o r)) m ->
  exists m', channel_end2 (arithR eps tiny) r 1 nt m m'.
Proof.
  intros K B1 B2 B3 B4 P LH D. destruct (can_end_exec2 r nt (arithR eps tiny) m K) as (m' & E & _). exists m'.
  constructor; auto; [change (Z.of_nat 1) with 1%Z; lia|left; reflexivity].
Qed.
Lemma walled_end_of eps tiny r nt m : run2_ok r -> (forall d, s_bl r d = Rigid2) -> (forall d, s_br r d = Rigid2) -> (s_lo r DX <= s_hi r DX)%Z ->
  exists m', walled_end2 (arithR eps tiny) r 1 nt m m'.
Proof.
  intros K B1 B2 LH. destruct (can_end_exec2 r nt (arithR eps tiny) m K) as (m' & E & _). exists m'.
  constructor; auto; [change (Z.of_nat 1) with 1%Z; lia|left; reflexivity].
Qed.
Lemma mul_flow lam p c s : channel_data2 (fun _ => 0%Z) (fun _ => 3%Z) 1 false (mul2_mem lam (flow_mem p c s)).
Proof. split; [|split]; reflexivity. Qed.
Lemma same_flow_mul r lam m : same_flow2 r m (mul2_mem lam m).
Proof. split; [|split]; reflexivity. Qed.
(** data that do not vary across the channel *)
Definition bar_mem : loc -> R := fun l =>
  match l with
  | (O, Psi false, (i, _, _)) => match (i mod 3)%Z with 1%Z => 3 | 2%Z => 2 | _ => 1 end
  | (O, GC DX, (i, _, _)) => match (i mod 3)%Z with 1%Z => 1 / 2 | _ => 1 / 4 end
  | _ => 0
  end.
Lemma bar_uniform f i d2 nit : uniform_along_y 0 (chan_run (box_opts f i d2) nit) bar_mem bar_mem.
Proof. split; [|split; [|split]]; reflexivity. Qed.
Lemma bar_data : channel_data2 (fun _ => 0%Z) (fun _ => 3%Z) 1 false bar_mem.
Proof. split; [|split]; reflexivity. Qed.
Lemma bar_end eps tiny f i d2 nit nt : (0 < nit)%nat ->
  exists m', can_end loc_eq_dec (arithR eps tiny) 1 (program1 (slice_run (chan_run (box_opts f i d2) nit)) 1 nt) bar_mem m'.
Proof.
  intros H. assert (K : run_ok (slice_run (chan_run (box_opts f i d2) nit))).
  { constructor; [destruct f, i, d2; reflexivity|exact H|destruct f, i, d2; vm_compute; discriminate]. }
  destruct (can_end_exec _ 1 nt (arithR eps tiny) bar_mem K ltac:(lia) ltac:(vm_compute; discriminate)) as (m' & E & _). exists m'. exact E.
Qed.
