(** Examples of mirrored and transposed channels and boxes. *)
From Coq Require Import ZArith QArith List Bool Lia Reals Lra.
From Verif Require Import ModelIndex ModelRun Lang Stencil FormCommon Form2D Solver1D Solver2D Arith Exec SpecReal SpecThreads SpecFields SpecFields2
  SpecRun2 SpecNum2 SpecSym2 SpecWalls2 SpecWalls3 SpecChannel2 SpecImages2 SpecImagesBox ProofsThread2D ProofsWitness2D ProofsCyclic2D ProofsStale2D ProofsValid2D ProofsOne2D
  ProofsWallsUp ProofsWallsWit ProofsWallsUpWit ProofsExamplesSym2D ProofsChannelEx ProofsImagesEx ProofsBoxEx.
Import ListNotations.
Local Open Scope R_scope.

(** mirror image on the grid 0..3 *)
Definition mir3_mem (d : dim) (m : loc -> R) : loc -> R := fun l =>
  match l with
  | (k, GC d', (i, j, z)) =>
      let ij := opposite d (if dim_eqb d d' then 2 else 3)%Z (i, j) in
      if dim_eqb d d' then - m (k, GC d', (fst ij, snd ij, z)) else m (k, GC d', (fst ij, snd ij, z))
  | (k, a, (i, j, z)) => let ij := opposite d 3%Z (i, j) in m (k, a, (fst ij, snd ij, z))
  end.
Lemma mir3_mirrored d g m : In d [DX; DY] -> mirrored2 Ropp (fun _ => 0%Z) (fun _ => 3%Z) 1 g d m (mir3_mem d m).
Proof. intros [<-|[<-|[]]]; (split; [|split; [|split]]); reflexivity. Qed.
Lemma mir3_data d p c s g : In d [DX; DY] -> channel_data2 (fun _ => 0%Z) (fun _ => 3%Z) 1 g (mir3_mem d (flow_mem p c s)).
Proof. intros [<-|[<-|[]]]; (split; [|split]); reflexivity. Qed.
Lemma mir3_end eps tiny f i d2 nit nt d p c s : In d [DX; DY] -> (0 < nit)%nat -> (nit <= 2 \/ f = true)%nat ->
  exists m', channel_end2 (arithR eps tiny) (chan_run (box_opts f i d2) nit) 1 nt (mir3_mem d (flow_mem p c s)) m'.
Proof.
  intros Hd H1 H4. pose proof (chan_ok f i d2 nit H1) as K.
  assert (S : settled (chan_run (box_opts f i d2) nit) 1) by (left; reflexivity).
  assert (Hs : (Z.of_nat 1 <= 3 - 0 + 1)%Z) by lia.
  destruct (finish2 (chan_run (box_opts f i d2) nit) K 1 ltac:(lia) Hs (arithR eps tiny) nt (mir3_mem d (flow_mem p c s)) S) as [[m' E] _].
  exists m'. constructor; auto; try reflexivity.
  - destruct H4 as [H4| ->]; [left; exact H4|right]. split; [|left; reflexivity]. right. split; reflexivity.
  - apply mir3_data. exact Hd.
Qed.
Lemma tr_box_end eps tiny f i d2 nit nt m : (0 < nit)%nat -> exists m', walled_end2 (arithR eps tiny) (transpose_run (box_run (box_opts f i d2) nit)) 1 nt m m'.
Proof. intros H. exact (box_end eps tiny f i d2 nit nt m H). Qed.
