(** Streams in a channel for the examples beside the properties proved by images. *)
From Coq Require Import ZArith List Bool Lia Reals Lra.
From Verif Require Import ModelIndex ModelRun Lang Stencil FormCommon Form2D Solver1D Solver2D Arith SpecReal SpecThreads SpecFields SpecFields2 SpecNum2
  SpecRun2 SpecChannel2 SpecImages2 ProofsThread2D ProofsCyclic2D ProofsOne2D ProofsWallsWit ProofsChannelEx.
Import ListNotations.
Local Open Scope Z_scope.

(** fields [p], a stream [c] along the channel and a swirl [s] in its middle *)
Definition flow_mem (p : Z -> Z -> R) (c s : R) : loc -> R := fun l =>
  match l with
  | (O, Psi false, (i, j, _)) => p (i mod 3) j
  | (O, GC DX, (i, j, _)) => match i, j with 1, 1 => (c + s)%R | 1, 2 => (c - s)%R | _, _ => c end
  | (O, GC DY, (i, j, _)) => match i, j with 1, 1 => (- s)%R | 2, 1 => s | _, _ => 0%R end
  | _ => 0%R
  end.
Definition peak (i j : Z) : R := match i, j with 1, 1 => 5%R | 2, _ => 2%R | _, _ => 1%R end.

Lemma flow_data p c s g : channel_data2 (fun _ => 0) (fun _ => 3) 1 g (flow_mem p c s).
Proof. split; [|split]; intros; reflexivity. Qed.
Lemma flow_end eps tiny f i d2 nit nt p c s : (0 < nit)%nat -> (nit <= 2 \/ f = true)%nat ->
  exists m', channel_end2 (arithR eps tiny) (chan_run (box_opts f i d2) nit) 1 nt (flow_mem p c s) m'.
Proof.
  intros H1 H4. pose proof (chan_ok f i d2 nit H1) as K.
  assert (S : settled (chan_run (box_opts f i d2) nit) 1) by (left; reflexivity).
  assert (Hs : Z.of_nat 1 <= 3 - 0 + 1) by lia.
  destruct (finish2 (chan_run (box_opts f i d2) nit) K 1 ltac:(lia) Hs (arithR eps tiny) nt (flow_mem p c s) S) as [[m' E] _].
  exists m'. constructor; auto; try reflexivity.
  - destruct H4 as [H4| ->]; [left; exact H4|right]. split; [|left; reflexivity]. right. split; reflexivity.
  - apply flow_data.
Qed.
Lemma flow_cells i j : in_channel (fun _ => 0) (fun _ => 3) i j -> (i = 0 \/ i = 1 \/ i = 2) /\ (j = 0 \/ j = 1 \/ j = 2 \/ j = 3).
Proof. intros [H1 H2]. lia. Qed.
Ltac each_cell H := apply flow_cells in H; destruct H as [[-> |[-> | ->]] [-> |[-> |[-> | ->]]]].
Lemma flow_out p : channel_outflow (fun _ => 0) (fun _ => 3) false (flow_mem p (1 / 8) (1 / 8)).
Proof.
  intros i j H. each_cell H; (split; [cbn; lra|]); unfold east, west, ch_north, ch_south, wrap2, face2, flow_mem, G2of;
    cbn; unfold Rmax, Rmin; repeat destruct Rle_dec; lra.
Qed.
Lemma flow_div p c s : channel_divfree (fun _ => 0) (fun _ => 3) (flow_mem p c s).
Proof. intros i j H. each_cell H; unfold east, west, ch_north, ch_south, wrap2, face2, flow_mem; cbn; lra. Qed.
Lemma flow_gentle p : channel_gentle (fun _ => 0) (fun _ => 3) false (flow_mem p (1 / 8) (1 / 8)) 1 (1 / 4) (1 / 8).
Proof.
  split; [lra|]. split; [lra|]. split.
  - intros i j H. split; [cbn; lra|]. each_cell H; unfold face2, flow_mem; cbn; unfold Rabs; destruct Rcase_abs; lra.
  - intros i j H1 H2. assert (H : in_channel (fun _ => 0) (fun _ => 3) i j) by (split; lia).
    each_cell H; unfold face2, flow_mem; cbn; unfold Rabs; destruct Rcase_abs; lra.
Qed.
Lemma flow_stream p c : stream (fun _ => 0) (fun _ => 3) (flow_mem p c 0) c.
Proof.
  split.
  - intros i j H. each_cell H; unfold face2, flow_mem; cbn; lra.
  - intros i j H1 H2. assert (H : in_channel (fun _ => 0) (fun _ => 3) i j) by (split; lia). each_cell H; unfold face2, flow_mem; cbn; lra.
Qed.
Lemma flow_peak c s i j : in_channel (fun _ => 0) (fun _ => 3) i j -> (1 <= cell2 (flow_mem peak c s) 0 false i j <= 5)%R.
Proof. intros H. each_cell H; unfold cell2, flow_mem, peak; cbn; lra. Qed.
