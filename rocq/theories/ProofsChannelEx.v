(** A channel for the examples beside the properties of runs in channels. *)
From Coq Require Import ZArith List Bool Lia Reals Lra.
From Verif Require Import ModelIndex ModelRun Lang Stencil FormCommon Form2D Solver1D Solver2D Arith SpecReal SpecThreads SpecFields SpecFields2 SpecNum2
  SpecChannel2 ProofsThread2D ProofsCyclic2D ProofsOne2D ProofsWallsWit.
Import ListNotations.
Local Open Scope Z_scope.

Definition chan_run (o : fl) (nit : nat) : run2 :=
  {| s_o := o; s_sp := exact; s_tp := noextrp; s_cfg := {| n_eqns := 1; delayed_step := 0%N |};
     s_nit := nit; s_freq := 0; s_scale := fun e => 0;
     s_bl := fun d => match d with DX => Cyclic2 | _ => Rigid2 end; s_br := fun d => match d with DX => Cyclic2 | _ => Rigid2 end;
     s_lo := fun _ => 0; s_hi := fun d => 3 |}.
Lemma chan_ok f i d2 nit : (0 < nit)%nat -> run2_ok (chan_run (box_opts f i d2) nit).
Proof.
  intros H. constructor; [destruct f, i, d2; reflexivity|exact H|]. intros d _. destruct f, i, d2; vm_compute; discriminate.
Qed.
(** a stream along the channel, with a peak and a swirl, started [k] columns further on *)
Definition chan_mem (k : Z) : loc -> R := fun l =>
  match l with
  | (O, Psi false, (i, j, _)) => match (i + k) mod 3, j with 1, 1 => 5%R | 2, _ => 2%R | _, _ => (-1)%R end
  | (O, GC DX, (i, j, _)) => match (i + k) mod 3, j with 1, 1 => (1 / 4)%R | _, _ => (1 / 8)%R end
  | (O, GC DY, (i, j, _)) => match (i + k) mod 3, j with 1, 0 => (1 / 8)%R | 0, 1 => (- (1 / 8))%R | _, _ => 0%R end
  | _ => 0%R
  end.
Lemma chan_data k g : channel_data2 (fun _ => 0) (fun _ => 3) 1 g (chan_mem k).
Proof.
  assert (E : (3 + k) mod 3 = (0 + k) mod 3) by (replace (3 + k) with (0 + k + 1 * 3) by lia; apply Z.mod_add; lia).
  split; [|split]; intros; unfold cell2, face2, gfac2, chan_mem; rewrite ?E; try reflexivity.
Qed.
Lemma chan_moved k g : moved_along (fun _ => 0) (fun _ => 3) 1 g k (chan_mem 0) (chan_mem k).
Proof.
  assert (E : forall i, (wrap2 (fun _ => 0) (fun _ => 3) DX (i + k) + 0) mod 3 = (i + k) mod 3).
  { intros i. unfold wrap2. rewrite Z.add_0_r, Z.sub_0_r. change (3 - 0) with 3. rewrite Z.add_0_l. apply Z.mod_mod. lia. }
  split; [|split; [|split]]; intros; unfold cell2, face2, gfac2, chan_mem; rewrite ?E; reflexivity.
Qed.
Lemma chan_end eps tiny f i d2 nit n nt k : (0 < nit)%nat -> (n = 1 \/ f = false /\ n <= 4)%nat -> (0 < n)%nat -> (nit <= 2 \/ f = true)%nat ->
  exists m', channel_end2 (arithR eps tiny) (chan_run (box_opts f i d2) nit) n nt (chan_mem k) m'.
Proof.
  intros H1 H2 H3 H4. pose proof (chan_ok f i d2 nit H1) as K.
  assert (S : settled (chan_run (box_opts f i d2) nit) n) by (destruct H2 as [->|[-> _]]; [left; reflexivity|right; reflexivity]).
  assert (Hs : Z.of_nat n <= 3 - 0 + 1) by lia.
  destruct (finish2 (chan_run (box_opts f i d2) nit) K n H3 Hs (arithR eps tiny) nt (chan_mem k) S) as [[m' E] _].
  exists m'. constructor; auto; try reflexivity.
  - destruct H4 as [H4| ->]; [left; exact H4|right]. split; [|left; reflexivity]. right. split; reflexivity.
  - apply chan_data.
Qed.
