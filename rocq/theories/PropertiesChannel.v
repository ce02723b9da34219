(** Properties C121 and C122: the 2D solver in a channel, cyclic along the first
    dimension and closed by rigid walls along the second. *)
From Coq Require Import ZArith List Bool Lia Reals Lra.
From Verif Require Import ModelIndex ModelRun Lang Stencil FormCommon Form2D Solver1D Solver2D Arith SpecReal SpecThreads SpecFields SpecFields2 SpecNum2
  SpecBcond SpecChannel2 ProofsThread2D ProofsOne2D ProofsCyclic2D ProofsWallsWit ProofsChannelRun ProofsChannelEx.
Import ListNotations.
Local Open Scope R_scope.

(** C121: what a channel holds does not change, for any data whose last column
    repeats the first, any number of threads, steps and equations. *)
Theorem C121_channel_mass : forall eps tiny r n nt (m m' : loc -> R), channel_end2 (arithR eps tiny) r n nt m m' ->
  (forall i j, on_grid (s_lo r) (s_hi r) i j -> G2of (nug (s_o r)) m i j <> 0) ->
  forall e, (e < n_eqns (s_cfg r))%nat ->
  channel_mass (s_lo r) (s_hi r) (fun i j => G2of (nug (s_o r)) m i j * cell2 m' e (newest2 r nt) i j) =
  channel_mass (s_lo r) (s_hi r) (fun i j => G2of (nug (s_o r)) m i j * cell2 m e false i j).
Proof. intros eps tiny r n nt m m' C Z e He. exact (channel_keeps_mass eps tiny r n nt m m' e C He Z). Qed.
Print Assumptions C121_channel_mass.
(** a channel of 3 x 4 cells, all options of [box_opts] with two iterations, and
    three of them with [fct] *)
Example C121_example : (forall f i d2, exists m', channel_end2 (arithR 1 1) (chan_run (box_opts f i d2) 2) 1 7 (chan_mem 0) m') /\
  (forall i d2, exists m', channel_end2 (arithR 1 1) (chan_run (box_opts true i d2) 3) 1 7 (chan_mem 0) m') /\
  (forall i j, G2of false (chan_mem 0) i j <> 0) /\ channel_mass (fun _ => 0%Z) (fun _ => 3%Z) (cell2 (chan_mem 0) 0 false) = 6.
Proof.
  split; [|split; [|split]].
  - intros f i d2. apply chan_end; auto.
  - intros i d2. apply chan_end; auto.
  - intros. cbn. lra.
  - unfold channel_mass, total, walled_mass, sum_from, cell2. change (Z.to_nat (3 - 0)) with 3%nat.
    change (Z.to_nat (last (0%Z, 3%Z) - first (0%Z, 3%Z) - 1)) with 2%nat. cbn. lra.
Qed.

(** C122: the last column keeps repeating the first; *)
Theorem C122_channel_edges : forall ar r n nt m m', channel_end2 ar r n nt m m' ->
  forall e j, (e < n_eqns (s_cfg r))%nat -> (s_lo r DY <= j <= s_hi r DY)%Z ->
  cell2 m' e (newest2 r nt) (s_hi r DX) j = cell2 m' e (newest2 r nt) (s_lo r DX) j.
Proof. intros ar r n nt m m' C. exact (channel_edges r ar (ch_ok _ _ _ _ _ _ C) n nt m m' C). Qed.
Print Assumptions C122_channel_edges.
(** moving all data along the channel moves the result by as much; *)
Theorem C122_channel_moved : forall ar r n1 n2 nt k m1 m2 m1' m2', channel_end2 ar r n1 nt m1 m1' -> channel_end2 ar r n2 nt m2 m2' ->
  moved_along (s_lo r) (s_hi r) (n_eqns (s_cfg r)) (nug (s_o r)) k m1 m2 ->
  forall e i j, (e < n_eqns (s_cfg r))%nat -> (s_lo r DX <= i <= s_hi r DX)%Z -> (s_lo r DY <= j <= s_hi r DY)%Z ->
  cell2 m2' e (newest2 r nt) i j = cell2 m1' e (newest2 r nt) (wrap2 (s_lo r) (s_hi r) DX (i + k)) j.
Proof. intros ar r n1 n2 nt k m1 m2 m1' m2' C. exact (channel_moved r ar (ch_ok _ _ _ _ _ _ C) n1 n2 nt k m1 m2 m1' m2' C). Qed.
Print Assumptions C122_channel_moved.
(** and neither the number of threads nor the memory users have not written matters. *)
Theorem C122_channel_data_only : forall ar r n1 n2 nt m1 m2 m1' m2', channel_end2 ar r n1 nt m1 m1' -> channel_end2 ar r n2 nt m2 m2' ->
  same_data2 (s_lo r) (s_hi r) (n_eqns (s_cfg r)) (nug (s_o r)) m1 m2 ->
  forall e i j, (e < n_eqns (s_cfg r))%nat -> (s_lo r DX <= i <= s_hi r DX)%Z -> (s_lo r DY <= j <= s_hi r DY)%Z ->
  cell2 m1' e (newest2 r nt) i j = cell2 m2' e (newest2 r nt) i j.
Proof. intros ar r n1 n2 nt m1 m2 m1' m2' C. exact (channel_data_only r ar (ch_ok _ _ _ _ _ _ C) n1 n2 nt m1 m2 m1' m2' C). Qed.
Print Assumptions C122_channel_data_only.
(** three threads, two columns further on *)
Example C122_example : (exists m', channel_end2 (arithR 1 1) (chan_run (box_opts false true true) 2) 1 5 (chan_mem 0) m') /\
  (exists m', channel_end2 (arithR 1 1) (chan_run (box_opts false true true) 2) 3 5 (chan_mem 2) m') /\
  moved_along (fun _ => 0%Z) (fun _ => 3%Z) 1 true 2 (chan_mem 0) (chan_mem 2) /\ chan_mem 2 (O, Psi false, (0, 1, 0)%Z) <> chan_mem 0 (O, Psi false, (0, 1, 0)%Z).
Proof.
  split; [apply chan_end; auto|]. split; [apply chan_end; auto|]. split; [apply chan_moved|]. cbn. lra.
Qed.
