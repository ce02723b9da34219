(** Properties C129 and C130: mirror images of channels and boxes, and boxes with
    exchanged axes (2D solver, exact arithmetic). *)
From Coq Require Import ZArith QArith List Bool Lia Reals Lra.
From Verif Require Import ModelIndex ModelRun Lang Stencil FormCommon Form2D Solver1D Solver2D Arith SpecReal SpecThreads SpecFields SpecFields2 SpecNum2
  SpecRun2 SpecSym2 SpecWalls2 SpecChannel2 SpecImages2 SpecImagesBox ProofsThread2D ProofsOne2D ProofsCyclic2D ProofsExamplesSym2D ProofsWallsWit ProofsWallsUpWit
  ProofsChannelEx ProofsImagesEx ProofsBoxSym ProofsBoxTr ProofsBoxEx ProofsBoxSymEx.
Import ListNotations.
Local Open Scope R_scope.

(** C129: the mirror image of the data of a channel, across it or along it, gives the
    mirror image of the result; *)
Theorem C129_channel_mirror : forall eps tiny r d n1 n2 nt (m1 m2 m1' m2' : loc -> R), In d [DX; DY] ->
  channel_end2 (arithR eps tiny) r n1 nt m1 m1' -> channel_end2 (arithR eps tiny) r n2 nt m2 m2' ->
  image_passes (s_o r) (s_nit r) -> mirrored2 Ropp (s_lo r) (s_hi r) (n_eqns (s_cfg r)) (nug (s_o r)) d m1 m2 ->
  forall e i j, (e < n_eqns (s_cfg r))%nat -> on_grid (s_lo r) (s_hi r) i j ->
  cell2 m2' e (newest2 r nt) i j = let ij := opposite d (s_lo r d + s_hi r d) (i, j) in cell2 m1' e (newest2 r nt) (fst ij) (snd ij).
Proof. intros eps tiny r d n1 n2 nt m1 m2 m1' m2' Hd C. exact (channel_mirror eps tiny r (ch_ok _ _ _ _ _ _ C) d n1 n2 nt m1 m2 m1' m2' Hd C). Qed.
Print Assumptions C129_channel_mirror.
(** and so does that of the data of a box. *)
Theorem C129_box_mirror : forall eps tiny r d n1 n2 nt (m1 m2 m1' m2' : loc -> R), In d [DX; DY] ->
  walled_end2 (arithR eps tiny) r n1 nt m1 m1' -> walled_end2 (arithR eps tiny) r n2 nt m2 m2' ->
  image_passes (s_o r) (s_nit r) -> mirrored2 Ropp (s_lo r) (s_hi r) (n_eqns (s_cfg r)) (nug (s_o r)) d m1 m2 ->
  forall e i j, (e < n_eqns (s_cfg r))%nat -> on_grid (s_lo r) (s_hi r) i j ->
  cell2 m2' e (newest2 r nt) i j = let ij := opposite d (s_lo r d + s_hi r d) (i, j) in cell2 m1' e (newest2 r nt) (fst ij) (snd ij).
Proof. exact box_mirror. Qed.
Print Assumptions C129_box_mirror.
(** a stream with a swirl in a channel, a swirl in a box *)
Example C129_example : let m := flow_mem peak (1 / 8) (1 / 8) in
  (forall i, exists m', channel_end2 (arithR 1 1) (chan_run (box_opts true i false) 3) 1 7 m m') /\
  (forall i d, In d [DX; DY] -> exists m', channel_end2 (arithR 1 1) (chan_run (box_opts true i false) 3) 1 7 (mir3_mem d m) m') /\
  (forall i m, exists m', walled_end2 (arithR 1 1) (box_run (box_opts true i false) 3) 1 7 m m') /\
  (forall i, image_passes (box_opts true i false) 3) /\
  (forall m d, In d [DX; DY] -> mirrored2 Ropp (fun _ => 0%Z) (fun _ => 3%Z) 1 false d m (mir3_mem d m)) /\
  cell2 (mir3_mem DY sw_mem) 0 false 1 1 = 5 /\ cell2 sw_mem 0 false 1 1 = 1.
Proof.
  cbv zeta. split; [intros i; apply flow_end; auto|]. split; [intros i d Hd; apply mir3_end; auto|]. split; [intros i m; apply box_end; auto|].
  split; [intros i; right; split; [reflexivity|split; [reflexivity|left; reflexivity]]|]. split; [intros m d; apply mir3_mirrored|]. split; reflexivity.
Qed.

(** C130: data with exchanged axes in the box with exchanged axes give the result with
    exchanged axes. *)
Theorem C130_box_axes : forall eps tiny r n1 n2 nt (m1 m2 m1' m2' : loc -> R),
  walled_end2 (arithR eps tiny) r n1 nt m1 m1' -> walled_end2 (arithR eps tiny) (transpose_run r) n2 nt m2 m2' ->
  image_passes (s_o r) (s_nit r) ->
  transposed2 (s_lo (transpose_run r)) (s_hi (transpose_run r)) (n_eqns (s_cfg r)) (nug (s_o r)) m1 m2 ->
  forall e i j, (e < n_eqns (s_cfg r))%nat -> on_grid (s_lo r) (s_hi r) i j ->
  cell2 m2' e (newest2 (transpose_run r) nt) j i = cell2 m1' e (newest2 r nt) i j.
Proof. exact box_transpose. Qed.
Print Assumptions C130_box_axes.
Example C130_example :
  (forall i, exists m', walled_end2 (arithR 1 1) (box_run (box_opts true i false) 3) 1 7 sw_mem m') /\
  (forall i, exists m', walled_end2 (arithR 1 1) (transpose_run (box_run (box_opts true i false) 3)) 1 7 (tr_mem sw_mem) m') /\
  (forall i, image_passes (box_opts true i false) 3) /\
  transposed2 (fun _ => 0%Z) (fun _ => 3%Z) 1 false sw_mem (tr_mem sw_mem) /\
  cell2 (tr_mem sw_mem) 0 false 2 1 = 5 /\ cell2 sw_mem 0 false 2 1 = 1.
Proof.
  split; [intros i; apply box_end; auto|]. split; [intros i; apply tr_box_end; auto|].
  split; [intros i; right; split; [reflexivity|split; [reflexivity|left; reflexivity]]|].
  split; [split; [|split; [|split]]; reflexivity|]. split; reflexivity.
Qed.
