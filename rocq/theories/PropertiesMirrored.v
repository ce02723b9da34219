(** Properties C134 and C135: runs between rigid walls compute the published
    algorithm on mirrored data, and use only what users set. *)
From Coq Require Import ZArith List Bool Lia Reals Lra.
From Verif Require Import ModelIndex ModelRun Lang Stencil FormCommon Form2D Solver1D Solver2D Arith SpecReal SpecThreads SpecFields SpecFields2 SpecNum2
  SpecRun2 SpecSym2 SpecMpdata2 SpecWalls2 SpecChannel2 SpecImages2 SpecMirrored ProofsThread1D ProofsThread2D ProofsOne2D ProofsCyclic1D ProofsCyclic2D ProofsExamplesSym2D ProofsWallsWit ProofsWallsUpWit
  ProofsChannelEx ProofsImagesEx ProofsWallsLinEx ProofsBoxEx ProofsMirrored.
Import ListNotations.
Local Open Scope R_scope.

(** C134: in a channel the result is that of MPDATA on the plane, for data continued
    periodically along the channel and mirrored at its walls; *)
Theorem C134_channel_mpdata : forall eps tiny r n nt (m m' : loc -> R), channel_end2 (arithR eps tiny) r n nt m m' ->
  image_passes (s_o r) (s_nit r) ->
  oabs (s_o r) = false -> tot (s_o r) = false -> dfl (s_o r) = false -> div2 (s_o r) = false -> fot (s_o r) = false ->
  s_freq r = 0%Z -> forall e, (e < n_eqns (s_cfg r))%nat -> s_scale r e = 0%Z ->
  let x := wrap2 (s_lo r) (s_hi r) DX in
  let y := refl (s_lo r DY) (s_hi r DY) in
  forall i j, on_grid (s_lo r) (s_hi r) i j ->
  cell2 m' e (newest2 r nt) i j =
  mpdata2 (fun i j => G2of (nug (s_o r)) m (x i) (y j)) (fun i j => face2 m DX (x i) (y j))
    (fun i j => refl_face (s_lo r DY) (s_hi r DY) (face2 m DY (x i)) j)
    (iga (s_o r)) (fct (s_o r)) (pfc (s_o r)) eps tiny (s_nit r) nt (fun i j => cell2 m e false (x i) (y j)) i j.
Proof. intros eps tiny r n nt m m' C IP H1 H2 H3 H4 H5 H6 e He H7. exact (ch_textbook eps tiny r n nt m m' C IP H1 H2 H3 H4 H5 H6 e He H7). Qed.
Print Assumptions C134_channel_mpdata.
(** in a box, for data mirrored at all four walls. *)
Theorem C134_box_mpdata : forall eps tiny r n nt (m m' : loc -> R), walled_end2 (arithR eps tiny) r n nt m m' ->
  image_passes (s_o r) (s_nit r) ->
  oabs (s_o r) = false -> tot (s_o r) = false -> dfl (s_o r) = false -> div2 (s_o r) = false -> fot (s_o r) = false ->
  s_freq r = 0%Z -> forall e, (e < n_eqns (s_cfg r))%nat -> s_scale r e = 0%Z ->
  let x := refl (s_lo r DX) (s_hi r DX) in
  let y := refl (s_lo r DY) (s_hi r DY) in
  forall i j, on_grid (s_lo r) (s_hi r) i j ->
  cell2 m' e (newest2 r nt) i j =
  mpdata2 (fun i j => G2of (nug (s_o r)) m (x i) (y j)) (fun i j => refl_face (s_lo r DX) (s_hi r DX) (fun i => face2 m DX i (y j)) i)
    (fun i j => refl_face (s_lo r DY) (s_hi r DY) (face2 m DY (x i)) j)
    (iga (s_o r)) (fct (s_o r)) (pfc (s_o r)) eps tiny (s_nit r) nt (fun i j => cell2 m e false (x i) (y j)) i j.
Proof. intros eps tiny r n nt m m' C IP H1 H2 H3 H4 H5 H6 e He H7. exact (bx_textbook eps tiny r n nt m m' C IP H1 H2 H3 H4 H5 H6 e He H7). Qed.
Print Assumptions C134_box_mpdata.
(** Three iterations with and without flux correction; cells 0 to 3 beyond walls at both
    ends: cell 4 is the image of cell 2, cell -1 of cell 1, and the velocity at the face
    beyond the last wall is that before it, reversed. *)
Example C134_example :
  (forall f, exists m', channel_end2 (arithR 1 1) (chan_run (box_opts f false false) 3) 1 7 (flow_mem peak (1 / 8) (1 / 8)) m') /\
  (forall f, exists m', walled_end2 (arithR 1 1) (box_run (box_opts f false false) 3) 1 7 sw_mem m') /\
  (forall f, image_passes (box_opts f false false) 3 /\ oabs (box_opts f false false) = false /\ tot (box_opts f false false) = false /\
    dfl (box_opts f false false) = false /\ fot (box_opts f false false) = false) /\
  s_scale (chan_run (box_opts true false false) 3) 0 = 0%Z /\ s_freq (chan_run (box_opts true false false) 3) = 0%Z /\
  s_scale (box_run (box_opts true false false) 3) 0 = 0%Z /\ s_freq (box_run (box_opts true false false) 3) = 0%Z /\
  refl 0 3 4 = 2%Z /\ refl 0 3 (-1) = 1%Z /\ refl 0 3 7 = 1%Z /\ (forall f, refl_face 0 3 f 3 = - f 2%Z) /\ (forall f, refl_face 0 3 f (-1) = - f 0%Z).
Proof.
  split; [|split; [|split; [|split; [|split; [|split; [|split; [|split; [|split; [|split; [|split]]]]]]]]]]; try reflexivity.
  - intros f. apply chan_end_of; try reflexivity; [apply chan_ok; lia|right; split; [left; reflexivity|right; split; reflexivity]|cbn; lia|apply flow_data].
  - intros f. apply box_end. lia.
  - intros f. split; [|repeat split]. right. split; [reflexivity|split; [reflexivity|right; reflexivity]].
Qed.

(** C135: in closed boxes neither the number of threads nor the memory users have not
    written matters (C122 for channels). *)
Theorem C135_box_data_only : forall eps tiny r n1 n2 nt (m1 m2 m1' m2' : loc -> R),
  walled_end2 (arithR eps tiny) r n1 nt m1 m1' -> walled_end2 (arithR eps tiny) r n2 nt m2 m2' ->
  image_passes (s_o r) (s_nit r) -> same_data2 (s_lo r) (s_hi r) (n_eqns (s_cfg r)) (nug (s_o r)) m1 m2 ->
  forall e i j, (e < n_eqns (s_cfg r))%nat -> on_grid (s_lo r) (s_hi r) i j ->
  cell2 m1' e (newest2 r nt) i j = cell2 m2' e (newest2 r nt) i j.
Proof. exact bx_fresh. Qed.
Print Assumptions C135_box_data_only.
(** a halo full of sevens *)
Example C135_example : let dirty := fun l : loc => let '(i, j, _) := snd l in
    if ((0 <=? i) && (i <=? 3) && (0 <=? j) && (j <=? 3))%Z then sw_mem l else 7 in
  (forall f i, exists m', walled_end2 (arithR 1 1) (box_run (box_opts f i true) 2) 1 7 sw_mem m') /\
  (forall f i, exists m', walled_end2 (arithR 1 1) (box_run (box_opts f i true) 2) 1 7 dirty m') /\
  (forall f i, image_passes (box_opts f i true) 2) /\
  same_data2 (fun _ => 0%Z) (fun _ => 3%Z) 1 false sw_mem dirty /\ dirty (O, Psi false, (-1, 2, 0)%Z) = 7.
Proof.
  cbv zeta. split; [|split; [|split; [|split]]]; try reflexivity.
  - intros f i. apply box_end. lia.
  - intros f i. apply box_end. lia.
  - intros f i. left. auto.
  - assert (B : forall i j, (0 <= i <= 3)%Z -> (0 <= j <= 3)%Z -> ((0 <=? i) && (i <=? 3) && (0 <=? j) && (j <=? 3))%Z = true)
      by (intros i j Hi Hj; rewrite !andb_true_iff, !Z.leb_le; lia).
    split; [|split; [|split]]; [| | |discriminate]; intros; unfold cell2, face2; cbn [snd]; rewrite B by lia; reflexivity.
Qed.
