(** Properties C123 to C125: channels between rigid walls and their mirror images
    (2D solver, cyclic along the first dimension, exact arithmetic). *)
From Coq Require Import ZArith QArith List Bool Lia Reals Lra.
From Verif Require Import ModelIndex ModelRun Lang Stencil FormCommon Form2D Solver1D Solver2D Arith SpecReal SpecThreads SpecFields SpecFields2 SpecNum2
  SpecRun2 SpecChannel2 SpecImages2 ProofsThread2D ProofsOne2D ProofsCyclic2D ProofsWitness2D ProofsWallsWit ProofsChannelEx ProofsImagesRun ProofsImagesNum
  ProofsImagesWit ProofsImagesEx.
Import ListNotations.
Local Open Scope R_scope.

(** C123: a run in a channel gives what the run with the mirror image of its data
    beyond one wall gives on a grid twice as wide without walls, *)
Theorem C123_channel_images : forall eps tiny r n n2 nt (m m' m2 m2' : loc -> R),
  channel_end2 (arithR eps tiny) r n nt m m' -> image_passes (s_o r) (s_nit r) ->
  with_image Ropp (s_lo r) (s_hi r) (n_eqns (s_cfg r)) (nug (s_o r)) m m2 -> cyclic_end2 (arithR eps tiny) (wide r) n2 nt m2 m2' ->
  forall e i j, (e < n_eqns (s_cfg r))%nat -> (s_lo r DX <= i <= s_hi r DX)%Z -> (s_lo r DY <= j <= 2 * s_hi r DY - s_lo r DY)%Z ->
  cell2 m2' e (newest2 r nt) i j = cell2 m' e (newest2 r nt) i (imaged (s_hi r DY) j).
Proof. intros eps tiny r n n2 nt m m' m2 m2' C. exact (images eps tiny r (ch_ok _ _ _ _ _ _ C) n n2 nt m m' m2 m2' C). Qed.
Print Assumptions C123_channel_images.
(** and that run does end; *)
Theorem C123_images_run : forall eps tiny r n nt (m m' m2 : loc -> R), channel_end2 (arithR eps tiny) r n nt m m' ->
  with_image Ropp (s_lo r) (s_hi r) (n_eqns (s_cfg r)) (nug (s_o r)) m m2 ->
  exists m2', cyclic_end2 (arithR eps tiny) (wide r) n nt m2 m2'.
Proof. intros eps tiny r n nt m m' m2 C. exact (images_exist eps tiny r (ch_ok _ _ _ _ _ _ C) n nt m m' m2 C). Qed.
Print Assumptions C123_images_run.
(** three iterations with and without [iga], two with all options of [box_opts];
    the peak has an image in row 5 *)
Example C123_example : (forall i, exists m', channel_end2 (arithR 1 1) (chan_run (box_opts true i false) 3) 1 7 (chan_mem 0) m') /\
  (forall f i d2, exists m', channel_end2 (arithR 1 1) (chan_run (box_opts f i d2) 2) 1 7 (chan_mem 0) m') /\
  (forall i, image_passes (box_opts true i false) 3) /\
  (forall f i d2, image_passes (box_opts f i d2) 2) /\
  let r := chan_run (box_opts true true false) 3 in
  with_image Ropp (s_lo r) (s_hi r) 1 false (chan_mem 0) (image_of r (chan_mem 0)) /\ cell2 (image_of r (chan_mem 0)) 0 false 1 5 = 5.
Proof.
  split; [|split; [|split; [|split; [|split]]]].
  - intros i. apply chan_end; auto.
  - intros f i d2. apply chan_end; auto.
  - intros i. right. split; [reflexivity|]. split; [reflexivity|]. left. reflexivity.
  - intros f i d2. left. auto.
  - apply (image_of_ok (chan_run (box_opts true true false) 3)).
  - reflexivity.
Qed.
(** With three iterations of [fct], [iga] and [div_2nd] it is not so: the last pass
    reads the antidiffusive velocities beyond the last wall. *)
Theorem C123_channel_images_refuted : exists r (m m2 m' m2' : loc -> Q) i j,
  channel_end2 (arithQ 0 0) r 1 1 m m' /\ with_image Qopp (s_lo r) (s_hi r) (n_eqns (s_cfg r)) true m m2 /\ cyclic_end2 (arithQ 0 0) (wide r) 1 1 m2 m2' /\
  on_grid (s_lo r) (s_hi r) i j /\
  ~ (cell2 m2' 0 (newest2 r 1) i j == cell2 m' 0 (newest2 r 1) i (imaged (s_hi r DY) j))%Q.
Proof. exact image_differs. Qed.
Print Assumptions C123_channel_images_refuted.

(** C124: non-negative fields stay non-negative if no cell, those along the walls
    counted twice as wide as they are, loses more than it contains; *)
Theorem C124_channel_sign : forall eps tiny r n nt (m m' : loc -> R), channel_end2 (arithR eps tiny) r n nt m m' ->
  image_passes (s_o r) (s_nit r) -> channel_outflow (s_lo r) (s_hi r) (nug (s_o r)) m ->
  s_nit r = 1%nat \/ (fct (s_o r) = true /\ 0 < eps) ->
  forall e, (e < n_eqns (s_cfg r))%nat -> (forall i j, in_channel (s_lo r) (s_hi r) i j -> 0 <= cell2 m e false i j) ->
  forall i j, on_grid (s_lo r) (s_hi r) i j -> 0 <= cell2 m' e (newest2 r nt) i j.
Proof. intros eps tiny r n nt m m' C IP FO S e He. exact (ch_sign eps tiny r n nt m m' C IP e He FO S). Qed.
Print Assumptions C124_channel_sign.
(** in divergence-free flow fields stay within their initial bounds; *)
Theorem C124_channel_bounds : forall eps tiny r n nt (m m' : loc -> R), channel_end2 (arithR eps tiny) r n nt m m' ->
  image_passes (s_o r) (s_nit r) -> channel_outflow (s_lo r) (s_hi r) (nug (s_o r)) m -> channel_divfree (s_lo r) (s_hi r) m ->
  forall e a b, (e < n_eqns (s_cfg r))%nat ->
  s_nit r = 1%nat \/ (fct (s_o r) = true /\ 0 < eps /\ (iga (s_o r) = true \/ oabs (s_o r) = true \/ 0 <= a)) ->
  (forall i j, in_channel (s_lo r) (s_hi r) i j -> a <= cell2 m e false i j <= b) ->
  forall i j, on_grid (s_lo r) (s_hi r) i j -> a <= cell2 m' e (newest2 r nt) i j <= b.
Proof. intros eps tiny r n nt m m' C IP FO HD e a b He S. exact (ch_bounds eps tiny r n nt m m' C IP e He a b FO S HD). Qed.
Print Assumptions C124_channel_bounds.
(** and the basic scheme keeps signs for any number of iterations if the Courant
    numbers add up to at most one half. *)
Theorem C124_channel_basic_sign : forall eps tiny r n nt (m m' : loc -> R) g cx cy, channel_end2 (arithR eps tiny) r n nt m m' ->
  iga (s_o r) = false -> fct (s_o r) = false -> div2 (s_o r) = false -> tot (s_o r) = false -> dfl (s_o r) = false -> fot (s_o r) = false ->
  (pfc (s_o r) = true \/ 0 < tiny) -> channel_gentle (s_lo r) (s_hi r) (nug (s_o r)) m g cx cy ->
  forall e, (e < n_eqns (s_cfg r))%nat -> (forall i j, in_channel (s_lo r) (s_hi r) i j -> 0 <= cell2 m e false i j) ->
  forall i j, on_grid (s_lo r) (s_hi r) i j -> 0 <= cell2 m' e (newest2 r nt) i j.
Proof. intros eps tiny r n nt m m' g cx cy C H1 H2 H3 H4 H5 H6 H7 HG e He. exact (ch_basic_sign eps tiny r n nt m m' e g cx cy C He H1 H2 H3 H4 H5 H6 H7 HG). Qed.
Print Assumptions C124_channel_basic_sign.
(** a stream with a swirl carrying a peak *)
Example C124_example : let m := flow_mem peak (1 / 8) (1 / 8) in
  (forall i, exists m', channel_end2 (arithR 1 1) (chan_run (box_opts true i false) 3) 1 7 m m') /\
  (exists m', channel_end2 (arithR 1 1) (chan_run (box_opts false false false) 2) 1 7 m m') /\
  (forall i, image_passes (box_opts true i false) 3) /\
  channel_outflow (fun _ => 0%Z) (fun _ => 3%Z) false m /\ channel_divfree (fun _ => 0%Z) (fun _ => 3%Z) m /\
  channel_gentle (fun _ => 0%Z) (fun _ => 3%Z) false m 1 (1 / 4) (1 / 8) /\
  (forall i j, in_channel (fun _ => 0%Z) (fun _ => 3%Z) i j -> 1 <= cell2 m 0 false i j <= 5) /\
  cell2 m 0 false 1 1 = 5 /\ cell2 m 0 false 0 0 = 1 /\ face2 m DY 2 1 = 1 / 8.
Proof.
  cbv zeta. split; [intros i; apply flow_end; auto|]. split; [apply flow_end; auto|].
  split; [intros i; right; split; [reflexivity|split; [reflexivity|left; reflexivity]]|].
  split; [apply flow_out|]. split; [apply flow_div|]. split; [apply flow_gentle|]. split; [apply flow_peak|]. split; [reflexivity|]. split; reflexivity.
Qed.

(** C125: divergence-free flow leaves constant fields alone; *)
Theorem C125_channel_constants : forall eps tiny r n nt (m m' : loc -> R), channel_end2 (arithR eps tiny) r n nt m m' ->
  image_passes (s_o r) (s_nit r) -> channel_divfree (s_lo r) (s_hi r) m ->
  (div2 (s_o r) = false \/ (div3 (s_o r) = false /\ div3dt (s_o r) = false) \/ s_sp r = aver4 \/ exists c, stream (s_lo r) (s_hi r) m c) ->
  forall e c, (e < n_eqns (s_cfg r))%nat -> (forall i j, in_channel (s_lo r) (s_hi r) i j -> cell2 m e false i j = c) ->
  forall i j, on_grid (s_lo r) (s_hi r) i j -> cell2 m' e (newest2 r nt) i j = c.
Proof. intros eps tiny r n nt m m' C IP HD O e c He. exact (ch_constants eps tiny r n nt m m' C IP e He c HD O). Qed.
Print Assumptions C125_channel_constants.
(** and a stream with Courant number one moves any field by one column in each step. *)
Theorem C125_channel_stream : forall eps tiny r n nt (m m' : loc -> R) k, channel_end2 (arithR eps tiny) r n nt m m' ->
  image_passes (s_o r) (s_nit r) -> nug (s_o r) = false -> div2 (s_o r) = false \/ (iga (s_o r) = true /\ div3dt (s_o r) = false) ->
  (k = 0 \/ k = 1 \/ k = -1)%Z -> stream (s_lo r) (s_hi r) m (IZR k) ->
  forall e, (e < n_eqns (s_cfg r))%nat -> forall i j, on_grid (s_lo r) (s_hi r) i j ->
  cell2 m' e (newest2 r nt) i j = cell2 m e false (wrap2 (s_lo r) (s_hi r) DX (i - k * Z.of_nat nt)) j.
Proof. intros eps tiny r n nt m m' k C IP H1 H2 H3 U e He. exact (ch_stream eps tiny r n nt m m' C IP e He k H1 H2 H3 U). Qed.
Print Assumptions C125_channel_stream.
Example C125_example :
  (forall f i d2, exists m', channel_end2 (arithR 1 1) (chan_run (box_opts f i d2) 2) 1 7 (flow_mem (fun _ _ => 4) (1 / 8) (1 / 8)) m') /\
  channel_divfree (fun _ => 0%Z) (fun _ => 3%Z) (flow_mem (fun _ _ => 4) (1 / 8) (1 / 8)) /\ div3 (box_opts true true true) = false /\
  (forall f i d2, exists m', channel_end2 (arithR 1 1) (chan_run (box_opts f i d2) 2) 1 7 (flow_mem peak (-1) 0) m') /\
  stream (fun _ => 0%Z) (fun _ => 3%Z) (flow_mem peak (-1) 0) (-1) /\ nug (box_opts true true true) = false /\
  cell2 (flow_mem peak (-1) 0) 0 false 1 1 <> cell2 (flow_mem peak (-1) 0) 0 false 2 1.
Proof.
  split; [intros; apply flow_end; auto|]. split; [apply flow_div|]. split; [reflexivity|]. split; [intros; apply flow_end; auto|].
  split; [apply flow_stream|]. split; [reflexivity|]. unfold cell2, flow_mem, peak. cbn. lra.
Qed.
