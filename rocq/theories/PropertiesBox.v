(** Properties C126 to C128: boxes closed by rigid walls and their mirror images (2D
    solver, exact arithmetic). *)
From Coq Require Import ZArith QArith List Bool Lia Reals Lra.
From Verif Require Import ModelIndex ModelRun Lang Stencil FormCommon Form2D Solver1D Solver2D Arith SpecReal SpecThreads SpecFields SpecFields2 SpecNum2
  SpecRun2 SpecWalls2 SpecWalls3 SpecChannel2 SpecImages2 SpecImagesBox ProofsThread2D ProofsOne2D ProofsCyclic2D ProofsWitness2D ProofsWallsWit ProofsWallsUpWit
  ProofsBoxRun ProofsBoxNum ProofsBoxEx.
Import ListNotations.
Local Open Scope R_scope.

(** C126: a run in a box gives what the run with the mirror image of its data beyond
    one wall gives in a channel twice as long, *)
Theorem C126_box_images : forall eps tiny r n n2 nt (m m' m2 m2' : loc -> R),
  walled_end2 (arithR eps tiny) r n nt m m' -> image_passes (s_o r) (s_nit r) ->
  with_image_along Ropp (s_lo r) (s_hi r) (n_eqns (s_cfg r)) (nug (s_o r)) m m2 -> channel_end2 (arithR eps tiny) (long r) n2 nt m2 m2' ->
  forall e i j, (e < n_eqns (s_cfg r))%nat -> (s_lo r DX <= i <= 2 * s_hi r DX - s_lo r DX)%Z -> (s_lo r DY <= j <= s_hi r DY)%Z ->
  cell2 m2' e (newest2 r nt) i j = cell2 m' e (newest2 r nt) (imaged (s_hi r DX) i) j.
Proof. intros eps tiny r n n2 nt m m' m2 m2' C. exact (box_images eps tiny r (we_ok _ _ _ _ _ _ C) n n2 nt m m' m2 m2' C). Qed.
Print Assumptions C126_box_images.
(** and that run does end. *)
Theorem C126_images_run : forall eps tiny r n nt (m m' m2 : loc -> R), walled_end2 (arithR eps tiny) r n nt m m' ->
  image_passes (s_o r) (s_nit r) -> with_image_along Ropp (s_lo r) (s_hi r) (n_eqns (s_cfg r)) (nug (s_o r)) m m2 ->
  exists m2', channel_end2 (arithR eps tiny) (long r) 1 nt m2 m2'.
Proof. intros eps tiny r n nt m m' m2 C. exact (box_images_exist eps tiny r (we_ok _ _ _ _ _ _ C) n nt m m' m2 C). Qed.
Print Assumptions C126_images_run.
(** three iterations with and without [iga], two with all options of [box_opts]; the
    peak has an image in column 5 *)
Example C126_example : (forall f i d2, exists m', walled_end2 (arithR 1 1) (box_run (box_opts f i d2) 3) 1 7 sw_mem m') /\
  (forall f i d2, exists m', walled_end2 (arithR 1 1) (box_run (box_opts f i d2) 2) 1 7 sw_mem m') /\
  (forall i, image_passes (box_opts true i false) 3) /\ (forall f i d2, image_passes (box_opts f i d2) 2) /\
  let r := box_run (box_opts true true false) 3 in
  with_image_along Ropp (s_lo r) (s_hi r) 1 false sw_mem (image_along r sw_mem) /\ cell2 (image_along r sw_mem) 0 false 5 2 = 5 /\
  face2 (image_along r sw_mem) DX 4 1 = - (1 / 4).
Proof.
  split; [|split; [|split; [|split; [|split; [|split]]]]].
  - intros f i d2. apply box_end; auto.
  - intros f i d2. apply box_end; auto.
  - intros i. right. split; [reflexivity|]. split; [reflexivity|]. left. reflexivity.
  - intros f i d2. left. auto.
  - apply (image_along_ok (box_run (box_opts true true false) 3)).
  - reflexivity.
  - reflexivity.
Qed.
(** With three iterations of [fct], [iga] and [div_2nd] it is not so: the last pass
    reads the antidiffusive velocities beyond the last wall. *)
Theorem C126_box_images_refuted : exists r (m m2 m' m2' : loc -> Q) i j,
  walled_end2 (arithQ 0 0) r 1 1 m m' /\ with_image_along Qopp (s_lo r) (s_hi r) (n_eqns (s_cfg r)) true m m2 /\
  channel_end2 (arithQ 0 0) (long r) 1 1 m2 m2' /\ on_grid (s_lo r) (s_hi r) i j /\
  ~ (cell2 m2' 0 (newest2 r 1) i j == cell2 m' 0 (newest2 r 1) (imaged (s_hi r DX) i) j)%Q.
Proof. exact box_image_differs. Qed.
Print Assumptions C126_box_images_refuted.

(** C127: non-negative fields stay non-negative if no cell, those along the walls
    counted whole, loses more than it contains; *)
Theorem C127_box_sign : forall eps tiny r n nt (m m' : loc -> R), walled_end2 (arithR eps tiny) r n nt m m' ->
  image_passes (s_o r) (s_nit r) -> box_outflow_ok (s_lo r) (s_hi r) (nug (s_o r)) m ->
  s_nit r = 1%nat \/ (fct (s_o r) = true /\ 0 < eps) ->
  forall e, (e < n_eqns (s_cfg r))%nat -> (forall i j, on_grid (s_lo r) (s_hi r) i j -> 0 <= cell2 m e false i j) ->
  forall i j, on_grid (s_lo r) (s_hi r) i j -> 0 <= cell2 m' e (newest2 r nt) i j.
Proof. intros eps tiny r n nt m m' C IP FO S e He. exact (box_sign eps tiny r n nt m m' C IP e He FO S). Qed.
Print Assumptions C127_box_sign.
(** in divergence-free flow fields stay within their initial bounds; *)
Theorem C127_box_bounds : forall eps tiny r n nt (m m' : loc -> R), walled_end2 (arithR eps tiny) r n nt m m' ->
  image_passes (s_o r) (s_nit r) -> box_outflow_ok (s_lo r) (s_hi r) (nug (s_o r)) m -> box_divergence_free (s_lo r) (s_hi r) m ->
  forall e a b, (e < n_eqns (s_cfg r))%nat ->
  s_nit r = 1%nat \/ (fct (s_o r) = true /\ 0 < eps /\ (iga (s_o r) = true \/ oabs (s_o r) = true \/ 0 <= a)) ->
  (forall i j, on_grid (s_lo r) (s_hi r) i j -> a <= cell2 m e false i j <= b) ->
  forall i j, on_grid (s_lo r) (s_hi r) i j -> a <= cell2 m' e (newest2 r nt) i j <= b.
Proof. intros eps tiny r n nt m m' C IP FO HD e a b He S. exact (box_bounds eps tiny r n nt m m' C IP e He a b FO S HD). Qed.
Print Assumptions C127_box_bounds.
(** and the basic scheme keeps signs for any number of iterations if the Courant
    numbers add up to at most one half. *)
Theorem C127_box_basic_sign : forall eps tiny r n nt (m m' : loc -> R) g cx cy, walled_end2 (arithR eps tiny) r n nt m m' ->
  iga (s_o r) = false -> fct (s_o r) = false -> div2 (s_o r) = false -> tot (s_o r) = false -> dfl (s_o r) = false -> fot (s_o r) = false ->
  (pfc (s_o r) = true \/ 0 < tiny) -> box_gentle (s_lo r) (s_hi r) (nug (s_o r)) m g cx cy ->
  forall e, (e < n_eqns (s_cfg r))%nat -> (forall i j, on_grid (s_lo r) (s_hi r) i j -> 0 <= cell2 m e false i j) ->
  forall i j, on_grid (s_lo r) (s_hi r) i j -> 0 <= cell2 m' e (newest2 r nt) i j.
Proof. intros eps tiny r n nt m m' g cx cy C H1 H2 H3 H4 H5 H6 H7 HG e He. exact (box_basic_sign eps tiny r n nt m m' e g cx cy C He H1 H2 H3 H4 H5 H6 H7 HG). Qed.
Print Assumptions C127_box_basic_sign.
(** a swirl carrying a peak *)
Example C127_example :
  (forall i, exists m', walled_end2 (arithR 1 1) (box_run (box_opts true i false) 3) 1 7 sw_mem m') /\
  (exists m', walled_end2 (arithR 1 1) (box_run (box_opts false false false) 4) 1 7 sw_mem m') /\
  (forall i, image_passes (box_opts true i false) 3) /\
  box_outflow_ok (fun _ => 0%Z) (fun _ => 3%Z) false sw_mem /\ box_divergence_free (fun _ => 0%Z) (fun _ => 3%Z) sw_mem /\
  box_gentle (fun _ => 0%Z) (fun _ => 3%Z) false sw_mem 1 (1 / 4) (1 / 4) /\
  (forall i j, on_grid (fun _ => 0%Z) (fun _ => 3%Z) i j -> 1 <= cell2 sw_mem 0 false i j <= 5) /\
  cell2 sw_mem 0 false 1 2 = 5 /\ cell2 sw_mem 0 false 0 0 = 1 /\ face2 sw_mem DX 1 1 = 1 / 4.
Proof.
  split; [intros i; apply box_end; auto|]. split; [apply box_end; auto|].
  split; [intros i; right; split; [reflexivity|split; [reflexivity|left; reflexivity]]|].
  split; [exact sw_outflow|]. split; [exact sw_divfree|]. split; [exact sw_gentle|]. split; [exact sw_bounds|]. split; [reflexivity|]. split; reflexivity.
Qed.

(** C128: divergence-free flow in a box leaves constant fields alone. *)
Theorem C128_box_constants : forall eps tiny r n nt (m m' : loc -> R), walled_end2 (arithR eps tiny) r n nt m m' ->
  image_passes (s_o r) (s_nit r) -> box_divergence_free (s_lo r) (s_hi r) m ->
  (div2 (s_o r) = false \/ (div3 (s_o r) = false /\ div3dt (s_o r) = false) \/ s_sp r = aver4) ->
  forall e c, (e < n_eqns (s_cfg r))%nat -> (forall i j, on_grid (s_lo r) (s_hi r) i j -> cell2 m e false i j = c) ->
  forall i j, on_grid (s_lo r) (s_hi r) i j -> cell2 m' e (newest2 r nt) i j = c.
Proof. intros eps tiny r n nt m m' C IP HD O e c He. exact (box_constants eps tiny r n nt m m' C IP e He c HD O). Qed.
Print Assumptions C128_box_constants.
Example C128_example :
  (forall f i d2, exists m', walled_end2 (arithR 1 1) (box_run (box_opts f i d2) 2) 1 7 sw_const m') /\
  (forall f i d2, image_passes (box_opts f i d2) 2) /\
  box_divergence_free (fun _ => 0%Z) (fun _ => 3%Z) sw_const /\ div3 (box_opts true true true) = false /\ div3dt (box_opts true true true) = false /\
  (forall i j, on_grid (fun _ => 0%Z) (fun _ => 3%Z) i j -> cell2 sw_const 0 false i j = 4) /\ face2 sw_const DY 2 1 = 1 / 4.
Proof.
  split; [intros; apply box_end; auto|]. split; [intros; left; auto|]. split; [exact sw_const_div|]. repeat split; reflexivity.
Qed.
