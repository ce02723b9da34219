(** Properties C131 to C133: multiples and sums, options without effect on exact results,
    and one-dimensional flow, between rigid walls (2D solver, exact arithmetic). *)
From Coq Require Import ZArith List Bool Lia Reals Lra.
From Verif Require Import ModelIndex ModelRun Lang Stencil FormCommon Form2D Solver1D Solver2D Arith SpecReal SpecThreads SpecFields SpecFields2 SpecNum2
  SpecRun2 SpecSym2 SpecWalls2 SpecChannel2 SpecImages2 ProofsThread1D ProofsThread2D ProofsOne2D ProofsCyclic1D ProofsCyclic2D ProofsExamplesSym2D ProofsWallsWit ProofsWallsUpWit
  ProofsChannelEx ProofsImagesEx ProofsWallsLin ProofsWallsLinEx ProofsBoxEx.
Import ListNotations.
Local Open Scope R_scope.

(** C131: in channels multiplying the initial values by a positive number (by any
    nonzero number with [abs]) multiplies the result; *)
Theorem C131_channel_multiples : forall eps tiny r n1 n2 nt (m1 m2 m1' m2' : loc -> R) lam,
  channel_end2 (arithR eps tiny) r n1 nt m1 m1' -> channel_end2 (arithR eps tiny) r n2 nt m2 m2' ->
  image_passes (s_o r) (s_nit r) -> same_flow2 r m1 m2 ->
  fct (s_o r) = false -> pfc (s_o r) = true -> iga (s_o r) = false -> 0 < lam \/ oabs (s_o r) = true /\ lam <> 0 ->
  forall e, (e < n_eqns (s_cfg r))%nat ->
  (forall i j, in_channel (s_lo r) (s_hi r) i j -> cell2 m2 e false i j = lam * cell2 m1 e false i j) ->
  forall i j, on_grid (s_lo r) (s_hi r) i j -> cell2 m2' e (newest2 r nt) i j = lam * cell2 m1' e (newest2 r nt) i j.
Proof. intros eps tiny r n1 n2 nt m1 m2 m1' m2' lam C1 C2 IP F H1 H2 H3 H4 e He. exact (ch_multiple eps tiny r nt IP e He n1 n2 m1 m2 m1' m2' lam C1 C2 F H1 H2 H3 H4). Qed.
Print Assumptions C131_channel_multiples.
Theorem C131_box_multiples : forall eps tiny r n1 n2 nt (m1 m2 m1' m2' : loc -> R) lam,
  walled_end2 (arithR eps tiny) r n1 nt m1 m1' -> walled_end2 (arithR eps tiny) r n2 nt m2 m2' ->
  image_passes (s_o r) (s_nit r) -> same_flow2 r m1 m2 ->
  fct (s_o r) = false -> pfc (s_o r) = true -> iga (s_o r) = false -> 0 < lam \/ oabs (s_o r) = true /\ lam <> 0 ->
  forall e, (e < n_eqns (s_cfg r))%nat ->
  (forall i j, on_grid (s_lo r) (s_hi r) i j -> cell2 m2 e false i j = lam * cell2 m1 e false i j) ->
  forall i j, on_grid (s_lo r) (s_hi r) i j -> cell2 m2' e (newest2 r nt) i j = lam * cell2 m1' e (newest2 r nt) i j.
Proof. intros eps tiny r n1 n2 nt m1 m2 m1' m2' lam C1 C2 IP F H1 H2 H3 H4 e He. exact (bx_multiple eps tiny r nt IP e He n1 n2 m1 m2 m1' m2' lam C1 C2 F H1 H2 H3 H4). Qed.
Print Assumptions C131_box_multiples.
(** changing the sign of the initial values changes the sign of the result (with
    [iga] or [abs], also with flux correction); *)
Theorem C131_channel_sign_symmetry : forall eps tiny r n1 n2 nt (m1 m2 m1' m2' : loc -> R),
  channel_end2 (arithR eps tiny) r n1 nt m1 m1' -> channel_end2 (arithR eps tiny) r n2 nt m2 m2' ->
  image_passes (s_o r) (s_nit r) -> same_flow2 r m1 m2 ->
  iga (s_o r) = negb (oabs (s_o r)) -> (iga (s_o r) = true -> (s_nit r <= 2)%nat) -> 0 < eps ->
  (forall i j, in_channel (s_lo r) (s_hi r) i j -> 0 < G2of (nug (s_o r)) m1 i j) ->
  forall e, (e < n_eqns (s_cfg r))%nat ->
  (forall i j, in_channel (s_lo r) (s_hi r) i j -> cell2 m2 e false i j = - cell2 m1 e false i j) ->
  forall i j, on_grid (s_lo r) (s_hi r) i j -> cell2 m2' e (newest2 r nt) i j = - cell2 m1' e (newest2 r nt) i j.
Proof. intros eps tiny r n1 n2 nt m1 m2 m1' m2' C1 C2 IP F H1 H2 H3 H4 e He. exact (ch_negated eps tiny r nt IP e He n1 n2 m1 m2 m1' m2' C1 C2 F H1 H2 H3 H4). Qed.
Print Assumptions C131_channel_sign_symmetry.
Theorem C131_box_sign_symmetry : forall eps tiny r n1 n2 nt (m1 m2 m1' m2' : loc -> R),
  walled_end2 (arithR eps tiny) r n1 nt m1 m1' -> walled_end2 (arithR eps tiny) r n2 nt m2 m2' ->
  image_passes (s_o r) (s_nit r) -> same_flow2 r m1 m2 ->
  iga (s_o r) = negb (oabs (s_o r)) -> (iga (s_o r) = true -> (s_nit r <= 2)%nat) -> 0 < eps ->
  (forall i j, on_grid (s_lo r) (s_hi r) i j -> 0 < G2of (nug (s_o r)) m1 i j) ->
  forall e, (e < n_eqns (s_cfg r))%nat ->
  (forall i j, on_grid (s_lo r) (s_hi r) i j -> cell2 m2 e false i j = - cell2 m1 e false i j) ->
  forall i j, on_grid (s_lo r) (s_hi r) i j -> cell2 m2' e (newest2 r nt) i j = - cell2 m1' e (newest2 r nt) i j.
Proof. intros eps tiny r n1 n2 nt m1 m2 m1' m2' C1 C2 IP F H1 H2 H3 H4 e He. exact (bx_negated eps tiny r nt IP e He n1 n2 m1 m2 m1' m2' C1 C2 F H1 H2 H3 H4). Qed.
Print Assumptions C131_box_sign_symmetry.
(** and results of the upwind scheme and of [iga] (without flux correction) superpose. *)
Theorem C131_channel_superposition : forall eps tiny r n1 n2 n3 nt (m1 m2 m3 m1' m2' m3' : loc -> R) la lb,
  channel_end2 (arithR eps tiny) r n1 nt m1 m1' -> channel_end2 (arithR eps tiny) r n2 nt m2 m2' -> channel_end2 (arithR eps tiny) r n3 nt m3 m3' ->
  image_passes (s_o r) (s_nit r) -> same_flow2 r m1 m2 -> same_flow2 r m1 m3 ->
  s_nit r = 1%nat \/ iga (s_o r) = true /\ fct (s_o r) = false /\ (s_nit r <= 2)%nat ->
  forall e, (e < n_eqns (s_cfg r))%nat ->
  (forall i j, in_channel (s_lo r) (s_hi r) i j -> cell2 m3 e false i j = la * cell2 m1 e false i j + lb * cell2 m2 e false i j) ->
  forall i j, on_grid (s_lo r) (s_hi r) i j ->
    cell2 m3' e (newest2 r nt) i j = la * cell2 m1' e (newest2 r nt) i j + lb * cell2 m2' e (newest2 r nt) i j.
Proof. intros eps tiny r n1 n2 n3 nt m1 m2 m3 m1' m2' m3' la lb C1 C2 C3 IP F2 F3 S e He. exact (ch_superpose eps tiny r nt IP e He n1 n2 n3 m1 m2 m3 m1' m2' m3' la lb C1 C2 C3 F2 F3 S). Qed.
Print Assumptions C131_channel_superposition.
Theorem C131_box_superposition : forall eps tiny r n1 n2 n3 nt (m1 m2 m3 m1' m2' m3' : loc -> R) la lb,
  walled_end2 (arithR eps tiny) r n1 nt m1 m1' -> walled_end2 (arithR eps tiny) r n2 nt m2 m2' -> walled_end2 (arithR eps tiny) r n3 nt m3 m3' ->
  image_passes (s_o r) (s_nit r) -> same_flow2 r m1 m2 -> same_flow2 r m1 m3 ->
  s_nit r = 1%nat \/ iga (s_o r) = true /\ fct (s_o r) = false /\ (s_nit r <= 2)%nat ->
  forall e, (e < n_eqns (s_cfg r))%nat ->
  (forall i j, on_grid (s_lo r) (s_hi r) i j -> cell2 m3 e false i j = la * cell2 m1 e false i j + lb * cell2 m2 e false i j) ->
  forall i j, on_grid (s_lo r) (s_hi r) i j ->
    cell2 m3' e (newest2 r nt) i j = la * cell2 m1' e (newest2 r nt) i j + lb * cell2 m2' e (newest2 r nt) i j.
Proof. intros eps tiny r n1 n2 n3 nt m1 m2 m3 m1' m2' m3' la lb C1 C2 C3 IP F2 F3 S e He. exact (bx_superpose eps tiny r nt IP e He n1 n2 n3 m1 m2 m3 m1' m2' m3' la lb C1 C2 C3 F2 F3 S). Qed.
Print Assumptions C131_box_superposition.
(** a peak in a swirl and its multiples; the multiple by -2 is the peak less three peaks *)
Example C131_example : let m := flow_mem peak (1 / 8) (1 / 8) in
  (forall lam i, exists m', channel_end2 (arithR 1 1) (chan_run (box_opts false i false) 2) 1 7 (mul2_mem lam m) m') /\
  (forall lam i, exists m', walled_end2 (arithR 1 1) (box_run (box_opts false i false) 2) 1 7 (mul2_mem lam sw_mem) m') /\
  (forall f i d2, image_passes (box_opts f i d2) 2) /\
  (forall r lam, same_flow2 r m (mul2_mem lam m)) /\
  (forall i j, cell2 (mul2_mem (-2) m) 0 false i j = 1 * cell2 m 0 false i j + (-3) * cell2 m 0 false i j) /\
  (forall i j, cell2 (mul2_mem (-1) m) 0 false i j = - cell2 m 0 false i j) /\ (forall i j, G2of false m i j = 1).
Proof.
  cbv zeta. split; [|split; [|split; [|split; [|split; [|split]]]]].
  - intros lam i. apply chan_end_of; try reflexivity; [apply chan_ok; lia|left; auto|cbn; lia|apply mul_flow].
  - intros lam i. apply box_end. lia.
  - intros f i d2. left. auto.
  - intros r lam. apply same_flow_mul.
  - intros i j. unfold cell2, mul2_mem. cbn [fst snd]. ring.
  - intros i j. unfold cell2, mul2_mem. cbn [fst snd]. ring.
  - reflexivity.
Qed.

(** C132: [khn] and [npa] do not change exact results in channels and boxes; *)
Theorem C132_channel_exact_options : forall eps tiny r a b n1 n2 nt (m m1' m2' : loc -> R),
  channel_end2 (arithR eps tiny) r n1 nt m m1' -> channel_end2 (arithR eps tiny) (with_toggles2 r a b) n2 nt m m2' ->
  image_passes (s_o r) (s_nit r) -> forall e, (e < n_eqns (s_cfg r))%nat ->
  forall i j, on_grid (s_lo r) (s_hi r) i j -> cell2 m2' e (newest2 r nt) i j = cell2 m1' e (newest2 r nt) i j.
Proof. intros eps tiny r a b n1 n2 nt m m1' m2' C1 C2 IP e He. exact (ch_toggles eps tiny r nt IP e He a b n1 n2 m m1' m2' C1 C2). Qed.
Print Assumptions C132_channel_exact_options.
Theorem C132_box_exact_options : forall eps tiny r a b n1 n2 nt (m m1' m2' : loc -> R),
  walled_end2 (arithR eps tiny) r n1 nt m m1' -> walled_end2 (arithR eps tiny) (with_toggles2 r a b) n2 nt m m2' ->
  image_passes (s_o r) (s_nit r) -> forall e, (e < n_eqns (s_cfg r))%nat ->
  forall i j, on_grid (s_lo r) (s_hi r) i j -> cell2 m2' e (newest2 r nt) i j = cell2 m1' e (newest2 r nt) i j.
Proof. intros eps tiny r a b n1 n2 nt m m1' m2' C1 C2 IP e He. exact (bx_toggles eps tiny r nt IP e He a b n1 n2 m m1' m2' C1 C2). Qed.
Print Assumptions C132_box_exact_options.
(** nor does [hint_scale] (without flux correction, with [pfc] or [iga], or upwind). *)
Theorem C132_channel_hint_scale : forall eps tiny r s n1 n2 nt (m m1' m2' : loc -> R),
  channel_end2 (arithR eps tiny) r n1 nt m m1' -> channel_end2 (arithR eps tiny) (with_scale2 r s) n2 nt m m2' ->
  image_passes (s_o r) (s_nit r) ->
  s_nit r = 1%nat \/ fct (s_o r) = false /\ (iga (s_o r) = false /\ pfc (s_o r) = true \/ iga (s_o r) = true /\ (s_nit r <= 2)%nat) ->
  forall e, (e < n_eqns (s_cfg r))%nat ->
  forall i j, on_grid (s_lo r) (s_hi r) i j -> cell2 m2' e (newest2 r nt) i j = cell2 m1' e (newest2 r nt) i j.
Proof. intros eps tiny r s n1 n2 nt m m1' m2' C1 C2 IP S e He. exact (ch_hint eps tiny r nt IP e He s n1 n2 m m1' m2' C1 C2 S). Qed.
Print Assumptions C132_channel_hint_scale.
Theorem C132_box_hint_scale : forall eps tiny r s n1 n2 nt (m m1' m2' : loc -> R),
  walled_end2 (arithR eps tiny) r n1 nt m m1' -> walled_end2 (arithR eps tiny) (with_scale2 r s) n2 nt m m2' ->
  image_passes (s_o r) (s_nit r) ->
  s_nit r = 1%nat \/ fct (s_o r) = false /\ (iga (s_o r) = false /\ pfc (s_o r) = true \/ iga (s_o r) = true /\ (s_nit r <= 2)%nat) ->
  forall e, (e < n_eqns (s_cfg r))%nat ->
  forall i j, on_grid (s_lo r) (s_hi r) i j -> cell2 m2' e (newest2 r nt) i j = cell2 m1' e (newest2 r nt) i j.
Proof. intros eps tiny r s n1 n2 nt m m1' m2' C1 C2 IP S e He. exact (bx_hint eps tiny r nt IP e He s n1 n2 m m1' m2' C1 C2 S). Qed.
Print Assumptions C132_box_hint_scale.
(** three iterations of the basic scheme and of flux correction *)
Example C132_example : let m := flow_mem peak (1 / 8) (1 / 8) in
  (forall f, exists m', channel_end2 (arithR 1 1) (chan_run (box_opts f false false) 3) 1 7 m m') /\
  (forall f a b, exists m', channel_end2 (arithR 1 1) (with_toggles2 (chan_run (box_opts f false false) 3) a b) 1 7 m m') /\
  (forall s, exists m', channel_end2 (arithR 1 1) (with_scale2 (chan_run (box_opts false false false) 3) s) 1 7 m m') /\
  (forall f, exists m', walled_end2 (arithR 1 1) (box_run (box_opts f false false) 3) 1 7 sw_mem m') /\
  (forall f a b, exists m', walled_end2 (arithR 1 1) (with_toggles2 (box_run (box_opts f false false) 3) a b) 1 7 sw_mem m') /\
  (forall s, exists m', walled_end2 (arithR 1 1) (with_scale2 (box_run (box_opts false false false) 3) s) 1 7 sw_mem m') /\
  (forall f, image_passes (box_opts f false false) 3) /\ fct (box_opts false false false) = false /\ pfc (box_opts false false false) = true.
Proof.
  cbv zeta. assert (P : forall f, plain_passes (box_opts f false false) 3) by (intros f; right; split; [left; reflexivity|right; split; reflexivity]).
  split; [|split; [|split; [|split; [|split; [|split; [|split; [|split]]]]]]]; try reflexivity.
  - intros f. apply chan_end_of; try reflexivity; [apply chan_ok; lia|apply P|cbn; lia|apply flow_data].
  - intros f a b. apply chan_end_of; try reflexivity; [|apply (P f)|cbn; lia|apply flow_data].
    constructor; [destruct f, a, b; reflexivity|cbn; lia|intros d _; destruct f, a, b; vm_compute; discriminate].
  - intros s. apply chan_end_of; try reflexivity; [|apply (P false)|cbn; lia|apply flow_data].
    constructor; [reflexivity|cbn; lia|intros d _; vm_compute; discriminate].
  - intros f. apply box_end. lia.
  - intros f a b. apply walled_end_of; try reflexivity; [|cbn; lia]. constructor; [destruct f, a, b; reflexivity|cbn; lia|intros d _; destruct f, a, b; vm_compute; discriminate].
  - intros s. apply walled_end_of; try reflexivity; [|cbn; lia]. constructor; [reflexivity|cbn; lia|intros d _; vm_compute; discriminate].
  - intros f. right. split; [reflexivity|split; [reflexivity|right; reflexivity]].
Qed.

(** C133: a channel whose data do not vary across it and that has no velocity towards
    its walls gives in every row what the 1D solver gives. *)
Theorem C133_channel_one_dimensional : forall eps tiny r n n1 nt (m m' m1 m1' : loc -> R),
  channel_end2 (arithR eps tiny) r n nt m m' -> image_passes (s_o r) (s_nit r) ->
  (0 < n1)%nat -> (Z.of_nat n1 <= s_hi r DX - s_lo r DX + 1)%Z ->
  can_end loc_eq_dec (arithR eps tiny) n1 (program1 (slice_run r) n1 nt) m1 m1' ->
  fot (s_o r) = false ->
  div2 (s_o r) = false \/ div3dt (s_o r) = false /\ (iga (s_o r) = true \/ div3 (s_o r) = false /\ pfc (s_o r) = true) ->
  uniform_along_y 0 r m1 m ->
  forall e, (e < n_eqns (s_cfg r))%nat -> forall i j, on_grid (s_lo r) (s_hi r) i j ->
  cell2 m' e (newest2 r nt) i j = cell m1' e (newest (slice_run r) nt) i.
Proof. intros eps tiny r n n1 nt m m' m1 m1' C IP N1 R1 E H1 H2 U e He. exact (ch_slice eps tiny r nt IP e He n n1 m m' m1 m1' C N1 R1 E H1 H2 U). Qed.
Print Assumptions C133_channel_one_dimensional.
Example C133_example :
  (forall f i d2, exists m', channel_end2 (arithR 1 1) (chan_run (box_opts f i d2) 2) 1 7 bar_mem m') /\
  (forall f i d2, exists m', can_end loc_eq_dec (arithR 1 1) 1 (program1 (slice_run (chan_run (box_opts f i d2) 2)) 1 7) bar_mem m') /\
  (forall f i d2, uniform_along_y 0 (chan_run (box_opts f i d2) 2) bar_mem bar_mem) /\
  (forall f i d2, image_passes (box_opts f i d2) 2 /\ fot (box_opts f i d2) = false /\ div3dt (box_opts f i d2) = false /\ div3 (box_opts f i d2) = false) /\
  cell bar_mem 0 false 1 = 3 /\ cell bar_mem 0 false 2 = 2.
Proof.
  split; [|split; [|split; [|split; [|split]]]].
  - intros f i d2. apply chan_end_of; try reflexivity; [apply chan_ok; lia|left; auto|cbn; lia|apply bar_data].
  - intros f i d2. apply bar_end. lia.
  - intros f i d2. apply bar_uniform.
  - intros f i d2. split; [left; auto|]. split; [reflexivity|split; reflexivity].
  - reflexivity.
  - reflexivity.
Qed.
