(** Properties C78 to C85: the 3D solver on cyclic domains computes published
    MPDATA; its results follow mirror images, permutations of the axes, multiples
    and sums of the data; 3D runs with data that vary along two axes are 2D runs. *)
From Coq Require Import ZArith QArith List Bool Lia Reals Lra.
From Verif Require Import ModelIndex ModelRun Lang Stencil FormCommon Form2D Form3D Solver1D Solver2D Solver3D Arith SpecReal SpecThreads SpecFields SpecFields2 SpecNum2
  SpecFields3 SpecNum3 SpecRun2 SpecRun3 SpecMpdata3 SpecSym3 ProofsThread2D ProofsValid2D ProofsCyclic2D ProofsExamplesSym2D ProofsThread3D ProofsValid3D ProofsCyclic3D
  ProofsTextbook3D ProofsSymRun3D ProofsLin3D ProofsSlice3D ProofsFun3D ProofsExamples3D ProofsWitness3D ProofsExamplesSym3D.
Import ListNotations.
Local Open Scope R_scope.

(** C78: with the basic options (no [abs], [tot], [dfl], [div_2nd]) runs compute
    MPDATA as given in the literature (SpecMpdata3.v), for any number of passes,
    with or without infinite gauge, flux correction and G factor, for any number
    of steps, equations and threads. *)
Theorem C78_mpdata_3d : forall eps tiny r n nt m m', cyclic_end3 (arithR eps tiny) r n nt m m' ->
  oabs (s3_o r) = false -> tot (s3_o r) = false -> dfl (s3_o r) = false -> div2 (s3_o r) = false ->
  s3_freq r = 0%Z -> forall e, (e < n_eqns (s3_cfg r))%nat -> s3_scale r e = 0%Z ->
  let per (f : idx -> R) := fun i => f (wrap3 (s3_lo r) (s3_hi r) i) in
  forall i, inside (s3_lo r) (s3_hi r) i ->
  cell3 m' e (newest3 r nt) i =
  mpdata3 (per (G3of (nug (s3_o r)) m)) (fun d => per (face3 m d)) (iga (s3_o r)) (fct (s3_o r)) (pfc (s3_o r)) eps tiny
          (s3_nit r) nt (per (cell3 m e false)) i.
Proof. exact textbook3. Qed.
Print Assumptions C78_mpdata_3d.
Example C78_example : (exists m', cyclic_end3 (arithR 1 1) (ex3_run0 (ex3_opts true false true) 3) 1 5 (ex3_mem 1 (1 / 2) 1 1) m') /\
  s3_scale (ex3_run0 (ex3_opts true false true) 3) 0 = 0%Z /\ nug (ex3_opts true false true) = true.
Proof.
  split; [|split; reflexivity]. apply end3_exists; try reflexivity; [|apply ex3_cyclic].
  destruct (ex3_ok true false true 3 ltac:(lia)) as [A B C]. constructor; assumption.
Qed.

(** C79: the result for data mirrored along an axis (velocities along it with
    opposite sign) is the mirrored result, for all options. *)
Theorem C79_mirror_3d : forall eps tiny r d n1 n2 nt m1 m2 m1' m2',
  cyclic_end3 (arithR eps tiny) r n1 nt m1 m1' -> cyclic_end3 (arithR eps tiny) r n2 nt m2 m2' ->
  mirrored3 Ropp (s3_lo r) (s3_hi r) (n_eqns (s3_cfg r)) (nug (s3_o r)) d m1 m2 ->
  forall e, (e < n_eqns (s3_cfg r))%nat -> forall i, inside (s3_lo r) (s3_hi r) i ->
  cell3 m2' e (newest3 r nt) i = cell3 m1' e (newest3 r nt) (opposite3 d (s3_lo r d + s3_hi r d) i).
Proof. exact mirror3. Qed.
Print Assumptions C79_mirror_3d.
Example C79_example : (exists m', cyclic_end3 (arithR 1 1) (ex3_run (ex3_opts true false true) 3) 1 5 (ex3_mem 1 (1 / 2) 1 1) m') /\
  (exists m', cyclic_end3 (arithR 1 1) (ex3_run (ex3_opts true false true) 3) 1 5 (mir3_mem DX (ex3_mem 1 (1 / 2) 1 1)) m') /\
  mirrored3 Ropp (fun _ => 0%Z) h322 1 true DX (ex3_mem 1 (1 / 2) 1 1) (mir3_mem DX (ex3_mem 1 (1 / 2) 1 1)) /\
  cell3 (mir3_mem DX (ex3_mem 1 (1 / 2) 1 1)) 0 false (2, 1, 0)%Z = 1 + 2 + 0.
Proof.
  split; [apply ex3_end; lia|]. split; [|split; [apply ex3_mirrored|reflexivity]].
  apply end3_exists; try reflexivity; [apply ex3_ok; lia|].
  refine (mirrored_cyclic _ h322 DX _ 1 true (ex3_mem 1 (1 / 2) 1 1) _ (ex3_mirrored DX true _) (ex3_cyclic _ _ _ _ _)).
  intros []; reflexivity.
Qed.

(** C80: the result on the grid with permuted axes for data with permuted axes is
    the result with permuted axes, for all options: the solver prefers no axis,
    although threads share the domain along the second one. *)
Theorem C80_permute_axes_3d : forall eps tiny r q n1 n2 nt m1 m2 m1' m2', (forall d d', q d = q d' -> d = d') ->
  cyclic_end3 (arithR eps tiny) r n1 nt m1 m1' -> cyclic_end3 (arithR eps tiny) (permute_run3 q r) n2 nt m2 m2' ->
  permuted3 (s3_lo r) (s3_hi r) (n_eqns (s3_cfg r)) (nug (s3_o r)) q m1 m2 ->
  forall e, (e < n_eqns (s3_cfg r))%nat -> forall i, inside (s3_lo r) (s3_hi r) i ->
  cell3 m2' e (newest3 (permute_run3 q r) nt) (permute3 q i) = cell3 m1' e (newest3 r nt) i.
Proof. exact permute_axes3. Qed.
Print Assumptions C80_permute_axes_3d.
Example C80_example : (forall d d', dp d = dp d' -> d = d') /\
  (exists m', cyclic_end3 (arithR 1 1) (ex3_run (ex3_opts true false true) 3) 1 5 (ex3_mem 1 (1 / 2) 1 1) m') /\
  (exists m', cyclic_end3 (arithR 1 1) (permute_run3 dp (ex3_run (ex3_opts true false true) 3)) 1 5 (perm3_mem (ex3_mem 1 (1 / 2) 1 1)) m') /\
  permuted3 (fun _ => 0%Z) h322 1 true dp (ex3_mem 1 (1 / 2) 1 1) (perm3_mem (ex3_mem 1 (1 / 2) 1 1)) /\
  permute3 dp (3, 2, 1)%Z = (2, 1, 3)%Z.
Proof.
  split; [exact dp_inj|]. split; [apply ex3_end; lia|]. split; [|split; [apply ex3_permuted|reflexivity]].
  apply end3_exists; try reflexivity; [|apply perm_cyclic, ex3_cyclic].
  destruct (ex3_ok true false true 3 ltac:(lia)) as [A B C]. constructor; try assumption. intros d. apply C.
Qed.

(** C81: multiplying the initial values by a positive number (by any nonzero
    number with [abs]) multiplies the result ... *)
Theorem C81_multiples_3d : forall eps tiny r n1 n2 nt m1 m2 m1' m2',
  cyclic_end3 (arithR eps tiny) r n1 nt m1 m1' -> cyclic_end3 (arithR eps tiny) r n2 nt m2 m2' -> same_flow3 r m1 m2 ->
  forall e, (e < n_eqns (s3_cfg r))%nat -> forall lam,
  fct (s3_o r) = false -> pfc (s3_o r) = true -> iga (s3_o r) = false -> 0 < lam \/ oabs (s3_o r) = true /\ lam <> 0 ->
  (forall i, inside (s3_lo r) (s3_hi r) i -> cell3 m2 e false i = lam * cell3 m1 e false i) ->
  forall i, inside (s3_lo r) (s3_hi r) i -> cell3 m2' e (newest3 r nt) i = lam * cell3 m1' e (newest3 r nt) i.
Proof. exact multiple3. Qed.
Print Assumptions C81_multiples_3d.
Example C81_example : (exists m', cyclic_end3 (arithR 1 1) (ex3_run (ex3_opts false false true) 3) 1 5 (ex3_mem 1 (1 / 2) 1 1) m') /\
  (exists m', cyclic_end3 (arithR 1 1) (ex3_run (ex3_opts false false true) 3) 1 5 (mul3_mem 7 (ex3_mem 1 (1 / 2) 1 1)) m') /\
  same_flow3 (ex3_run (ex3_opts false false true) 3) (ex3_mem 1 (1 / 2) 1 1) (mul3_mem 7 (ex3_mem 1 (1 / 2) 1 1)).
Proof.
  split; [apply ex3_end; lia|]. split; [|apply ex3_mul_flow].
  apply end3_exists; try reflexivity; [apply ex3_ok; lia|]. apply ex3_mul_cyclic, ex3_cyclic.
Qed.
(** ... changing the sign of the initial values changes the sign of the result
    (with [iga] or [abs], also with flux correction). *)
Theorem C81_sign_symmetry_3d : forall eps tiny r n1 n2 nt m1 m2 m1' m2',
  cyclic_end3 (arithR eps tiny) r n1 nt m1 m1' -> cyclic_end3 (arithR eps tiny) r n2 nt m2 m2' -> same_flow3 r m1 m2 ->
  forall e, (e < n_eqns (s3_cfg r))%nat ->
  iga (s3_o r) = negb (oabs (s3_o r)) -> (iga (s3_o r) = true -> (s3_nit r <= 2)%nat) -> 0 < eps ->
  (forall i, inside (s3_lo r) (s3_hi r) i -> 0 < G3of (nug (s3_o r)) m1 i) ->
  (forall i, inside (s3_lo r) (s3_hi r) i -> cell3 m2 e false i = - cell3 m1 e false i) ->
  forall i, inside (s3_lo r) (s3_hi r) i -> cell3 m2' e (newest3 r nt) i = - cell3 m1' e (newest3 r nt) i.
Proof. exact negated3. Qed.
Print Assumptions C81_sign_symmetry_3d.
Example C81_sign_example : (exists m', cyclic_end3 (arithR 1 1) (ex3_run (ex3_opts true true true) 2) 1 5 (ex3_mem 1 (1 / 2) 1 1) m') /\
  (exists m', cyclic_end3 (arithR 1 1) (ex3_run (ex3_opts true true true) 2) 1 5 (mul3_mem (-1) (ex3_mem 1 (1 / 2) 1 1)) m') /\
  iga (ex3_opts true true true) = negb (oabs (ex3_opts true true true)) /\
  (forall i, cell3 (mul3_mem (-1) (ex3_mem 1 (1 / 2) 1 1)) 0 false i = - cell3 (ex3_mem 1 (1 / 2) 1 1) 0 false i).
Proof.
  split; [apply ex3_end; lia|]. split; [|split; [reflexivity|intros; unfold cell3, mul3_mem; cbn [fst snd]; ring]].
  apply end3_exists; try reflexivity; [apply ex3_ok; lia|]. apply ex3_mul_cyclic, ex3_cyclic.
Qed.

(** C82: the upwind scheme and the infinite-gauge variant (without flux
    correction) are linear: superposing initial values superposes results. *)
Theorem C82_superposition_3d : forall eps tiny r n1 n2 n3 nt m1 m2 m3 m1' m2' m3' e la lb, (e < n_eqns (s3_cfg r))%nat ->
  cyclic_end3 (arithR eps tiny) r n1 nt m1 m1' -> cyclic_end3 (arithR eps tiny) r n2 nt m2 m2' ->
  cyclic_end3 (arithR eps tiny) r n3 nt m3 m3' -> same_flow3 r m1 m2 -> same_flow3 r m1 m3 ->
  s3_nit r = 1%nat \/ iga (s3_o r) = true /\ fct (s3_o r) = false /\ (s3_nit r <= 2)%nat ->
  (forall i, inside (s3_lo r) (s3_hi r) i -> cell3 m3 e false i = la * cell3 m1 e false i + lb * cell3 m2 e false i) ->
  forall i, inside (s3_lo r) (s3_hi r) i ->
    cell3 m3' e (newest3 r nt) i = la * cell3 m1' e (newest3 r nt) i + lb * cell3 m2' e (newest3 r nt) i.
Proof. exact superpose3. Qed.
Print Assumptions C82_superposition_3d.
Example C82_example : (exists m', cyclic_end3 (arithR 1 1) (ex3_run (ex3_opts false true true) 2) 1 5 (ex3_mem 1 (1 / 2) 1 1) m') /\
  (exists m', cyclic_end3 (arithR 1 1) (ex3_run (ex3_opts false true true) 2) 1 5 (mul3_mem (-2) (ex3_mem 1 (1 / 2) 1 1)) m') /\
  (forall i, cell3 (mul3_mem (-2) (ex3_mem 1 (1 / 2) 1 1)) 0 false i =
     1 * cell3 (ex3_mem 1 (1 / 2) 1 1) 0 false i + (-3) * cell3 (ex3_mem 1 (1 / 2) 1 1) 0 false i).
Proof.
  split; [apply ex3_end; lia|]. split; [|intros; unfold cell3, mul3_mem; cbn [fst snd]; ring].
  apply end3_exists; try reflexivity; [apply ex3_ok; lia|]. apply ex3_mul_cyclic, ex3_cyclic.
Qed.

(** C83: [hint_scale] does not change exact results (without flux correction,
    with the division-by-zero guard of [pfc] or with [iga], or upwind). *)
Theorem C83_hint_scale_3d : forall eps tiny r s n1 n2 nt m m1' m2' e, (e < n_eqns (s3_cfg r))%nat ->
  cyclic_end3 (arithR eps tiny) r n1 nt m m1' -> cyclic_end3 (arithR eps tiny) (with_scale3 r s) n2 nt m m2' ->
  s3_nit r = 1%nat \/ fct (s3_o r) = false /\ (iga (s3_o r) = false /\ pfc (s3_o r) = true \/ iga (s3_o r) = true /\ (s3_nit r <= 2)%nat) ->
  forall i, inside (s3_lo r) (s3_hi r) i -> cell3 m2' e (newest3 r nt) i = cell3 m1' e (newest3 r nt) i.
Proof. exact hint_scale3. Qed.
Print Assumptions C83_hint_scale_3d.
Example C83_example : (exists m', cyclic_end3 (arithR 1 1) (ex3_run (ex3_opts false false true) 3) 1 5 (ex3_mem 1 (1 / 2) 1 1) m') /\
  (exists m', cyclic_end3 (arithR 1 1) (ex3_run0 (ex3_opts false false true) 3) 1 5 (ex3_mem 1 (1 / 2) 1 1) m') /\
  s3_scale (ex3_run (ex3_opts false false true) 3) 0 = 3%Z.
Proof.
  split; [apply ex3_end; lia|]. split; [|reflexivity]. apply end3_exists; try reflexivity; [|apply ex3_cyclic].
  destruct (ex3_ok false false true 3 ltac:(lia)) as [A B C]. constructor; assumption.
Qed.

(** C84: [khn] (compensated summation) and [npa] (the other way of taking
    positive and negative parts) do not change exact results.  Nor does [fot]
    (fourth-order terms): the 3D solver accepts the option and ignores it. *)
Theorem C84_exact_options_3d : forall eps tiny r a b f n1 n2 nt m m1' m2' e, (e < n_eqns (s3_cfg r))%nat ->
  cyclic_end3 (arithR eps tiny) r n1 nt m m1' -> cyclic_end3 (arithR eps tiny) (with_toggles3 r a b f) n2 nt m m2' ->
  forall i, inside (s3_lo r) (s3_hi r) i -> cell3 m2' e (newest3 r nt) i = cell3 m1' e (newest3 r nt) i.
Proof. exact toggles3. Qed.
Print Assumptions C84_exact_options_3d.
Example C84_example : (exists m', cyclic_end3 (arithR 1 1) (ex3_run (ex3_opts true false true) 3) 1 5 (ex3_mem 1 (1 / 2) 1 1) m') /\
  (exists m', cyclic_end3 (arithR 1 1) (with_toggles3 (ex3_run (ex3_opts true false true) 3) true true false) 1 5 (ex3_mem 1 (1 / 2) 1 1) m') /\
  khn (ex3_opts true false true) = false.
Proof.
  split; [apply ex3_end; lia|]. split; [|reflexivity]. apply end3_exists; try reflexivity; [|apply ex3_cyclic].
  destruct (ex3_ok true false true 3 ltac:(lia)) as [A B C]. constructor; assumption.
Qed.

(** C85: a 3D run whose data do not vary along the third axis and that has no
    velocity along it gives in every layer what the 2D solver gives: for the basic
    scheme, [tot], [dfl], [abs], [iga], [fct] in any combination, and for
    [div_2nd], [div_3rd] with [iga] ... *)
Theorem C85_two_dimensional_flow : forall eps tiny r n n2 nt m m' m2 m2',
  cyclic_end3 (arithR eps tiny) r n nt m m' ->
  cyclic_end2 (arithR eps tiny) (slice_run3 r) n2 nt m2 m2' ->
  fot (s3_o r) = false -> div2 (s3_o r) = false \/ iga (s3_o r) = true ->
  uniform_along_z 0 r m2 m ->
  forall e, (e < n_eqns (s3_cfg r))%nat -> forall i j k, inside (s3_lo r) (s3_hi r) (i, j, k) ->
  cell3 m' e (newest3 r nt) (i, j, k) = cell2 m2' e (newest2 (slice_run3 r) nt) i j.
Proof. exact slice3. Qed.
Print Assumptions C85_two_dimensional_flow.
Example C85_example : uniform_along_z 0 (ex3_run (ex3_opts true false true) 3) ex_plane ex_plane /\
  (exists m', cyclic_end3 (arithR 1 1) (ex3_run (ex3_opts true false true) 3) 1 5 ex_plane m') /\
  (exists m', cyclic_end2 (arithR 1 1) (slice_run3 (ex3_run (ex3_opts true false true) 3)) 1 5 ex_plane m') /\
  cell2 ex_plane 0 false 1 1 = 1 + 2.
Proof.
  split; [apply ex_uniform3|]. split; [|split; [|reflexivity]].
  - apply end3_exists; try reflexivity; [apply ex3_ok; lia|apply plane_cyclic3].
  - apply end2_exists; try reflexivity; [apply slice_ok; lia|apply plane_cyclic2].
Qed.
(** ... but not for [div_2nd] without [iga]: the 3D formulae divide by averages of
    the advectee over other cells than the 2D ones. *)
Theorem C85_two_dimensional_flow_refuted : exists r (m m' m2' : loc -> Q) i j k,
  cyclic_end3 (arithQ 0 0) r 1 1 m m' /\ cyclic_end2 (arithQ 0 0) (slice_run3 r) 1 1 m m2' /\
  div2 (s3_o r) = true /\ div3 (s3_o r) = false /\ iga (s3_o r) = false /\ pfc (s3_o r) = true /\
  uniform_along_z 0%Q r m m /\ inside (s3_lo r) (s3_hi r) (i, j, k) /\
  ~ (cell3 m' 0 (newest3 r 1) (i, j, k) == cell2 m2' 0 (newest2 (slice_run3 r) 1) i j)%Q.
Proof.
  destruct slice_differs3 as (m' & m2' & E & E2 & H). exists (two_run3 opt3_div2), plane_mem, m', m2', 1%Z, 1%Z, 1%Z.
  split; [exact E|]. split; [exact E2|]. repeat (split; [reflexivity|]). split; [exact plane_uniform|]. split; [|exact H].
  apply in442; lia.
Qed.
Print Assumptions C85_two_dimensional_flow_refuted.
