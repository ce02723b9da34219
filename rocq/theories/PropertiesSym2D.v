(** Properties C60 to C67: the 2D solver on cyclic domains computes published
    MPDATA; its results follow mirror images, exchange of the axes, multiples and
    sums of the data; 2D runs with data that vary along one axis are 1D runs. *)
From Coq Require Import ZArith QArith List Bool Lia Reals Lra.
From Verif Require Import ModelRun Lang Stencil FormCommon Form2D Solver1D Solver2D Arith SpecReal SpecThreads SpecFields SpecFields2 SpecNum2
  SpecRun2 SpecMpdata2 SpecSym2 ProofsThread1D ProofsCyclic1D ProofsThread2D ProofsValid2D ProofsCyclic2D
  ProofsTextbook2D ProofsSymRun2D ProofsLin2D ProofsSlice2D ProofsExamples2D ProofsWitness2D ProofsExamplesSym2D.
Import ListNotations.
Local Open Scope R_scope.

(** C60: with the basic options (no [abs], [tot], [dfl], [div_2nd], [fot]) runs
    compute MPDATA as given in the literature (SpecMpdata2.v), for any number of
    passes, with or without infinite gauge, flux correction and G factor, for any
    number of steps, equations and threads. *)
Theorem C60_mpdata_2d : forall eps tiny r n nt m m', cyclic_end2 (arithR eps tiny) r n nt m m' ->
  oabs (s_o r) = false -> tot (s_o r) = false -> dfl (s_o r) = false -> div2 (s_o r) = false -> fot (s_o r) = false ->
  s_freq r = 0%Z -> forall e, (e < n_eqns (s_cfg r))%nat -> s_scale r e = 0%Z ->
  let per (f : Z -> Z -> R) := fun i j => f (wrap2 (s_lo r) (s_hi r) DX i) (wrap2 (s_lo r) (s_hi r) DY j) in
  forall i j, on_grid (s_lo r) (s_hi r) i j ->
  cell2 m' e (newest2 r nt) i j =
  mpdata2 (per (G2of (nug (s_o r)) m)) (per (face2 m DX)) (per (face2 m DY))
    (iga (s_o r)) (fct (s_o r)) (pfc (s_o r)) eps tiny (s_nit r) nt (per (cell2 m e false)) i j.
Proof. exact textbook2. Qed.
Print Assumptions C60_mpdata_2d.
Example C60_example : (exists m', cyclic_end2 (arithR 1 1) (ex2_run0 (ex2_opts true false true) 3) 1 5 (ex2_mem 1 (1 / 2) 1) m') /\
  s_scale (ex2_run0 (ex2_opts true false true) 3) 0 = 0%Z /\ nug (ex2_opts true false true) = true.
Proof.
  split; [|split; reflexivity]. apply end2_exists; try reflexivity; [|apply ex2_cyclic].
  destruct (ex2_ok true false true 3 ltac:(lia)) as [A B C]. constructor; assumption.
Qed.

(** C61: the result for data mirrored along an axis (velocities along it with
    opposite sign) is the mirrored result, for all options. *)
Theorem C61_mirror_2d : forall eps tiny r d n1 n2 nt m1 m2 m1' m2', In d [DX; DY] ->
  cyclic_end2 (arithR eps tiny) r n1 nt m1 m1' -> cyclic_end2 (arithR eps tiny) r n2 nt m2 m2' ->
  mirrored2 Ropp (s_lo r) (s_hi r) (n_eqns (s_cfg r)) (nug (s_o r)) d m1 m2 ->
  forall e, (e < n_eqns (s_cfg r))%nat -> forall i j, on_grid (s_lo r) (s_hi r) i j ->
  cell2 m2' e (newest2 r nt) i j =
  let ij := opposite d (s_lo r d + s_hi r d) (i, j) in cell2 m1' e (newest2 r nt) (fst ij) (snd ij).
Proof. exact mirror2. Qed.
Print Assumptions C61_mirror_2d.
Example C61_example : (exists m', cyclic_end2 (arithR 1 1) (ex2_run (ex2_opts true false true) 3) 1 5 (ex2_mem 1 (1 / 2) 1) m') /\
  mirrored2 Ropp (fun _ => 0%Z) (fun _ => 4%Z) 1 true DY (ex2_mem 1 (1 / 2) 1) (mir2_mem DY (ex2_mem 1 (1 / 2) 1)) /\
  cell2 (mir2_mem DY (ex2_mem 1 (1 / 2) 1)) 0 false 1 3 = 3 /\ face2 (mir2_mem DY (ex2_mem 1 (1 / 2) 1)) DY 0 0 = -1 * (1 / 2 + 0).
Proof. split; [apply ex2_end; lia|]. split; [apply ex2_mirrored; auto|]. split; reflexivity. Qed.

(** C62: the result on the grid with exchanged axes for data with exchanged axes
    is the result with exchanged axes, for all options: the solver prefers no
    axis, although threads share the domain along the first one. *)
Theorem C62_transpose_2d : forall eps tiny r n1 n2 nt m1 m2 m1' m2',
  cyclic_end2 (arithR eps tiny) r n1 nt m1 m1' -> cyclic_end2 (arithR eps tiny) (transpose_run r) n2 nt m2 m2' ->
  transposed2 (s_lo (transpose_run r)) (s_hi (transpose_run r)) (n_eqns (s_cfg r)) (nug (s_o r)) m1 m2 ->
  forall e, (e < n_eqns (s_cfg r))%nat -> forall i j, on_grid (s_lo r) (s_hi r) i j ->
  cell2 m2' e (newest2 (transpose_run r) nt) j i = cell2 m1' e (newest2 r nt) i j.
Proof. exact transpose2. Qed.
Print Assumptions C62_transpose_2d.
Example C62_example : (exists m', cyclic_end2 (arithR 1 1) (ex2_run (ex2_opts true false true) 3) 1 5 (ex2_mem 1 (1 / 2) 1) m') /\
  transposed2 (fun _ => 0%Z) (fun _ => 4%Z) 1 true (ex2_mem 1 (1 / 2) 1) (tr_mem (ex2_mem 1 (1 / 2) 1)) /\
  cell2 (tr_mem (ex2_mem 1 (1 / 2) 1)) 0 false 0 3 = 2 /\ cell2 (ex2_mem 1 (1 / 2) 1) 0 false 0 3 = 1.
Proof. split; [apply ex2_end; lia|]. split; [apply ex2_transposed|]. split; reflexivity. Qed.

(** C63: multiplying the initial values by a positive number (by any nonzero
    number with [abs]) multiplies the result ... *)
Theorem C63_multiples_2d : forall eps tiny r n1 n2 nt m1 m2 m1' m2',
  cyclic_end2 (arithR eps tiny) r n1 nt m1 m1' -> cyclic_end2 (arithR eps tiny) r n2 nt m2 m2' -> same_flow2 r m1 m2 ->
  forall e, (e < n_eqns (s_cfg r))%nat -> forall lam,
  fct (s_o r) = false -> pfc (s_o r) = true -> iga (s_o r) = false -> 0 < lam \/ oabs (s_o r) = true /\ lam <> 0 ->
  (forall i j, inside (s_lo r) (s_hi r) i j -> cell2 m2 e false i j = lam * cell2 m1 e false i j) ->
  forall i j, on_grid (s_lo r) (s_hi r) i j -> cell2 m2' e (newest2 r nt) i j = lam * cell2 m1' e (newest2 r nt) i j.
Proof. exact multiple2. Qed.
Print Assumptions C63_multiples_2d.
Example C63_example : (exists m', cyclic_end2 (arithR 1 1) (ex2_run (ex2_opts false false true) 3) 1 5 (ex2_mem 1 (1 / 2) 1) m') /\
  (exists m', cyclic_end2 (arithR 1 1) (ex2_run (ex2_opts false false true) 3) 1 5 (mul2_mem 7 (ex2_mem 1 (1 / 2) 1)) m') /\
  same_flow2 (ex2_run (ex2_opts false false true) 3) (ex2_mem 1 (1 / 2) 1) (mul2_mem 7 (ex2_mem 1 (1 / 2) 1)).
Proof.
  split; [apply ex2_end; lia|]. split; [|apply ex2_mul_flow].
  apply end2_exists; try reflexivity; [apply ex2_ok; lia|]. apply ex2_mul_cyclic, ex2_cyclic.
Qed.
(** ... changing the sign of the initial values changes the sign of the result
    (with [iga] or [abs], also with flux correction). *)
Theorem C63_sign_symmetry_2d : forall eps tiny r n1 n2 nt m1 m2 m1' m2',
  cyclic_end2 (arithR eps tiny) r n1 nt m1 m1' -> cyclic_end2 (arithR eps tiny) r n2 nt m2 m2' -> same_flow2 r m1 m2 ->
  forall e, (e < n_eqns (s_cfg r))%nat ->
  iga (s_o r) = negb (oabs (s_o r)) -> (iga (s_o r) = true -> (s_nit r <= 2)%nat) -> 0 < eps ->
  (forall i j, inside (s_lo r) (s_hi r) i j -> 0 < G2of (nug (s_o r)) m1 i j) ->
  (forall i j, inside (s_lo r) (s_hi r) i j -> cell2 m2 e false i j = - cell2 m1 e false i j) ->
  forall i j, on_grid (s_lo r) (s_hi r) i j -> cell2 m2' e (newest2 r nt) i j = - cell2 m1' e (newest2 r nt) i j.
Proof. exact negated2. Qed.
Print Assumptions C63_sign_symmetry_2d.
Example C63_sign_example : (exists m', cyclic_end2 (arithR 1 1) (ex2_run (ex2_opts true true true) 2) 1 5 (ex2_mem 1 (1 / 2) 1) m') /\
  (exists m', cyclic_end2 (arithR 1 1) (ex2_run (ex2_opts true true true) 2) 1 5 (mul2_mem (-1) (ex2_mem 1 (1 / 2) 1)) m') /\
  iga (ex2_opts true true true) = negb (oabs (ex2_opts true true true)) /\
  (forall i j, cell2 (mul2_mem (-1) (ex2_mem 1 (1 / 2) 1)) 0 false i j = - cell2 (ex2_mem 1 (1 / 2) 1) 0 false i j).
Proof.
  split; [apply ex2_end; lia|]. split; [|split; [reflexivity|intros; unfold cell2, mul2_mem; cbn [fst snd]; ring]].
  apply end2_exists; try reflexivity; [apply ex2_ok; lia|]. apply ex2_mul_cyclic, ex2_cyclic.
Qed.

(** C64: the upwind scheme and the infinite-gauge variant (without flux
    correction) are linear: superposing initial values superposes results. *)
Theorem C64_superposition_2d : forall eps tiny r n1 n2 n3 nt m1 m2 m3 m1' m2' m3' e la lb, (e < n_eqns (s_cfg r))%nat ->
  cyclic_end2 (arithR eps tiny) r n1 nt m1 m1' -> cyclic_end2 (arithR eps tiny) r n2 nt m2 m2' ->
  cyclic_end2 (arithR eps tiny) r n3 nt m3 m3' -> same_flow2 r m1 m2 -> same_flow2 r m1 m3 ->
  s_nit r = 1%nat \/ iga (s_o r) = true /\ fct (s_o r) = false /\ (s_nit r <= 2)%nat ->
  (forall i j, inside (s_lo r) (s_hi r) i j -> cell2 m3 e false i j = la * cell2 m1 e false i j + lb * cell2 m2 e false i j) ->
  forall i j, on_grid (s_lo r) (s_hi r) i j ->
    cell2 m3' e (newest2 r nt) i j = la * cell2 m1' e (newest2 r nt) i j + lb * cell2 m2' e (newest2 r nt) i j.
Proof. exact superpose2. Qed.
Print Assumptions C64_superposition_2d.
Example C64_example : (exists m', cyclic_end2 (arithR 1 1) (ex2_run (ex2_opts false true true) 2) 1 5 (ex2_mem 1 (1 / 2) 1) m') /\
  (exists m', cyclic_end2 (arithR 1 1) (ex2_run (ex2_opts false true true) 2) 1 5 (mul2_mem (-2) (ex2_mem 1 (1 / 2) 1)) m') /\
  (forall i j, cell2 (mul2_mem (-2) (ex2_mem 1 (1 / 2) 1)) 0 false i j =
     1 * cell2 (ex2_mem 1 (1 / 2) 1) 0 false i j + (-3) * cell2 (ex2_mem 1 (1 / 2) 1) 0 false i j).
Proof.
  split; [apply ex2_end; lia|]. split; [|intros; unfold cell2, mul2_mem; cbn [fst snd]; ring].
  apply end2_exists; try reflexivity; [apply ex2_ok; lia|]. apply ex2_mul_cyclic, ex2_cyclic.
Qed.

(** C65: [hint_scale] does not change exact results (without flux correction,
    with the division-by-zero guard of [pfc] or with [iga], or upwind). *)
Theorem C65_hint_scale_2d : forall eps tiny r s n1 n2 nt m m1' m2' e, (e < n_eqns (s_cfg r))%nat ->
  cyclic_end2 (arithR eps tiny) r n1 nt m m1' -> cyclic_end2 (arithR eps tiny) (with_scale2 r s) n2 nt m m2' ->
  s_nit r = 1%nat \/ fct (s_o r) = false /\ (iga (s_o r) = false /\ pfc (s_o r) = true \/ iga (s_o r) = true /\ (s_nit r <= 2)%nat) ->
  forall i j, on_grid (s_lo r) (s_hi r) i j -> cell2 m2' e (newest2 r nt) i j = cell2 m1' e (newest2 r nt) i j.
Proof. exact hint_scale2. Qed.
Print Assumptions C65_hint_scale_2d.
Example C65_example : (exists m', cyclic_end2 (arithR 1 1) (ex2_run (ex2_opts false false true) 3) 1 5 (ex2_mem 1 (1 / 2) 1) m') /\
  (exists m', cyclic_end2 (arithR 1 1) (ex2_run0 (ex2_opts false false true) 3) 1 5 (ex2_mem 1 (1 / 2) 1) m') /\
  s_scale (ex2_run (ex2_opts false false true) 3) 0 = 3%Z.
Proof.
  split; [apply ex2_end; lia|]. split; [|reflexivity]. apply end2_exists; try reflexivity; [|apply ex2_cyclic].
  destruct (ex2_ok false false true 3 ltac:(lia)) as [A B C]. constructor; assumption.
Qed.

(** C66: [khn] (compensated summation) and [npa] (the other way of taking
    positive and negative parts) do not change exact results. *)
Theorem C66_exact_options_2d : forall eps tiny r a b n1 n2 nt m m1' m2' e, (e < n_eqns (s_cfg r))%nat ->
  cyclic_end2 (arithR eps tiny) r n1 nt m m1' -> cyclic_end2 (arithR eps tiny) (with_toggles2 r a b) n2 nt m m2' ->
  forall i j, on_grid (s_lo r) (s_hi r) i j -> cell2 m2' e (newest2 r nt) i j = cell2 m1' e (newest2 r nt) i j.
Proof. exact toggles2. Qed.
Print Assumptions C66_exact_options_2d.
Example C66_example : (exists m', cyclic_end2 (arithR 1 1) (ex2_run (ex2_opts true false true) 3) 1 5 (ex2_mem 1 (1 / 2) 1) m') /\
  (exists m', cyclic_end2 (arithR 1 1) (with_toggles2 (ex2_run (ex2_opts true false true) 3) true true) 1 5 (ex2_mem 1 (1 / 2) 1) m') /\
  khn (ex2_opts true false true) = false.
Proof.
  split; [apply ex2_end; lia|]. split; [|reflexivity]. apply end2_exists; try reflexivity; [|apply ex2_cyclic].
  destruct (ex2_ok true false true 3 ltac:(lia)) as [A B C]. constructor; assumption.
Qed.

(** C67: a 2D run whose data do not vary along the second axis and that has no
    velocity along it gives in every row what the 1D solver gives, for the basic
    scheme, [tot], [dfl], [abs], [iga], [fct] in any combination, for [div_2nd]
    with [pfc] or [iga], and for [div_3rd] with [iga] ... *)
Theorem C67_one_dimensional_flow : forall eps tiny r n n1 nt m m' m1 m1',
  cyclic_end2 (arithR eps tiny) r n nt m m' ->
  (0 < n1)%nat -> (Z.of_nat n1 <= s_hi r DX - s_lo r DX + 1)%Z ->
  can_end loc_eq_dec (arithR eps tiny) n1 (program1 (slice_run r) n1 nt) m1 m1' ->
  fot (s_o r) = false ->
  div2 (s_o r) = false \/ div3dt (s_o r) = false /\ (iga (s_o r) = true \/ div3 (s_o r) = false /\ pfc (s_o r) = true) ->
  uniform_along_y 0 r m1 m ->
  forall e, (e < n_eqns (s_cfg r))%nat -> forall i j, on_grid (s_lo r) (s_hi r) i j ->
  cell2 m' e (newest2 r nt) i j = cell m1' e (newest (slice_run r) nt) i.
Proof. exact slice2. Qed.
Print Assumptions C67_one_dimensional_flow.
Example C67_example : uniform_along_y 0 (ex2_run (ex2_opts true false true) 3) ex_line ex_line /\
  (exists m', cyclic_end2 (arithR 1 1) (ex2_run (ex2_opts true false true) 3) 1 5 ex_line m') /\
  cell ex_line 0 false 1 = 3 /\ face ex_line 1 = 1 / 2.
Proof.
  split; [apply ex_uniform|]. split; [|split; reflexivity].
  apply end2_exists; try reflexivity; [apply ex2_ok; lia|].
  split; [intros e He; cbn in He; assert (e = 0%nat) by lia; subst|split; [|split]]; try split; reflexivity.
Qed.
(** ... but not for [div_3rd] without [iga]: the 2D formulae divide by other
    averages of the advectee than the 1D ones. *)
Theorem C67_one_dimensional_flow_refuted : exists r (m m' m1' : loc -> Q) i j,
  cyclic_end2 (arithQ 0 0) r 1 1 m m' /\ can_end loc_eq_dec (arithQ 0 0) 1 (program1 (slice_run r) 1 1) m m1' /\
  div3 (s_o r) = true /\ iga (s_o r) = false /\ pfc (s_o r) = true /\ uniform_along_y 0%Q r m m /\ on_grid (s_lo r) (s_hi r) i j /\
  ~ (cell2 m' 0 (newest2 r 1) i j == cell m1' 0 (newest (slice_run r) 1) i)%Q.
Proof.
  destruct slice_differs as (m' & m1' & E & E1 & H). exists (two_run2 opt_div3), line_mem, m', m1', 1%Z, 1%Z.
  split; [exact E|]. split; [exact E1|]. repeat (split; [reflexivity|]). split; [|split; [split; cbn; lia|exact H]].
  split; [|split; [|split]]; intros; reflexivity.
Qed.
Print Assumptions C67_one_dimensional_flow_refuted.
