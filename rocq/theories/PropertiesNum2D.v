(** Property theorems: numerical properties of runs of the 2D solver on doubly
    cyclic domains in exact arithmetic.  [cyclic_end2] (SpecRun2.v): [m'] is what
    [nt] steps by [n] threads, interleaved in any way, can leave of [m]. *)
From Coq Require Import ZArith QArith List Bool Lia Reals Lra.
From Verif Require Import ModelIndex ModelRun Lang Stencil FormCommon Form2D Solver1D Solver2D Arith
  SpecThreads SpecFields2 SpecReal SpecNum2 SpecRun2 ProofsThread2D ProofsCyclic2D ProofsStale2D ProofsResults2D ProofsExamples2D ProofsWitness2D.
Import ListNotations.
Local Open Scope R_scope.

(** C54: what is in a cyclic domain stays there: the sum of G times advectee
    does not change, for all options, flows, numbers of passes, steps and threads. *)
Theorem C54_conservation_2d : forall eps tiny r n nt m m', cyclic_end2 (arithR eps tiny) r n nt m m' ->
  forall e, (e < n_eqns (s_cfg r))%nat ->
  (forall i j, inside (s_lo r) (s_hi r) i j -> G2of (nug (s_o r)) m i j <> 0) ->
  total2 (s_lo r) (s_hi r) (fun i j => G2of (nug (s_o r)) m i j * cell2 m' e (newest2 r nt) i j) =
  total2 (s_lo r) (s_hi r) (fun i j => G2of (nug (s_o r)) m i j * cell2 m e false i j).
Proof. exact conservation2. Qed.
Print Assumptions C54_conservation_2d.
Example C54_example : (exists m', cyclic_end2 (arithR 1 1) (ex2_run (ex2_opts true true true) 3) 1 5 (ex2_mem 1 1 1) m') /\
  total2 (fun _ => 0%Z) (fun _ => 4%Z) (fun i j => G2of true (ex2_mem 1 1 1) i j * cell2 (ex2_mem 1 1 1) 0 false i j) = 22.
Proof. split; [apply ex2_end; lia|]. unfold total2, total. change (Z.to_nat (4 - 0)) with 4%nat. cbn [sumn]. eval2. lra. Qed.

(** C55: a constant advectee stays constant in every flow that fills no cell more
    than it empties it, with any G factor ... *)
Theorem C55_constants_2d : forall eps tiny r n nt m m', cyclic_end2 (arithR eps tiny) r n nt m m' ->
  forall e, (e < n_eqns (s_cfg r))%nat -> forall c,
  divergence_free2 (s_lo r) (s_hi r) m ->
  div2 (s_o r) = false \/ (div3 (s_o r) = false /\ div3dt (s_o r) = false) \/ s_sp r = aver4 \/
    (exists cx cy, uniform2 (s_lo r) (s_hi r) m cx cy) ->
  (forall i j, inside (s_lo r) (s_hi r) i j -> 0 < G2of (nug (s_o r)) m i j) ->
  (iga (s_o r) = true \/ pfc (s_o r) = true \/ 0 < tiny /\ (oabs (s_o r) = true \/ 0 <= c)) ->
  (forall i j, inside (s_lo r) (s_hi r) i j -> cell2 m e false i j = c) ->
  forall i j, on_grid (s_lo r) (s_hi r) i j -> cell2 m' e (newest2 r nt) i j = c.
Proof. exact (fun eps tiny r n nt m m' CE e He c D O _ _ => constants2 eps tiny r n nt m m' CE e He c D O). Qed.
Print Assumptions C55_constants_2d.
Example C55_example : (exists m', cyclic_end2 (arithR 1 1) (ex2_run (ex2_opts true false true) 2) 1 5 (ex2_mem 1 (1 / 2) 1) m') /\
  divergence_free2 (fun _ => 0%Z) (fun _ => 4%Z) (ex2_mem 1 (1 / 2) 1) /\
  face2 (ex2_mem 1 (1 / 2) 1) DX 1 1 <> face2 (ex2_mem 1 (1 / 2) 1) DX 1 2.
Proof. split; [apply ex2_end; lia|]. split; [apply ex2_divfree|]. eval2. lra. Qed.
(** ... but with third-order corrections ([div_3rd]) whose spatial part is not
    [aver4] it does not in an eddy, although the flow is free of divergence: the
    formula adds the second difference of the velocity itself. *)
Theorem C55_constants_2d_refuted : exists r (m m' : loc -> Q) i j, cyclic_end2 (arithQ 0 0) r 1 1 m m' /\
  div3 (s_o r) = true /\ s_sp r = exact /\
  (forall i j, inside (s_lo r) (s_hi r) i j ->
     (face2 m DX i j - face2 m DX (wrap2 (s_lo r) (s_hi r) DX (i - 1)) j + (face2 m DY i j - face2 m DY i (wrap2 (s_lo r) (s_hi r) DY (j - 1))) == 0)%Q) /\
  (forall i j, cell2 m 0 false i j = 1%Q) /\ on_grid (s_lo r) (s_hi r) i j /\ ~ (cell2 m' 0 (newest2 r 1) i j == 1)%Q.
Proof.
  destruct constant_witness2 as (m' & E & H).
  exists (two_run2 opt_div3), (mem2 (fun _ _ => 1%Q) eddy_x eddy_y), m', 0%Z, 1%Z.
  split; [exact E|]. split; [reflexivity|]. split; [reflexivity|]. split; [cells; reflexivity|].
  split; [reflexivity|]. split; [split; cbn; lia|exact H].
Qed.
Print Assumptions C55_constants_2d_refuted.

(** C56: the upwind scheme keeps the advectee nonnegative if no cell loses more
    than it contains ... *)
Theorem C56_upwind_sign_2d : forall eps tiny r n nt m m', cyclic_end2 (arithR eps tiny) r n nt m m' ->
  forall e, (e < n_eqns (s_cfg r))%nat -> s_nit r = 1%nat -> outflow_ok2 (s_lo r) (s_hi r) (nug (s_o r)) m ->
  (forall i j, inside (s_lo r) (s_hi r) i j -> 0 <= cell2 m e false i j) ->
  forall i j, on_grid (s_lo r) (s_hi r) i j -> 0 <= cell2 m' e (newest2 r nt) i j.
Proof. exact (fun eps tiny r n nt m m' CE e He H1 FO => sign2 eps tiny r n nt m m' CE e He FO (or_introl H1)). Qed.
Print Assumptions C56_upwind_sign_2d.
(** ... and within its bounds if moreover the flow is free of divergence. *)
Theorem C56_upwind_bounds_2d : forall eps tiny r n nt m m', cyclic_end2 (arithR eps tiny) r n nt m m' ->
  forall e, (e < n_eqns (s_cfg r))%nat -> s_nit r = 1%nat -> outflow_ok2 (s_lo r) (s_hi r) (nug (s_o r)) m ->
  divergence_free2 (s_lo r) (s_hi r) m -> forall a b,
  (forall i j, inside (s_lo r) (s_hi r) i j -> a <= cell2 m e false i j <= b) ->
  forall i j, on_grid (s_lo r) (s_hi r) i j -> a <= cell2 m' e (newest2 r nt) i j <= b.
Proof. exact (fun eps tiny r n nt m m' CE e He H1 FO D a b => bounds2 eps tiny r n nt m m' CE e He FO a b (or_introl H1) D). Qed.
Print Assumptions C56_upwind_bounds_2d.
Example C56_example : (exists m', cyclic_end2 (arithR 1 1) (ex2_run (ex2_opts false false true) 1) 1 9 (ex2_mem (1 / 4) (1 / 4) (1 / 8)) m') /\
  outflow_ok2 (fun _ => 0%Z) (fun _ => 4%Z) true (ex2_mem (1 / 4) (1 / 4) (1 / 8)) /\
  divergence_free2 (fun _ => 0%Z) (fun _ => 4%Z) (ex2_mem (1 / 4) (1 / 4) (1 / 8)) /\
  forall i j, inside (fun _ => 0%Z) (fun _ => 4%Z) i j -> 1 <= cell2 (ex2_mem (1 / 4) (1 / 4) (1 / 8)) 0 false i j <= 3.
Proof. split; [apply ex2_end; lia|]. split; [apply ex2_outflow; lra|]. split; [apply ex2_divfree|apply ex2_pos]. Qed.

(** C57: the basic scheme with any number of passes keeps the advectee
    nonnegative if the Courant numbers in the two directions add up to at most
    one half (flow with or without divergence, G factors within a factor of two) ... *)
Theorem C57_positive_definite_2d : forall eps tiny r n nt m m', cyclic_end2 (arithR eps tiny) r n nt m m' ->
  forall e, (e < n_eqns (s_cfg r))%nat -> forall g cx cy,
  iga (s_o r) = false -> fct (s_o r) = false -> div2 (s_o r) = false -> tot (s_o r) = false -> dfl (s_o r) = false -> fot (s_o r) = false ->
  (pfc (s_o r) = true \/ 0 < tiny) -> gentle2 (s_lo r) (s_hi r) (nug (s_o r)) m g cx cy ->
  (forall i j, inside (s_lo r) (s_hi r) i j -> 0 <= cell2 m e false i j) ->
  forall i j, on_grid (s_lo r) (s_hi r) i j -> 0 <= cell2 m' e (newest2 r nt) i j.
Proof. exact basic_sign2. Qed.
Print Assumptions C57_positive_definite_2d.
Example C57_example : (exists m', cyclic_end2 (arithR 1 1) (ex2_run (ex2_opts false false true) 4) 1 9 (ex2_mem (1 / 8) (1 / 8) (1 / 8)) m') /\
  gentle2 (fun _ => 0%Z) (fun _ => 4%Z) true (ex2_mem (1 / 8) (1 / 8) (1 / 8)) 1 (1 / 4) (1 / 4).
Proof. split; [apply ex2_end; lia|apply ex2_gentle]. Qed.
(** ... but not for Courant numbers adding up to one, although the upwind scheme
    does: the corrective velocities of the second pass empty a cell in all four
    directions.  (In 1D Courant numbers up to one are fine, C32.) *)
Theorem C57_positive_definite_2d_refuted : exists r (m m' : loc -> Q) i j, cyclic_end2 (arithQ 0 0) r 1 1 m m' /\
  iga (s_o r) = false /\ fct (s_o r) = false /\ div2 (s_o r) = false /\ tot (s_o r) = false /\ pfc (s_o r) = true /\ s_nit r = 2%nat /\
  (forall i j, face2 m DX i j = (1 # 2)%Q /\ face2 m DY i j = (1 # 2)%Q) /\
  (forall i j, inside (s_lo r) (s_hi r) i j -> 0 <= cell2 m 0 false i j)%Q /\
  inside (s_lo r) (s_hi r) i j /\ (cell2 m' 0 (newest2 r 1) i j < 0)%Q.
Proof.
  destruct negative_witness2 as (m' & E & H).
  exists (two_run2 opt_basic), (mem2 neg_psi (fun _ _ => (1 # 2)%Q) (fun _ _ => (1 # 2)%Q)), m', 1%Z, 1%Z.
  split; [exact E|]. do 6 (split; [reflexivity|]). split; [split; reflexivity|].
  split; [cells; discriminate|]. split; [split; cbn; lia|exact H].
Qed.
Print Assumptions C57_positive_definite_2d_refuted.
(** ... nor for the infinite-gauge variant, even with Courant number one half in
    one direction only. *)
Theorem C57_infinite_gauge_2d_refuted : exists r (m m' : loc -> Q) i j, cyclic_end2 (arithQ 0 0) r 1 1 m m' /\
  iga (s_o r) = true /\ fct (s_o r) = false /\ s_nit r = 2%nat /\
  (forall i j, face2 m DX i j = (1 # 2)%Q /\ face2 m DY i j = 0%Q) /\
  (forall i j, inside (s_lo r) (s_hi r) i j -> 0 <= cell2 m 0 false i j)%Q /\
  inside (s_lo r) (s_hi r) i j /\ (cell2 m' 0 (newest2 r 1) i j < 0)%Q.
Proof.
  destruct iga_witness2 as (m' & E & H).
  exists (two_run2 opt_iga), (mem2 spike (fun _ _ => (1 # 2)%Q) (fun _ _ => 0%Q)), m', 0%Z, 1%Z.
  split; [exact E|]. do 3 (split; [reflexivity|]). split; [split; reflexivity|].
  split; [cells; discriminate|]. split; [split; cbn; lia|exact H].
Qed.
Print Assumptions C57_infinite_gauge_2d_refuted.

(** C58: with flux correction the advectee stays nonnegative, for all options and
    any number of passes, if no cell loses more than it contains in the first pass ... *)
Theorem C58_fct_sign_2d : forall eps tiny r n nt m m', cyclic_end2 (arithR eps tiny) r n nt m m' ->
  forall e, (e < n_eqns (s_cfg r))%nat -> outflow_ok2 (s_lo r) (s_hi r) (nug (s_o r)) m -> fct (s_o r) = true -> 0 < eps ->
  (forall i j, inside (s_lo r) (s_hi r) i j -> 0 <= cell2 m e false i j) ->
  forall i j, on_grid (s_lo r) (s_hi r) i j -> 0 <= cell2 m' e (newest2 r nt) i j.
Proof. exact (fun eps tiny r n nt m m' CE e He FO F E => sign2 eps tiny r n nt m m' CE e He FO (or_intror (conj F E))). Qed.
Print Assumptions C58_fct_sign_2d.
(** ... and within its bounds (of one sign, or with [iga] or [abs]) if moreover
    the flow is free of divergence. *)
Theorem C58_fct_bounds_2d : forall eps tiny r n nt m m', cyclic_end2 (arithR eps tiny) r n nt m m' ->
  forall e, (e < n_eqns (s_cfg r))%nat -> outflow_ok2 (s_lo r) (s_hi r) (nug (s_o r)) m -> forall a b,
  fct (s_o r) = true /\ 0 < eps /\ (iga (s_o r) = true \/ oabs (s_o r) = true \/ 0 <= a) ->
  divergence_free2 (s_lo r) (s_hi r) m ->
  (forall i j, inside (s_lo r) (s_hi r) i j -> a <= cell2 m e false i j <= b) ->
  forall i j, on_grid (s_lo r) (s_hi r) i j -> a <= cell2 m' e (newest2 r nt) i j <= b.
Proof. exact (fun eps tiny r n nt m m' CE e He FO a b F => bounds2 eps tiny r n nt m m' CE e He FO a b (or_intror F)). Qed.
Print Assumptions C58_fct_bounds_2d.
Example C58_example : (exists m', cyclic_end2 (arithR 1 1) (ex2_run (ex2_opts true true true) 3) 1 9 (ex2_mem (1 / 4) (1 / 4) (1 / 8)) m') /\
  outflow_ok2 (fun _ => 0%Z) (fun _ => 4%Z) true (ex2_mem (1 / 4) (1 / 4) (1 / 8)) /\
  divergence_free2 (fun _ => 0%Z) (fun _ => 4%Z) (ex2_mem (1 / 4) (1 / 4) (1 / 8)).
Proof. split; [apply ex2_end; lia|]. split; [apply ex2_outflow; lra|apply ex2_divfree]. Qed.

(** C59: with Courant number 0, 1 or -1 in one direction and 0 in the other the
    advectee moves by exactly that many cells per step ... *)
Theorem C59_unit_courant_2d : forall eps tiny r n nt m m', cyclic_end2 (arithR eps tiny) r n nt m m' ->
  forall e, (e < n_eqns (s_cfg r))%nat -> forall k l,
  nug (s_o r) = false -> div2 (s_o r) = false \/ (iga (s_o r) = true /\ div3dt (s_o r) = false) ->
  (l = 0 /\ (k = 0 \/ k = 1 \/ k = -1) \/ k = 0 /\ (l = 0 \/ l = 1 \/ l = -1))%Z ->
  uniform2 (s_lo r) (s_hi r) m (IZR k) (IZR l) ->
  forall i j, on_grid (s_lo r) (s_hi r) i j ->
    cell2 m' e (newest2 r nt) i j =
    cell2 m e false (wrap2 (s_lo r) (s_hi r) DX (i - k * Z.of_nat nt)) (wrap2 (s_lo r) (s_hi r) DY (j - l * Z.of_nat nt)).
Proof. exact unit_courant2. Qed.
Print Assumptions C59_unit_courant_2d.
Example C59_example : (exists m', cyclic_end2 (arithR 1 1) (ex2_run (ex2_opts true false false) 3) 1 9 (ex2_mem 0 (-1) 0) m') /\
  uniform2 (fun _ => 0%Z) (fun _ => 4%Z) (ex2_mem 0 (-1) 0) 0 (-1).
Proof. split; [apply ex2_end; lia|]. cells; eval2; split; ring. Qed.
(** ... but not with [div_2nd] without [iga]: the two parts of its formula
    normalise by different sets of cells and do not cancel. *)
Theorem C59_unit_courant_2d_refuted : exists r (m m' : loc -> Q), cyclic_end2 (arithQ 0 0) r 1 1 m m' /\
  div2 (s_o r) = true /\ nug (s_o r) = false /\ (forall i j, face2 m DX i j = 1%Q /\ face2 m DY i j = 0%Q) /\
  inside (s_lo r) (s_hi r) 2 1 /\ ~ (cell2 m' 0 (newest2 r 1) 2 1 == cell2 m 0 false 1 1)%Q.
Proof.
  destruct unit_witness2 as (m' & E & H).
  exists (two_run2 opt_div2), (mem2 bump (fun _ _ => 1%Q) (fun _ _ => 0%Q)), m'.
  split; [exact E|]. do 2 (split; [reflexivity|]). split; [split; reflexivity|]. split; [split; cbn; lia|exact H].
Qed.
Print Assumptions C59_unit_courant_2d_refuted.
