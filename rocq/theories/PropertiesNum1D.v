(** Property theorems: numerical properties of runs of the 1D solver in exact
    arithmetic.  Every statement is about complete runs of the multithreaded
    program ([can_end]: any interleaving of [n] threads, [nt] time steps) and
    the values the user can read afterwards; [eps] and [tiny] are the two
    constants the formulae add to denominators. *)
From Coq Require Import ZArith QArith List Bool Lia Reals Lra.
From Verif Require Import ModelIndex ModelRun Lang Stencil FormCommon Form1D Solver1D
  SpecThreads SpecFields SpecReal SpecNum ProofsThread1D ProofsValid1D ProofsCyclic1D ProofsStale1D
  Arith Exec Fun1D ProofsCons1D ProofsNum1D ProofsResults1D ProofsRefute1D
  ProofsDom1D SpecMpdata ProofsTextbook1D ProofsExamples1D.
Import ListNotations.
Local Open Scope R_scope.

(** C23: on a cyclic domain what is in the domain stays there: the sum of G
    times advectee does not change, for all options, numbers of passes, steps,
    equations and threads, with or without flux correction. *)
Theorem C23_conservation : forall r n nt eps tiny m m',
  run_ok r -> (0 < n)%nat -> (Z.of_nat n <= r_hi r - r_lo r + 1)%Z ->
  r_bl r = Cyclic -> r_br r = Cyclic -> no_stale (r_o r) (r_nit r) = true ->
  cyclic_data (r_lo r) (r_hi r) (n_eqns (r_cfg r)) (nug (r_o r)) m ->
  can_end loc_eq_dec (arithR eps tiny) n (program1 r n nt) m m' ->
  forall e, (e < n_eqns (r_cfg r))%nat ->
  let G := fun i => if nug (r_o r) then gfac m i else 1 in
  (forall i, (r_lo r <= i < r_hi r)%Z -> G i <> 0) ->
  total (r_lo r) (r_hi r) (fun i => G i * cell m' e (newest r nt) i) =
  total (r_lo r) (r_hi r) (fun i => G i * cell m e false i).
Proof. exact conservation. Qed.
Print Assumptions C23_conservation.
Example C23_example : run_ok (ex_run (ex_opts true false) 3 Cyclic) /\ cyclic_data 0 4 1 true (ex_mem (1 / 2)) /\
  total 0 4 (fun i => gfac (ex_mem (1 / 2)) i * cell (ex_mem (1 / 2)) 0 false i) = 6.
Proof.
  split; [apply ex_ok; lia|]. split; [apply ex_cyclic|].
  cbv [total sumn Z.to_nat Pos.to_nat Pos.iter_op Z.sub Z.add Z.opp Pos.pred_double Pos.add Z.pos_sub Nat.add Pos.succ gfac cell ex_mem fst snd]. lra.
Qed.

(** ... with [div_2nd], no [fct] and three iterations it does not (see C20). *)
Theorem C23_conservation_refuted : exists r ar nt (m m' : loc -> Q),
  run_ok r /\ r_bl r = Cyclic /\ r_br r = Cyclic /\ r_lo r = 0%Z /\ r_hi r = 4%Z /\ nug (r_o r) = false /\
  cyclic_data 0 4 (n_eqns (r_cfg r)) false m /\ ar = arithQ 0 0 /\
  can_end loc_eq_dec (arithQ 0 0) 1 (program1 r 1 nt) m m' /\
  ~ (cell m' 0 (newest r nt) 0%Z + cell m' 0 (newest r nt) 1%Z + cell m' 0 (newest r nt) 2%Z + cell m' 0 (newest r nt) 3%Z ==
     cell m 0 false 0%Z + cell m 0 false 1%Z + cell m 0 false 2%Z + cell m 0 false 3%Z)%Q.
Proof. exact leak_witness. Qed.
Print Assumptions C23_conservation_refuted.

(** C30: the upwind scheme keeps the advectee nonnegative in any flow in which
    no cell loses more than it contains, with any G factor and boundaries ... *)
Theorem C30_upwind_sign : forall r, run_ok r -> forall n, (0 < n)%nat -> (Z.of_nat n <= r_hi r - r_lo r + 1)%Z ->
  forall eps tiny, no_stale (r_o r) (r_nit r) = true -> forall nt m m',
  can_end loc_eq_dec (arithR eps tiny) n (program1 r n nt) m m' ->
  forall e, (e < n_eqns (r_cfg r))%nat -> r_nit r = 1%nat ->
  outflow_ok (r_bl r) (r_br r) (r_lo r) (r_hi r) (halo (r_o r)) (nug (r_o r)) m ->
  (forall i, (r_lo r <= i <= r_hi r)%Z -> 0 <= cell m e false i) ->
  forall i, (r_lo r <= i <= r_hi r)%Z -> 0 <= cell m' e (newest r nt) i.
Proof. exact upwind_sign. Qed.
Print Assumptions C30_upwind_sign.
Example C30_example : run_ok (ex_run (ex_opts false false) 1 Open) /\
  outflow_ok Open Open 0 4 2 true (ex_mem 1) /\
  (forall i, (0 <= i <= 4)%Z -> 0 <= cell (ex_mem 1) 0 false i).
Proof.
  split; [apply ex_ok; lia|]. split; [apply (ex_outflow false false 1 Open 1); lra|].
  intros i Hi. pose proof (ex_cells 1 i Hi). lra.
Qed.

(** ... and in uniform flow all values stay between the bounds of the initial values. *)
Theorem C30_upwind_bounds : forall r, run_ok r -> forall n, (0 < n)%nat -> (Z.of_nat n <= r_hi r - r_lo r + 1)%Z ->
  forall eps tiny, no_stale (r_o r) (r_nit r) = true -> forall nt m m',
  can_end loc_eq_dec (arithR eps tiny) n (program1 r n nt) m m' ->
  forall e, (e < n_eqns (r_cfg r))%nat -> r_nit r = 1%nat ->
  forall k, uniform (r_lo r) (r_hi r) (nug (r_o r)) m k ->
  forall a b, (forall i, (r_lo r <= i <= r_hi r)%Z -> a <= cell m e false i <= b) ->
  forall i, (r_lo r <= i <= r_hi r)%Z -> a <= cell m' e (newest r nt) i <= b.
Proof.
  exact (fun r RK n Hn Hs eps tiny NS nt m m' CE e He H1 k U a b =>
    uni_bounds r RK n Hn Hs eps tiny NS nt m m' CE e He k (proj1 U) a b U (or_introl H1)).
Qed.
Print Assumptions C30_upwind_bounds.
Example C30_bounds_example : uniform 0 4 true (ex_mem (3 / 4)) (3 / 4) /\
  forall i, (0 <= i <= 4)%Z -> 1 <= cell (ex_mem (3 / 4)) 0 false i <= 3.
Proof. split; [apply ex_uniform; rewrite Rabs_right; lra|apply ex_cells]. Qed.

(** C31: a constant advectee stays constant in uniform flow, for all options,
    boundaries and numbers of passes.  (The last hypothesis keeps the formulae
    from dividing zero by zero.) *)
Theorem C31_constants : forall r, run_ok r -> forall n, (0 < n)%nat -> (Z.of_nat n <= r_hi r - r_lo r + 1)%Z ->
  forall eps tiny, no_stale (r_o r) (r_nit r) = true -> forall nt m m',
  can_end loc_eq_dec (arithR eps tiny) n (program1 r n nt) m m' ->
  forall e, (e < n_eqns (r_cfg r))%nat ->
  forall k, (forall i, (r_lo r <= i < r_hi r)%Z -> face m i = k) ->
  forall c, (forall i, (r_lo r <= i <= r_hi r)%Z -> cell m e false i = c) ->
  (forall i, (r_lo r <= i <= r_hi r)%Z -> 0 < Gof (nug (r_o r)) m i) ->
  (iga (r_o r) = true \/ pfc (r_o r) = true \/ 0 < tiny /\ (oabs (r_o r) = true \/ 0 <= c)) ->
  forall i, (r_lo r <= i <= r_hi r)%Z -> cell m' e (newest r nt) i = c.
Proof.
  exact (fun r RK n Hn Hs eps tiny NS nt m m' CE e He k U c Hc _ _ =>
    constants r RK n Hn Hs eps tiny NS nt m m' CE e He k U c Hc).
Qed.
Print Assumptions C31_constants.
Example C31_example : run_ok (ex_run (ex_opts true true) 2 Open) /\
  (forall i, (0 <= i <= 4)%Z -> 0 < Gof true (fun _ : loc => 5) i) /\
  (forall i, (0 <= i < 4)%Z -> face (fun _ : loc => 5) i = 5).
Proof. split; [apply ex_ok; lia|]. split; [intros; cbv [Gof gfac]; lra|reflexivity]. Qed.

(** C32: the basic scheme is positive definite for any number of passes: no
    negative values appear if there were none, in any flow with Courant numbers
    up to one and no cell losing more than it contains. *)
Theorem C32_positive_definite : forall r, run_ok r -> forall n, (0 < n)%nat -> (Z.of_nat n <= r_hi r - r_lo r + 1)%Z ->
  forall eps tiny, no_stale (r_o r) (r_nit r) = true -> forall nt m m',
  can_end loc_eq_dec (arithR eps tiny) n (program1 r n nt) m m' ->
  forall e, (e < n_eqns (r_cfg r))%nat ->
  iga (r_o r) = false -> fct (r_o r) = false -> div2 (r_o r) = false -> tot (r_o r) = false -> dfl (r_o r) = false ->
  (pfc (r_o r) = true \/ 0 < tiny) ->
  outflow_ok (r_bl r) (r_br r) (r_lo r) (r_hi r) (halo (r_o r)) (nug (r_o r)) m ->
  courant_ok (r_bl r) (r_br r) (r_lo r) (r_hi r) (halo (r_o r)) (nug (r_o r)) m ->
  smooth_G (r_bl r) (r_br r) (r_lo r) (r_hi r) (nug (r_o r)) m ->
  (forall i, (r_lo r <= i <= r_hi r)%Z -> 0 <= cell m e false i) ->
  forall i, (r_lo r <= i <= r_hi r)%Z -> 0 <= cell m' e (newest r nt) i.
Proof. exact basic_sign. Qed.
Print Assumptions C32_positive_definite.
Example C32_example : run_ok (ex_run ex_basic 3 Cyclic) /\
  outflow_ok Cyclic Cyclic 0 4 (halo ex_basic) true (ex_mem (9 / 10)) /\
  courant_ok Cyclic Cyclic 0 4 (halo ex_basic) true (ex_mem (9 / 10)) /\ smooth_G Cyclic Cyclic 0 4 true (ex_mem (9 / 10)).
Proof.
  assert (E1 : forall i, Crght Cyclic 0 4 (halo ex_basic) (ex_mem (9 / 10)) i = 9 / 10) by (intros i; unfold Crght; destruct (i =? 4)%Z; reflexivity).
  assert (E2 : forall i, Cleft Cyclic 0 4 (ex_mem (9 / 10)) i = 9 / 10) by (intros i; unfold Cleft; destruct (i =? 0)%Z; reflexivity).
  assert (E3 : forall i, Gof true (ex_mem (9 / 10)) i = 1) by reflexivity.
  assert (E4 : forall i, Gleft Cyclic 0 4 true (ex_mem (9 / 10)) i = 1) by (intros i; unfold Gleft; destruct (i =? 0)%Z; reflexivity).
  assert (E5 : forall i, Grght Cyclic 0 4 true (ex_mem (9 / 10)) i = 1) by (intros i; unfold Grght; destruct (i =? 4)%Z; reflexivity).
  split; [constructor; vm_compute; try reflexivity; try discriminate; lia|]. split; [|split]; intros i Hi; rewrite ?E1, ?E2, ?E3, ?E4, ?E5.
  - rewrite Rmax_right, Rmin_left by lra. lra.
  - rewrite Rabs_right by lra. lra.
  - lra.
Qed.
(** ... the infinite-gauge variant is not (known, hence to be used with [fct]). *)
Theorem C32_infinite_gauge_refuted : exists r (m m' : loc -> Q) nt i,
  run_ok r /\ iga (r_o r) = true /\ fct (r_o r) = false /\ r_nit r = 2%nat /\
  (forall j, face m j = (1 # 2)%Q) /\ (forall j, 0 <= cell m 0 false j)%Q /\ (r_lo r <= i <= r_hi r)%Z /\
  can_end loc_eq_dec (arithQ 0 0) 1 (program1 r 1 nt) m m' /\ (cell m' 0 (newest r nt) i < 0)%Q.
Proof. exact iga_witness. Qed.
Print Assumptions C32_infinite_gauge_refuted.

(** C33: with flux correction the advectee stays nonnegative, for all options
    and any number of passes, in any flow in which no cell loses more than it
    contains in the first pass ... *)
Theorem C33_fct_sign : forall r, run_ok r -> forall n, (0 < n)%nat -> (Z.of_nat n <= r_hi r - r_lo r + 1)%Z ->
  forall eps tiny, no_stale (r_o r) (r_nit r) = true -> forall nt m m',
  can_end loc_eq_dec (arithR eps tiny) n (program1 r n nt) m m' ->
  forall e, (e < n_eqns (r_cfg r))%nat -> fct (r_o r) = true -> 0 < eps ->
  outflow_ok (r_bl r) (r_br r) (r_lo r) (r_hi r) (halo (r_o r)) (nug (r_o r)) m ->
  (forall i, (r_lo r <= i <= r_hi r)%Z -> 0 <= cell m e false i) ->
  forall i, (r_lo r <= i <= r_hi r)%Z -> 0 <= cell m' e (newest r nt) i.
Proof. exact fct_sign. Qed.
Print Assumptions C33_fct_sign.
Example C33_sign_example : run_ok (ex_run (ex_opts true true) 2 Cyclic) /\
  outflow_ok Cyclic Cyclic 0 4 2 true (ex_mem (1 / 3)).
Proof. split; [apply ex_ok; lia|]. apply (ex_outflow true true 2 Cyclic (1 / 3)); lra. Qed.

(** ... in uniform flow no new maxima or minima appear: all values stay between
    the bounds of the initial values (of one sign, or with [iga] or [abs]) ... *)
Theorem C33_fct_bounds : forall r, run_ok r -> forall n, (0 < n)%nat -> (Z.of_nat n <= r_hi r - r_lo r + 1)%Z ->
  forall eps tiny, no_stale (r_o r) (r_nit r) = true -> forall nt m m',
  can_end loc_eq_dec (arithR eps tiny) n (program1 r n nt) m m' ->
  forall e, (e < n_eqns (r_cfg r))%nat -> fct (r_o r) = true -> 0 < eps ->
  forall k, uniform (r_lo r) (r_hi r) (nug (r_o r)) m k ->
  forall a b, (iga (r_o r) = true \/ oabs (r_o r) = true \/ 0 <= a) ->
  (forall i, (r_lo r <= i <= r_hi r)%Z -> a <= cell m e false i <= b) ->
  forall i, (r_lo r <= i <= r_hi r)%Z -> a <= cell m' e (newest r nt) i <= b.
Proof.
  exact (fun r RK n Hn Hs eps tiny NS nt m m' CE e He F E k U a b S =>
    uni_bounds r RK n Hn Hs eps tiny NS nt m m' CE e He k (proj1 U) a b U (or_intror (conj F (conj E S)))).
Qed.
Print Assumptions C33_fct_bounds.
Example C33_bounds_example : run_ok (ex_run (ex_opts true false) 3 Open) /\
  uniform 0 4 true (ex_mem (-1)) (-1) /\ forall i, (0 <= i <= 4)%Z -> 1 <= cell (ex_mem (-1)) 0 false i <= 3.
Proof. split; [apply ex_ok; lia|]. split; [apply ex_uniform; rewrite Rabs_left; lra|apply ex_cells]. Qed.

(** ... and locally: after one step every value is within the bounds of the
    values before the step in the cells at most [n_iters] away. *)
Theorem C33_fct_local : forall r eps tiny n m m' e k, run_ok r -> no_stale (r_o r) (r_nit r) = true ->
  r_bl r = Cyclic -> r_br r = Cyclic -> (e < n_eqns (r_cfg r))%nat ->
  (0 < n)%nat -> (Z.of_nat n <= r_hi r - r_lo r + 1)%Z ->
  cyclic_data (r_lo r) (r_hi r) (n_eqns (r_cfg r)) (nug (r_o r)) m ->
  uniform (r_lo r) (r_hi r) (nug (r_o r)) m k ->
  can_end loc_eq_dec (arithR eps tiny) n (program1 r n 1) m m' ->
  r_nit r = 1%nat \/ fct (r_o r) = true /\ 0 < eps /\
    (iga (r_o r) = true \/ oabs (r_o r) = true \/ forall i, (r_lo r <= i <= r_hi r)%Z -> 0 <= cell m e false i) ->
  forall i a b, (r_lo r <= i <= r_hi r)%Z ->
  (forall d, (Z.abs d <= Z.of_nat (r_nit r))%Z -> a <= cell m e false (wrap (r_lo r) (r_hi r) (i + d)) <= b) ->
  a <= cell m' e (newest r 1) i <= b.
Proof. exact local_bounds. Qed.
Print Assumptions C33_fct_local.
(** the peak in cell 1 of a domain of 10 cells does not reach cell 5 in a step of three passes *)
Example C33_local_example : run_ok ex_long /\
  forall d, (Z.abs d <= Z.of_nat 3)%Z -> 1 <= cell (ex_mem 1) 0 false (wrap 0 9 (5 + d)) <= 1.
Proof.
  split; [constructor; vm_compute; try reflexivity; try discriminate; lia|]. intros d Hd.
  assert (I : (d = -3 \/ d = -2 \/ d = -1 \/ d = 0 \/ d = 1 \/ d = 2 \/ d = 3)%Z) by lia.
  destruct I as [->|[->|[->|[->|[->|[->| ->]]]]]]; cbv [wrap cell ex_mem fst snd Z.modulo Z.div_eucl Z.pos_div_eucl Z.add Z.sub Z.opp Pos.add Z.pos_sub Z.leb Z.ltb Z.mul Z.compare Pos.compare Pos.compare_cont Pos.pred_double Z.succ_double Z.pred_double Z.double Pos.succ Pos.mul]; lra.
Qed.

(** C34: flux correction multiplies the antidiffusive velocities by factors
    between zero and one; it never reverses or amplifies them.  ([limF] is the
    limiting stage of the functional form of the solver, Fun1D.v, which all runs
    compute: C49_functional_form.) *)
Theorem C34_limiter : forall eps tiny o sp tp (X : fixed (arithR eps tiny)) (psi mn mx c : Z -> R),
  fct o = true -> 0 < eps -> (forall i, 0 < if nug o then xG _ X i else 1) ->
  exists k : Z -> R, forall i, 0 <= k i <= 1 /\ limF (arithR eps tiny) o sp tp X psi c mn mx i = c i * k i.
Proof. exact limiter. Qed.
Print Assumptions C34_limiter.
Example C34_example : fct (ex_opts true false) = true /\ nug (ex_opts true false) = true.
Proof. split; reflexivity. Qed.

(** C35: with Courant number 0, 1 or -1 the advectee is moved by exactly that
    many cells per step around a cyclic domain, for all options. *)
Theorem C35_unit_courant : forall r, run_ok r -> forall eps tiny, no_stale (r_o r) (r_nit r) = true ->
  r_bl r = Cyclic -> r_br r = Cyclic -> forall nt e, (e < n_eqns (r_cfg r))%nat ->
  forall n m m' (k : Z), (0 < n)%nat -> (Z.of_nat n <= r_hi r - r_lo r + 1)%Z ->
  cyclic_data (r_lo r) (r_hi r) (n_eqns (r_cfg r)) (nug (r_o r)) m ->
  can_end loc_eq_dec (arithR eps tiny) n (program1 r n nt) m m' ->
  nug (r_o r) = false -> (k = 0 \/ k = 1 \/ k = -1)%Z ->
  (forall i, (r_lo r <= i < r_hi r)%Z -> face m i = IZR k) ->
  forall i, (r_lo r <= i <= r_hi r)%Z ->
    cell m' e (newest r nt) i = cell m e false (wrap (r_lo r) (r_hi r) (i - k * Z.of_nat nt)).
Proof. exact unit_courant. Qed.
Print Assumptions C35_unit_courant.
Example C35_example : run_ok (ex_run ex_plain 3 Cyclic) /\ nug ex_plain = false /\
  cyclic_data 0 4 1 false (ex_mem (-1)) /\ (forall i, face (ex_mem (-1)) i = IZR (-1)).
Proof.
  split; [constructor; vm_compute; try reflexivity; try discriminate; lia|]. split; [reflexivity|].
  split; [|reflexivity]. destruct (ex_cyclic (-1)) as [A _]. split; [exact A|discriminate].
Qed.

(** C36: the result scales with the advectee: multiplying the initial values by
    a positive number (by any nonzero number with [abs]) multiplies the result ... *)
Theorem C36_multiples : forall r, run_ok r -> forall eps tiny, no_stale (r_o r) (r_nit r) = true ->
  forall nt e, (e < n_eqns (r_cfg r))%nat -> forall n1 n2,
  (0 < n1)%nat -> (Z.of_nat n1 <= r_hi r - r_lo r + 1)%Z -> (0 < n2)%nat -> (Z.of_nat n2 <= r_hi r - r_lo r + 1)%Z ->
  forall m1 m2 m1' m2',
  can_end loc_eq_dec (arithR eps tiny) n1 (program1 r n1 nt) m1 m1' ->
  can_end loc_eq_dec (arithR eps tiny) n2 (program1 r n2 nt) m2 m2' ->
  same_flow r m1 m2 -> forall lam,
  fct (r_o r) = false -> pfc (r_o r) = true -> iga (r_o r) = false -> 0 < lam \/ oabs (r_o r) = true /\ lam <> 0 ->
  (forall i, (r_lo r <= i <= r_hi r)%Z -> cell m2 e false i = lam * cell m1 e false i) ->
  forall i, (r_lo r <= i <= r_hi r)%Z -> cell m2' e (newest r nt) i = lam * cell m1' e (newest r nt) i.
Proof. exact run_multiple. Qed.
Print Assumptions C36_multiples.
Example C36_example : run_ok (ex_run (ex_opts false false) 3 Cyclic) /\ pfc (ex_opts false false) = true /\
  same_flow (ex_run (ex_opts false false) 3 Cyclic) (ex_mem 1) (mul_mem 5 (ex_mem 1)) /\
  cell (mul_mem 5 (ex_mem 1)) 0 false 1 = 5 * cell (ex_mem 1) 0 false 1.
Proof. split; [apply ex_ok; lia|]. repeat split; reflexivity. Qed.

(** ... changing the sign of the initial values changes the sign of the result
    (with [iga] or [abs], also with flux correction) ... *)
Theorem C36_sign_symmetry : forall r, run_ok r -> forall eps tiny, no_stale (r_o r) (r_nit r) = true ->
  forall nt e, (e < n_eqns (r_cfg r))%nat -> forall n1 n2,
  (0 < n1)%nat -> (Z.of_nat n1 <= r_hi r - r_lo r + 1)%Z -> (0 < n2)%nat -> (Z.of_nat n2 <= r_hi r - r_lo r + 1)%Z ->
  forall m1 m2 m1' m2',
  can_end loc_eq_dec (arithR eps tiny) n1 (program1 r n1 nt) m1 m1' ->
  can_end loc_eq_dec (arithR eps tiny) n2 (program1 r n2 nt) m2 m2' ->
  same_flow r m1 m2 ->
  iga (r_o r) = negb (oabs (r_o r)) -> (iga (r_o r) = true -> (r_nit r <= 2)%nat) -> 0 < eps ->
  (forall i, (r_lo r <= i <= r_hi r)%Z -> 0 < Gof (nug (r_o r)) m1 i) ->
  (forall i, (r_lo r <= i <= r_hi r)%Z -> cell m2 e false i = - cell m1 e false i) ->
  forall i, (r_lo r <= i <= r_hi r)%Z -> cell m2' e (newest r nt) i = - cell m1' e (newest r nt) i.
Proof. exact run_negated. Qed.
Print Assumptions C36_sign_symmetry.
Example C36_sign_example : run_ok (ex_run (ex_opts true true) 2 Open) /\
  iga (ex_opts true true) = negb (oabs (ex_opts true true)) /\
  same_flow (ex_run (ex_opts true true) 2 Open) (ex_mem 1) (mul_mem (-1) (ex_mem 1)) /\
  cell (mul_mem (-1) (ex_mem 1)) 0 false 1 = - cell (ex_mem 1) 0 false 1.
Proof. split; [apply ex_ok; lia|]. repeat split. cbv [cell mul_mem ex_mem fst snd]. ring. Qed.

(** C50: the upwind scheme and the infinite-gauge variant (without flux
    correction) are linear: superposing initial values superposes results. *)
Theorem C50_superposition : forall r, run_ok r -> forall eps tiny, no_stale (r_o r) (r_nit r) = true ->
  forall nt e, (e < n_eqns (r_cfg r))%nat -> forall n1 n2 n3,
  (0 < n1)%nat -> (Z.of_nat n1 <= r_hi r - r_lo r + 1)%Z -> (0 < n2)%nat -> (Z.of_nat n2 <= r_hi r - r_lo r + 1)%Z ->
  (0 < n3)%nat -> (Z.of_nat n3 <= r_hi r - r_lo r + 1)%Z ->
  forall m1 m2 m3 m1' m2' m3',
  can_end loc_eq_dec (arithR eps tiny) n1 (program1 r n1 nt) m1 m1' ->
  can_end loc_eq_dec (arithR eps tiny) n2 (program1 r n2 nt) m2 m2' ->
  can_end loc_eq_dec (arithR eps tiny) n3 (program1 r n3 nt) m3 m3' ->
  same_flow r m1 m2 -> same_flow r m1 m3 -> forall la lb,
  r_nit r = 1%nat \/ iga (r_o r) = true /\ fct (r_o r) = false /\ (r_nit r <= 2)%nat ->
  (forall i, (r_lo r <= i <= r_hi r)%Z -> cell m3 e false i = la * cell m1 e false i + lb * cell m2 e false i) ->
  forall i, (r_lo r <= i <= r_hi r)%Z ->
    cell m3' e (newest r nt) i = la * cell m1' e (newest r nt) i + lb * cell m2' e (newest r nt) i.
Proof. exact run_sum. Qed.
Print Assumptions C50_superposition.
Example C50_example : run_ok (ex_run (ex_opts false true) 2 Cyclic) /\
  same_flow (ex_run (ex_opts false true) 2 Cyclic) (ex_mem 1) (mul_mem 2 (ex_mem 1)) /\
  forall i, cell (mul_mem 7 (ex_mem 1)) 0 false i = 1 * cell (ex_mem 1) 0 false i + 3 * cell (mul_mem 2 (ex_mem 1)) 0 false i.
Proof. split; [apply ex_ok; lia|]. repeat split. intros i. cbv [cell mul_mem fst]. ring. Qed.

(** C10: [hint_scale] does not change exact results (without flux correction,
    with the division-by-zero guard of [pfc] or with [iga], or upwind) ... *)
Theorem C10_hint_scale : forall r s eps tiny nt e n1 n2 m m1' m2', run_ok r ->
  (e < n_eqns (r_cfg r))%nat -> no_stale (r_o r) (r_nit r) = true ->
  r_nit r = 1%nat \/ fct (r_o r) = false /\ (iga (r_o r) = false /\ pfc (r_o r) = true \/ iga (r_o r) = true /\ (r_nit r <= 2)%nat) ->
  (0 < n1)%nat -> (Z.of_nat n1 <= r_hi r - r_lo r + 1)%Z -> (0 < n2)%nat -> (Z.of_nat n2 <= r_hi r - r_lo r + 1)%Z ->
  can_end loc_eq_dec (arithR eps tiny) n1 (program1 r n1 nt) m m1' ->
  can_end loc_eq_dec (arithR eps tiny) n2 (program1 (with_scale r s) n2 nt) m m2' ->
  forall i, (r_lo r <= i <= r_hi r)%Z -> cell m2' e (newest r nt) i = cell m1' e (newest r nt) i.
Proof. exact hint_scale_agree. Qed.
Print Assumptions C10_hint_scale.
Example C10_example : run_ok (ex_run (ex_opts false false) 3 Cyclic) /\
  r_scale (ex_run (ex_opts false false) 3 Cyclic) 0 <> r_scale (with_scale (ex_run (ex_opts false false) 3 Cyclic) (fun _ => (-5)%Z)) 0.
Proof. split; [apply ex_ok; lia|]. discriminate. Qed.
(** ... but with flux correction it does: the limiters add a constant of fixed
    size to their denominators. *)
Theorem C10_hint_scale_fct_refuted : exists r s (m m1' m2' : loc -> Q) eps i,
  run_ok r /\ fct (r_o r) = true /\ pfc (r_o r) = true /\ (0 < eps)%Q /\ (r_lo r <= i <= r_hi r)%Z /\
  can_end loc_eq_dec (arithQ eps 0) 1 (program1 r 1 1) m m1' /\
  can_end loc_eq_dec (arithQ eps 0) 1 (program1 (with_scale r s) 1 1) m m2' /\
  ~ (cell m2' 0 (newest r 1) i == cell m1' 0 (newest r 1) i)%Q.
Proof. exact hint_witness. Qed.
Print Assumptions C10_hint_scale_fct_refuted.

(** C25: mirror images: on a cyclic domain the result for mirrored data
    (velocities with opposite sign) is the mirrored result, for all options. *)
Theorem C25_mirror : forall r, run_ok r -> forall eps tiny, no_stale (r_o r) (r_nit r) = true ->
  r_bl r = Cyclic -> r_br r = Cyclic -> forall nt e, (e < n_eqns (r_cfg r))%nat ->
  forall n1 n2 m1 m2 m1' m2',
  (0 < n1)%nat -> (Z.of_nat n1 <= r_hi r - r_lo r + 1)%Z -> (0 < n2)%nat -> (Z.of_nat n2 <= r_hi r - r_lo r + 1)%Z ->
  cyclic_data (r_lo r) (r_hi r) (n_eqns (r_cfg r)) (nug (r_o r)) m1 ->
  mirrored Ropp (r_lo r) (r_hi r) (n_eqns (r_cfg r)) (nug (r_o r)) m1 m2 ->
  can_end loc_eq_dec (arithR eps tiny) n1 (program1 r n1 nt) m1 m1' ->
  can_end loc_eq_dec (arithR eps tiny) n2 (program1 r n2 nt) m2 m2' ->
  forall i, (r_lo r <= i <= r_hi r)%Z ->
    cell m2' e (newest r nt) i = cell m1' e (newest r nt) (r_lo r + r_hi r - i)%Z.
Proof. exact mirror_cyc. Qed.
Print Assumptions C25_mirror.
Example C25_example : run_ok (ex_run (ex_opts true false) 3 Cyclic) /\
  mirrored Ropp 0 4 1 true (ex_mem (1 / 2)) (mir_mem 0 4 (ex_mem (1 / 2))) /\
  cell (mir_mem 0 4 (ex_mem (1 / 2))) 0 false 3 = 3.
Proof. split; [apply ex_ok; lia|]. repeat split. Qed.

(** C26: the same holds on a domain with open boundaries as long as the halo is
    one cell wide ... *)
Theorem C26_open_mirror : forall r eps tiny nt e n1 n2 m1 m2 m1' m2', run_ok r -> no_stale (r_o r) (r_nit r) = true ->
  r_bl r = Open -> r_br r = Open -> halo (r_o r) = 1%Z -> (e < n_eqns (r_cfg r))%nat ->
  (0 < n1)%nat -> (Z.of_nat n1 <= r_hi r - r_lo r + 1)%Z -> (0 < n2)%nat -> (Z.of_nat n2 <= r_hi r - r_lo r + 1)%Z ->
  mirrored Ropp (r_lo r) (r_hi r) (n_eqns (r_cfg r)) (nug (r_o r)) m1 m2 ->
  can_end loc_eq_dec (arithR eps tiny) n1 (program1 r n1 nt) m1 m1' ->
  can_end loc_eq_dec (arithR eps tiny) n2 (program1 r n2 nt) m2 m2' ->
  forall i, (r_lo r <= i <= r_hi r)%Z ->
    cell m2' e (newest r nt) i = cell m1' e (newest r nt) (r_lo r + r_hi r - i)%Z.
Proof. exact mirror_open. Qed.
Print Assumptions C26_open_mirror.
Example C26_example : run_ok (ex_run ex_basic 3 Open) /\ halo ex_basic = 1%Z /\
  mirrored Ropp 0 4 1 true (ex_mem (1 / 2)) (mir_mem 0 4 (ex_mem (1 / 2))).
Proof. split; [constructor; vm_compute; try reflexivity; try discriminate; lia|]. repeat split. Qed.
(** ... and fails for halos of two cells: the right boundary then takes the
    velocity of the last but one face, the left boundary that of the first. *)
Theorem C26_open_mirror_refuted : exists r (m1 m2 m1' m2' : loc -> Q) nt i,
  run_ok r /\ r_bl r = Open /\ r_br r = Open /\ no_stale (r_o r) (r_nit r) = true /\
  mirrored Qopp (r_lo r) (r_hi r) (n_eqns (r_cfg r)) (nug (r_o r)) m1 m2 /\
  can_end loc_eq_dec (arithQ 0 0) 1 (program1 r 1 nt) m1 m1' /\
  can_end loc_eq_dec (arithQ 0 0) 1 (program1 r 1 nt) m2 m2' /\ (r_lo r <= i <= r_hi r)%Z /\
  ~ (cell m2' 0 (newest r nt) i == cell m1' 0 (newest r nt) (r_lo r + r_hi r - i)%Z)%Q.
Proof. exact open_witness. Qed.
Print Assumptions C26_open_mirror_refuted.

(** C37: [khn] (compensated summation) and [npa] (the other way of taking
    positive and negative parts) do not change exact results. *)
Theorem C37_exact_options : forall r a b eps tiny nt e n1 n2 m m1' m2', run_ok r -> no_stale (r_o r) (r_nit r) = true ->
  (e < n_eqns (r_cfg r))%nat ->
  (0 < n1)%nat -> (Z.of_nat n1 <= r_hi r - r_lo r + 1)%Z -> (0 < n2)%nat -> (Z.of_nat n2 <= r_hi r - r_lo r + 1)%Z ->
  can_end loc_eq_dec (arithR eps tiny) n1 (program1 r n1 nt) m m1' ->
  can_end loc_eq_dec (arithR eps tiny) n2 (program1 (with_toggles r a b) n2 nt) m m2' ->
  forall i, (r_lo r <= i <= r_hi r)%Z -> cell m2' e (newest r nt) i = cell m1' e (newest r nt) i.
Proof. exact toggles_agree. Qed.
Print Assumptions C37_exact_options.
Example C37_example : run_ok (ex_run (ex_opts true false) 3 Cyclic) /\
  khn (r_o (with_toggles (ex_run (ex_opts true false) 3 Cyclic) true true)) = true /\
  npa (r_o (with_toggles (ex_run (ex_opts true false) 3 Cyclic) true true)) = true /\
  khn (ex_opts true false) = false.
Proof. split; [apply ex_ok; lia|]. repeat split. Qed.

(** C49: with the basic options (no [abs], [tot], [dfl], [div_2nd]) runs on a
    cyclic domain compute MPDATA as given in the literature (SpecMpdata.v), for
    any number of passes, with or without infinite gauge, flux correction and
    G factor, for any number of steps, equations and threads ... *)
Theorem C49_mpdata : forall r n nt eps tiny m m',
  run_ok r -> (0 < n)%nat -> (Z.of_nat n <= r_hi r - r_lo r + 1)%Z ->
  r_bl r = Cyclic -> r_br r = Cyclic -> no_stale (r_o r) (r_nit r) = true ->
  oabs (r_o r) = false -> tot (r_o r) = false -> dfl (r_o r) = false -> div2 (r_o r) = false ->
  (r_freq r <= 0)%Z ->
  cyclic_data (r_lo r) (r_hi r) (n_eqns (r_cfg r)) (nug (r_o r)) m ->
  can_end loc_eq_dec (arithR eps tiny) n (program1 r n nt) m m' ->
  forall e, (e < n_eqns (r_cfg r))%nat -> r_scale r e = 0%Z ->
  let per (f : Z -> R) := fun i => f (wrap (r_lo r) (r_hi r) i) in
  forall i, (r_lo r <= i <= r_hi r)%Z ->
  cell m' e (newest r nt) i =
  mpdata (per (Gof (nug (r_o r)) m)) (per (face m)) (iga (r_o r)) (fct (r_o r)) (pfc (r_o r)) eps tiny
         (r_nit r) nt (per (cell m e false)) i.
Proof. exact textbook. Qed.
Print Assumptions C49_mpdata.
Example C49_example : run_ok ex_text /\ no_stale (r_o ex_text) (r_nit ex_text) = true /\ (r_freq ex_text <= 0)%Z /\
  cyclic_data 0 9 2 true (fun _ : loc => 2) /\ exists m', can_end loc_eq_dec (arithR 1 1) 1 (program1 ex_text 1 5) (fun _ => 2) m'.
Proof. split; [apply ex_text_ok|]. repeat split; try discriminate. apply ex_ends, ex_text_ok. Qed.

(** ... and for all options, boundaries and arithmetics (floating point
    included) all runs compute the functional form of Fun1D.v, in which there
    are no threads, time levels, temporary arrays or halos. *)
Theorem C49_functional_form : forall r, run_ok r -> forall n, (0 < n)%nat -> (Z.of_nat n <= r_hi r - r_lo r + 1)%Z ->
  forall ar nt m m', no_stale (r_o r) (r_nit r) = true ->
  can_end loc_eq_dec ar n (program1 r n nt) m m' ->
  forall e i, (e < n_eqns (r_cfg r))%nat -> (r_lo r <= i <= r_hi r)%Z ->
  cell m' e (newest r nt) i =
  stepsF ar (r_o r) (r_sp r) (r_tp r) (dom_rs r) (dom_rv r) (domX r ar m)
    (r_nit r) (r_freq r) (r_scale r e) nt 0 (cell m e false) i.
Proof. exact dom_fun. Qed.
Print Assumptions C49_functional_form.
Example C49_form_example : run_ok (ex_run (ex_opts true false) 3 Open) /\
  exists m', can_end loc_eq_dec (arithR 1 1) 1 (program1 (ex_run (ex_opts true false) 3 Open) 1 5) (ex_mem 1) m'.
Proof. assert (K := ex_ok true false 3 Open ltac:(lia)). split; [exact K|]. apply ex_ends, K. Qed.
