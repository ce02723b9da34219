(** Property theorems: numerical properties of runs of the 3D solver on triply
    cyclic domains in exact arithmetic.  [cyclic_end3] (SpecRun3.v): [m'] is what
    [nt] steps by [n] threads, interleaved in any way, can leave of [m]. *)
From Coq Require Import ZArith QArith List Bool Lia Reals Lra.
From Verif Require Import ModelIndex ModelRun Lang Stencil FormCommon Form3D Solver1D Solver3D Arith
  SpecThreads SpecFields3 SpecReal SpecNum3 SpecRun3 ProofsGeom3D ProofsThread3D ProofsValid3D ProofsCyclic3D ProofsResults3D ProofsExamples3D ProofsWitness3D.
Import ListNotations.
Local Open Scope R_scope.

(** C72: what is in a cyclic domain stays there: the sum of G times advectee
    does not change, for all options, flows, numbers of passes, steps and threads. *)
Theorem C72_conservation_3d : forall eps tiny r n nt m m', cyclic_end3 (arithR eps tiny) r n nt m m' ->
  forall e, (e < n_eqns (s3_cfg r))%nat ->
  (forall i, own (s3_lo r) (s3_hi r) i -> G3of (nug (s3_o r)) m i <> 0) ->
  total3 (s3_lo r) (s3_hi r) (fun i => G3of (nug (s3_o r)) m i * cell3 m' e (newest3 r nt) i) =
  total3 (s3_lo r) (s3_hi r) (fun i => G3of (nug (s3_o r)) m i * cell3 m e false i).
Proof. exact conservation3. Qed.
Print Assumptions C72_conservation_3d.
Example C72_example : (exists m', cyclic_end3 (arithR 1 1) (ex3_run (ex3_opts false true true) 3) 1 5 (ex3_mem 1 1 1 1) m') /\
  total3 (fun _ => 0%Z) h322 (fun i => G3of true (ex3_mem 1 1 1 1) i * cell3 (ex3_mem 1 1 1 1) 0 false i) = 20.
Proof. split; [apply ex3_end; lia|]. unfold total3, total. change (Z.to_nat (h322 DX - 0)) with 3%nat. change (Z.to_nat (h322 DY - 0)) with 2%nat. change (Z.to_nat (h322 DZ - 0)) with 2%nat. cbn [sumn]. eval3. lra. Qed.

(** C73: a constant advectee stays constant in every flow that fills no cell more
    than it empties it, with any G factor ... *)
Theorem C73_constants_3d : forall eps tiny r n nt m m', cyclic_end3 (arithR eps tiny) r n nt m m' ->
  forall e, (e < n_eqns (s3_cfg r))%nat -> forall c,
  divergence_free3 (s3_lo r) (s3_hi r) m ->
  div2 (s3_o r) = false \/ (div3 (s3_o r) = false /\ div3dt (s3_o r) = false) \/ s3_sp r = aver4 \/
    (exists v, uniform3 (s3_lo r) (s3_hi r) m v) ->
  (forall i, own (s3_lo r) (s3_hi r) i -> 0 < G3of (nug (s3_o r)) m i) ->
  (iga (s3_o r) = true \/ pfc (s3_o r) = true \/ 0 < tiny /\ (oabs (s3_o r) = true \/ 0 <= c)) ->
  (forall i, own (s3_lo r) (s3_hi r) i -> cell3 m e false i = c) ->
  forall i, inside (s3_lo r) (s3_hi r) i -> cell3 m' e (newest3 r nt) i = c.
Proof. exact (fun eps tiny r n nt m m' CE e He c D O _ _ => constants3 eps tiny r n nt m m' CE e He c D O). Qed.
Print Assumptions C73_constants_3d.
Example C73_example : (exists m', cyclic_end3 (arithR 1 1) (ex3_run (ex3_opts true false true) 2) 1 5 (ex3_mem 1 (1 / 2) (1 / 3) 1) m') /\
  divergence_free3 (fun _ => 0%Z) h322 (ex3_mem 1 (1 / 2) (1 / 3) 1) /\
  face3 (ex3_mem 1 (1 / 2) (1 / 3) 1) DX (1, 1, 0)%Z <> face3 (ex3_mem 1 (1 / 2) (1 / 3) 1) DX (1, 0, 0)%Z.
Proof. split; [apply ex3_end; lia|]. split; [apply ex3_divfree|]. eval3. lra. Qed.
(** ... but with third-order corrections ([div_3rd]) whose spatial part is not
    [aver4] it does not in an eddy, although the flow is free of divergence. *)
Theorem C73_constants_3d_refuted : exists r (m m' : loc -> Q) i, cyclic_end3 (arithQ 0 0) r 1 1 m m' /\
  div3 (s3_o r) = true /\ s3_sp r = exact /\
  (forall i, own (s3_lo r) (s3_hi r) i ->
     (face3 m DX i - face3 m DX (wrap3 (s3_lo r) (s3_hi r) (put DX (comp DX i - 1) i)) +
      (face3 m DY i - face3 m DY (wrap3 (s3_lo r) (s3_hi r) (put DY (comp DY i - 1) i))) +
      (face3 m DZ i - face3 m DZ (wrap3 (s3_lo r) (s3_hi r) (put DZ (comp DZ i - 1) i))) == 0)%Q) /\
  (forall i, cell3 m 0 false i = 1%Q) /\ inside (s3_lo r) (s3_hi r) i /\ ~ (cell3 m' 0 (newest3 r 1) i == 1)%Q.
Proof.
  destruct constant_witness3 as (m' & E & H).
  exists (two_run3 opt3_div3), (mem3 (flat3 1) eddy3_x eddy3_y (flat3 0)), m', (0, 1, 0)%Z.
  split; [exact E|]. split; [reflexivity|]. split; [reflexivity|]. split; [cells442; reflexivity|].
  split; [intros [[x y] z]; reflexivity|]. split; [apply in442; lia|exact H].
Qed.
Print Assumptions C73_constants_3d_refuted.

(** C74: the upwind scheme keeps the advectee nonnegative if no cell loses more
    than it contains ... *)
Theorem C74_upwind_sign_3d : forall eps tiny r n nt m m', cyclic_end3 (arithR eps tiny) r n nt m m' ->
  forall e, (e < n_eqns (s3_cfg r))%nat -> s3_nit r = 1%nat -> outflow_ok3 (s3_lo r) (s3_hi r) (nug (s3_o r)) m ->
  (forall i, own (s3_lo r) (s3_hi r) i -> 0 <= cell3 m e false i) ->
  forall i, inside (s3_lo r) (s3_hi r) i -> 0 <= cell3 m' e (newest3 r nt) i.
Proof. exact (fun eps tiny r n nt m m' CE e He H1 FO => sign3 eps tiny r n nt m m' CE e He FO (or_introl H1)). Qed.
Print Assumptions C74_upwind_sign_3d.
(** ... and within its bounds if moreover the flow is free of divergence. *)
Theorem C74_upwind_bounds_3d : forall eps tiny r n nt m m', cyclic_end3 (arithR eps tiny) r n nt m m' ->
  forall e, (e < n_eqns (s3_cfg r))%nat -> s3_nit r = 1%nat -> outflow_ok3 (s3_lo r) (s3_hi r) (nug (s3_o r)) m ->
  divergence_free3 (s3_lo r) (s3_hi r) m -> forall a b,
  (forall i, own (s3_lo r) (s3_hi r) i -> a <= cell3 m e false i <= b) ->
  forall i, inside (s3_lo r) (s3_hi r) i -> a <= cell3 m' e (newest3 r nt) i <= b.
Proof. exact (fun eps tiny r n nt m m' CE e He H1 FO D a b => bounds3 eps tiny r n nt m m' CE e He FO a b (or_introl H1) D). Qed.
Print Assumptions C74_upwind_bounds_3d.
Example C74_example : (exists m', cyclic_end3 (arithR 1 1) (ex3_run (ex3_opts false false true) 1) 1 9 (ex3_mem (1 / 4) (1 / 4) (1 / 8) (1 / 8)) m') /\
  outflow_ok3 (fun _ => 0%Z) h322 true (ex3_mem (1 / 4) (1 / 4) (1 / 8) (1 / 8)) /\
  divergence_free3 (fun _ => 0%Z) h322 (ex3_mem (1 / 4) (1 / 4) (1 / 8) (1 / 8)) /\
  forall i, own (fun _ => 0%Z) h322 i -> 1 <= cell3 (ex3_mem (1 / 4) (1 / 4) (1 / 8) (1 / 8)) 0 false i <= 4.
Proof. split; [apply ex3_end; lia|]. split; [apply ex3_outflow; lra|]. split; [apply ex3_divfree|apply ex3_pos]. Qed.

(** C75: the basic scheme keeps the advectee nonnegative if the Courant numbers in
    the three directions add up to at most one half (uniform G factor, any number
    of passes), or, with G factors within a factor of two, to at most 6 / (11 +
    number of passes); flow with or without divergence ... *)
Theorem C75_positive_definite_3d : forall eps tiny r n nt m m', cyclic_end3 (arithR eps tiny) r n nt m m' ->
  forall e, (e < n_eqns (s3_cfg r))%nat -> forall g c,
  iga (s3_o r) = false -> fct (s3_o r) = false -> div2 (s3_o r) = false -> tot (s3_o r) = false -> dfl (s3_o r) = false ->
  (pfc (s3_o r) = true \/ 0 < tiny) -> gentle3 (s3_lo r) (s3_hi r) (nug (s3_o r)) m (s3_nit r) g c ->
  (forall i, own (s3_lo r) (s3_hi r) i -> 0 <= cell3 m e false i) ->
  forall i, inside (s3_lo r) (s3_hi r) i -> 0 <= cell3 m' e (newest3 r nt) i.
Proof. exact basic_sign3. Qed.
Print Assumptions C75_positive_definite_3d.
Example C75_example : (exists m', cyclic_end3 (arithR 1 1) (ex3_run (ex3_opts false false true) 3) 1 9 (ex3_mem (1 / 16) (1 / 16) (1 / 8) (1 / 16)) m') /\
  gentle3 (fun _ => 0%Z) h322 true (ex3_mem (1 / 16) (1 / 16) (1 / 8) (1 / 16)) 3 1 (fun _ => 1 / 8).
Proof. split; [apply ex3_end; lia|apply ex3_gentle]. Qed.
(** ... but not for Courant numbers adding up to one, although the upwind scheme
    does. *)
Theorem C75_positive_definite_3d_refuted : exists r (m m' : loc -> Q) i, cyclic_end3 (arithQ 0 0) r 1 1 m m' /\
  iga (s3_o r) = false /\ fct (s3_o r) = false /\ div2 (s3_o r) = false /\ tot (s3_o r) = false /\ pfc (s3_o r) = true /\ s3_nit r = 2%nat /\
  (forall i, face3 m DX i = (1 # 2)%Q /\ face3 m DY i = (1 # 2)%Q /\ face3 m DZ i = 0%Q) /\
  (forall i, own (s3_lo r) (s3_hi r) i -> 0 <= cell3 m 0 false i)%Q /\
  inside (s3_lo r) (s3_hi r) i /\ (cell3 m' 0 (newest3 r 1) i < 0)%Q.
Proof.
  destruct negative_witness3 as (m' & E & H).
  exists (two_run3 opt3_basic), (mem3 neg3 (flat3 (1 # 2)) (flat3 (1 # 2)) (flat3 0)), m', (1, 1, 1)%Z.
  split; [exact E|]. do 6 (split; [reflexivity|]). split; [intros [[x y] z]; repeat split; reflexivity|].
  split; [cells442; discriminate|]. split; [apply in442; lia|exact H].
Qed.
Print Assumptions C75_positive_definite_3d_refuted.
(** ... nor for the infinite-gauge variant, even with Courant number one half in
    one direction only. *)
Theorem C75_infinite_gauge_3d_refuted : exists r (m m' : loc -> Q) i, cyclic_end3 (arithQ 0 0) r 1 1 m m' /\
  iga (s3_o r) = true /\ fct (s3_o r) = false /\ s3_nit r = 2%nat /\
  (forall i, face3 m DX i = 0%Q /\ face3 m DY i = (1 # 2)%Q /\ face3 m DZ i = 0%Q) /\
  (forall i, own (s3_lo r) (s3_hi r) i -> 0 <= cell3 m 0 false i)%Q /\
  inside (s3_lo r) (s3_hi r) i /\ (cell3 m' 0 (newest3 r 1) i < 0)%Q.
Proof.
  destruct iga_witness3 as (m' & E & H).
  exists (two_run3 opt3_iga), (mem3 spike3 (flat3 0) (flat3 (1 # 2)) (flat3 0)), m', (1, 0, 1)%Z.
  split; [exact E|]. do 3 (split; [reflexivity|]). split; [intros [[x y] z]; repeat split; reflexivity|].
  split; [cells442; discriminate|]. split; [apply in442; lia|exact H].
Qed.
Print Assumptions C75_infinite_gauge_3d_refuted.

(** C76: with flux correction the advectee stays nonnegative, for all options and
    any number of passes, if no cell loses more than it contains in the first pass ... *)
Theorem C76_fct_sign_3d : forall eps tiny r n nt m m', cyclic_end3 (arithR eps tiny) r n nt m m' ->
  forall e, (e < n_eqns (s3_cfg r))%nat -> outflow_ok3 (s3_lo r) (s3_hi r) (nug (s3_o r)) m -> fct (s3_o r) = true -> 0 < eps ->
  (forall i, own (s3_lo r) (s3_hi r) i -> 0 <= cell3 m e false i) ->
  forall i, inside (s3_lo r) (s3_hi r) i -> 0 <= cell3 m' e (newest3 r nt) i.
Proof. exact (fun eps tiny r n nt m m' CE e He FO F E => sign3 eps tiny r n nt m m' CE e He FO (or_intror (conj F E))). Qed.
Print Assumptions C76_fct_sign_3d.
(** ... and within its bounds (of one sign, or with [iga] or [abs]) if moreover
    the flow is free of divergence. *)
Theorem C76_fct_bounds_3d : forall eps tiny r n nt m m', cyclic_end3 (arithR eps tiny) r n nt m m' ->
  forall e, (e < n_eqns (s3_cfg r))%nat -> outflow_ok3 (s3_lo r) (s3_hi r) (nug (s3_o r)) m -> forall a b,
  fct (s3_o r) = true /\ 0 < eps /\ (iga (s3_o r) = true \/ oabs (s3_o r) = true \/ 0 <= a) ->
  divergence_free3 (s3_lo r) (s3_hi r) m ->
  (forall i, own (s3_lo r) (s3_hi r) i -> a <= cell3 m e false i <= b) ->
  forall i, inside (s3_lo r) (s3_hi r) i -> a <= cell3 m' e (newest3 r nt) i <= b.
Proof. exact (fun eps tiny r n nt m m' CE e He FO a b F => bounds3 eps tiny r n nt m m' CE e He FO a b (or_intror F)). Qed.
Print Assumptions C76_fct_bounds_3d.
Example C76_example : (exists m', cyclic_end3 (arithR 1 1) (ex3_run (ex3_opts true true true) 3) 1 9 (ex3_mem (1 / 4) (1 / 4) (1 / 8) (1 / 8)) m') /\
  outflow_ok3 (fun _ => 0%Z) h322 true (ex3_mem (1 / 4) (1 / 4) (1 / 8) (1 / 8)) /\
  divergence_free3 (fun _ => 0%Z) h322 (ex3_mem (1 / 4) (1 / 4) (1 / 8) (1 / 8)).
Proof. split; [apply ex3_end; lia|]. split; [apply ex3_outflow; lra|apply ex3_divfree]. Qed.

(** C77: with Courant number 0, 1 or -1 in one direction and 0 in the others the
    advectee moves by exactly that many cells per step ... *)
Theorem C77_unit_courant_3d : forall eps tiny r n nt m m', cyclic_end3 (arithR eps tiny) r n nt m m' ->
  forall e, (e < n_eqns (s3_cfg r))%nat -> forall s : dim -> Z,
  nug (s3_o r) = false -> div2 (s3_o r) = false \/ (iga (s3_o r) = true /\ div3dt (s3_o r) = false) ->
  (exists d, (s d = 0 \/ s d = 1 \/ s d = -1)%Z /\ forall d', d' <> d -> s d' = 0%Z) ->
  uniform3 (s3_lo r) (s3_hi r) m (fun d => IZR (s d)) ->
  forall i, inside (s3_lo r) (s3_hi r) i ->
    cell3 m' e (newest3 r nt) i =
    cell3 m e false (wrap3 (s3_lo r) (s3_hi r)
      (comp DX i - s DX * Z.of_nat nt, comp DY i - s DY * Z.of_nat nt, comp DZ i - s DZ * Z.of_nat nt)%Z).
Proof. exact unit_courant3. Qed.
Print Assumptions C77_unit_courant_3d.
Example C77_example : (exists m', cyclic_end3 (arithR 1 1) (ex3_run (ex3_opts true false false) 3) 1 9 (ex3_mem 0 0 (-1) 0) m') /\
  uniform3 (fun _ => 0%Z) h322 (ex3_mem 0 0 (-1) 0) (fun d => IZR match d with DZ => -1 | _ => 0 end).
Proof. split; [apply ex3_end; lia|]. intros []; cells3; eval3; ring. Qed.
(** ... but not with [div_2nd] without [iga]: the two parts of its formula
    normalise by different sets of cells and do not cancel. *)
Theorem C77_unit_courant_3d_refuted : exists r (m m' : loc -> Q), cyclic_end3 (arithQ 0 0) r 1 1 m m' /\
  div2 (s3_o r) = true /\ nug (s3_o r) = false /\ (forall i, face3 m DX i = 1%Q /\ face3 m DY i = 0%Q /\ face3 m DZ i = 0%Q) /\
  inside (s3_lo r) (s3_hi r) (2, 1, 1)%Z /\ ~ (cell3 m' 0 (newest3 r 1) (2, 1, 1)%Z == cell3 m 0 false (1, 1, 1)%Z)%Q.
Proof.
  destruct unit_witness3 as (m' & E & H).
  exists (two_run3 opt3_div2), (mem3 bump3 (flat3 1) (flat3 0) (flat3 0)), m'.
  split; [exact E|]. do 2 (split; [reflexivity|]). split; [intros [[x y] z]; repeat split; reflexivity|]. split; [apply in442; lia|exact H].
Qed.
Print Assumptions C77_unit_courant_3d_refuted.
