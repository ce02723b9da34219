(** Property theorems: threads, memory and cyclic grids, 3D solver. *)
From Coq Require Import ZArith QArith List Bool Lia.
From Verif Require Import ModelIndex ModelRun Lang Stencil FormCommon Form3D Solver1D Solver3D
  SpecThreads SpecFields3 ProofsGeom3D ProofsThread3D ProofsValid3D ProofsCyclic3D ProofsRefute3D Arith.
Import ListNotations.
Local Open Scope Z_scope.

(** C68: for every option set that compiles except [fct] without [iga] (then:
    for one thread), a grid cyclic in all three dimensions, every number of
    equations, iterations and steps, every arithmetic and every initial memory:
    all runs with any number of threads (up to the grid size), however the
    threads are interleaved, end with the same fields, advector and G factor. *)
Theorem C68_threads_agree_3d : forall r n1 n2 nt ar (m m1 m2 : loc -> car ar), run3_ok r ->
  (0 < n1)%nat -> Z.of_nat n1 <= s3_hi r DY - s3_lo r DY + 1 -> settled3 r n1 ->
  (0 < n2)%nat -> Z.of_nat n2 <= s3_hi r DY - s3_lo r DY + 1 -> settled3 r n2 ->
  can_end loc_eq_dec ar n1 (program3 r n1 nt) m m1 ->
  can_end loc_eq_dec ar n2 (program3 r n2 nt) m m2 ->
  forall l, visible l -> m1 l = m2 l.
Proof. exact threads_visible3. Qed.
Print Assumptions C68_threads_agree_3d.

(** ... some run finishes, and no run gets stuck half-way. *)
Theorem C68_threads_finish_3d : forall r n nt ar (m : loc -> car ar), run3_ok r -> (0 < n)%nat ->
  Z.of_nat n <= s3_hi r DY - s3_lo r DY + 1 -> settled3 r n ->
  (exists m', can_end loc_eq_dec ar n (program3 r n nt) m m') /\
  never_stuck loc_eq_dec ar n (program3 r n nt) m.
Proof. exact finish3. Qed.
Print Assumptions C68_threads_finish_3d.

(** [iga], [nug], [tot] and [fct], two equations *)
Definition example_cyclic3 : run3 :=
  {| s3_o := mkfl true false true false false true true false false false false false false;
     s3_sp := aver2; s3_tp := noextrp; s3_cfg := {| n_eqns := 2; delayed_step := 1%N |};
     s3_nit := 2; s3_freq := 0; s3_scale := fun e => Z.of_nat e;
     s3_lo := fun _ => 0; s3_hi := fun d => match d with DX => 9 | DY => 5 | DZ => 7 end |}.
Example C68_example : run3_ok example_cyclic3 /\ settled3 example_cyclic3 3 /\ settled3 example_cyclic3 1 /\
  Z.of_nat 3 <= s3_hi example_cyclic3 DY - s3_lo example_cyclic3 DY + 1 /\
  length (run_prog3 example_cyclic3 2) = 341%nat.
Proof.
  split; [constructor; [reflexivity|cbn; lia|intros []; cbn; lia]|].
  split; [right; reflexivity|]. split; [left; reflexivity|]. split; [cbn; lia|]. vm_compute. reflexivity.
Qed.

(** With [fct] and without [iga] the claim fails: two threads, the same initial
    memory, two interleavings, different results in the domain. *)
Theorem C68_fct_threads_agree_3d_refuted : exists r (m m1 m2 : loc -> Q), run3_ok r /\
  fct (s3_o r) = true /\ iga (s3_o r) = false /\
  can_end loc_eq_dec (arithQ 0 0) 2 (program3 r 2 1) m m1 /\
  can_end loc_eq_dec (arithQ 0 0) 2 (program3 r 2 1) m m2 /\
  ~ (cell3 m1 0 (newest3 r 1) (1, 1, 0)%Z == cell3 m2 0 (newest3 r 1) (1, 1, 0)%Z)%Q.
Proof.
  exists race_run3, race_mem3. destruct threads_disagree3 as (m1 & m2 & H). exists m1, m2.
  repeat (split; [first [exact race_run3_ok|reflexivity]|]). exact H.
Qed.
Print Assumptions C68_fct_threads_agree_3d_refuted.

(** Nor does the claim extend to all memory: the halo of the first component of
    the corrected advector is filled along y and along z between the same two
    barriers, and the first thread reads rows that the last one writes. *)
Theorem C68_scratch_agrees_3d_refuted : exists r (m m1 m2 : loc -> Q) l, run3_ok r /\
  fct (s3_o r) && negb (iga (s3_o r)) = false /\
  can_end loc_eq_dec (arithQ 0 0) 2 (program3 r 2 1) m m1 /\
  can_end loc_eq_dec (arithQ 0 0) 2 (program3 r 2 1) m m2 /\
  ~ (m1 l == m2 l)%Q.
Proof.
  exists iga_run3, race_mem3. destruct scratch_disagrees3 as (m1 & m2 & H). exists m1, m2, corner3.
  repeat (split; [first [exact iga_run3_ok|reflexivity]|]). exact H.
Qed.
Print Assumptions C68_scratch_agrees_3d_refuted.

(** C69: on a 3D cyclic grid the results depend only on the data the user
    provides: neither on halos, temporaries and the second time level before the
    run, nor on the number of threads and their interleaving (exceptions:
    [settled3] as above, [no_stale3] for [div_2nd] as in two dimensions). *)
Theorem C69_no_stale_data_3d : forall r, run3_ok r -> forall ar n1 n2 nt (m1 m2 m1' m2' : loc -> car ar),
  (0 < n1)%nat -> Z.of_nat n1 <= s3_hi r DY - s3_lo r DY + 1 -> settled3 r n1 ->
  (0 < n2)%nat -> Z.of_nat n2 <= s3_hi r DY - s3_lo r DY + 1 -> settled3 r n2 ->
  no_stale3 (s3_o r) (s3_nit r) = true ->
  cyclic_data3 (s3_lo r) (s3_hi r) (n_eqns (s3_cfg r)) (nug (s3_o r)) m1 ->
  same_data3 (s3_lo r) (s3_hi r) (n_eqns (s3_cfg r)) (nug (s3_o r)) m1 m2 ->
  can_end loc_eq_dec ar n1 (program3 r n1 nt) m1 m1' ->
  can_end loc_eq_dec ar n2 (program3 r n2 nt) m2 m2' ->
  forall e i, (e < n_eqns (s3_cfg r))%nat -> inside (s3_lo r) (s3_hi r) i ->
    cell3 m1' e (newest3 r nt) i = cell3 m2' e (newest3 r nt) i.
Proof. exact no_stale_data3. Qed.
Print Assumptions C69_no_stale_data_3d.

Example C69_example : no_stale3 (s3_o example_cyclic3) (s3_nit example_cyclic3) = true /\
  @cyclic_data3 Q (s3_lo example_cyclic3) (s3_hi example_cyclic3) 2 true
    (fun l => (comp DX (snd l) * (9 - comp DX (snd l)) + comp DY (snd l) * (5 - comp DY (snd l)) +
               2 * comp DZ (snd l) * (7 - comp DZ (snd l))) # 7).
Proof.
  split; [reflexivity|]. split; [|split].
  - intros e d [[x y] z] _ _ H. unfold cell3. cbn [fst snd s3_lo s3_hi example_cyclic3] in *. destruct d; cbn [comp put fst snd] in *; subst; f_equal; ring.
  - intros c d [[x y] z] _ H. unfold face3. cbn [fst snd s3_lo s3_hi example_cyclic3] in *. destruct d; cbn [comp put fst snd] in *; subst; f_equal; ring.
  - intros _ d [[x y] z] _ H. unfold gfac3. cbn [fst snd s3_lo s3_hi example_cyclic3] in *. destruct d; cbn [comp put fst snd] in *; subst; f_equal; ring.
Qed.

(** ... but with [div_2nd], no [fct] and three iterations the third pass reads
    halo faces of the second pass's advector that nobody has filled. *)
Theorem C69_no_stale_data_3d_refuted : exists r nt (m1 m2 m1' m2' : loc -> Q) e i, run3_ok r /\
  cyclic_data3 (s3_lo r) (s3_hi r) (n_eqns (s3_cfg r)) (nug (s3_o r)) m1 /\
  same_data3 (s3_lo r) (s3_hi r) (n_eqns (s3_cfg r)) (nug (s3_o r)) m1 m2 /\
  can_end loc_eq_dec (arithQ 0 0) 1 (program3 r 1 nt) m1 m1' /\
  can_end loc_eq_dec (arithQ 0 0) 1 (program3 r 1 nt) m2 m2' /\
  (e < n_eqns (s3_cfg r))%nat /\ inside (s3_lo r) (s3_hi r) i /\
  ~ (cell3 m1' e (newest3 r nt) i == cell3 m2' e (newest3 r nt) i)%Q.
Proof.
  destruct stale_differs3 as (m1' & m2' & H1 & H2 & H3 & _).
  exists stale_run3, 1%nat, (stale_mem3 0), (stale_mem3 1), m1', m2', 0%nat, (0, 0, 0).
  split; [exact stale_run3_ok|]. split; [exact (stale_cyclic3 0)|]. split; [exact (stale_same3 0 1)|].
  split; [exact H1|]. split; [exact H2|]. split; [cbn; lia|]. split; [intros []; cbn; lia|]. exact H3.
Qed.
Print Assumptions C69_no_stale_data_3d_refuted.

(** C70: the first and the last plane of a 3D cyclic grid across each dimension
    are the same; if they agree initially they agree after every run. *)
Theorem C70_cyclic_edges_3d : forall r, run3_ok r -> forall ar n nt (m m' : loc -> car ar),
  (0 < n)%nat -> Z.of_nat n <= s3_hi r DY - s3_lo r DY + 1 -> settled3 r n -> no_stale3 (s3_o r) (s3_nit r) = true ->
  cyclic_data3 (s3_lo r) (s3_hi r) (n_eqns (s3_cfg r)) (nug (s3_o r)) m ->
  can_end loc_eq_dec ar n (program3 r n nt) m m' ->
  forall e d i, (e < n_eqns (s3_cfg r))%nat -> inside (s3_lo r) (s3_hi r) i -> comp d i = s3_hi r d ->
    cell3 m' e (newest3 r nt) i = cell3 m' e (newest3 r nt) (put d (s3_lo r d) i).
Proof. exact edge_consistent3. Qed.
Print Assumptions C70_cyclic_edges_3d.

Example C70_example : inside (s3_lo example_cyclic3) (s3_hi example_cyclic3) (3, 5, 2) /\
  comp DY (3, 5, 2) = s3_hi example_cyclic3 DY /\ put DY (s3_lo example_cyclic3 DY) (3, 5, 2) = (3, 0, 2).
Proof. split; [intros []; cbn; lia|]. split; reflexivity. Qed.

Theorem C70_cyclic_edges_3d_refuted : exists r nt (m m' : loc -> Q) e d i, run3_ok r /\
  cyclic_data3 (s3_lo r) (s3_hi r) (n_eqns (s3_cfg r)) (nug (s3_o r)) m /\
  can_end loc_eq_dec (arithQ 0 0) 1 (program3 r 1 nt) m m' /\ (e < n_eqns (s3_cfg r))%nat /\
  inside (s3_lo r) (s3_hi r) i /\ comp d i = s3_hi r d /\
  ~ (cell3 m' e (newest3 r nt) i == cell3 m' e (newest3 r nt) (put d (s3_lo r d) i))%Q.
Proof.
  destruct stale_differs3 as (m1' & m2' & _ & H2 & _ & H3).
  exists stale_run3, 1%nat, (stale_mem3 1), m2', 0%nat, DX, (2, 0, 0).
  split; [exact stale_run3_ok|]. split; [exact (stale_cyclic3 1)|].
  split; [exact H2|]. split; [cbn; lia|]. split; [intros []; cbn; lia|]. split; [reflexivity|]. exact H3.
Qed.
Print Assumptions C70_cyclic_edges_3d_refuted.

(** C71: moving the initial data of a 3D cyclic grid by any number of cells
    along each dimension moves the result by as much, with any two admissible
    numbers of threads. *)
Theorem C71_translation_3d : forall r, run3_ok r -> forall ar n n2 nt k (m m' m2 m2' : loc -> car ar),
  (0 < n)%nat -> Z.of_nat n <= s3_hi r DY - s3_lo r DY + 1 -> settled3 r n ->
  (0 < n2)%nat -> Z.of_nat n2 <= s3_hi r DY - s3_lo r DY + 1 -> settled3 r n2 ->
  no_stale3 (s3_o r) (s3_nit r) = true ->
  cyclic_data3 (s3_lo r) (s3_hi r) (n_eqns (s3_cfg r)) (nug (s3_o r)) m ->
  moved3 (s3_lo r) (s3_hi r) (n_eqns (s3_cfg r)) (nug (s3_o r)) k m m2 ->
  can_end loc_eq_dec ar n (program3 r n nt) m m' ->
  can_end loc_eq_dec ar n2 (program3 r n2 nt) m2 m2' ->
  forall e i, (e < n_eqns (s3_cfg r))%nat -> inside (s3_lo r) (s3_hi r) i ->
    cell3 m2' e (newest3 r nt) i = cell3 m' e (newest3 r nt) (wrap3 (s3_lo r) (s3_hi r) (iadd i k)).
Proof. exact translation3. Qed.
Print Assumptions C71_translation_3d.

Example C71_example : wrap3 (s3_lo example_cyclic3) (s3_hi example_cyclic3) (iadd (7, 1, 6) (4, -3, 1)) = (2, 3, 0).
Proof. vm_compute. reflexivity. Qed.
