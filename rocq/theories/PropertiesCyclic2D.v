(** Property theorems: memory and cyclic grids, 2D solver. *)
From Coq Require Import ZArith QArith List Bool Lia.
From Verif Require Import ModelIndex ModelRun Lang Stencil FormCommon Form2D Solver1D Solver2D
  SpecThreads SpecFields2 ProofsThread2D ProofsOne2D ProofsValid2D ProofsCyclic2D ProofsStale2D Arith.
Import ListNotations.
Local Open Scope Z_scope.

(** C51: on a 2D cyclic grid the results depend only on the data the user
    provides: neither on halos, temporaries and the second time level before the
    run, nor on the number of threads and their interleaving (one thread, if
    [fct] is set without [iga]; for [div_2nd] with [div_3rd] or without [fct]:
    with at most two iterations). *)
Theorem C51_no_stale_data_2d : forall r, run2_ok r -> forall ar n1 n2 nt (m1 m2 m1' m2' : loc -> car ar),
  (forall d, s_bl r d = Cyclic2 /\ s_br r d = Cyclic2) ->
  (0 < n1)%nat -> Z.of_nat n1 <= s_hi r DX - s_lo r DX + 1 -> settled r n1 ->
  (0 < n2)%nat -> Z.of_nat n2 <= s_hi r DX - s_lo r DX + 1 -> settled r n2 ->
  no_stale2 (s_o r) (s_nit r) = true ->
  cyclic_data2 (s_lo r) (s_hi r) (n_eqns (s_cfg r)) (nug (s_o r)) m1 ->
  same_data2 (s_lo r) (s_hi r) (n_eqns (s_cfg r)) (nug (s_o r)) m1 m2 ->
  can_end loc_eq_dec ar n1 (program2 r n1 nt) m1 m1' ->
  can_end loc_eq_dec ar n2 (program2 r n2 nt) m2 m2' ->
  forall e i j, (e < n_eqns (s_cfg r))%nat -> s_lo r DX <= i <= s_hi r DX -> s_lo r DY <= j <= s_hi r DY ->
    cell2 m1' e (newest2 r nt) i j = cell2 m2' e (newest2 r nt) i j.
Proof. exact no_stale_data2. Qed.
Print Assumptions C51_no_stale_data_2d.

(** [iga], [nug], [tot] and [fct], 3 threads, two equations *)
Definition example_cyclic2 : run2 :=
  {| s_o := mkfl true false true false false true true false false false false false false;
     s_sp := aver2; s_tp := noextrp; s_cfg := {| n_eqns := 2; delayed_step := 1%N |};
     s_nit := 2; s_freq := 0; s_scale := fun e => Z.of_nat e;
     s_bl := fun _ => Cyclic2; s_br := fun _ => Cyclic2;
     s_lo := fun _ => 0; s_hi := fun d => match d with DX => 9 | _ => 5 end |}.
Example C51_example : run2_ok example_cyclic2 /\ settled example_cyclic2 3 /\ settled example_cyclic2 1 /\
  Z.of_nat 3 <= s_hi example_cyclic2 DX - s_lo example_cyclic2 DX + 1 /\ no_stale2 (s_o example_cyclic2) 2 = true /\
  @cyclic_data2 Q (s_lo example_cyclic2) (s_hi example_cyclic2) 2 true (fun l => (comp DX (snd l) * (9 - comp DX (snd l)) + comp DY (snd l) * (5 - comp DY (snd l))) # 7).
Proof.
  split; [constructor; [reflexivity|cbn; lia|intros d [-> | ->]; cbn; lia]|].
  split; [right; reflexivity|]. split; [left; reflexivity|]. split; [cbn; lia|]. split; [reflexivity|].
  split; [|split; [|split]]; intros; [split| | |split]; intros; unfold cell2, face2, gfac2; cbn [fst snd comp s_lo s_hi example_cyclic2]; f_equal; lia.
Qed.

(** ... but with [div_2nd], no [fct] and three iterations the third pass reads
    halo faces of the second pass's advector that nobody has filled. *)
Theorem C51_no_stale_data_2d_refuted : exists r nt (m1 m2 m1' m2' : loc -> Q) e i j,
  run2_ok r /\ (forall d, s_bl r d = Cyclic2 /\ s_br r d = Cyclic2) /\
  cyclic_data2 (s_lo r) (s_hi r) (n_eqns (s_cfg r)) (nug (s_o r)) m1 /\
  same_data2 (s_lo r) (s_hi r) (n_eqns (s_cfg r)) (nug (s_o r)) m1 m2 /\
  can_end loc_eq_dec (arithQ 0 0) 1 (program2 r 1 nt) m1 m1' /\
  can_end loc_eq_dec (arithQ 0 0) 1 (program2 r 1 nt) m2 m2' /\
  (e < n_eqns (s_cfg r))%nat /\ s_lo r DX <= i <= s_hi r DX /\ s_lo r DY <= j <= s_hi r DY /\
  ~ (cell2 m1' e (newest2 r nt) i j == cell2 m2' e (newest2 r nt) i j)%Q.
Proof.
  destruct stale_differs2 as (m1' & m2' & H1 & H2 & H3 & _).
  exists div_run2, 1%nat, (stale_mem2 0), (stale_mem2 1), m1', m2', 0%nat, 0%Z, 0%Z.
  repeat (split; [first [exact div_run2_ok|exact (stale_cyclic 0)|exact (stale_same 0 1)|exact H1|exact H2|cbn; auto; lia]|]).
  exact H3.
Qed.
Print Assumptions C51_no_stale_data_2d_refuted.

(** C52: the first and the last row (column) of a 2D cyclic grid are the same;
    if they agree initially they agree after every run. *)
Theorem C52_cyclic_edges_2d : forall r, run2_ok r ->
  (forall d, s_bl r d = Cyclic2) -> (forall d, s_br r d = Cyclic2) -> forall ar n nt (m m' : loc -> car ar),
  (0 < n)%nat -> Z.of_nat n <= s_hi r DX - s_lo r DX + 1 -> settled r n -> no_stale2 (s_o r) (s_nit r) = true ->
  cyclic_data2 (s_lo r) (s_hi r) (n_eqns (s_cfg r)) (nug (s_o r)) m ->
  can_end loc_eq_dec ar n (program2 r n nt) m m' ->
  forall e, (e < n_eqns (s_cfg r))%nat ->
    (forall j, s_lo r DY <= j <= s_hi r DY ->
       cell2 m' e (newest2 r nt) (s_hi r DX) j = cell2 m' e (newest2 r nt) (s_lo r DX) j) /\
    (forall i, s_lo r DX <= i <= s_hi r DX ->
       cell2 m' e (newest2 r nt) i (s_hi r DY) = cell2 m' e (newest2 r nt) i (s_lo r DY)).
Proof. exact edge_consistent2. Qed.
Print Assumptions C52_cyclic_edges_2d.

Theorem C52_cyclic_edges_2d_refuted : exists r nt (m m' : loc -> Q) e,
  run2_ok r /\ (forall d, s_bl r d = Cyclic2 /\ s_br r d = Cyclic2) /\
  cyclic_data2 (s_lo r) (s_hi r) (n_eqns (s_cfg r)) (nug (s_o r)) m /\
  can_end loc_eq_dec (arithQ 0 0) 1 (program2 r 1 nt) m m' /\ (e < n_eqns (s_cfg r))%nat /\
  ~ (cell2 m' e (newest2 r nt) (s_hi r DX) (s_lo r DY) == cell2 m' e (newest2 r nt) (s_lo r DX) (s_lo r DY))%Q.
Proof.
  destruct stale_differs2 as (m1' & m2' & H1 & H2 & _ & H3).
  exists div_run2, 1%nat, (stale_mem2 1), m2', 0%nat.
  repeat (split; [first [exact div_run2_ok|exact (stale_cyclic 1)|exact H2|cbn; auto; lia]|]). exact H3.
Qed.
Print Assumptions C52_cyclic_edges_2d_refuted.

(** C53: moving the initial data of a 2D cyclic grid by [k] rows and [l] columns
    moves the result by as much, with any two admissible numbers of threads. *)
Theorem C53_translation_2d : forall r, run2_ok r ->
  (forall d, s_bl r d = Cyclic2) -> (forall d, s_br r d = Cyclic2) ->
  forall ar n n2 nt k l (m m' m2 m2' : loc -> car ar),
  (0 < n)%nat -> Z.of_nat n <= s_hi r DX - s_lo r DX + 1 -> settled r n ->
  (0 < n2)%nat -> Z.of_nat n2 <= s_hi r DX - s_lo r DX + 1 -> settled r n2 ->
  no_stale2 (s_o r) (s_nit r) = true ->
  cyclic_data2 (s_lo r) (s_hi r) (n_eqns (s_cfg r)) (nug (s_o r)) m ->
  moved2 (s_lo r) (s_hi r) (n_eqns (s_cfg r)) (nug (s_o r)) k l m m2 ->
  can_end loc_eq_dec ar n (program2 r n nt) m m' ->
  can_end loc_eq_dec ar n2 (program2 r n2 nt) m2 m2' ->
  forall e i j, (e < n_eqns (s_cfg r))%nat -> s_lo r DX <= i <= s_hi r DX -> s_lo r DY <= j <= s_hi r DY ->
    cell2 m2' e (newest2 r nt) i j =
    cell2 m' e (newest2 r nt) (wrap2 (s_lo r) (s_hi r) DX (i + k)) (wrap2 (s_lo r) (s_hi r) DY (j + l)).
Proof. exact translation2. Qed.
Print Assumptions C53_translation_2d.

Example C53_example : wrap2 (s_lo example_cyclic2) (s_hi example_cyclic2) DX (7 + 4) = 2 /\
  wrap2 (s_lo example_cyclic2) (s_hi example_cyclic2) DY (1 - 3) = 3.
Proof. vm_compute. auto. Qed.
