(** Property theorems: memory, halos and cyclic domains of the 1D solver. *)
From Coq Require Import ZArith QArith List Bool Lia.
From Verif Require Import ModelIndex ModelRun Lang Stencil FormCommon Form1D Solver1D
  SpecThreads SpecFields SpecBounds ProofsThread1D ProofsValid1D ProofsCyclic1D ProofsBounds1D ProofsStale1D
  Arith Exec PropertiesThread1D.
Import ListNotations.
Local Open Scope Z_scope.

(** C19: every element assigned or read by any thread in any run exists. *)
Theorem C19_accesses_allocated : forall r n, run_ok r -> (0 < n_eqns (r_cfg r))%nat ->
  (0 < n)%nat -> Z.of_nat n <= r_hi r - r_lo r + 1 ->
  forall nt, accesses_in (allocated1 r) n (program1 r n nt).
Proof. exact bounds1. Qed.
Print Assumptions C19_accesses_allocated.

(** ... and some element is assigned right at the border of its array *)
Example C19_example : exists s t l, In (Do s) (program1 example_run 3 2) /\ (t < 3)%nat /\
  In l (s_el s t) /\ snd l = (r_lo example_run - 2, 0, 0).
Proof.
  assert (H : existsb (fun i => match i with
     | Do s => existsb (fun l => idx_eqb (snd l) (-2, 0, 0)) (s_el s 0%nat) | Bar => false end)
     (program1 example_run 3 2) = true) by (vm_compute; reflexivity).
  apply existsb_exists in H. destruct H as ([s|] & Hs & H); [|discriminate].
  apply existsb_exists in H. destruct H as (l & Hl & H). exists s, 0%nat, l.
  repeat split; auto; try lia. apply ProofsStencil.idx_eqb_eq in H. exact H.
Qed.

(** C20: the results depend only on the data the user provides: neither on
    halos, temporaries and the second time level before the run, nor on the
    number of threads and their interleaving.  (For [div_2nd] without [fct]:
    with at most two iterations.) *)
Theorem C20_no_stale_data : forall r, run_ok r -> forall ar n1 n2 nt m1 m2 m1' m2',
  (0 < n1)%nat -> Z.of_nat n1 <= r_hi r - r_lo r + 1 ->
  (0 < n2)%nat -> Z.of_nat n2 <= r_hi r - r_lo r + 1 ->
  no_stale (r_o r) (r_nit r) = true ->
  same_data (r_lo r) (r_hi r) (n_eqns (r_cfg r)) (nug (r_o r)) m1 m2 ->
  can_end loc_eq_dec ar n1 (program1 r n1 nt) m1 m1' ->
  can_end loc_eq_dec ar n2 (program1 r n2 nt) m2 m2' ->
  forall e i, (e < n_eqns (r_cfg r))%nat -> r_lo r <= i <= r_hi r ->
    cell m1' e (newest r nt) i = cell m2' e (newest r nt) i.
Proof. exact no_stale_data. Qed.
Print Assumptions C20_no_stale_data.

Example C20_example : no_stale (r_o example_run) (r_nit example_run) = true /\
  @same_data Q 0 9 2 true (fun l => if idx_eqb (snd l) (10, 0, 0) then 7%Q else 1%Q) (fun _ => 1%Q).
Proof.
  split; [reflexivity|]. assert (H : forall i, i <= 9 -> idx_eqb (i, 0, 0) (10, 0, 0) = false).
  { intros i Hi. unfold idx_eqb. cbn [comp fst snd]. replace (i =? 10) with false; auto. symmetry. apply Z.eqb_neq. lia. }
  split; [|split]; intros; unfold cell, face, gfac; cbn [snd]; rewrite H by lia; reflexivity.
Qed.

(** ... but with [div_2nd], no [fct] and three iterations the third pass reads
    halo faces of the second pass's advector that nobody has filled: the result
    depends on the previous content of a temporary array, and the two copies
    of the same cell at the ends of a cyclic domain get different values. *)
Theorem C20_no_stale_data_refuted : exists r ar nt m1 m2 m1' m2' e i,
  run_ok r /\ same_data (r_lo r) (r_hi r) (n_eqns (r_cfg r)) (nug (r_o r)) m1 m2 /\
  can_end loc_eq_dec ar 1 (program1 r 1 nt) m1 m1' /\
  can_end loc_eq_dec ar 1 (program1 r 1 nt) m2 m2' /\
  (e < n_eqns (r_cfg r))%nat /\ r_lo r <= i <= r_hi r /\
  cell m1' e (newest r nt) i <> cell m2' e (newest r nt) i.
Proof.
  destruct stale_differs as (m1' & m2' & H1 & H2 & H3 & H4 & H5 & H6).
  exists stale_run, A0, 1%nat, (stale_mem 0), (stale_mem 1), m1', m2', 0%nat, 4.
  repeat split; auto using stale_run_ok; try (cbn; lia); apply H1.
Qed.
Print Assumptions C20_no_stale_data_refuted.

(** C21: a halo exchange on a cyclic domain fills the halo with the periodic
    continuation of the interior, whatever the halo held before and however
    the threads are interleaved: for cell-centred arrays ... *)
Theorem C21_cyclic_halo_cells : forall r, run_ok r -> forall ar n e a q m m',
  r_bl r = Cyclic -> r_br r = Cyclic ->
  (0 < n)%nat -> Z.of_nat n <= r_hi r - r_lo r + 1 ->
  can_end loc_eq_dec ar n (xprog r n e (MXS a q)) m m' ->
  forall i, r_lo r - halo (r_o r) <= i <= r_hi r + halo (r_o r) ->
    m' (tag e a, (i, 0, 0)) =
    m (tag e a, ((if i <? r_lo r then i + (r_hi r - r_lo r)
                  else if r_hi r <? i then i - (r_hi r - r_lo r) else i), 0, 0)).
Proof. exact cyclic_scalar. Qed.
Print Assumptions C21_cyclic_halo_cells.

(** ... and for face-centred ones, with and without the [ad] flag. *)
Theorem C21_cyclic_halo_faces : forall r, run_ok r -> forall ar n e v ad m m',
  r_bl r = Cyclic -> r_br r = Cyclic ->
  (0 < n)%nat -> Z.of_nat n <= r_hi r - r_lo r + 1 ->
  can_end loc_eq_dec ar n (xprog r n e (MXVA v ad)) m m' ->
  forall i, r_lo r - halo (r_o r) <= i <= r_hi r + halo (r_o r) - 1 ->
    m' (tag e (v DX), (i, 0, 0)) = m (tag e (v DX), (wrap (r_lo r) (r_hi r) i, 0, 0)).
Proof. exact cyclic_vector. Qed.
Print Assumptions C21_cyclic_halo_faces.

Example C21_example : run_ok example_run /\ halo (r_o example_run) = 2 /\ wrap 0 9 (-2) = 7 /\ wrap 0 9 10 = 1.
Proof. split; [constructor; vm_compute; try reflexivity; try discriminate; lia|]. vm_compute. auto. Qed.

(** C22: the first and the last cell of a cyclic domain are the same cell; if
    they agree initially they agree after every run. *)
Theorem C22_cyclic_edge : forall r, run_ok r -> forall ar n nt m m',
  r_bl r = Cyclic -> r_br r = Cyclic ->
  (0 < n)%nat -> Z.of_nat n <= r_hi r - r_lo r + 1 ->
  no_stale (r_o r) (r_nit r) = true ->
  cyclic_data (r_lo r) (r_hi r) (n_eqns (r_cfg r)) (nug (r_o r)) m ->
  can_end loc_eq_dec ar n (program1 r n nt) m m' ->
  forall e, (e < n_eqns (r_cfg r))%nat -> cell m' e (newest r nt) (r_hi r) = cell m' e (newest r nt) (r_lo r).
Proof. exact edge_consistent. Qed.
Print Assumptions C22_cyclic_edge.

Theorem C22_cyclic_edge_refuted : exists r ar nt m m' e,
  run_ok r /\ r_bl r = Cyclic /\ r_br r = Cyclic /\
  cyclic_data (r_lo r) (r_hi r) (n_eqns (r_cfg r)) (nug (r_o r)) m /\
  can_end loc_eq_dec ar 1 (program1 r 1 nt) m m' /\
  (e < n_eqns (r_cfg r))%nat /\ cell m' e (newest r nt) (r_hi r) <> cell m' e (newest r nt) (r_lo r).
Proof.
  destruct stale_differs as (m1' & m2' & H1 & H2 & H3 & H4 & H5 & H6).
  exists stale_run, A0, 1%nat, (stale_mem 1), m2', 0%nat.
  repeat split; auto using stale_run_ok; try (cbn; lia); apply H2.
Qed.
Print Assumptions C22_cyclic_edge_refuted.

(** C24: moving the initial data of a cyclic domain by [k] cells (the data
    being distinct on the two sides or not) moves the result by [k] cells,
    with any two numbers of threads. *)
Theorem C24_translation : forall r, run_ok r -> forall ar n n2 nt k m m' m2 m2',
  r_bl r = Cyclic -> r_br r = Cyclic ->
  (0 < n)%nat -> Z.of_nat n <= r_hi r - r_lo r + 1 ->
  (0 < n2)%nat -> Z.of_nat n2 <= r_hi r - r_lo r + 1 ->
  no_stale (r_o r) (r_nit r) = true ->
  cyclic_data (r_lo r) (r_hi r) (n_eqns (r_cfg r)) (nug (r_o r)) m ->
  moved (r_lo r) (r_hi r) (n_eqns (r_cfg r)) (nug (r_o r)) k m m2 ->
  can_end loc_eq_dec ar n (program1 r n nt) m m' ->
  can_end loc_eq_dec ar n2 (program1 r n2 nt) m2 m2' ->
  forall e i, (e < n_eqns (r_cfg r))%nat -> r_lo r <= i <= r_hi r ->
    cell m2' e (newest r nt) i = cell m' e (newest r nt) (wrap (r_lo r) (r_hi r) (i + k)).
Proof. exact translation. Qed.
Print Assumptions C24_translation.

(** a pair of fields related by a shift by two cells *)
Example C24_example : exists m m2 : loc -> Q,
  cyclic_data 0 9 2 true m /\ moved 0 9 2 true 2 m m2 /\ cell m 0 false 3 = 1%Q /\ cell m 0 false 4 = 0%Q.
Proof.
  exists (fun l => if comp DX (snd l) =? 3 then 1%Q else 0%Q),
         (fun l => if wrap 0 9 (comp DX (snd l) + 2) =? 3 then 1%Q else 0%Q).
  repeat split; auto.
Qed.
