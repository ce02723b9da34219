(** 1D runs in terms of the user-visible fields. *)
From Coq Require Import ZArith List Bool Lia ZifyBool.
From Verif Require Import SpecIndex ModelIndex ProofsIndex ModelRun Lang ProofsLang Stencil ProofsStencil
  FormCommon Form1D Solver1D Macro ProofsMacro Foot1D Proofs1D ProofsThread1D ProofsValid ProofsValid1D
  ProofsExch1D ProofsRef1D Lattice ProofsLattice ProofsLattice1D SpecThreads SpecFields.
Import ListNotations.
Local Open Scope Z_scope.

(** time level that holds the result after [nt] steps *)
Definition newest (r : run1) (nt : nat) : bool := level_after r nt 0 false.

Lemma in_order r e : In e (eq_order r) <-> (e < n_eqns (r_cfg r))%nat.
Proof.
  unfold eq_order, plain_eqns, delayed_eqns, eqns. rewrite in_app_iff, !filter_In, !in_seq.
  destruct (is_delayed (r_cfg r) e); cbn; intuition lia.
Qed.

Section Vis.
  Variable r : run1.
  Hypothesis RK : run_ok r.
  Variable ar : arith.
  Notation mem := (loc -> car ar).
  Notation lo := (r_lo r).
  Notation hi := (r_hi r).
  Notation ne := (n_eqns (r_cfg r)).
  Notation o := (r_o r).

  Lemma bx1 n x y i : (0 < n)%nat -> Z.of_nat n <= hi - lo + 1 ->
    in_box (geom1 lo hi n) (bx x y) i -> exists k, i = (k, 0, 0) /\ lo - x <= k <= hi + y.
  Proof.
    intros Hn Hs H. apply in_bx in H; auto. destruct i as [[k b] c]. cbn [comp fst snd] in H.
    destruct H as (H1 & -> & ->). exists k. split; auto; lia.
  Qed.
  Lemma bx1' n x y k : (0 < n)%nat -> Z.of_nat n <= hi - lo + 1 ->
    lo - x <= k <= hi + y -> in_box (geom1 lo hi n) (bx x y) (k, 0, 0).
  Proof. intros Hn Hs H. apply in_bx; auto. Qed.

  Lemma inv0_same n (m m' : mem) : (0 < n)%nat -> Z.of_nat n <= hi - lo + 1 ->
    same_data lo hi ne (nug o) m m' -> inv0 r n ar m m'.
  Proof.
    intros Hn Hs (C & F & G) e He a E i Ha Hi. apply in_order in He.
    destruct a as [b|d|b d|d|d| | | | | |d|d|k|k]; cbn in Ha; try discriminate.
    - destruct b; [discriminate|]. inversion Ha; subst. apply bx1 in Hi; auto. destruct Hi as (k & -> & Hk).
      apply C; auto; lia.
    - destruct d; try discriminate. inversion Ha; subst. apply bx1 in Hi; auto. destruct Hi as (k & -> & Hk).
      apply F; lia.
    - destruct (nug o) eqn:EN; [|discriminate]. inversion Ha; subst. apply bx1 in Hi; auto.
      destruct Hi as (k & -> & Hk). apply G; auto; lia.
  Qed.

  Lemma inv_cell n (m m' : mem) b e i : (0 < n)%nat -> Z.of_nat n <= hi - lo + 1 ->
    inv r n ar (fun _ => b) m m' -> (e < ne)%nat -> lo <= i <= hi -> cell m e b i = cell m' e b i.
  Proof.
    intros Hn Hs I He Hi. apply (I e (proj2 (in_order r e) He) (Psi b) (bx 0 0) (i, 0, 0)).
    - unfold vinv. rewrite (proj2 (arr_eqb_eq _ _) eq_refl). reflexivity.
    - apply bx1'; auto; lia.
  Qed.

  Lemma can_end_run n nt (m m' : mem) : (0 < n)%nat -> Z.of_nat n <= hi - lo + 1 ->
    can_end loc_eq_dec ar n (program1 r n nt) m m' ->
    forall l, m' l = run_prog loc_eq_dec ar n (program1 r n nt) m l.
  Proof.
    intros Hn Hs (c & St & F). apply (interleaving_deterministic loc_eq_dec ar n (program1 r n nt) m m' c); auto.
    apply prog_ok_of. apply (run1_ok r n RK Hn Hs).
  Qed.

  (** C20 *)
  Theorem no_stale_data n1 n2 nt (m1 m2 m1' m2' : mem) :
    (0 < n1)%nat -> Z.of_nat n1 <= hi - lo + 1 -> (0 < n2)%nat -> Z.of_nat n2 <= hi - lo + 1 ->
    no_stale o (r_nit r) = true ->
    same_data lo hi ne (nug o) m1 m2 ->
    can_end loc_eq_dec ar n1 (program1 r n1 nt) m1 m1' ->
    can_end loc_eq_dec ar n2 (program1 r n2 nt) m2 m2' ->
    forall e i, (e < ne)%nat -> lo <= i <= hi -> cell m1' e (newest r nt) i = cell m2' e (newest r nt) i.
  Proof.
    intros H1 H1' H2 H2' NS SD E1 E2 e i He Hi.
    destruct (threads_finish r n1 nt ar m2 RK H1 H1') as [(m3 & E3) _].
    assert (T : forall l, m2' l = m3 l) by (exact (threads_agree r n2 n1 nt ar m2 m2' m3 RK H2 H2' H1 H1' E2 E3)).
    assert (X : cell m2' e (newest r nt) i = cell m3 e (newest r nt) i) by (apply T). rewrite X.
    unfold cell. rewrite (can_end_run n1 nt m1 m1' H1 H1' E1), (can_end_run n1 nt m2 m3 H1 H1' E3).
    apply (inv_cell n1 _ _ (newest r nt) e i H1 H1'); auto.
    apply stale_independent; auto; [lia|]. apply inv0_same; auto.
  Qed.

  (** cyclic runs *)
  Definition ext_field (m : mem) : mem := fun l => m (fst l, (wrap lo hi (comp DX (snd l)), 0, 0)).
  Lemma wrap_in k : lo < hi -> lo <= wrap lo hi k < hi.
  Proof. intros H. unfold wrap. pose proof (Z.mod_pos_bound (k - lo) (hi - lo)). lia. Qed.
  Lemma wrap_id k : lo <= k < hi -> wrap lo hi k = k.
  Proof. intros H. unfold wrap. rewrite Z.mod_small; lia. Qed.
  Lemma wrap_hi : lo < hi -> wrap lo hi hi = lo.
  Proof. intros H. unfold wrap. rewrite Z.mod_same; lia. Qed.
  Lemma wrap_per k : lo < hi -> wrap lo hi (k + (hi - lo)) = wrap lo hi k.
  Proof.
    intros H. unfold wrap. replace (k + (hi - lo) - lo) with (k - lo + 1 * (hi - lo)) by lia.
    rewrite Z.mod_add by lia. reflexivity.
  Qed.
  Lemma wrap_wrap k j : lo < hi -> wrap lo hi (wrap lo hi k + j) = wrap lo hi (k + j).
  Proof.
    intros H. unfold wrap. replace (lo + (k - lo) mod (hi - lo) + j - lo) with ((k - lo) mod (hi - lo) + j) by lia.
    rewrite Zplus_mod_idemp_l. do 2 f_equal. lia.
  Qed.
  Lemma ext_periodic (m : mem) : lo < hi -> periodic ar (x1 (hi - lo)) (ext_field m).
  Proof.
    intros H a i. unfold ext_field. cbn [fst snd]. rewrite comp_iadd. cbn [x1 comp fst snd].
    change (comp DX (x1 (hi - lo))) with (hi - lo). rewrite wrap_per; auto.
  Qed.
  Lemma lo_hi : lo < hi.
  Proof. destruct RK as [_ _ H]. pose proof (halo_pos o). lia. Qed.

  Lemma ext_same (m : mem) : cyclic_data lo hi ne (nug o) m -> same_data lo hi ne (nug o) m (ext_field m).
  Proof.
    intros [C G]. pose proof lo_hi as L.
    assert (W : forall i, lo <= i <= hi -> i = hi \/ wrap lo hi i = i).
    { intros i Hi. destruct (Z.eq_dec i hi); [left; auto|right; apply wrap_id; lia]. }
    split; [|split].
    - intros e i He Hi. unfold cell, ext_field. cbn [fst snd comp]. destruct (W i Hi) as [->|W'].
      + rewrite wrap_hi by auto. apply (C e He).
      + rewrite W'. reflexivity.
    - intros i Hi. unfold face, ext_field. cbn [fst snd comp]. rewrite wrap_id by lia. reflexivity.
    - intros N i Hi. unfold gfac, ext_field. cbn [fst snd comp]. destruct (W i Hi) as [->|W'].
      + rewrite wrap_hi by auto. apply (G N).
      + rewrite W'. reflexivity.
  Qed.

  (** the result of a cyclic run is the lattice run of the periodically extended data *)
  Theorem cyclic_lattice n nt (m m' f : mem) :
    r_bl r = Cyclic -> r_br r = Cyclic ->
    (0 < n)%nat -> Z.of_nat n <= hi - lo + 1 -> no_stale o (r_nit r) = true ->
    same_data lo hi ne (nug o) m f -> periodic ar (x1 (hi - lo)) f ->
    can_end loc_eq_dec ar n (program1 r n nt) m m' ->
    forall e i, (e < ne)%nat -> lo <= i <= hi ->
      cell m' e (newest r nt) i = cell (lat_progs ar (run_macro r nt) f) e (newest r nt) i.
  Proof.
    intros BL BR Hn Hs NS SD P E e i He Hi. unfold cell. rewrite (can_end_run n nt m m' Hn Hs E).
    apply (inv_cell n _ _ (newest r nt) e i Hn Hs); auto.
    apply lattice_run; auto; [lia|]. apply inv0_same; auto.
  Qed.

  Lemma cell_periodic (f : mem) e b i : periodic ar (x1 (hi - lo)) f -> cell f e b (i + (hi - lo)) = cell f e b i.
  Proof.
    intros P. pose proof (P (e, Psi b) (i, 0, 0)) as Q. rewrite iadd_x in Q. exact Q.
  Qed.
  Lemma cell_wrap (f : mem) e b i : periodic ar (x1 (hi - lo)) f -> cell f e b (wrap lo hi i) = cell f e b i.
  Proof.
    intros P. pose proof lo_hi as L.
    assert (Q : forall k j, cell f e b (j + k * (hi - lo)) = cell f e b j).
    { intros k. apply (Z.peano_ind (fun k => forall j, cell f e b (j + k * (hi - lo)) = cell f e b j)).
      - intros j. f_equal. lia.
      - intros x IH j. replace (j + Z.succ x * (hi - lo)) with ((j + x * (hi - lo)) + (hi - lo)) by lia.
        rewrite cell_periodic by auto. apply IH.
      - intros x IH j. rewrite <- (cell_periodic f e b (j + Z.pred x * (hi - lo)) P).
        replace (j + Z.pred x * (hi - lo) + (hi - lo)) with (j + x * (hi - lo)) by lia. apply IH. }
    rewrite <- (Q ((i - lo) / (hi - lo)) (wrap lo hi i)). f_equal. unfold wrap.
    pose proof (Z.div_mod (i - lo) (hi - lo) ltac:(lia)). lia.
  Qed.

  (** C22 *)
  Theorem edge_consistent n nt (m m' : mem) :
    r_bl r = Cyclic -> r_br r = Cyclic ->
    (0 < n)%nat -> Z.of_nat n <= hi - lo + 1 -> no_stale o (r_nit r) = true ->
    cyclic_data lo hi ne (nug o) m ->
    can_end loc_eq_dec ar n (program1 r n nt) m m' ->
    forall e, (e < ne)%nat -> cell m' e (newest r nt) hi = cell m' e (newest r nt) lo.
  Proof.
    intros BL BR Hn Hs NS CD E e He. pose proof lo_hi as L.
    rewrite !(cyclic_lattice n nt m m' (ext_field m)) by (auto using ext_same, ext_periodic; lia).
    rewrite <- (cell_wrap _ e _ hi (lat_progs_periodic ar _ _ _ (ext_periodic m L))), wrap_hi by auto. reflexivity.
  Qed.

  (** C24 *)
  Theorem translation n n2 nt k (m m' m2 m2' : mem) :
    r_bl r = Cyclic -> r_br r = Cyclic ->
    (0 < n)%nat -> Z.of_nat n <= hi - lo + 1 -> (0 < n2)%nat -> Z.of_nat n2 <= hi - lo + 1 ->
    no_stale o (r_nit r) = true ->
    cyclic_data lo hi ne (nug o) m -> moved lo hi ne (nug o) k m m2 ->
    can_end loc_eq_dec ar n (program1 r n nt) m m' ->
    can_end loc_eq_dec ar n2 (program1 r n2 nt) m2 m2' ->
    forall e i, (e < ne)%nat -> lo <= i <= hi ->
      cell m2' e (newest r nt) i = cell m' e (newest r nt) (wrap lo hi (i + k)).
  Proof.
    intros BL BR Hn Hs Hn2 Hs2 NS CD (M1 & M2 & M3) E E2 e i He Hi. pose proof lo_hi as L.
    pose proof (ext_periodic m L) as P.
    pose proof (wrap_in (i + k) L) as W.
    rewrite (cyclic_lattice n nt m m' (ext_field m)) by (auto using ext_same; lia).
    rewrite cell_wrap by (apply lat_progs_periodic; auto).
    rewrite (cyclic_lattice n2 nt m2 m2' (shift ar (x1 k) (ext_field m))); auto.
    - unfold cell. rewrite lat_progs_shift. unfold shift. cbn [fst snd]. rewrite iadd_x. reflexivity.
    - split; [|split].
      + intros e' j He' Hj. rewrite M1 by auto. unfold cell, shift, ext_field. cbn [fst snd]. rewrite iadd_x. reflexivity.
      + intros j Hj. rewrite M2 by auto. unfold face, shift, ext_field. cbn [fst snd]. rewrite iadd_x. reflexivity.
      + intros N j Hj. rewrite M3 by auto. unfold gfac, shift, ext_field. cbn [fst snd]. rewrite iadd_x. reflexivity.
    - intros a j. unfold shift. cbn [fst snd]. rewrite <- (P a (iadd j (x1 k))). f_equal. f_equal.
      rewrite <- !iadd_assoc. f_equal. apply iadd_comm.
  Qed.

  (** C21 *)
  Definition xprog (n e : nat) (x : minstr) : list (instr loc) := prog_of (geom1 lo hi n) (expand_eq r e [x]).
  Lemma xprog_run n e x (m m' : mem) : (0 < n)%nat -> Z.of_nat n <= hi - lo + 1 -> is_exch x = true ->
    can_end loc_eq_dec ar n (xprog n e x) m m' ->
    forall l, m' l = run_prog loc_eq_dec ar n (xprog n e x) m l.
  Proof.
    intros Hn Hs Hx (c & St & F). apply (interleaving_deterministic loc_eq_dec ar n (xprog n e x) m m' c); auto.
    change n with (g_n (geom1 lo hi n)) at 1. apply prog_ok_of.
    apply (mprog_ok (geom1 lo hi n) (geom1_ok lo hi n Hn Hs)
             (expand1 (r_halo r) (hi - lo) (r_bl r) (r_br r)) (fun s => eq_refl) eq_refl e [x]).
    - intros y [<-|[]] _. apply exch1_ok; auto.
    - destruct x; try discriminate; reflexivity.
  Qed.

  Lemma scalar_halo n e a q0 (m m' : mem) : (0 < n)%nat -> Z.of_nat n <= hi - lo + 1 ->
    can_end loc_eq_dec ar n (xprog n e (MXS a q0)) m m' ->
    forall i, lo - halo o <= i <= hi + halo o ->
      m' (tag e a, (i, 0, 0)) = m (tag e a, (src_s lo hi (r_bl r) (r_br r) i, 0, 0)).
  Proof.
    intros Hn Hs E i Hi. rewrite (xprog_run n e (MXS a q0) m m' Hn Hs eq_refl E).
    apply (proj2 (xs_run r n RK Hn Hs ar e a q0 m (tag e a) (i, 0, 0))). apply bx1'; auto.
  Qed.
  Lemma vector_halo n e v ad (m m' : mem) : (0 < n)%nat -> Z.of_nat n <= hi - lo + 1 ->
    can_end loc_eq_dec ar n (xprog n e (MXVA v ad)) m m' ->
    forall i, lo - halo o <= i <= hi + halo o - 1 ->
      m' (tag e (v DX), (i, 0, 0)) = m (tag e (v DX), (src_v lo hi (r_halo r) (r_bl r) (r_br r) ad i, 0, 0)).
  Proof.
    intros Hn Hs E i Hi. rewrite (xprog_run n e (MXVA v ad) m m' Hn Hs eq_refl E).
    apply (proj2 (xv_run r n RK Hn Hs ar e v ad m (tag e (v DX)) (i, 0, 0))). apply bx1'; auto. unfold r_halo. lia.
  Qed.

  Lemma cyclic_scalar n e a q0 (m m' : mem) : r_bl r = Cyclic -> r_br r = Cyclic ->
    (0 < n)%nat -> Z.of_nat n <= hi - lo + 1 ->
    can_end loc_eq_dec ar n (xprog n e (MXS a q0)) m m' ->
    forall i, lo - halo o <= i <= hi + halo o ->
      m' (tag e a, (i, 0, 0)) =
      m (tag e a, ((if i <? lo then i + (hi - lo) else if hi <? i then i - (hi - lo) else i), 0, 0)).
  Proof.
    intros BL BR Hn Hs E i Hi. rewrite (scalar_halo n e a q0 m m' Hn Hs E i Hi). unfold src_s. rewrite BL, BR. reflexivity.
  Qed.
  Lemma cyclic_vector n e v ad (m m' : mem) : r_bl r = Cyclic -> r_br r = Cyclic ->
    (0 < n)%nat -> Z.of_nat n <= hi - lo + 1 ->
    can_end loc_eq_dec ar n (xprog n e (MXVA v ad)) m m' ->
    forall i, lo - halo o <= i <= hi + halo o - 1 ->
      m' (tag e (v DX), (i, 0, 0)) = m (tag e (v DX), (wrap lo hi i, 0, 0)).
  Proof.
    intros BL BR Hn Hs E i Hi. rewrite (vector_halo n e v ad m m' Hn Hs E i Hi). unfold src_v. rewrite BL, BR.
    pose proof lo_hi as L. destruct RK as [_ _ HG].
    destruct (i <? lo) eqn:C1.
    - rewrite <- (wrap_per i L). rewrite wrap_id by lia. reflexivity.
    - destruct (hi - 1 <? i) eqn:C2.
      + replace (wrap lo hi i) with (wrap lo hi (i - (hi - lo))).
        * rewrite wrap_id by lia. reflexivity.
        * rewrite <- (wrap_per (i - (hi - lo)) L). f_equal. lia.
      + rewrite wrap_id by lia. reflexivity.
  Qed.
End Vis.
