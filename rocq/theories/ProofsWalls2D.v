(** Mass in a box with rigid walls. *)
From Coq Require Import ZArith List Bool Lia Reals Lra.
From Verif Require Import ModelIndex ModelRun Lang ProofsLang Stencil ProofsStencil FormCommon Form2D Solver1D Solver2D
  Proofs1D ProofsThread1D ProofsThread2D ProofsOne2D Arith SpecThreads SpecFields2 SpecNum2 SpecBcond ProofsBcond SpecWalls2 ProofsRef2D ProofsCyclic2D.
Import ListNotations.
Local Open Scope Z_scope.

(** ** Sums over a box *)
Section Sums.
  Local Open Scope R_scope.
  Lemma wm_ext i (f g : Z -> R) : (forall j, (first i <= j <= last i)%Z -> f j = g j) -> (first i < last i)%Z -> walled_mass i f = walled_mass i g.
  Proof.
    intros H Hi. unfold walled_mass. rewrite (H (first i)), (H (last i)) by lia. f_equal. apply sum_from_ext.
    intros j Hj. apply H. rewrite Z2Nat.id in Hj by lia. lia.
  Qed.
  Lemma wm_plus i (f g : Z -> R) : walled_mass i (fun j => f j + g j) = walled_mass i f + walled_mass i g.
  Proof. unfold walled_mass. rewrite sum_from_plus. lra. Qed.
  Lemma sum_from_mul c (f : Z -> R) a k : sum_from (fun j => c * f j) a k = c * sum_from f a k.
  Proof. induction k; [cbn; lra|]. rewrite !sum_from_S, IHk. lra. Qed.
  Lemma wm_mul i c (f : Z -> R) : walled_mass i (fun j => c * f j) = c * walled_mass i f.
  Proof. unfold walled_mass. rewrite sum_from_mul. lra. Qed.
  Lemma sum_from_0 a k : sum_from (fun _ => 0) a k = 0.
  Proof. induction k; [reflexivity|]. rewrite sum_from_S, IHk. lra. Qed.
  Lemma wm_zero i : walled_mass i (fun _ => 0) = 0.
  Proof. unfold walled_mass. rewrite sum_from_0. lra. Qed.
  Lemma wm_tele i (F : Z -> R) : (first i < last i)%Z -> F (first i - 1)%Z = - F (first i) -> F (last i) = - F (last i - 1)%Z ->
    walled_mass i (fun j => F (j - 1)%Z - F j) = 0.
  Proof.
    intros Hi H1 H2. unfold walled_mass. rewrite sum_from_tele. rewrite Z2Nat.id by lia.
    replace (first i + 1 - 1)%Z with (first i) by lia.
    replace (first i + 1 + (last i - first i - 1) - 1)%Z with (last i - 1)%Z by lia. rewrite H1, H2. lra.
  Qed.
  Lemma bm_ext lo hi f g : (lo DX < hi DX)%Z -> (lo DY < hi DY)%Z -> (forall i j, on_grid lo hi i j -> f i j = g i j) ->
    box_mass lo hi f = box_mass lo hi g.
  Proof.
    intros Hx Hy H. unfold box_mass. apply wm_ext; [|exact Hx]. intros i Hi. apply wm_ext; [|exact Hy]. intros j Hj. apply H.
    unfold first, last in *. cbn [fst snd] in *. split; lia.
  Qed.
  Lemma bm_plus lo hi f g : box_mass lo hi (fun i j => f i j + g i j) = box_mass lo hi f + box_mass lo hi g.
  Proof.
    unfold box_mass. rewrite <- wm_plus. unfold walled_mass at 1 3. rewrite !wm_plus. f_equal.
    induction (Z.to_nat _); [reflexivity|]. rewrite !sum_from_S, IHn, wm_plus. reflexivity.
  Qed.
  Lemma bm_mul lo hi c f : box_mass lo hi (fun i j => c * f i j) = c * box_mass lo hi f.
  Proof.
    unfold box_mass. rewrite <- wm_mul. unfold walled_mass at 1 3. rewrite !wm_mul. f_equal.
    induction (Z.to_nat _); [reflexivity|]. rewrite !sum_from_S, IHn, wm_mul. reflexivity.
  Qed.
  Lemma wm_all_zero i (f : Z -> R) : (first i < last i)%Z -> (forall j, (first i <= j <= last i)%Z -> f j = 0) -> walled_mass i f = 0.
  Proof. intros Hi H. rewrite (wm_ext i f (fun _ => 0)) by auto. apply wm_zero. Qed.
  (** fluxes through faces cancel *)
  Lemma bm_tele lo hi (F E : Z -> Z -> R) : (lo DX < hi DX)%Z -> (lo DY < hi DY)%Z ->
    (forall j, (lo DY <= j <= hi DY)%Z -> F (lo DX - 1)%Z j = - F (lo DX) j /\ F (hi DX) j = - F (hi DX - 1)%Z j) ->
    (forall i, (lo DX <= i <= hi DX)%Z -> E i (lo DY - 1)%Z = - E i (lo DY) /\ E i (hi DY) = - E i (hi DY - 1)%Z) ->
    box_mass lo hi (fun i j => (F (i - 1)%Z j - F i j) + (E i (j - 1)%Z - E i j)) = 0.
  Proof.
    intros Hx Hy HF HE. rewrite bm_plus.
    replace (box_mass lo hi (fun i j => E i (j - 1)%Z - E i j)) with 0; cycle 1.
    { symmetry. unfold box_mass. apply wm_all_zero; [exact Hx|]. intros i Hi. unfold first, last in Hi; cbn [fst snd] in Hi.
      apply wm_tele; [exact Hy|apply HE; lia|apply HE; lia]. }
    unfold box_mass.
    set (S := fun i => walled_mass (lo DY, hi DY) (fun j => F i j)).
    rewrite (wm_ext _ _ (fun i => S (i - 1)%Z - S i)).
    - rewrite wm_tele; [lra|exact Hx| |]; unfold S, first, last; cbn [fst snd].
      + rewrite <- (Rmult_1_l (walled_mass _ (fun j => F (lo DX) j))). rewrite Ropp_mult_distr_l. rewrite <- wm_mul.
        apply wm_ext; [|exact Hy]. intros j Hj. unfold first, last in Hj; cbn [fst snd] in Hj. rewrite (proj1 (HF j ltac:(lia))). lra.
      + rewrite <- (Rmult_1_l (walled_mass _ (fun j => F (hi DX - 1)%Z j))). rewrite Ropp_mult_distr_l. rewrite <- wm_mul.
        apply wm_ext; [|exact Hy]. intros j Hj. unfold first, last in Hj; cbn [fst snd] in Hj. rewrite (proj2 (HF j ltac:(lia))). lra.
    - intros i _. unfold S. rewrite (wm_ext _ (fun j => F (i - 1)%Z j - F i j) (fun j => F (i - 1)%Z j + (-1) * F i j)); [|intros; lra|exact Hy].
      rewrite (wm_plus _ (fun j => F (i - 1)%Z j) (fun j => -1 * F i j)), (wm_mul _ (-1) (fun j => F i j)). lra.
    - exact Hx.
  Qed.
End Sums.

Section Walls.
  Variable r : run2.
  Variable n : nat.
  Variables eps tiny : R.
  Hypothesis RK : run2_ok r.
  Hypothesis Hn : (0 < n)%nat.
  Hypothesis Hs : Z.of_nat n <= s_hi r DX - s_lo r DX + 1.
  Hypothesis BL : forall d, s_bl r d = Rigid2.
  Hypothesis BR : forall d, s_br r d = Rigid2.
  Notation AR := (arithR eps tiny).
  Notation g := (geom2 r n).
  Notation o := (s_o r).
  Notation lo := (s_lo r).
  Notation hi := (s_hi r).
  Let OK : geom_ok g := geom2_ok r n RK Hn Hs.
  Definition mem := loc -> car AR.
  Definition st (s : desc) (m : mem) : mem := run_stmt loc_eq_dec AR n (stmt_of g s) m.
  Definition go (p : list dinstr) (m : mem) : mem := run_prog loc_eq_dec AR n (prog_of g p) m.
  Definition ex (e : nat) (p : list minstr) (m : mem) : mem := go (expand_eq2 r e p) m.

  Lemma go_app p p' m : go (p ++ p') m = go p' (go p m).
  Proof. unfold go, prog_of, run_prog. rewrite map_app, fold_left_app. reflexivity. Qed.
  Lemma ex_app e p p' m : ex e (p ++ p') m = ex e p' (ex e p m).
  Proof. unfold ex, expand_eq2. rewrite flat_map_app, map_app, go_app. reflexivity. Qed.
  Lemma ex_cons e x p m : ex e (x :: p) m = ex e p (ex e [x] m).
  Proof. apply (ex_app e [x] p m). Qed.
  Lemma ex_do e s m : ex e [MDo s] m = st (inst e s) m.
  Proof. reflexivity. Qed.
  Lemma ex_bar e m : ex e [MBar] m = m.
  Proof. reflexivity. Qed.

  Lemma grid_size : lo DX < hi DX /\ lo DY < hi DY.
  Proof. pose proof (ok2_grid r RK DX (or_introl eq_refl)). pose proof (ok2_grid r RK DY (or_intror eq_refl)). pose proof (halo_pos o). lia. Qed.
  Lemma c_lo_g : c_lo (g_cut g) = lo DX. Proof. cbn [geom2 g_cut]. apply cut1_lo; auto. Qed.
  Lemma c_hi_g : c_hi (g_cut g) = hi DX. Proof. cbn [geom2 g_cut]. apply cut1_hi; auto. Qed.
  Lemma lo_g d : lo_of g d = match d with DZ => 0 | _ => lo d end.
  Proof. destruct d; try reflexivity. unfold lo_of. change (cut_of g DX) with (g_cut g). apply c_lo_g. Qed.
  Lemma hi_g d : hi_of g d = match d with DZ => 0 | _ => hi d end.
  Proof. destruct d; try reflexivity. unfold hi_of. change (cut_of g DX) with (g_cut g). apply c_hi_g. Qed.

  (** ** What statements leave alone *)
  Definition held (l : loc) : Prop := match l with
    | ((_, Psi _), (i, j, _)) => on_grid lo hi i j
    | ((_, Gf), (i, j, _)) => on_grid lo hi i j
    | _ => False end.
  Definition plain (a : arr) : bool := match a with Psi _ | Gf => false | _ => true end.
  Definition outside (rd : rdesc) : bool := match rd with AtFirst _ b => b <? 0 | AtLast a _ => 0 <? a | _ => false end.
  Definition mild (s : tdesc) : bool := plain (t_arr s) || outside (t_x s) || outside (t_y s).

  Lemma out_of_grid t d rd x : outside rd = true -> in_rng x (trng (cut_of g d) rd t) -> ~ lo_of g d <= x <= hi_of g d.
  Proof.
    unfold lo_of, hi_of. intros H Hin. destruct rd as [|a b|a b]; cbn [outside] in H; [discriminate| |]; apply Z.ltb_lt in H; cbn [trng] in Hin;
      destruct Nat.eqb; unfold in_rng, first, last in Hin; cbn [fst snd] in Hin; lia.
  Qed.
  Lemma mild_keeps e s m l : mild s = true -> held l -> st (inst e s) m l = m l.
  Proof.
    intros M H. unfold st. apply run_stmt_out. intros t Ht Hin. apply in_el in Hin. destruct Hin as [A B].
    destruct l as [[e' a] [[i j] k]]. cbn [fst snd inst d_arr] in A.
    assert (G : on_grid lo hi i j) by (destruct a; cbn [held] in H; try contradiction; exact H).
    unfold mild in M. apply orb_true_iff in M. destruct M as [M|M]; [apply orb_true_iff in M; destruct M as [M|M]|].
    - assert (A' : a = t_arr s) by (destruct (t_arr s); cbn in A; congruence). subst a. destruct (t_arr s); cbn in H, M; try contradiction; discriminate.
    - specialize (B DX). unfold drng in B. cbn [d_r inst d_x comp fst snd] in B. apply (out_of_grid _ DX) in B; auto. apply B. rewrite lo_g, hi_g. apply G.
    - specialize (B DY). unfold drng in B. cbn [d_r inst d_y comp fst snd] in B. apply (out_of_grid _ DY) in B; auto. apply B. rewrite lo_g, hi_g. apply G.
  Qed.
  Definition mild_i (i : tinstr) : bool := match i with TDo s => mild s | TBar => true end.
  Lemma go_mild e p m l : forallb mild_i p = true -> held l -> go (map (inst_i e) p) m l = m l.
  Proof.
    revert m. induction p as [|i p IH]; intros m F H; [reflexivity|]. cbn [forallb] in F. apply andb_true_iff in F. destruct F as [F1 F2].
    change (i :: p) with ([i] ++ p). rewrite map_app, go_app. rewrite IH by auto. destruct i as [s|]; [|reflexivity].
    change (go (map (inst_i e) [TDo s]) m) with (st (inst e s) m). apply mild_keeps; auto.
  Qed.
  Definition quiet (x : minstr) : bool := match x with
    | MDo s => mild s | MBar | MXS _ _ => true
    | MXVA v _ | MXVN v _ | MXF v => plain (v DX) && plain (v DY) end.
  Lemma forallb_ph l : forallb mild_i (ph l) = forallb mild l.
  Proof. unfold ph. induction l as [|s l IH]; [reflexivity|]. cbn [map forallb mild_i]. rewrite IH. reflexivity. Qed.
  Lemma mild_map {A} (f : A -> tdesc) l : (forall x, In x l -> mild (f x) = true) -> forallb mild (map f l) = true.
  Proof. intros H. apply forallb_forall. intros s Hin. apply in_map_iff in Hin. destruct Hin as (x & <- & Hx). auto. Qed.
  Lemma neg_mild d a ro k ee : k <= -1 -> mild (at2d d a (AtFirst k k) ro ee) = true.
  Proof. intros. assert (k <? 0 = true) by (apply Z.ltb_lt; lia). unfold mild. destruct d; cbn; rewrite H0; rewrite ?orb_true_r; reflexivity. Qed.
  Lemma pos_mild d a ro k ee : 1 <= k -> mild (at2d d a (AtLast k k) ro ee) = true.
  Proof. intros. assert (0 <? k = true) by (apply Z.ltb_lt; lia). unfold mild. destruct d; cbn; rewrite H0; rewrite ?orb_true_r; reflexivity. Qed.
  Lemma plain_mild d a r1 r2 ee : plain a = true -> mild (at2d d a r1 r2 ee) = true.
  Proof. intros. unfold mild. destruct d; cbn [at2d at2 t_arr]; rewrite H; reflexivity. Qed.
  Lemma fs_mild d a ro : forallb mild (fs_left (s_halo r) (s_per r) (s_bl r) d a ro) = true /\
    forallb mild (fs_rght (s_halo r) (s_per r) (s_br r) d a ro) = true.
  Proof.
    unfold fs_left, fs_rght. rewrite BL, BR. split; apply mild_map; intros k Hk; apply in_zseq in Hk; unfold in_rng, first, last in Hk; cbn [fst snd] in Hk;
      [apply neg_mild|apply pos_mild]; lia.
  Qed.
  Lemma fv_mild d v ad ro : plain (v d) = true -> forallb mild (fv_left (s_halo r) (s_per r) (s_bl r) d v ad ro) = true /\
    forallb mild (fv_rght (s_halo r) (s_per r) (s_br r) d v ad ro) = true.
  Proof. intros P. unfold fv_left, fv_rght. rewrite BL, BR. split; apply mild_map; intros k Hk; apply plain_mild; auto. Qed.
  Lemma fn_mild d a ro : forallb mild (fn_left (s_halo r) (s_per r) (s_bl r) d a ro) = true /\
    forallb mild (fn_rght (s_halo r) (s_per r) (s_br r) d a ro) = true.
  Proof. unfold fn_left, fn_rght. rewrite BL, BR. apply fs_mild. Qed.
  Lemma quiet_keeps e x m l : quiet x = true -> held l -> ex e [x] m l = m l.
  Proof.
    intros Q H. unfold ex, expand_eq2. cbn [flat_map]. rewrite app_nil_r. apply go_mild; [|exact H].
    destruct x as [s| |a xt|v ad|v xt|v]; cbn [quiet] in Q; cbn [expand2].
    - cbn. rewrite Q. reflexivity.
    - reflexivity.
    - repeat (rewrite forallb_app || rewrite forallb_ph). cbn [forallb mild_i].
      rewrite !(proj1 (fs_mild _ _ _)), !(proj2 (fs_mild _ _ _)). reflexivity.
    - apply andb_true_iff in Q. destruct Q as [Q1 Q2]. repeat (rewrite forallb_app || rewrite forallb_ph). cbn [forallb mild_i].
      rewrite !(proj1 (fv_mild _ _ _ _ Q1)), !(proj2 (fv_mild _ _ _ _ Q1)), !(proj1 (fv_mild _ _ _ _ Q2)), !(proj2 (fv_mild _ _ _ _ Q2)). reflexivity.
    - repeat (rewrite forallb_app || rewrite forallb_ph). cbn [forallb mild_i].
      rewrite !(proj1 (fn_mild _ _ _)), !(proj2 (fn_mild _ _ _)). reflexivity.
    - apply andb_true_iff in Q. destruct Q as [Q1 Q2]. repeat (rewrite forallb_app || rewrite forallb_ph). cbn [forallb mild_i].
      unfold ff_left, ff_rght. rewrite !BL, !BR. cbn [forallb].
      rewrite !(plain_mild DX _ _ _ _ Q1), !(plain_mild DY _ _ _ _ Q2). reflexivity.
  Qed.
  Lemma quiet_all e p m l : forallb quiet p = true -> held l -> ex e p m l = m l.
  Proof.
    revert m. induction p as [|x p IH]; intros m F H; [reflexivity|]. cbn [forallb] in F. apply andb_true_iff in F. destruct F as [F1 F2].
    rewrite ex_cons. rewrite IH by auto. apply quiet_keeps; auto.
  Qed.

  (** ** Statements over the whole grid *)
  Definition rd (e : nat) (m : mem) (i : idx) (ao : arr * idx) : R := m (tag e (fst ao), iadd i (snd ao)).
  Lemma st_grid e a ee m i j : on_grid lo hi i j -> st (inst e (at2 a xI yJ ee)) m (tag e a, (i, j, 0)) = ev AR (rd e m (i, j, 0)) ee.
  Proof.
    intros [Gx Gy]. refine (eq_trans (run_in g OK AR (inst e (at2 a xI yJ ee)) m (tag e a) (i, j, 0) eq_refl eq_refl _) _).
    - intros d. rewrite lo_g, hi_g. destruct d; unfold in_rng, first, last; cbn; lia.
    - cbn [inst at2 d_exp t_exp]. rewrite ev_emap. reflexivity.
  Qed.
  Lemma st_other e a r1 r2 ee m b i : b <> tag e a -> st (inst e (at2 a r1 r2 ee)) m (b, i) = m (b, i).
  Proof. intros H. unfold st. apply run_stmt_out. intros t Ht Hin. apply in_el in Hin. destruct Hin as [A _]. apply H. exact A. Qed.

  (** ** Fluxes at walls *)
  Definition antisym (e : nat) (v : dim -> arr) (m : mem) : Prop :=
    (forall j, lo DY <= j <= hi DY -> m (tag e (v DX), (lo DX - 1, j, 0)) = Ropp (m (tag e (v DX), (lo DX, j, 0))) /\
      m (tag e (v DX), (hi DX, j, 0)) = Ropp (m (tag e (v DX), ((hi DX - 1)%Z, j, 0)))) /\
    (forall i, lo DX <= i <= hi DX -> m (tag e (v DY), (i, lo DY - 1, 0)) = Ropp (m (tag e (v DY), (i, lo DY, 0))) /\
      m (tag e (v DY), (i, hi DY, 0)) = Ropp (m (tag e (v DY), (i, (hi DY - 1)%Z, 0)))).

  Lemma st_at e s m b i j : slab_ok g (inst e s) -> b = tag e (t_arr s) ->
    in_rng i (grng (lo DX) (hi DX) (t_x s)) -> in_rng j (grng (lo DY) (hi DY) (t_y s)) -> t_z s = Ext 0 0 ->
    st (inst e s) m (b, (i, j, 0)) = ev AR (rd e m (i, j, 0)) (t_exp s).
  Proof.
    intros S -> X Y Z0. refine (eq_trans (run_in g OK AR (inst e s) m _ (i, j, 0) S eq_refl _) _).
    - intros d. rewrite lo_g, hi_g. destruct d; cbn [d_r inst d_x d_y d_z]; auto. rewrite Z0. unfold in_rng, first, last; cbn; lia.
    - cbn [inst d_exp]. rewrite ev_emap. reflexivity.
  Qed.
  Lemma st_off e s m b i j : slab_ok g (inst e s) ->
    b <> tag e (t_arr s) \/ ~ in_rng i (grng (lo DX) (hi DX) (t_x s)) \/ ~ in_rng j (grng (lo DY) (hi DY) (t_y s)) ->
    st (inst e s) m (b, (i, j, 0)) = m (b, (i, j, 0)).
  Proof.
    intros S H. refine (run_out g OK AR (inst e s) m b (i, j, 0) S _). intros E B. destruct H as [H|[H|H]]; [apply H; exact E| |].
    - apply H. specialize (B DX). rewrite lo_g, hi_g in B. exact B.
    - apply H. specialize (B DY). rewrite lo_g, hi_g in B. exact B.
  Qed.

  Lemma flux_walls e v m : tag e (v DX) <> tag e (v DY) -> antisym e v (ex e [MXF v] m).
  Proof.
    intros D. destruct grid_size as [Sx Sy]. unfold ex, expand_eq2. cbn [flat_map expand2]. rewrite app_nil_r.
    unfold ff_left, ff_rght. rewrite !BL, !BR. cbn [ph map app inst_i at2d]. unfold x2.
    set (s1 := inst e (at2 (v DX) (AtLast 0 0) yJ _)). set (s2 := inst e (at2 (v DX) (AtFirst (-1) (-1)) yJ _)).
    set (s3 := inst e (at2 (v DY) xI (AtFirst (-1) (-1)) _)). set (s4 := inst e (at2 (v DY) xI (AtLast 0 0) _)).
    change (go _ m) with (st s4 (st s3 (st s2 (st s1 m)))).
    assert (K1 : slab_ok g s1) by reflexivity. assert (K2 : slab_ok g s2) by reflexivity.
    assert (K3 : slab_ok g s3) by reflexivity. assert (K4 : slab_ok g s4) by reflexivity.
    Ltac off := rewrite st_off; [|assumption|first [left; cbn; congruence | right; left; unfold in_rng, first, last; cbn; lia | right; right; unfold in_rng, first, last; cbn; lia]].
    Ltac on := rewrite st_at; [|assumption|reflexivity|unfold in_rng, first, last; cbn; lia|unfold in_rng, first, last; cbn; lia|reflexivity].
    unfold s1, s2, s3, s4 in *. split.
    - intros j Hj. split.
      + do 2 off. on. do 3 off. off. cbn [ev t_exp at2 aun arithR rd fst snd iadd]. f_equal. unfold rd, iadd. cbn [fst snd]. change (0 + 0) with 0. off.
        f_equal. f_equal. repeat f_equal; lia.
      + do 3 off. on. do 4 off. cbn [ev t_exp at2 aun arithR rd fst snd iadd]. f_equal.
        unfold rd, iadd. cbn [fst snd]. f_equal. f_equal. repeat f_equal; lia.
    - intros i Hi. split.
      + off. on. off. off. cbn [ev t_exp at2 aun arithR rd fst snd iadd]. f_equal.
        unfold rd, iadd. cbn [fst snd]. f_equal. f_equal. repeat f_equal; lia.
      + on. off. cbn [ev t_exp at2 aun arithR rd fst snd iadd]. f_equal.
        unfold rd, iadd. cbn [fst snd]. replace (hi DY + -1) with (hi DY - 1) by lia. rewrite !Z.add_0_r. reflexivity.
  Qed.

  Ltac toR := cbn [car arithR]; match goal with |- @eq _ ?a ?b => change (@eq R a b) end.
  (** ** New values *)
  Notation GG m i j := (G2of (nug o) m i j).
  Definition fa (e : nat) (flx : dim -> arr) (m : mem) (d : dim) (i j : Z) : R := m (tag e (flx d), (i, j, 0)).
  Definition gain (e : nat) (flx : dim -> arr) (m : mem) (i j : Z) : R :=
    ((fa e flx m DX (i - 1)%Z j - fa e flx m DX i j) + (fa e flx m DY i (j - 1)%Z - fa e flx m DY i j))%R.
  Definition other (e : nat) (psi' : arr) (b : garr) : Prop := b <> tag e psi' /\ forall k, b <> (O, Khn k).
  Lemma kahan_one e psi' t m (c : Z -> Z -> R) (tv : Z -> Z -> R) : (forall k, psi' <> Khn k) ->
    (forall b, In b (map fst (leaves t)) -> other e psi' (tag e b)) ->
    (forall i j, on_grid lo hi i j -> m (tag e psi', (i, j, 0)) = c i j) ->
    (forall i j, on_grid lo hi i j -> m (O, Khn 0, (i, j, 0)) = 0%R) ->
    (forall i j, on_grid lo hi i j -> ev AR (rd e m (i, j, 0)) t = tv i j) ->
    let m' := ex e (map MDo (kahan_add (fun a ee => at2 a xI yJ ee) psi' t)) m in
    (forall i j, on_grid lo hi i j -> m' (tag e psi', (i, j, 0)) = (c i j + tv i j)%R) /\
    (forall i j, on_grid lo hi i j -> m' (O, Khn 0, (i, j, 0)) = 0%R) /\
    (forall b i, other e psi' b -> m' (b, i) = m (b, i)).
  Proof.
    intros NK Ht Hc H0 Htv. cbv zeta. unfold kahan_add. cbn [map]. rewrite (ex_cons e (MDo _)), (ex_cons e (MDo _) [_; _]), (ex_cons e (MDo _) [_]).
    rewrite !ex_do.
    set (m1 := st (inst e (at2 (Khn 1) _ _ _)) m). set (m2 := st (inst e (at2 (Khn 2) _ _ _)) m1).
    set (m3 := st (inst e (at2 (Khn 0) _ _ _)) m2). set (m4 := st (inst e (at2 psi' _ _ _)) m3).
    assert (NP : forall k, tag e psi' <> (O, Khn k)). { intros k E. apply (NK k). destruct psi'; cbn in E; congruence. }
    assert (A1 : forall i j, on_grid lo hi i j -> m1 (O, Khn 1, (i, j, 0)) = tv i j).
    { intros i j Gd. unfold m1. change (O, Khn 1) with (tag e (Khn 1)). rewrite st_grid by auto. cbn [ev abin arithR]. rewrite Htv by auto.
      unfold rd. cbn [fst snd]. rewrite iadd_0_r. change (tag e (Khn 0)) with (O, Khn 0). rewrite H0 by auto. apply Rminus_0_r. }
    assert (B1 : forall b i, b <> (O, Khn 1) -> m1 (b, i) = m (b, i)) by (intros; apply st_other; auto).
    assert (A2 : forall i j, on_grid lo hi i j -> m2 (O, Khn 2, (i, j, 0)) = (c i j + tv i j)%R).
    { intros i j Gd. unfold m2. change (O, Khn 2) with (tag e (Khn 2)). rewrite st_grid by auto. cbn [ev abin arithR].
      unfold rd. cbn [fst snd]. rewrite iadd_0_r. change (tag e (Khn 1)) with (O, Khn 1). rewrite A1 by auto. rewrite B1 by apply NP. rewrite Hc by auto. reflexivity. }
    assert (B2 : forall b i, b <> (O, Khn 2) -> m2 (b, i) = m1 (b, i)) by (intros; apply st_other; auto).
    assert (A3 : forall i j, on_grid lo hi i j -> m3 (O, Khn 0, (i, j, 0)) = 0%R).
    { intros i j Gd. unfold m3. change (O, Khn 0) with (tag e (Khn 0)). rewrite st_grid by auto. cbn [ev abin arithR].
      unfold rd. cbn [fst snd]. rewrite iadd_0_r. change (tag e (Khn 1)) with (O, Khn 1). change (tag e (Khn 2)) with (O, Khn 2).
      rewrite A2 by auto. rewrite (B2 (O, Khn 1)) by congruence. rewrite A1 by auto. rewrite B2 by apply NP. rewrite B1 by apply NP. rewrite Hc by auto. toR. ring. }
    assert (B3 : forall b i, b <> (O, Khn 0) -> m3 (b, i) = m2 (b, i)) by (intros; apply st_other; auto).
    assert (B4 : forall b i, b <> tag e psi' -> m4 (b, i) = m3 (b, i)) by (intros; apply st_other; auto).
    split; [|split].
    - intros i j Gd. unfold m4. rewrite st_grid by auto. cbn [ev]. unfold rd. cbn [fst snd]. rewrite iadd_0_r.
      change (tag e (Khn 2)) with (O, Khn 2). rewrite B3 by congruence. apply A2. exact Gd.
    - intros i j Gd. rewrite B4 by (intros E; apply (NP 0); auto). apply A3. exact Gd.
    - intros b i [O1 O2]. rewrite B4 by auto. rewrite B3 by auto. rewrite B2 by auto. apply B1. auto.
  Qed.

  Lemma ev_rd_ext e m m' i t : (forall b, In b (map fst (leaves t)) -> forall k, m' (tag e b, k) = m (tag e b, k)) ->
    ev AR (rd e m' i) t = ev AR (rd e m i) t.
  Proof.
    induction t as [[b k]|c|u t IH|u t1 IH1 t2 IH2|u t1 IH1 t2 IH2 t3 IH3 t4 IH4]; intros H; cbn [ev leaves] in *.
    - unfold rd. cbn [fst snd]. apply H. left. reflexivity.
    - reflexivity.
    - rewrite IH by auto. reflexivity.
    - rewrite map_app in H. rewrite IH1, IH2; auto; intros; apply H; apply in_or_app; auto.
    - rewrite !map_app in H. rewrite IH1, IH2, IH3, IH4; auto; intros; apply H; rewrite !in_app_iff; auto.
  Qed.

  Lemma kahan_all e psi' ts : (forall k, psi' <> Khn k) -> forall m (c : Z -> Z -> R) (m0 : mem),
    (forall t, In t ts -> forall b, In b (map fst (leaves t)) -> other e psi' (tag e b)) ->
    (forall i j, on_grid lo hi i j -> m (tag e psi', (i, j, 0)) = c i j) ->
    (forall i j, on_grid lo hi i j -> m (O, Khn 0, (i, j, 0)) = 0%R) ->
    (forall b i, other e psi' b -> m (b, i) = m0 (b, i)) ->
    let m' := ex e (map MDo (flat_map (kahan_add (fun a ee => at2 a xI yJ ee) psi') ts)) m in
    (forall i j, on_grid lo hi i j -> m' (tag e psi', (i, j, 0)) = (c i j + fold_right (fun t s => ev AR (rd e m0 (i, j, 0%Z)) t + s) 0 ts)%R) /\
    (forall b i, other e psi' b -> m' (b, i) = m0 (b, i)).
  Proof.
    intros NK. induction ts as [|t ts IH]; intros m c m0 Ht Hc H0 Hb; cbv zeta.
    - cbn. split; [|exact Hb]. intros i j Gd. rewrite Hc by auto. toR. ring.
    - cbn [flat_map]. rewrite map_app, ex_app.
      assert (E : forall i, ev AR (rd e m i) t = ev AR (rd e m0 i) t).
      { intros i. apply ev_rd_ext. intros b Hin k. apply Hb. apply (Ht t); [left; reflexivity|exact Hin]. }
      destruct (kahan_one e psi' t m c (fun i j => ev AR (rd e m0 (i, j, 0)) t) NK (Ht t (or_introl eq_refl)) Hc H0 (fun i j _ => E (i, j, 0))) as (K1 & K2 & K3).
      destruct (IH _ _ m0 (fun t' Hin => Ht t' (or_intror Hin)) K1 K2) as (J1 & J2).
      { intros b i Ob. rewrite K3 by auto. apply Hb. exact Ob. }
      split; [|exact J2]. intros i j Gd. rewrite J1 by auto. cbn [fold_right]. toR. ring.
  Qed.

  Lemma alg1 (a b c x y z : R) : (0 + (a + (- b * z + (c * z + (- x * z + (y * z + 0))))) = a + (c - b + (y - x)) * z)%R.
  Proof. ring. Qed.
  Lemma alg2 (a b c x y z : R) : (a + (- b + c + (- x + y)) * z = a + (c - b + (y - x)) * z)%R.
  Proof. ring. Qed.
  Lemma gx_ev e m i j : ev AR (rd e m (i, j, 0)) (Gx o izero) = GG m i j.
  Proof.
    unfold Gx, G2of, q. destruct (nug o); cbn [ev abin acst arithR Rcst]; [|toR; lra].
    unfold rd, gfac2. cbn [fst snd tag]. rewrite iadd_0_r. toR. unfold Rdiv. rewrite Rmult_0_l. apply Rplus_0_r.
  Qed.
  Lemma sum_new e b b' flx m : b' = negb b -> plain (flx DX) = true -> plain (flx DY) = true ->
    (forall k, flx DX <> Khn k) -> (forall k, flx DY <> Khn k) ->
    let m' := ex e (sum2 o (s_forms r) (Psi b) (Psi b') flx) m in
    (forall i j, on_grid lo hi i j -> cell2 m' e b' i j = (cell2 m e b i j + gain e flx m i j / GG m i j)%R) /\
    (forall c i, other e (Psi b') c -> m' (c, i) = m (c, i)).
  Proof.
    intros Eb PX PY KX KY. cbv zeta. unfold sum2.
    destruct (khn o).
    - rewrite map_app, ex_app. unfold kahan_zro. cbn [map]. rewrite (ex_cons e (MDo _) [_]), !ex_do.
      set (m1 := st _ m). set (m2 := st _ m1).
      assert (B : forall c i, other e (Psi b') c -> m2 (c, i) = m (c, i)).
      { intros c i [O1 O2]. unfold m2. rewrite st_other by (apply O2). unfold m1. apply st_other. exact O1. }
      destruct (kahan_all e (Psi b') (f_terms (s_forms r) (Psi b) flx) (fun k E => ltac:(discriminate E)) m2 (fun _ _ => 0%R) m) as (K1 & K2).
      + intros t Hin a Ha. cbn [s_forms forms2 f_terms terms2] in Hin. cbn [In] in Hin.
        assert (C : In a [Psi b; flx DX; flx DY; Gf]).
        { repeat (destruct Hin as [<-|Hin]); try contradiction; unfold Gx in Ha; destruct (nug o); cbn in Ha; cbn; tauto. }
        cbn [In] in C. split.
        * destruct C as [<-|[<-|[<-|[<-|[]]]]]; cbn.
          -- rewrite Eb. intros E. inversion E. destruct b; discriminate.
          -- destruct (flx DX); cbn in PX |- *; congruence.
          -- destruct (flx DY); cbn in PY |- *; congruence.
          -- congruence.
        * intros k. destruct C as [<-|[<-|[<-|[<-|[]]]]]; cbn; try congruence.
          -- intros E. apply (KX k). destruct (flx DX); cbn in PX, E; congruence.
          -- intros E. apply (KY k). destruct (flx DY); cbn in PY, E; congruence.
      + intros i j Gd. unfold m2. rewrite st_other by (cbn; congruence). unfold m1. rewrite st_grid by auto. cbn. toR. lra.
      + intros i j Gd. unfold m2. change (O, Khn 0) with (tag e (Khn 0)). rewrite st_grid by auto. cbn. toR. lra.
      + exact B.
      + split; [|exact K2]. intros i j Gd. unfold cell2 at 1; change (e, Psi b') with (tag e (Psi b')). rewrite K1 by auto.
        cbn [s_forms forms2 f_terms terms2 fold_right ev abin aun arithR]. rewrite gx_ev. unfold gain, fa, cell2, Rdiv, rd. cbn [fst snd tag].
        unfold iadd, izero. cbn [fst snd]. rewrite !Z.add_0_r. change (i + -1) with (i - 1). change (j + -1) with (j - 1). apply alg1.
    - rewrite ex_do. split.
      + intros i j Gd. unfold cell2 at 1; change (e, Psi b') with (tag e (Psi b')). rewrite st_grid by auto.
        cbn [s_forms forms2 f_sum sum2f ev abin aun arithR]. rewrite gx_ev. unfold gain, fa, cell2, Rdiv, rd. cbn [fst snd tag].
        unfold iadd, izero. cbn [fst snd]. rewrite !Z.add_0_r. change (i + -1) with (i - 1). change (j + -1) with (j - 1). apply alg2.
      + intros c i [O1 O2]. apply st_other. exact O1.
  Qed.

  (** ** Mass *)
  Definition mass (e : nat) (b : bool) (m : mem) : R := box_mass lo hi (fun i j => (GG m i j * cell2 m e b i j)%R).
  Definition Gnz (m : mem) : Prop := nug o = true -> forall i j, on_grid lo hi i j -> gfac2 m i j <> 0%R.
  Definition kept (P : garr -> Prop) (m m' : mem) : Prop := forall l, held l -> P (fst l) -> m' l = m l.

  Lemma GG_kept m m' i j : (forall l, held l -> fst l = (O, Gf) -> m' l = m l) -> on_grid lo hi i j -> GG m' i j = GG m i j.
  Proof. intros H Gd. unfold G2of. destruct (nug o); [|reflexivity]. apply H; [exact Gd|reflexivity]. Qed.
  Lemma GG_nz m i j : Gnz m -> on_grid lo hi i j -> GG m i j <> 0%R.
  Proof. intros H Gd. unfold G2of. destruct (nug o) eqn:N; [apply H; auto|lra]. Qed.
  Lemma mass_kept e b m m' : (forall l, held l -> fst l = (O, Gf) \/ fst l = (e, Psi b) -> m' l = m l) -> mass e b m' = mass e b m.
  Proof.
    intros H. unfold mass. destruct grid_size. apply bm_ext; auto. intros i j Gd. rewrite (GG_kept m m') by auto.
    unfold cell2. rewrite H; [reflexivity|exact Gd|right; reflexivity].
  Qed.

  Lemma pass_mass e b p flx m : forallb quiet p = true -> plain (flx DX) = true -> plain (flx DY) = true ->
    (forall k, flx DX <> Khn k) -> (forall k, flx DY <> Khn k) -> flx DX <> flx DY -> Gnz m ->
    let m' := ex e (p ++ [MXF flx] ++ sum2 o (s_forms r) (Psi b) (Psi (negb b)) flx) m in
    mass e (negb b) m' = mass e b m /\ kept (fun a => a <> (e, Psi (negb b))) m m'.
  Proof.
    intros Q PX PY KX KY ND NZ. cbv zeta. rewrite app_assoc, ex_app.
    set (m1 := ex e (p ++ [MXF flx]) m).
    assert (A : antisym e flx m1).
    { unfold m1. rewrite ex_app. apply flux_walls. intros E. apply ND. destruct (flx DX), (flx DY); cbn in E, PX, PY; congruence. }
    assert (H1 : forall l, held l -> m1 l = m l).
    { intros l H. apply quiet_all; [|exact H]. rewrite forallb_app, Q. cbn [forallb quiet]. rewrite PX, PY. reflexivity. }
    destruct (sum_new e b (negb b) flx m1 eq_refl PX PY KX KY) as [V K].
    set (m' := ex e _ m1) in *.
    assert (KK : kept (fun a => a <> (e, Psi (negb b))) m m').
    { intros [a i] H Ha. cbn [fst] in Ha. rewrite K; [apply H1; exact H|]. split; [exact Ha|]. intros k ->. exact H. }
    split; [|exact KK]. destruct grid_size as [Sx Sy].
    transitivity (box_mass lo hi (fun i j => (GG m i j * cell2 m e b i j + gain e flx m1 i j)%R)).
    - unfold mass. apply bm_ext; auto. intros i j Gd. rewrite V by auto.
      rewrite (GG_kept m m') by (auto; intros l Hl El; apply KK; auto; rewrite El; discriminate).
      rewrite (GG_kept m m1) by auto. replace (cell2 m1 e b i j) with (cell2 m e b i j) by (symmetry; apply H1; exact Gd).
      pose proof (GG_nz m i j NZ Gd). toR. unfold mem in *. cbn [car arithR] in *. field. exact H.
    - rewrite bm_plus. unfold gain. rewrite bm_tele; auto.
      + unfold mass. lra.
      + intros j Hj. apply A. exact Hj.
      + intros i Hi. apply A. exact Hi.
  Qed.

  Lemma scale_mass e b x m : let m' := ex e (scale2 (Psi b) x) m in
    mass e b m' = (mass e b m * (if Z.eqb x 0 then 1 else if Z.ltb 0 x then / IZR (2 ^ x) else IZR (2 ^ (- x))))%R /\
    kept (fun a => a <> (e, Psi b)) m m'.
  Proof.
    cbv zeta. unfold scale2. destruct (x =? 0); [split; [cbn; unfold ex; cbn; rewrite Rmult_1_r; reflexivity|intros l _ _; reflexivity]|].
    destruct grid_size as [Sx Sy].
    assert (GEN : forall ee c, (forall i j, on_grid lo hi i j -> ev AR (rd e m (i, j, 0)) ee = (c * cell2 m e b i j)%R) ->
      let m' := ex e [MDo (at2 (Psi b) xI yJ ee)] m in mass e b m' = (mass e b m * c)%R /\ kept (fun a => a <> (e, Psi b)) m m').
    { intros ee c H. cbv zeta. rewrite ex_do.
      assert (K : kept (fun a => a <> (e, Psi b)) m (st (inst e (at2 (Psi b) xI yJ ee)) m)).
      { intros [a i] _ Ha. apply st_other. exact Ha. }
      split; [|exact K]. unfold mass. rewrite Rmult_comm, <- bm_mul. apply bm_ext; auto. intros i j Gd.
      rewrite (GG_kept m (st _ m)) by (auto; intros l Hl El; apply K; auto; rewrite El; discriminate).
      unfold cell2 at 1. change (e, Psi b) with (tag e (Psi b)) at 1. rewrite st_grid by auto. rewrite H by auto. cbn [car arithR]. ring. }
    destruct (0 <? x); apply GEN; intros i j Gd; cbn [ev abin arithR acst Rcst q]; unfold rd; cbn [fst snd tag]; rewrite iadd_0_r; unfold cell2.
    - set (a := IZR (2 ^ x)). toR. unfold Rdiv. rewrite Rinv_1. rewrite !Rmult_1_r. apply Rmult_comm.
    - set (a := IZR (2 ^ (- x))). toR. unfold Rdiv. rewrite Rinv_1, Rmult_1_r. apply Rmult_comm.
  Qed.

  Lemma lev_next b j : lev b (S j) = negb (lev b j).
  Proof. unfold lev. rewrite Nat.odd_succ, <- Nat.negb_odd. destruct b, (Nat.odd j); reflexivity. Qed.

  Definition mine (e : nat) (a : garr) : Prop := forall b, a <> (e, Psi b).
  Lemma Gnz_kept e m m' : Gnz m -> kept (mine e) m m' -> Gnz m'.
  Proof. intros H K N i j Gd. unfold gfac2. rewrite K; [apply H; auto|exact Gd|]. intros b. discriminate. Qed.
  Lemma kept_trans e m m1 m2 : kept (mine e) m m1 -> kept (mine e) m1 m2 -> kept (mine e) m m2.
  Proof. intros A B l H P. rewrite B, A; auto. Qed.
  Lemma quiet_step e b p m : forallb quiet p = true -> mass e b (ex e p m) = mass e b m /\ kept (mine e) m (ex e p m).
  Proof. intros Q. split; [apply mass_kept; intros; apply quiet_all; auto|intros l H _; apply quiet_all; auto]. Qed.
  Lemma quiet_bars le : forallb quiet (cyc_bars le) = true.
  Proof. destruct le; reflexivity. Qed.
  Lemma corr_plain k d : plain (GC_corr k d) = true. Proof. reflexivity. Qed.

  Lemma corrective_mass e b k last m : Gnz m ->
    let m' := ex e (corrective2 o (s_forms r) (Psi b) (Psi (negb b)) (GC_unco k) (GC_corr k) last) m in
    mass e (negb b) m' = mass e b m /\ kept (fun a => a <> (e, Psi (negb b))) m m'.
  Proof.
    intros NZ. unfold corrective2. cbv zeta.
    set (p0 := [_; _]). set (p1 := if div3dt o then _ else _). set (p2 := if negb (fct o) && negb last then _ else _).
    set (p3 := fct_adjust2 _ _ _ _).
    assert (Q0 : forallb quiet p0 = true) by reflexivity.
    assert (Q1 : forallb quiet p1 = true) by (unfold p1; destruct (div3dt o); reflexivity).
    assert (Q2 : forallb quiet p2 = true) by (unfold p2; destruct (fct o), last, (dfl o); reflexivity).
    assert (Q3 : forallb quiet p3 = true) by (unfold p3, fct_adjust2; destruct (fct o), (iga o); reflexivity).
    set (gc := if fct o then Mono else GC_corr k).
    assert (PG : plain (gc DX) = true /\ plain (gc DY) = true /\ (forall k, gc DX <> Khn k) /\ (forall k, gc DY <> Khn k) /\ gc DX <> gc DY).
    { unfold gc. destruct (fct o); repeat split; try reflexivity; intros; discriminate. }
    destruct PG as (G1 & G2 & G3 & G4 & G5).
    destruct (iga o).
    - replace (p0 ++ p1 ++ p2 ++ p3 ++ [MXF gc] ++ sum2 o (s_forms r) (Psi b) (Psi (negb b)) gc)
        with ((p0 ++ p1 ++ p2 ++ p3) ++ [MXF gc] ++ sum2 o (s_forms r) (Psi b) (Psi (negb b)) gc) by (rewrite <- !app_assoc; reflexivity).
      apply pass_mass; auto. rewrite !forallb_app, Q0, Q1, Q2, Q3. reflexivity.
    - replace (p0 ++ p1 ++ p2 ++ p3 ++ flux2 (s_forms r) (Psi b) gc ++ [MXF Flux] ++ sum2 o (s_forms r) (Psi b) (Psi (negb b)) Flux)
        with ((p0 ++ p1 ++ p2 ++ p3 ++ flux2 (s_forms r) (Psi b) gc) ++ [MXF Flux] ++ sum2 o (s_forms r) (Psi b) (Psi (negb b)) Flux) by (rewrite <- !app_assoc; reflexivity).
      apply pass_mass; auto; try discriminate. rewrite !forallb_app, Q0, Q1, Q2, Q3. reflexivity.
  Qed.

  Lemma passes_mass e nit le b more : forall j m, Gnz m ->
    let m' := ex e (passes2 o (s_forms r) nit le b j more) m in
    mass e (lev b (j + more)) m' = mass e (lev b j) m /\ kept (mine e) m m'.
  Proof.
    induction more as [|k IH]; intros j m NZ; cbv zeta.
    - rewrite Nat.add_0_r. split; [reflexivity|intros l _ _; reflexivity].
    - cbn [passes2]. rewrite app_assoc, ex_app.
      destruct (quiet_step e (lev b j) (cyc_bars le ++ [MXS (Psi (lev b j)) (halo o)]) m) as [A1 K1].
      { rewrite forallb_app, quiet_bars. reflexivity. }
      set (m1 := ex e _ m) in *. rewrite ex_app. rewrite lev_next.
      destruct (corrective_mass e (lev b j) j (Nat.eqb (S j) nit) m1 (Gnz_kept e m m1 NZ K1)) as [A2 K2].
      set (m2 := ex e _ m1) in *.
      assert (K2' : kept (mine e) m1 m2) by (intros l H P; apply K2; auto).
      destruct (IH (S j) m2 (Gnz_kept e m1 m2 (Gnz_kept e m m1 NZ K1) K2')) as [A3 K3].
      split; [|exact (kept_trans e _ _ _ K1 (kept_trans e _ _ _ K2' K3))].
      replace (j + S k)%nat with (S j + k)%nat by lia. rewrite A3, lev_next, A2, A1. reflexivity.
  Qed.

  Lemma pow2_pos x : 0 <= x -> IZR (2 ^ x) <> 0%R.
  Proof. intros H. apply not_0_IZR. pose proof (Z.pow_pos_nonneg 2 x ltac:(lia) H). lia. Qed.

  Lemma body_mass e k x le b m : (0 < k)%nat -> Gnz m ->
    let m' := ex e (body2 o (s_forms r) (s_nit r) k x le b) m in
    mass e (lev b k) m' = mass e b m /\ kept (mine e) m m'.
  Proof.
    intros Hk NZ. cbv zeta. unfold body2.
    rewrite ex_app. destruct (scale_mass e b x m) as [A1 K1]. set (m1 := ex e _ m) in *.
    assert (K1' : kept (mine e) m m1) by (intros l H P; apply K1; auto).
    pose proof (Gnz_kept e m m1 NZ K1') as N1.
    replace ([MXS (Psi b) (halo o)] ++ fct_init2 o (s_forms r) (Psi b) ++ upstream2 o (s_forms r) (Psi b) (Psi (lev b 1)) ++
       passes2 o (s_forms r) (s_nit r) le b 1 (k - 1) ++ (if le then [] else [MBar]) ++ cyc_bars le ++ scale2 (Psi (lev b k)) (- x))
      with ((([MXS (Psi b) (halo o)] ++ fct_init2 o (s_forms r) (Psi b) ++ flux2 (s_forms r) (Psi b) GC) ++ [MXF Flux] ++ sum2 o (s_forms r) (Psi b) (Psi (negb b)) Flux) ++
       passes2 o (s_forms r) (s_nit r) le b 1 (k - 1) ++ ((if le then [] else [MBar]) ++ cyc_bars le) ++ scale2 (Psi (lev b k)) (- x)).
    2: { unfold upstream2. rewrite (lev_next b 0). replace (lev b 0) with b by (unfold lev; cbn; destruct b; reflexivity). rewrite <- !app_assoc. reflexivity. }
    rewrite ex_app.
    destruct (pass_mass e b ([MXS (Psi b) (halo o)] ++ fct_init2 o (s_forms r) (Psi b) ++ flux2 (s_forms r) (Psi b) GC) Flux m1) as [A2 K2]; auto; try discriminate.
    { unfold fct_init2. destruct (fct o); reflexivity. }
    set (m2 := ex e _ m1) in *.
    assert (K2' : kept (mine e) m1 m2) by (intros l H P; apply K2; auto).
    pose proof (Gnz_kept e m1 m2 N1 K2') as N2.
    rewrite ex_app. destruct (passes_mass e (s_nit r) le b (k - 1) 1 m2 N2) as [A3 K3]. set (m3 := ex e _ m2) in *.
    replace (1 + (k - 1))%nat with k in A3 by lia.
    rewrite (lev_next b 0) in A3. replace (lev b 0) with b in A3 by (unfold lev; cbn; destruct b; reflexivity).
    rewrite ex_app. destruct (quiet_step e (lev b k) ((if le then [] else [MBar]) ++ cyc_bars le) m3) as [A4 K4].
    { rewrite forallb_app, quiet_bars. destruct le; reflexivity. }
    set (m4 := ex e _ m3) in *.
    destruct (scale_mass e (lev b k) (- x) m4) as [A5 K5]. set (m5 := ex e _ m4) in *.
    assert (K5' : kept (mine e) m4 m5) by (intros l H P; apply K5; auto).
    split.
    - rewrite A5, A4, A3, A2, A1. rewrite Rmult_assoc. rewrite <- (Rmult_1_r (mass e b m)) at 2. f_equal.
      destruct (Z.eqb_spec x 0) as [->|Hx]; [cbn; ring|]. destruct (Z.eqb_spec (- x) 0); [lia|].
      destruct (Z.ltb_spec 0 x); destruct (Z.ltb_spec 0 (- x)); try lia; rewrite ?Z.opp_involutive.
      + apply Rinv_l. apply pow2_pos. lia.
      + apply Rinv_r. apply pow2_pos. lia.
    - exact (kept_trans e _ _ _ K1' (kept_trans e _ _ _ K2' (kept_trans e _ _ _ K3 (kept_trans e _ _ _ K4 K5')))).
  Qed.

  (** ** Steps *)
  Definition gkept (m m' : mem) : Prop := forall l, held l -> fst l = (O, Gf) -> m' l = m l.
  Lemma eqs_mass k es : (0 < k)%nat -> forall lv m, NoDup es -> Gnz m ->
    let m' := go (eqs_prog2 r k es lv) m in
    (forall e, mass e (if existsb (Nat.eqb e) es then lev (lv e) k else lv e) m' = mass e (lv e) m) /\ gkept m m'.
  Proof.
    intros Hk. induction es as [|e es IH]; intros lv m ND NZ; cbv zeta.
    - split; [reflexivity|intros l _ _; reflexivity].
    - cbn [eqs_prog2]. rewrite go_app. inversion ND as [|? ? NI ND']; subst.
      destruct (body_mass e k (s_scale r e) (is_last_eqn (s_cfg r) e) (lv e) m Hk NZ) as [A K].
      unfold ex in A, K. set (m1 := go _ m) in *.
      destruct (IH (upd lv e (lev (lv e) k)) m1 ND' (Gnz_kept e m m1 NZ K)) as [B G]. set (m2 := go _ m1) in *.
      split.
      + intros e'. specialize (B e'). cbn [existsb]. destruct (Nat.eqb_spec e' e) as [->|NE].
        * assert (F : existsb (Nat.eqb e) es = false).
          { apply not_true_is_false. intros H. apply existsb_exists in H. destruct H as (x & Hx & Hq). apply Nat.eqb_eq in Hq. subst. auto. }
          rewrite F in B. unfold upd in B. rewrite Nat.eqb_refl in B. cbn [orb]. rewrite B. exact A.
        * unfold upd in B. destruct (Nat.eqb_spec e' e); [contradiction|]. cbn [orb]. rewrite B. apply mass_kept. intros l H [E|E]; apply K; auto; intros b; rewrite E; congruence.
      + intros l H E. rewrite G by auto. apply K; auto. intros b. rewrite E. discriminate.
  Qed.
  Lemma pass_count ts : (0 < passes (s_nit r) (s_freq r) ts)%nat.
  Proof. pose proof (ok2_nit _ RK). unfold passes. destruct (_ && _); lia. Qed.
  Lemma steps_mass nt : forall ts lv m e, Gnz m -> (e < n_eqns (s_cfg r))%nat ->
    mass e (level_after2 r nt ts (lv e)) (go (steps_prog2 r nt ts lv) m) = mass e (lv e) m /\ gkept m (go (steps_prog2 r nt ts lv) m).
  Proof.
    induction nt as [|k IH]; intros ts lv m e NZ He; [split; [reflexivity|intros l _ _; reflexivity]|]. cbn [steps_prog2 level_after2].
    rewrite !go_app. change (go [DBar] m) with m.
    set (p := passes (s_nit r) (s_freq r) ts).
    destruct (eqs_mass p (eq_order2 r) (pass_count ts) lv m (eq_order_nodup2 r) NZ) as [A G]. set (m1 := go _ m) in *.
    set (lv' := fun e => if existsb (Nat.eqb e) (eq_order2 r) then lev (lv e) p else lv e).
    assert (L : lv' e = lev (lv e) p).
    { unfold lv'. replace (existsb (Nat.eqb e) (eq_order2 r)) with true; [reflexivity|]. symmetry. apply existsb_exists.
      exists e. split; [apply in_eq_order2; exact He|apply Nat.eqb_refl]. }
    assert (N1 : Gnz m1) by (intros N i j Gd; unfold gfac2; rewrite G; [apply NZ; auto|exact Gd|reflexivity]).
    destruct (IH (ts + 1) lv' m1 e N1 He) as [B K]. split.
    - rewrite <- L. rewrite B. apply A.
    - intros l H E. rewrite K by auto. apply G; auto.
  Qed.

  Lemma run_mass nt m e : Gnz m -> (e < n_eqns (s_cfg r))%nat ->
    mass e (level_after2 r nt 0 false) (go (run_prog2 r nt) m) = mass e false m /\ gkept m (go (run_prog2 r nt) m).
  Proof.
    intros NZ He. unfold run_prog2. rewrite !go_app.
    change (go (expand_eq2 r 0 (ante2 o)) m) with (ex 0 (ante2 o) m).
    set (m1 := ex 0 (ante2 o) m).
    assert (H1 : forall l, held l -> m1 l = m l).
    { intros l H. apply quiet_all; auto. unfold ante2. destruct (nug o), (div3dt o), (div3 o); reflexivity. }
    assert (N1 : Gnz m1) by (intros N i j Gd; unfold gfac2; rewrite H1 by exact Gd; apply NZ; auto).
    destruct (steps_mass nt 0 (fun _ => false) m1 e N1 He) as [B K].
    set (m2 := go (steps_prog2 _ _ _ _) m1) in *. change (go [DBar] m2) with m2. split.
    - rewrite B. apply mass_kept. auto.
    - intros l H E. rewrite K by auto. apply H1. exact H.
  Qed.
End Walls.

Lemma box_keeps_mass eps tiny r n nt (m m' : loc -> R) e : walled_end2 (arithR eps tiny) r n nt m m' -> (e < n_eqns (s_cfg r))%nat ->
  (forall i j, on_grid (s_lo r) (s_hi r) i j -> G2of (nug (s_o r)) m i j <> 0%R) ->
  box_mass (s_lo r) (s_hi r) (fun i j => (G2of (nug (s_o r)) m i j * cell2 m' e (newest2 r nt) i j)%R) =
  box_mass (s_lo r) (s_hi r) (fun i j => (G2of (nug (s_o r)) m i j * cell2 m e false i j)%R).
Proof.
  intros [RK BL BR Hn Hs T E] He NZ.
  pose proof (can_end_run2 r RK n Hn Hs (arithR eps tiny) nt m m' T E) as V.
  destruct (run_mass r n eps tiny RK Hn Hs BL BR nt m e) as [A K].
  - intros N i j Gd. specialize (NZ i j Gd). unfold G2of in NZ. rewrite N in NZ. exact NZ.
  - exact He.
  - change (mass r eps tiny e false m) with (box_mass (s_lo r) (s_hi r) (fun i j => (G2of (nug (s_o r)) m i j * cell2 m e false i j)%R)) in A.
    rewrite <- A. unfold mass. 
    assert (S1 : s_lo r DX < s_hi r DX) by (pose proof (ok2_grid r RK DX (or_introl eq_refl)); pose proof (halo_pos (s_o r)); lia).
    assert (S2 : s_lo r DY < s_hi r DY) by (pose proof (ok2_grid r RK DY (or_intror eq_refl)); pose proof (halo_pos (s_o r)); lia).
    apply bm_ext; auto. intros i j Gd. f_equal.
    + symmetry. unfold G2of. destruct (nug (s_o r)); [|reflexivity]. apply K; [exact Gd|reflexivity].
    + unfold cell2, newest2. rewrite V. reflexivity.
Qed.
