(** Mass in a channel between rigid walls. *)
From Coq Require Import ZArith List Bool Lia ZifyBool Reals Lra.
From Verif Require Import ModelIndex ModelRun Lang ProofsLang Stencil ProofsStencil FormCommon Form2D Solver1D Solver2D Macro ProofsMacro
  Proofs1D ProofsThread1D ProofsThread2D ProofsOne2D Arith SpecReal SpecThreads SpecFields2 SpecNum2 SpecBcond ProofsBcond SpecChannel2
  ProofsValid ProofsValid2D ProofsValidC2D ProofsRef2D ProofsRefC2D ProofsExchC2D Lattice ProofsLattice ProofsCyclic2D ProofsCons1D ProofsWalls2D.
Import ListNotations.
Local Open Scope Z_scope.

(** ** Sums over a channel *)
Section Sums.
  Local Open Scope R_scope.
  Lemma cm_ext_in lo hi f g : (lo DX < hi DX)%Z -> (lo DY < hi DY)%Z -> (forall i j, (lo DX <= i < hi DX)%Z -> (lo DY <= j <= hi DY)%Z -> f i j = g i j) ->
    channel_mass lo hi f = channel_mass lo hi g.
  Proof.
    intros Hx Hy H. unfold channel_mass. apply total_ext. intros i Hi. apply wm_ext; [|exact Hy]. intros j Hj. apply H; auto.
  Qed.
  Lemma cm_ext lo hi f g : (lo DX < hi DX)%Z -> (lo DY < hi DY)%Z -> (forall i j, (lo DY <= j <= hi DY)%Z -> f i j = g i j) ->
    channel_mass lo hi f = channel_mass lo hi g.
  Proof. intros Hx Hy H. apply cm_ext_in; auto. Qed.
  Lemma cm_plus lo hi f g : channel_mass lo hi (fun i j => f i j + g i j) = channel_mass lo hi f + channel_mass lo hi g.
  Proof.
    unfold channel_mass. transitivity (total (lo DX) (hi DX) (fun i => 1 * walled_mass (lo DY, hi DY) (fun j => f i j) + 1 * walled_mass (lo DY, hi DY) (fun j => g i j))).
    - apply total_ext. intros i _. rewrite (wm_plus _ (fun j => f i j) (fun j => g i j)). lra.
    - unfold total. rewrite sumn_lin. lra.
  Qed.
  Lemma cm_mul lo hi c f : channel_mass lo hi (fun i j => c * f i j) = c * channel_mass lo hi f.
  Proof.
    unfold channel_mass, total. rewrite <- sumn_scal. apply sumn_ext. intros i _. apply wm_mul.
  Qed.
  (** fluxes through faces cancel *)
  Lemma cm_tele lo hi (F E : Z -> Z -> R) : (lo DX < hi DX)%Z -> (lo DY < hi DY)%Z ->
    (forall j, (lo DY <= j <= hi DY)%Z -> F (lo DX - 1)%Z j = F (hi DX - 1)%Z j) ->
    (forall i, (lo DX <= i < hi DX)%Z -> E i (lo DY - 1)%Z = - E i (lo DY) /\ E i (hi DY) = - E i (hi DY - 1)%Z) ->
    channel_mass lo hi (fun i j => (F (i - 1)%Z j - F i j) + (E i (j - 1)%Z - E i j)) = 0.
  Proof.
    intros Hx Hy HF HE. rewrite cm_plus.
    replace (channel_mass lo hi (fun i j => E i (j - 1)%Z - E i j)) with 0; cycle 1.
    { symmetry. unfold channel_mass. transitivity (total (lo DX) (hi DX) (fun _ => 0 * 0)).
      - apply total_ext. intros i Hi. rewrite wm_tele; [lra|exact Hy|apply HE; lia|apply HE; lia].
      - unfold total. rewrite sumn_scal. lra. }
    unfold channel_mass.
    set (S := fun i => - walled_mass (lo DY, hi DY) (fun j => F i j)).
    rewrite (total_ext _ _ _ (fun i => S i - S (i - 1)%Z)).
    - rewrite total_tel by lia. unfold S. rewrite (wm_ext _ (fun j => F (lo DX - 1)%Z j) (fun j => F (hi DX - 1)%Z j)); [lra| |exact Hy].
      intros j Hj. apply HF. exact Hj.
    - intros i _. unfold S. rewrite (wm_ext _ (fun j => F (i - 1)%Z j - F i j) (fun j => F (i - 1)%Z j + (-1) * F i j)); [|intros; lra|exact Hy].
      rewrite (wm_plus _ (fun j => F (i - 1)%Z j) (fun j => -1 * F i j)), (wm_mul _ (-1) (fun j => F i j)). lra.
  Qed.
End Sums.

Section Channel.
  Variable r : run2.
  Variables eps tiny : R.
  Hypothesis RK : run2_ok r.
  Hypothesis BL : s_bl r DY = Rigid2.
  Hypothesis BR : s_br r DY = Rigid2.
  Notation AR := (arithR eps tiny).
  Notation o := (s_o r).
  Notation lo := (s_lo r).
  Notation hi := (s_hi r).
  Definition mem := loc -> car AR.
  Definition st (e : nat) (s : tdesc) (m : mem) : mem := lat_do AR e s m.
  Definition ex (e : nat) (p : list minstr) (m : mem) : mem := ref_run AR (chx AR r e) (lat_do AR e) p m.
  Definition per (m : mem) : Prop := periodic AR (s_per r DX, 0, 0) m.
  Definition row (j : Z) : Prop := lo DY <= j <= hi DY.

  Lemma ex_app e p p' m : ex e (p ++ p') m = ex e p' (ex e p m).
  Proof. apply fold_left_app. Qed.
  Lemma ex_cons e x p m : ex e (x :: p) m = ex e p (ex e [x] m).
  Proof. apply (ex_app e [x] p m). Qed.
  Lemma ex_do e s m : ex e [MDo s] m = st e s m.
  Proof. reflexivity. Qed.
  Lemma ex_per e p m : per m -> per (ex e p m).
  Proof.
    revert m. induction p as [|x p IH]; intros m P; [exact P|]. rewrite ex_cons. apply IH.
    destruct x; [apply lat_do_periodic; exact P|exact P|apply chx_periodic; exact P|apply chx_periodic; exact P|apply chx_periodic; exact P|apply chx_periodic; exact P].
  Qed.
  Lemma grid_size : lo DX < hi DX /\ lo DY < hi DY.
  Proof. pose proof (ok2_grid r RK DX (or_introl eq_refl)). pose proof (ok2_grid r RK DY (or_intror eq_refl)). pose proof (halo_pos o). lia. Qed.

  (** ** What statements leave alone *)
  Definition held (l : loc) : Prop := match l with
    | ((_, Psi _), (i, j, _)) => row j
    | ((_, Gf), (i, j, _)) => row j
    | _ => False end.
  Definition plain (a : arr) : bool := match a with Psi _ | Gf => false | _ => true end.
  Definition quiet (x : minstr) : bool := match x with
    | MDo s => plain (t_arr s) | MBar | MXS _ _ => true
    | MXVA v _ | MXVN v _ | MXF v => plain (v DX) && plain (v DY) end.
  Lemma held_plain e a l : plain a = true -> held l -> fst l <> tag e a.
  Proof. intros P H E. destruct l as [[e' a'] [[i j] k]]. cbn [fst] in E. destruct a'; cbn in H; try contradiction; destruct a; cbn in E, P; congruence. Qed.
  Lemma chx_out e x m l : is_exch x = true -> (fst l = tag e (fill_arr x) -> ~ rows_written r x (comp DY (snd l))) ->
    chx AR r e x m l = m l.
  Proof.
    intros Hx H. unfold chx.
    assert (F : forall s, In s (wall_fills r x) -> t_arr s = fill_arr x /\ forall y, in_row (lo DY) (hi DY) (t_y s) y -> rows_written r x y).
    { intros s Hin. split; [|intros y Hy; apply (wall_rows_only r 1 (le_n 1) BL BR x s y Hx Hin Hy)].
      pose proof (wall_fills_ok r 1 RK (le_n 1) BL BR x Hx) as W. rewrite Forall_forall in W.
      destruct (W s Hin) as (ry & E & -> & _). reflexivity. }
    revert m. induction (wall_fills r x) as [|s l0 IH]; intros m; [reflexivity|]. cbn [fold_left].
    rewrite IH by (intros s' Hs'; apply F; right; exact Hs'). destruct (F s (or_introl eq_refl)) as [F1 F2].
    unfold row_do. destruct (garr_eqb (fst l) (tag e (t_arr s))) eqn:E1; [|reflexivity].
    destruct (in_rowb _ _ (t_y s) (comp DY (snd l))) eqn:E2; [|reflexivity]. exfalso.
    apply garr_eqb_eq in E1. apply in_rowb_iff in E2. rewrite F1 in E1. exact (H E1 (F2 _ E2)).
  Qed.
  Lemma st_other e a r1 r2 ee m b i : b <> tag e a -> st e (at2 a r1 r2 ee) m (b, i) = m (b, i).
  Proof.
    intros H. unfold st, lat_do. cbn [fst at2 t_arr]. destruct (garr_eqb b (tag e a)) eqn:E; [|reflexivity].
    apply garr_eqb_eq in E. contradiction.
  Qed.
  Lemma quiet_keeps e x m l : quiet x = true -> held l -> ex e [x] m l = m l.
  Proof.
    intros Q H. destruct x as [s| |a xt|v ad|v xt|v]; cbn [quiet] in Q.
    - rewrite ex_do. unfold st, lat_do. destruct (garr_eqb (fst l) (tag e (t_arr s))) eqn:E; [|reflexivity].
      apply garr_eqb_eq in E. destruct (held_plain e _ _ Q H E).
    - reflexivity.
    - change (ex e [MXS a xt] m) with (chx AR r e (MXS a xt) m). apply chx_out; [reflexivity|]. intros _. cbn [rows_written].
      assert (row (comp DY (snd l))) by (destruct l as [[e' a'] [[i j] k]]; destruct a'; cbn in H |- *; try contradiction; exact H).
      unfold row in *. lia.
    - apply andb_true_iff in Q. destruct Q as [Q1 Q2]. change (ex e [MXVA v ad] m) with (chx AR r e (MXVA v ad) m). apply chx_out; [reflexivity|].
      intros E. destruct (held_plain e _ _ Q2 H E).
    - apply andb_true_iff in Q. destruct Q as [Q1 Q2]. change (ex e [MXVN v xt] m) with (chx AR r e (MXVN v xt) m). apply chx_out; [reflexivity|].
      intros E. destruct (held_plain e _ _ Q1 H E).
    - apply andb_true_iff in Q. destruct Q as [Q1 Q2]. change (ex e [MXF v] m) with (chx AR r e (MXF v) m). apply chx_out; [reflexivity|].
      intros E. destruct (held_plain e _ _ Q2 H E).
  Qed.
  Lemma quiet_all e p m l : forallb quiet p = true -> held l -> ex e p m l = m l.
  Proof.
    revert m. induction p as [|x p IH]; intros m F H; [reflexivity|]. cbn [forallb] in F. apply andb_true_iff in F. destruct F as [F1 F2].
    rewrite ex_cons. rewrite IH by auto. apply quiet_keeps; auto.
  Qed.

  Definition rd (e : nat) (m : mem) (i : idx) (ao : arr * idx) : R := m (tag e (fst ao), iadd i (snd ao)).
  Lemma st_grid e a ee m i j : row j -> st e (at2 a xI yJ ee) m (tag e a, (i, j, 0)) = ev AR (rd e m (i, j, 0)) ee.
  Proof. intros _. unfold st, lat_do. cbn [fst snd at2 t_arr t_exp]. rewrite (proj2 (garr_eqb_eq _ _) eq_refl). reflexivity. Qed.

  (** ** Fluxes at walls *)
  Definition antisym (e : nat) (v : dim -> arr) (m : mem) : Prop :=
    forall i, m (tag e (v DY), (i, lo DY - 1, 0)) = Ropp (m (tag e (v DY), (i, lo DY, 0))) /\
      m (tag e (v DY), (i, hi DY, 0)) = Ropp (m (tag e (v DY), (i, (hi DY - 1)%Z, 0))).
  Lemma flux_walls e v m : antisym e v (ex e [MXF v] m).
  Proof.
    destruct grid_size as [Sx Sy]. intros i. change (ex e [MXF v] m) with (chx AR r e (MXF v) m). unfold chx.
    cbn [wall_fills]. unfold ff_left, ff_rght. rewrite BL, BR. cbn [app fold_left at2d].
    assert (RW : forall s f y, row_do AR (lo DY) (hi DY) e s f (tag e (v DY), (i, y, 0)) =
      if garr_eqb (tag e (v DY)) (tag e (t_arr s)) && in_rowb (lo DY) (hi DY) (t_y s) y
      then ev AR (fun ao => f (tag e (fst ao), iadd (i, y, 0) (snd ao))) (t_exp s) else f (tag e (v DY), (i, y, 0))).
    { intros s f y. unfold row_do. cbn [fst snd comp]. rewrite Z.eqb_refl, andb_true_r. reflexivity. }
    assert (N1 : in_rowb (lo DY) (hi DY) (AtLast 0 0) (lo DY - 1) = false) by (unfold in_rowb; cbn [grng fst snd]; lia).
    assert (N2 : in_rowb (lo DY) (hi DY) (AtLast 0 0) (lo DY) = false) by (unfold in_rowb; cbn [grng fst snd]; lia).
    assert (N3 : in_rowb (lo DY) (hi DY) (AtFirst (-1) (-1)) (lo DY) = false) by (unfold in_rowb; cbn [grng fst snd]; lia).
    assert (N4 : in_rowb (lo DY) (hi DY) (AtFirst (-1) (-1)) (lo DY - 1) = true) by (unfold in_rowb; cbn [grng fst snd]; lia).
    assert (N5 : in_rowb (lo DY) (hi DY) (AtLast 0 0) (hi DY) = true) by (unfold in_rowb; cbn [grng fst snd]; lia).
    assert (N6 : in_rowb (lo DY) (hi DY) (AtLast 0 0) (hi DY - 1) = false) by (unfold in_rowb; cbn [grng fst snd]; lia).
    assert (T : garr_eqb (tag e (v DY)) (tag e (v DY)) = true) by (apply garr_eqb_eq; reflexivity).
    split; rewrite !RW; cbn [at2 t_arr t_y t_exp]; rewrite T, ?N1, ?N2, ?N3, ?N4, ?N5, ?N6; cbn [andb ev aun arithR fst snd x2]; unfold iadd; cbn [fst snd].
    - rewrite !Z.add_0_r. replace (lo DY - 1 + 1) with (lo DY) by lia. reflexivity.
    - rewrite !Z.add_0_r. replace (hi DY + -1) with (hi DY - 1) by lia. assert (N7 : in_rowb (lo DY) (hi DY) (AtFirst (-1) (-1)) (hi DY - 1) = false) by (unfold in_rowb; cbn [grng fst snd]; lia).
      rewrite !RW. cbn [at2 t_arr t_y t_exp]. rewrite T, !N7. reflexivity.
  Qed.

  Ltac toR := cbn [car arithR]; match goal with |- @eq _ ?a ?b => change (@eq R a b) end.
  (** ** New values *)
  Notation GG m i j := (G2of (nug o) m i j).
  Definition fa (e : nat) (flx : dim -> arr) (m : mem) (d : dim) (i j : Z) : R := m (tag e (flx d), (i, j, 0)).
  Definition gain (e : nat) (flx : dim -> arr) (m : mem) (i j : Z) : R :=
    ((fa e flx m DX (i - 1)%Z j - fa e flx m DX i j) + (fa e flx m DY i (j - 1)%Z - fa e flx m DY i j))%R.
  Definition other (e : nat) (psi' : arr) (b : garr) : Prop := b <> tag e psi' /\ forall k, b <> (O, Khn k).
  Lemma kahan_one e psi' t m (c : Z -> Z -> R) (tv : Z -> Z -> R) : (forall k, psi' <> Khn k) ->
    (forall b, In b (map fst (leaves t)) -> other e psi' (tag e b)) ->
    (forall i j, row j -> m (tag e psi', (i, j, 0)) = c i j) ->
    (forall i j, row j -> m (O, Khn 0, (i, j, 0)) = 0%R) ->
    (forall i j, row j -> ev AR (rd e m (i, j, 0)) t = tv i j) ->
    let m' := ex e (map MDo (kahan_add (fun a ee => at2 a xI yJ ee) psi' t)) m in
    (forall i j, row j -> m' (tag e psi', (i, j, 0)) = (c i j + tv i j)%R) /\
    (forall i j, row j -> m' (O, Khn 0, (i, j, 0)) = 0%R) /\
    (forall b i, other e psi' b -> m' (b, i) = m (b, i)).
  Proof.
    intros NK Ht Hc H0 Htv. cbv zeta. unfold kahan_add. cbn [map]. rewrite (ex_cons e (MDo _)), (ex_cons e (MDo _) [_; _]), (ex_cons e (MDo _) [_]).
    rewrite !ex_do.
    set (m1 := st e (at2 (Khn 1) _ _ _) m). set (m2 := st e (at2 (Khn 2) _ _ _) m1).
    set (m3 := st e (at2 (Khn 0) _ _ _) m2). set (m4 := st e (at2 psi' _ _ _) m3).
    assert (NP : forall k, tag e psi' <> (O, Khn k)). { intros k E. apply (NK k). destruct psi'; cbn in E; congruence. }
    assert (A1 : forall i j, row j -> m1 (O, Khn 1, (i, j, 0)) = tv i j).
    { intros i j Gd. unfold m1. change (O, Khn 1) with (tag e (Khn 1)). rewrite st_grid by auto. cbn [ev abin arithR]. rewrite Htv by auto.
      unfold rd. cbn [fst snd]. rewrite iadd_0_r. change (tag e (Khn 0)) with (O, Khn 0). rewrite H0 by auto. apply Rminus_0_r. }
    assert (B1 : forall b i, b <> (O, Khn 1) -> m1 (b, i) = m (b, i)) by (intros; apply st_other; auto).
    assert (A2 : forall i j, row j -> m2 (O, Khn 2, (i, j, 0)) = (c i j + tv i j)%R).
    { intros i j Gd. unfold m2. change (O, Khn 2) with (tag e (Khn 2)). rewrite st_grid by auto. cbn [ev abin arithR].
      unfold rd. cbn [fst snd]. rewrite iadd_0_r. change (tag e (Khn 1)) with (O, Khn 1). rewrite A1 by auto. rewrite B1 by apply NP. rewrite Hc by auto. reflexivity. }
    assert (B2 : forall b i, b <> (O, Khn 2) -> m2 (b, i) = m1 (b, i)) by (intros; apply st_other; auto).
    assert (A3 : forall i j, row j -> m3 (O, Khn 0, (i, j, 0)) = 0%R).
    { intros i j Gd. unfold m3. change (O, Khn 0) with (tag e (Khn 0)). rewrite st_grid by auto. cbn [ev abin arithR].
      unfold rd. cbn [fst snd]. rewrite iadd_0_r. change (tag e (Khn 1)) with (O, Khn 1). change (tag e (Khn 2)) with (O, Khn 2).
      rewrite A2 by auto. rewrite (B2 (O, Khn 1)) by congruence. rewrite A1 by auto. rewrite B2 by apply NP. rewrite B1 by apply NP. rewrite Hc by auto. toR. ring. }
    assert (B3 : forall b i, b <> (O, Khn 0) -> m3 (b, i) = m2 (b, i)) by (intros; apply st_other; auto).
    assert (B4 : forall b i, b <> tag e psi' -> m4 (b, i) = m3 (b, i)) by (intros; apply st_other; auto).
    split; [|split].
    - intros i j Gd. unfold m4. rewrite st_grid by auto. cbn [ev]. unfold rd. cbn [fst snd]. rewrite iadd_0_r.
      change (tag e (Khn 2)) with (O, Khn 2). rewrite B3 by congruence. apply A2. exact Gd.
    - intros i j Gd. rewrite B4 by (intros E; apply (NP 0); auto). apply A3. exact Gd.
    - intros b i [O1 O2]. rewrite B4 by auto. rewrite B3 by auto. rewrite B2 by auto. apply B1. auto.
  Qed.

  Lemma ev_rd_ext e m m' i t : (forall b, In b (map fst (leaves t)) -> forall k, m' (tag e b, k) = m (tag e b, k)) ->
    ev AR (rd e m' i) t = ev AR (rd e m i) t.
  Proof.
    induction t as [[b k]|c|u t IH|u t1 IH1 t2 IH2|u t1 IH1 t2 IH2 t3 IH3 t4 IH4]; intros H; cbn [ev leaves] in *.
    - unfold rd. cbn [fst snd]. apply H. left. reflexivity.
    - reflexivity.
    - rewrite IH by auto. reflexivity.
    - rewrite map_app in H. rewrite IH1, IH2; auto; intros; apply H; apply in_or_app; auto.
    - rewrite !map_app in H. rewrite IH1, IH2, IH3, IH4; auto; intros; apply H; rewrite !in_app_iff; auto.
  Qed.

  Lemma kahan_all e psi' ts : (forall k, psi' <> Khn k) -> forall m (c : Z -> Z -> R) (m0 : mem),
    (forall t, In t ts -> forall b, In b (map fst (leaves t)) -> other e psi' (tag e b)) ->
    (forall i j, row j -> m (tag e psi', (i, j, 0)) = c i j) ->
    (forall i j, row j -> m (O, Khn 0, (i, j, 0)) = 0%R) ->
    (forall b i, other e psi' b -> m (b, i) = m0 (b, i)) ->
    let m' := ex e (map MDo (flat_map (kahan_add (fun a ee => at2 a xI yJ ee) psi') ts)) m in
    (forall i j, row j -> m' (tag e psi', (i, j, 0)) = (c i j + fold_right (fun t s => ev AR (rd e m0 (i, j, 0%Z)) t + s) 0 ts)%R) /\
    (forall b i, other e psi' b -> m' (b, i) = m0 (b, i)).
  Proof.
    intros NK. induction ts as [|t ts IH]; intros m c m0 Ht Hc H0 Hb; cbv zeta.
    - cbn. split; [|exact Hb]. intros i j Gd. rewrite Hc by auto. toR. ring.
    - cbn [flat_map]. rewrite map_app, ex_app.
      assert (E : forall i, ev AR (rd e m i) t = ev AR (rd e m0 i) t).
      { intros i. apply ev_rd_ext. intros b Hin k. apply Hb. apply (Ht t); [left; reflexivity|exact Hin]. }
      destruct (kahan_one e psi' t m c (fun i j => ev AR (rd e m0 (i, j, 0)) t) NK (Ht t (or_introl eq_refl)) Hc H0 (fun i j _ => E (i, j, 0))) as (K1 & K2 & K3).
      destruct (IH _ _ m0 (fun t' Hin => Ht t' (or_intror Hin)) K1 K2) as (J1 & J2).
      { intros b i Ob. rewrite K3 by auto. apply Hb. exact Ob. }
      split; [|exact J2]. intros i j Gd. rewrite J1 by auto. cbn [fold_right]. toR. ring.
  Qed.

  Lemma alg1 (a b c x y z : R) : (0 + (a + (- b * z + (c * z + (- x * z + (y * z + 0))))) = a + (c - b + (y - x)) * z)%R.
  Proof. ring. Qed.
  Lemma alg2 (a b c x y z : R) : (a + (- b + c + (- x + y)) * z = a + (c - b + (y - x)) * z)%R.
  Proof. ring. Qed.
  Lemma gx_ev e m i j : ev AR (rd e m (i, j, 0)) (Gx o izero) = GG m i j.
  Proof.
    unfold Gx, G2of, q. destruct (nug o); cbn [ev abin acst arithR Rcst]; [|toR; lra].
    unfold rd, gfac2. cbn [fst snd tag]. rewrite iadd_0_r. toR. unfold Rdiv. rewrite Rmult_0_l. apply Rplus_0_r.
  Qed.
  Lemma sum_new e b b' flx m : b' = negb b -> plain (flx DX) = true -> plain (flx DY) = true ->
    (forall k, flx DX <> Khn k) -> (forall k, flx DY <> Khn k) ->
    let m' := ex e (sum2 o (s_forms r) (Psi b) (Psi b') flx) m in
    (forall i j, row j -> cell2 m' e b' i j = (cell2 m e b i j + gain e flx m i j / GG m i j)%R) /\
    (forall c i, other e (Psi b') c -> m' (c, i) = m (c, i)).
  Proof.
    intros Eb PX PY KX KY. cbv zeta. unfold sum2.
    destruct (khn o).
    - rewrite map_app, ex_app. unfold kahan_zro. cbn [map]. rewrite (ex_cons e (MDo _) [_]), !ex_do.
      set (m1 := st e _ m). set (m2 := st e _ m1).
      assert (B : forall c i, other e (Psi b') c -> m2 (c, i) = m (c, i)).
      { intros c i [O1 O2]. unfold m2. rewrite st_other by (apply O2). unfold m1. apply st_other. exact O1. }
      destruct (kahan_all e (Psi b') (f_terms (s_forms r) (Psi b) flx) (fun k E => ltac:(discriminate E)) m2 (fun _ _ => 0%R) m) as (K1 & K2).
      + intros t Hin a Ha. cbn [s_forms forms2 f_terms terms2] in Hin. cbn [In] in Hin.
        assert (C : In a [Psi b; flx DX; flx DY; Gf]).
        { repeat (destruct Hin as [<-|Hin]); try contradiction; unfold Gx in Ha; destruct (nug o); cbn in Ha; cbn; tauto. }
        cbn [In] in C. split.
        * destruct C as [<-|[<-|[<-|[<-|[]]]]]; cbn.
          -- rewrite Eb. intros E. inversion E. destruct b; discriminate.
          -- destruct (flx DX); cbn in PX |- *; congruence.
          -- destruct (flx DY); cbn in PY |- *; congruence.
          -- congruence.
        * intros k. destruct C as [<-|[<-|[<-|[<-|[]]]]]; cbn; try congruence.
          -- intros E. apply (KX k). destruct (flx DX); cbn in PX, E; congruence.
          -- intros E. apply (KY k). destruct (flx DY); cbn in PY, E; congruence.
      + intros i j Gd. unfold m2. rewrite st_other by (cbn; congruence). unfold m1. rewrite st_grid by auto. cbn. toR. lra.
      + intros i j Gd. unfold m2. change (O, Khn 0) with (tag e (Khn 0)). rewrite st_grid by auto. cbn. toR. lra.
      + exact B.
      + split; [|exact K2]. intros i j Gd. unfold cell2 at 1; change (e, Psi b') with (tag e (Psi b')). rewrite K1 by auto.
        cbn [s_forms forms2 f_terms terms2 fold_right ev abin aun arithR]. rewrite gx_ev. unfold gain, fa, cell2, Rdiv, rd. cbn [fst snd tag].
        unfold iadd, izero. cbn [fst snd]. rewrite !Z.add_0_r. change (i + -1) with (i - 1). change (j + -1) with (j - 1). apply alg1.
    - rewrite ex_do. split.
      + intros i j Gd. unfold cell2 at 1; change (e, Psi b') with (tag e (Psi b')). rewrite st_grid by auto.
        cbn [s_forms forms2 f_sum sum2f ev abin aun arithR]. rewrite gx_ev. unfold gain, fa, cell2, Rdiv, rd. cbn [fst snd tag].
        unfold iadd, izero. cbn [fst snd]. rewrite !Z.add_0_r. change (i + -1) with (i - 1). change (j + -1) with (j - 1). apply alg2.
      + intros c i [O1 O2]. apply st_other. exact O1.
  Qed.

  (** ** Mass *)
  Definition mass (e : nat) (b : bool) (m : mem) : R := channel_mass lo hi (fun i j => (GG m i j * cell2 m e b i j)%R).
  Definition Gnz (m : mem) : Prop := nug o = true -> forall i j, row j -> gfac2 m i j <> 0%R.
  Definition kept (P : garr -> Prop) (m m' : mem) : Prop := forall l, held l -> P (fst l) -> m' l = m l.

  Lemma GG_kept m m' i j : (forall l, held l -> fst l = (O, Gf) -> m' l = m l) -> row j -> GG m' i j = GG m i j.
  Proof. intros H Gd. unfold G2of. destruct (nug o); [|reflexivity]. apply H; [exact Gd|reflexivity]. Qed.
  Lemma GG_nz m i j : Gnz m -> row j -> GG m i j <> 0%R.
  Proof. intros H Gd. unfold G2of. destruct (nug o) eqn:N; [apply H; auto|lra]. Qed.
  Lemma mass_kept e b m m' : (forall l, held l -> fst l = (O, Gf) \/ fst l = (e, Psi b) -> m' l = m l) -> mass e b m' = mass e b m.
  Proof.
    intros H. unfold mass. destruct grid_size. apply cm_ext; auto. intros i j Gd. rewrite (GG_kept m m') by auto.
    unfold cell2. rewrite H; [reflexivity|exact Gd|right; reflexivity].
  Qed.

  Lemma pass_mass e b p flx m : forallb quiet p = true -> plain (flx DX) = true -> plain (flx DY) = true ->
    (forall k, flx DX <> Khn k) -> (forall k, flx DY <> Khn k) -> flx DX <> flx DY -> Gnz m -> per m ->
    let m' := ex e (p ++ [MXF flx] ++ sum2 o (s_forms r) (Psi b) (Psi (negb b)) flx) m in
    mass e (negb b) m' = mass e b m /\ kept (fun a => a <> (e, Psi (negb b))) m m'.
  Proof.
    intros Q PX PY KX KY ND NZ PM. cbv zeta. rewrite app_assoc, ex_app.
    set (m1 := ex e (p ++ [MXF flx]) m).
    assert (A : antisym e flx m1).
    { unfold m1. rewrite ex_app. apply flux_walls. }
    assert (P1 : per m1) by (apply ex_per; exact PM).
    assert (H1 : forall l, held l -> m1 l = m l).
    { intros l H. apply quiet_all; [|exact H]. rewrite forallb_app, Q. cbn [forallb quiet]. rewrite PX, PY. reflexivity. }
    destruct (sum_new e b (negb b) flx m1 eq_refl PX PY KX KY) as [V K].
    set (m' := ex e _ m1) in *.
    assert (KK : kept (fun a => a <> (e, Psi (negb b))) m m').
    { intros [a i] H Ha. cbn [fst] in Ha. rewrite K; [apply H1; exact H|]. split; [exact Ha|]. intros k ->. exact H. }
    split; [|exact KK]. destruct grid_size as [Sx Sy].
    transitivity (channel_mass lo hi (fun i j => (GG m i j * cell2 m e b i j + gain e flx m1 i j)%R)).
    - unfold mass. apply cm_ext; auto. intros i j Gd. rewrite V by auto.
      rewrite (GG_kept m m') by (auto; intros l Hl El; apply KK; auto; rewrite El; discriminate).
      rewrite (GG_kept m m1) by auto. replace (cell2 m1 e b i j) with (cell2 m e b i j) by (symmetry; apply H1; exact Gd).
      pose proof (GG_nz m i j NZ Gd). toR. unfold mem in *. cbn [car arithR] in *. field. exact H.
    - rewrite cm_plus. unfold gain. rewrite cm_tele; auto.
      + unfold mass. lra.
      + intros j Hj. pose proof (P1 (tag e (flx DX)) ((lo DX - 1)%Z, j, 0)) as PE. unfold iadd, s_per in PE. cbn [fst snd] in PE.
        rewrite !Z.add_0_r in PE. replace (lo DX - 1 + (hi DX - lo DX)) with (hi DX - 1) in PE by lia. symmetry. exact PE.
      + intros i Hi. apply A.
  Qed.

  Lemma scale_mass e b x m : let m' := ex e (scale2 (Psi b) x) m in
    mass e b m' = (mass e b m * (if Z.eqb x 0 then 1 else if Z.ltb 0 x then / IZR (2 ^ x) else IZR (2 ^ (- x))))%R /\
    kept (fun a => a <> (e, Psi b)) m m'.
  Proof.
    cbv zeta. unfold scale2. destruct (x =? 0); [split; [cbn; unfold ex; cbn; rewrite Rmult_1_r; reflexivity|intros l _ _; reflexivity]|].
    destruct grid_size as [Sx Sy].
    assert (GEN : forall ee c, (forall i j, row j -> ev AR (rd e m (i, j, 0)) ee = (c * cell2 m e b i j)%R) ->
      let m' := ex e [MDo (at2 (Psi b) xI yJ ee)] m in mass e b m' = (mass e b m * c)%R /\ kept (fun a => a <> (e, Psi b)) m m').
    { intros ee c H. cbv zeta. rewrite ex_do.
      assert (K : kept (fun a => a <> (e, Psi b)) m (st e (at2 (Psi b) xI yJ ee) m)).
      { intros [a i] _ Ha. apply st_other. exact Ha. }
      split; [|exact K]. unfold mass. rewrite Rmult_comm, <- cm_mul. apply cm_ext; auto. intros i j Gd.
      rewrite (GG_kept m (st e _ m)) by (auto; intros l Hl El; apply K; auto; rewrite El; discriminate).
      unfold cell2 at 1. change (e, Psi b) with (tag e (Psi b)) at 1. rewrite st_grid by auto. rewrite H by auto. cbn [car arithR]. ring. }
    destruct (0 <? x); apply GEN; intros i j Gd; cbn [ev abin arithR acst Rcst q]; unfold rd; cbn [fst snd tag]; rewrite iadd_0_r; unfold cell2.
    - set (a := IZR (2 ^ x)). toR. unfold Rdiv. rewrite Rinv_1. rewrite !Rmult_1_r. apply Rmult_comm.
    - set (a := IZR (2 ^ (- x))). toR. unfold Rdiv. rewrite Rinv_1, Rmult_1_r. apply Rmult_comm.
  Qed.

  Lemma lev_next b j : lev b (S j) = negb (lev b j).
  Proof. unfold lev. rewrite Nat.odd_succ, <- Nat.negb_odd. destruct b, (Nat.odd j); reflexivity. Qed.

  Definition mine (e : nat) (a : garr) : Prop := forall b, a <> (e, Psi b).
  Lemma Gnz_kept e m m' : Gnz m -> kept (mine e) m m' -> Gnz m'.
  Proof. intros H K N i j Gd. unfold gfac2. rewrite K; [apply H; auto|exact Gd|]. intros b. discriminate. Qed.
  Lemma kept_trans e m m1 m2 : kept (mine e) m m1 -> kept (mine e) m1 m2 -> kept (mine e) m m2.
  Proof. intros A B l H P. rewrite B, A; auto. Qed.
  Lemma quiet_step e b p m : forallb quiet p = true -> mass e b (ex e p m) = mass e b m /\ kept (mine e) m (ex e p m).
  Proof. intros Q. split; [apply mass_kept; intros; apply quiet_all; auto|intros l H _; apply quiet_all; auto]. Qed.
  Lemma quiet_bars le : forallb quiet (cyc_bars le) = true.
  Proof. destruct le; reflexivity. Qed.
  Lemma corr_plain k d : plain (GC_corr k d) = true. Proof. reflexivity. Qed.

  Lemma corrective_mass e b k last m : Gnz m -> per m ->
    let m' := ex e (corrective2 o (s_forms r) (Psi b) (Psi (negb b)) (GC_unco k) (GC_corr k) last) m in
    mass e (negb b) m' = mass e b m /\ kept (fun a => a <> (e, Psi (negb b))) m m'.
  Proof.
    intros NZ PM. unfold corrective2. cbv zeta.
    set (p0 := [_; _]). set (p1 := if div3dt o then _ else _). set (p2 := if negb (fct o) && negb last then _ else _).
    set (p3 := fct_adjust2 _ _ _ _).
    assert (Q0 : forallb quiet p0 = true) by reflexivity.
    assert (Q1 : forallb quiet p1 = true) by (unfold p1; destruct (div3dt o); reflexivity).
    assert (Q2 : forallb quiet p2 = true) by (unfold p2; destruct (fct o), last, (dfl o); reflexivity).
    assert (Q3 : forallb quiet p3 = true) by (unfold p3, fct_adjust2; destruct (fct o), (iga o); reflexivity).
    set (gc := if fct o then Mono else GC_corr k).
    assert (PG : plain (gc DX) = true /\ plain (gc DY) = true /\ (forall k, gc DX <> Khn k) /\ (forall k, gc DY <> Khn k) /\ gc DX <> gc DY).
    { unfold gc. destruct (fct o); repeat split; try reflexivity; intros; discriminate. }
    destruct PG as (G1 & G2 & G3 & G4 & G5).
    destruct (iga o).
    - replace (p0 ++ p1 ++ p2 ++ p3 ++ [MXF gc] ++ sum2 o (s_forms r) (Psi b) (Psi (negb b)) gc)
        with ((p0 ++ p1 ++ p2 ++ p3) ++ [MXF gc] ++ sum2 o (s_forms r) (Psi b) (Psi (negb b)) gc) by (rewrite <- !app_assoc; reflexivity).
      apply pass_mass; auto. rewrite !forallb_app, Q0, Q1, Q2, Q3. reflexivity.
    - replace (p0 ++ p1 ++ p2 ++ p3 ++ flux2 (s_forms r) (Psi b) gc ++ [MXF Flux] ++ sum2 o (s_forms r) (Psi b) (Psi (negb b)) Flux)
        with ((p0 ++ p1 ++ p2 ++ p3 ++ flux2 (s_forms r) (Psi b) gc) ++ [MXF Flux] ++ sum2 o (s_forms r) (Psi b) (Psi (negb b)) Flux) by (rewrite <- !app_assoc; reflexivity).
      apply pass_mass; auto; try discriminate. rewrite !forallb_app, Q0, Q1, Q2, Q3. reflexivity.
  Qed.

  Lemma passes_mass e nit le b more : forall j m, Gnz m -> per m ->
    let m' := ex e (passes2 o (s_forms r) nit le b j more) m in
    mass e (lev b (j + more)) m' = mass e (lev b j) m /\ kept (mine e) m m'.
  Proof.
    induction more as [|k IH]; intros j m NZ PM; cbv zeta.
    - rewrite Nat.add_0_r. split; [reflexivity|intros l _ _; reflexivity].
    - cbn [passes2]. rewrite app_assoc, ex_app.
      destruct (quiet_step e (lev b j) (cyc_bars le ++ [MXS (Psi (lev b j)) (halo o)]) m) as [A1 K1].
      { rewrite forallb_app, quiet_bars. reflexivity. }
      set (m1 := ex e _ m) in *. rewrite ex_app. rewrite lev_next.
      destruct (corrective_mass e (lev b j) j (Nat.eqb (S j) nit) m1 (Gnz_kept e m m1 NZ K1) (ex_per e _ m PM)) as [A2 K2].
      set (m2 := ex e _ m1) in *.
      assert (K2' : kept (mine e) m1 m2) by (intros l H P; apply K2; auto).
      destruct (IH (S j) m2 (Gnz_kept e m1 m2 (Gnz_kept e m m1 NZ K1) K2') (ex_per e _ m1 (ex_per e _ m PM))) as [A3 K3].
      split; [|exact (kept_trans e _ _ _ K1 (kept_trans e _ _ _ K2' K3))].
      replace (j + S k)%nat with (S j + k)%nat by lia. rewrite A3, lev_next, A2, A1. reflexivity.
  Qed.

  Lemma pow2_pos x : 0 <= x -> IZR (2 ^ x) <> 0%R.
  Proof. intros H. apply not_0_IZR. pose proof (Z.pow_pos_nonneg 2 x ltac:(lia) H). lia. Qed.

  Lemma body_mass e k x le b m : (0 < k)%nat -> Gnz m -> per m ->
    let m' := ex e (body2 o (s_forms r) (s_nit r) k x le b) m in
    mass e (lev b k) m' = mass e b m /\ kept (mine e) m m'.
  Proof.
    intros Hk NZ PM. cbv zeta. unfold body2.
    rewrite ex_app. destruct (scale_mass e b x m) as [A1 K1]. set (m1 := ex e _ m) in *.
    assert (K1' : kept (mine e) m m1) by (intros l H P; apply K1; auto).
    pose proof (Gnz_kept e m m1 NZ K1') as N1. assert (P1 : per m1) by (apply ex_per; exact PM).
    replace ([MXS (Psi b) (halo o)] ++ fct_init2 o (s_forms r) (Psi b) ++ upstream2 o (s_forms r) (Psi b) (Psi (lev b 1)) ++
       passes2 o (s_forms r) (s_nit r) le b 1 (k - 1) ++ (if le then [] else [MBar]) ++ cyc_bars le ++ scale2 (Psi (lev b k)) (- x))
      with ((([MXS (Psi b) (halo o)] ++ fct_init2 o (s_forms r) (Psi b) ++ flux2 (s_forms r) (Psi b) GC) ++ [MXF Flux] ++ sum2 o (s_forms r) (Psi b) (Psi (negb b)) Flux) ++
       passes2 o (s_forms r) (s_nit r) le b 1 (k - 1) ++ ((if le then [] else [MBar]) ++ cyc_bars le) ++ scale2 (Psi (lev b k)) (- x)).
    2: { unfold upstream2. rewrite (lev_next b 0). replace (lev b 0) with b by (unfold lev; cbn; destruct b; reflexivity). rewrite <- !app_assoc. reflexivity. }
    rewrite ex_app.
    destruct (pass_mass e b ([MXS (Psi b) (halo o)] ++ fct_init2 o (s_forms r) (Psi b) ++ flux2 (s_forms r) (Psi b) GC) Flux m1) as [A2 K2]; auto; try discriminate.
    { unfold fct_init2. destruct (fct o); reflexivity. }
    set (m2 := ex e _ m1) in *.
    assert (K2' : kept (mine e) m1 m2) by (intros l H P; apply K2; auto).
    pose proof (Gnz_kept e m1 m2 N1 K2') as N2. assert (P2 : per m2) by (apply ex_per; exact P1).
    rewrite ex_app. destruct (passes_mass e (s_nit r) le b (k - 1) 1 m2 N2 P2) as [A3 K3]. set (m3 := ex e _ m2) in *.
    replace (1 + (k - 1))%nat with k in A3 by lia.
    rewrite (lev_next b 0) in A3. replace (lev b 0) with b in A3 by (unfold lev; cbn; destruct b; reflexivity).
    rewrite ex_app. destruct (quiet_step e (lev b k) ((if le then [] else [MBar]) ++ cyc_bars le) m3) as [A4 K4].
    { rewrite forallb_app, quiet_bars. destruct le; reflexivity. }
    set (m4 := ex e _ m3) in *.
    destruct (scale_mass e (lev b k) (- x) m4) as [A5 K5]. set (m5 := ex e _ m4) in *.
    assert (K5' : kept (mine e) m4 m5) by (intros l H P; apply K5; auto).
    split.
    - rewrite A5, A4, A3, A2, A1. rewrite Rmult_assoc. rewrite <- (Rmult_1_r (mass e b m)) at 2. f_equal.
      destruct (Z.eqb_spec x 0) as [->|Hx]; [cbn; ring|]. destruct (Z.eqb_spec (- x) 0); [lia|].
      destruct (Z.ltb_spec 0 x); destruct (Z.ltb_spec 0 (- x)); try lia; rewrite ?Z.opp_involutive.
      + apply Rinv_l. apply pow2_pos. lia.
      + apply Rinv_r. apply pow2_pos. lia.
    - exact (kept_trans e _ _ _ K1' (kept_trans e _ _ _ K2' (kept_trans e _ _ _ K3 (kept_trans e _ _ _ K4 K5')))).
  Qed.


  (** ** Steps *)
  Definition go (l : list (nat * list minstr)) (m : mem) : mem := rruns2 AR (fun e s => lat_do AR e s) (chx AR r) l m.
  Lemma go_cons e p l m : go ((e, p) :: l) m = go l (ex e p m).
  Proof. reflexivity. Qed.
  Lemma go_app l l' m : go (l ++ l') m = go l' (go l m).
  Proof. apply fold_left_app. Qed.
  Lemma go_per l m : per m -> per (go l m).
  Proof. revert m. induction l as [|[e p] l IH]; intros m P; [exact P|]. rewrite go_cons. apply IH. apply ex_per. exact P. Qed.
  Definition gkept (m m' : mem) : Prop := forall l, held l -> fst l = (O, Gf) -> m' l = m l.
  Lemma eqs_mass k es : (0 < k)%nat -> forall lv m, NoDup es -> Gnz m -> per m ->
    let m' := go (eqs_macro2 r k es lv) m in
    (forall e, mass e (if existsb (Nat.eqb e) es then lev (lv e) k else lv e) m' = mass e (lv e) m) /\ gkept m m'.
  Proof.
    intros Hk. induction es as [|e es IH]; intros lv m ND NZ PM; cbv zeta.
    - split; [reflexivity|intros l _ _; reflexivity].
    - cbn [eqs_macro2]. rewrite go_cons. inversion ND as [|? ? NI ND']; subst.
      destruct (body_mass e k (s_scale r e) (is_last_eqn (s_cfg r) e) (lv e) m Hk NZ PM) as [A K].
      pose proof (ex_per e (body2 o (s_forms r) (s_nit r) k (s_scale r e) (is_last_eqn (s_cfg r) e) (lv e)) m PM) as P1.
      set (m1 := ex e _ m) in *.
      destruct (IH (upd lv e (lev (lv e) k)) m1 ND' (Gnz_kept e m m1 NZ K) P1) as [B G]. set (m2 := go _ m1) in *.
      split.
      + intros e'. specialize (B e'). cbn [existsb]. destruct (Nat.eqb_spec e' e) as [->|NE].
        * assert (F : existsb (Nat.eqb e) es = false).
          { apply not_true_is_false. intros H. apply existsb_exists in H. destruct H as (x & Hx & Hq). apply Nat.eqb_eq in Hq. subst. auto. }
          rewrite F in B. unfold upd in B. rewrite Nat.eqb_refl in B. cbn [orb]. rewrite B. exact A.
        * unfold upd in B. destruct (Nat.eqb_spec e' e); [contradiction|]. cbn [orb]. rewrite B. apply mass_kept. intros l H [E|E]; apply K; auto; intros b; rewrite E; congruence.
      + intros l H E. rewrite G by auto. apply K; auto. intros b. rewrite E. discriminate.
  Qed.
  Lemma pass_count ts : (0 < passes (s_nit r) (s_freq r) ts)%nat.
  Proof. pose proof (ok2_nit _ RK). unfold passes. destruct (_ && _); lia. Qed.
  Lemma steps_mass nt : forall ts lv m e, Gnz m -> per m -> (e < n_eqns (s_cfg r))%nat ->
    mass e (level_after2 r nt ts (lv e)) (go (steps_macro2 r nt ts lv) m) = mass e (lv e) m /\ gkept m (go (steps_macro2 r nt ts lv) m).
  Proof.
    induction nt as [|k IH]; intros ts lv m e NZ PM He; [split; [reflexivity|intros l _ _; reflexivity]|]. cbn [steps_macro2 level_after2].
    rewrite go_cons. change (ex 0 [MBar] m) with m. rewrite go_app.
    set (p := passes (s_nit r) (s_freq r) ts).
    destruct (eqs_mass p (eq_order2 r) (pass_count ts) lv m (eq_order_nodup2 r) NZ PM) as [A G].
    pose proof (go_per (eqs_macro2 r p (eq_order2 r) lv) m PM) as P1. set (m1 := go _ m) in *.
    assert (L : next_lv2 r ts lv e = lev (lv e) p).
    { unfold next_lv2. replace (existsb (Nat.eqb e) (eq_order2 r)) with true; [reflexivity|]. symmetry. apply existsb_exists.
      exists e. split; [apply in_eq_order2; exact He|apply Nat.eqb_refl]. }
    assert (N1 : Gnz m1) by (intros N i j Gd; unfold gfac2; rewrite G; [apply NZ; auto|exact Gd|reflexivity]).
    destruct (IH (ts + 1) (next_lv2 r ts lv) m1 e N1 P1 He) as [B K]. split.
    - rewrite <- L. rewrite B. apply A.
    - intros l H E. rewrite K by auto. apply G; auto.
  Qed.

  Lemma run_mass nt m e : Gnz m -> per m -> (e < n_eqns (s_cfg r))%nat ->
    mass e (level_after2 r nt 0 false) (go (run_macro2 r nt) m) = mass e false m /\ gkept m (go (run_macro2 r nt) m).
  Proof.
    intros NZ PM He. unfold run_macro2. rewrite go_cons, go_app.
    pose proof (ex_per 0 (ante2 o) m PM) as P1.
    set (m1 := ex 0 (ante2 o) m) in *.
    assert (H1 : forall l, held l -> m1 l = m l).
    { intros l H. apply quiet_all; auto. unfold ante2. destruct (nug o), (div3dt o), (div3 o); reflexivity. }
    assert (N1 : Gnz m1) by (intros N i j Gd; unfold gfac2; rewrite H1 by exact Gd; apply NZ; auto).
    destruct (steps_mass nt 0 (fun _ => false) m1 e N1 P1 He) as [B K].
    set (m2 := go (steps_macro2 _ _ _ _) m1) in *. change (go [(0%nat, [MBar])] m2) with m2. split.
    - rewrite B. apply mass_kept. auto.
    - intros l H E. rewrite K by auto. apply H1. exact H.
  Qed.
End Channel.
