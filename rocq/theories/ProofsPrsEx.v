From Coq Require Import ZArith List Bool Reals Lra Lia FunctionalExtensionality.
From Verif Require Import Stencil ModelVip ModelPrs SpecPrs ProofsVip ProofsPrs.
Import ListNotations.
Local Open Scope R_scope.

(** Concrete boundaries: cells 0..last in x, unit spacing, linear extrapolation
    into one halo cell on both sides (open and rigid boundaries), given edge
    velocities and absorber divisors. *)
Definition line_cells (last : Z) : list idx := map (fun k => (Z.of_nat k, 0, 0)%Z) (seq 0 (Z.to_nat (last + 1))).
Definition line_fill (last : Z) (a : idx -> R) (y : idx) : R :=
  match y with
  | (x, 0%Z, 0%Z) =>
      if (x =? -1)%Z then 2 * a (0, 0, 0)%Z - a (1, 0, 0)%Z
      else if (x =? last + 1)%Z then 2 * a (last, 0, 0)%Z - a (last - 1, 0, 0)%Z
      else if (0 <=? x)%Z && (x <=? last)%Z then a y else 0
  | _ => 0
  end.
Definition line (last : Z) (s0 sN : R) (norm : idx -> R) : prs_env :=
  {| pdims := [DX]; pdi := fun _ => 1; pG := None; pcells := line_cells last; pfill := line_fill last;
     pedge := fun d y => match d with
                         | DX => match y with (x, 0%Z, 0%Z) => if (x =? 0)%Z then Some s0 else if (x =? last)%Z then Some sN else None
                                            | _ => None end
                         | _ => None end;
     pnorm := norm |}.

Lemma line_in : forall last x, (0 <= x <= last)%Z -> In (x, 0, 0)%Z (line_cells last).
Proof.
  intros. unfold line_cells. apply in_map_iff. exists (Z.to_nat x). split; [rewrite Z2Nat.id by lia; reflexivity|].
  apply in_seq. lia.
Qed.
Lemma line_in_inv : forall last y, In y (line_cells last) -> exists x, y = (x, 0, 0)%Z /\ (0 <= x <= last)%Z.
Proof.
  intros last y H. unfold line_cells in H. apply in_map_iff in H. destruct H as (k & <- & H). apply in_seq in H.
  exists (Z.of_nat k). split; [reflexivity|lia].
Qed.
Lemma line_fills : forall last s0 sN norm, (1 <= last)%Z -> fills (line last s0 sN norm).
Proof.
  intros last s0 sN norm Hl. unfold fills. cbn [pfill pcells line]. repeat split.
  - intros a b u v [[x [|p|p]] [|q|q]]; cbn; try lra.
    destruct (x =? -1)%Z; [lra|]. destruct (x =? last + 1)%Z; [lra|].
    destruct ((0 <=? x)%Z && (x <=? last)%Z); lra.
  - intros u v H [[x [|p|p]] [|q|q]]; cbn; try lra.
    destruct (x =? -1)%Z. { rewrite !H by (apply line_in; lia). reflexivity. }
    destruct (x =? last + 1)%Z. { rewrite !H by (apply line_in; lia). reflexivity. }
    destruct ((0 <=? x)%Z && (x <=? last)%Z) eqn:E; [|reflexivity].
    apply H, line_in. lia.
  - intros u y H. apply line_in_inv in H. destruct H as (x & -> & H). cbn.
    destruct (Z.eqb_spec x (-1)); [lia|]. destruct (Z.eqb_spec x (last + 1)); [lia|].
    replace ((0 <=? x)%Z && (x <=? last)%Z) with true by (symmetry; apply andb_true_iff; lia). reflexivity.
Qed.

Fixpoint tabz (l : list R) (x : Z) : R :=
  match l with [] => 0 | a :: r => if (x =? 0)%Z then a else tabz r (x - 1)%Z end.
Definition tab (l : list R) (y : idx) : R := tabz l (fst (fst y)).
Definition flow (l : list R) : dim -> idx -> R := fun d y => match d with DX => tab l y | _ => 0 end.

(** [lap] on a line in terms of values in cells *)
Ltac lap_line := unfold lap, set_edges, pgrad, Gv, line, div, step_in, iadd;
  cbn [pdims pdi pG pcells pfill pedge pnorm fold_left]; cbn -[Rplus Rminus Rmult Rdiv Ropp IZR].

(** *** A flow with absorber acting at an open edge *)
Definition absorber_env : prs_env := line 2 2 1 (fun y => if (fst (fst y) =? 0)%Z then 2 else 1).
Definition absorber_flow := flow [2; 1; 1].
Lemma absorber_residual : forall x, In x (pcells absorber_env) -> lap absorber_env true false absorber_flow (fun _ => 0) x = 0.
Proof.
  intros x H. cbn in H. unfold absorber_env, absorber_flow, flow, tab.
  repeat destruct H as [<-|H]; [..|destruct H]; lap_line; lra.
Qed.
Lemma absorber_wrong : exists s,
  mr_update absorber_env (1 / 4) false absorber_flow (fun _ => 0) (1 / 4) = Some (Done s) /\
  flow_div absorber_env (corrected absorber_env false absorber_flow (m_phi idx s)) (1, 0, 0)%Z = - (1 / 2).
Proof.
  set (s1 := mr_body idx (pcells absorber_env) (lap absorber_env false false absorber_flow) (1 / 4)
    (mr_start idx (fun _ => 0) (lap absorber_env true false absorber_flow (fun _ => 0)) (1 / 4))).
  assert (F : fills absorber_env) by (apply line_fills; lia).
  assert (Cs : m_conv idx s1 = true).
  { unfold s1, mr_body. cbn [m_conv mr_start m_err]. apply orb_true_iff. left. apply le_b_true.
    rewrite error_zero; [lra|]. intros. unfold axpy. rewrite absorber_residual by assumption.
    rewrite (lap_zero _ F) by exact absorber_residual. lra. }
  exists s1. split. { unfold mr_update. apply loop_first; [reflexivity|reflexivity|exact Cs]. }
  assert (P : forall y, pfill absorber_env (m_phi idx s1) y = pfill absorber_env (fun _ => 0) y).
  { destruct F as (_ & Fe & _). apply Fe. intros y Hy. unfold s1, mr_body. cbn [m_phi mr_start m_err]. unfold axpy.
    rewrite absorber_residual by assumption. lra. }
  unfold flow_div, corrected, set_edges, pgrad.
  replace (pfill absorber_env (m_phi idx s1)) with (pfill absorber_env (fun _ => 0))
    by (apply functional_extensionality; intros; now rewrite P).
  unfold absorber_env, absorber_flow, flow, tab, line, step_in, iadd.
  cbn -[Rplus Rminus Rmult Rdiv Ropp IZR]. lra.
Qed.

(** *** More inflow than outflow: the exception *)
Definition unbalanced_env : prs_env := line 2 0 1 (fun _ => 1).
Definition unbalanced_flow := flow [0; 1 / 2; 1].
Lemma unbalanced_residual : forall x, In x (pcells unbalanced_env) -> lap unbalanced_env true false unbalanced_flow (fun _ => 0) x = - (1 / 2).
Proof.
  intros x H. cbn in H. unfold unbalanced_env, unbalanced_flow, flow, tab.
  repeat destruct H as [<-|H]; [..|destruct H]; lap_line; lra.
Qed.
Lemma unbalanced_lap : forall u c, (forall x, In x (pcells unbalanced_env) -> u x = c) ->
  forall x, In x (pcells unbalanced_env) -> lap unbalanced_env false false unbalanced_flow u x = 0.
Proof.
  intros u c U x H.
  assert (U0 : u (0, 0, 0)%Z = c) by (apply U, line_in; lia). assert (U1 : u (1, 0, 0)%Z = c) by (apply U, line_in; lia).
  assert (U2 : u (2, 0, 0)%Z = c) by (apply U, line_in; lia).
  cbn in H. unfold unbalanced_env.
  repeat destruct H as [<-|H]; [..|destruct H]; lap_line; rewrite ?U0, ?U1, ?U2; lra.
Qed.
Lemma unbalanced_stuck : mr_update unbalanced_env (1 / 4) false unbalanced_flow (fun _ => 0) (1 / 4) = Some Stuck.
Proof.
  unfold mr_update.
  assert (G : forall fuel, fuel = Z.to_nat 10001 ->
    prs_loop (mr_body idx (pcells unbalanced_env) (lap unbalanced_env false false unbalanced_flow) (1 / 4)) (m_conv idx) fuel 0
     (mr_start idx (fun _ => 0) (lap unbalanced_env true false unbalanced_flow (fun _ => 0)) (1 / 4)) = Some Stuck).
  { intros fuel Hf.
    apply (loop_stuck _ _ _ (fun s => m_conv idx s = false /\ forall x, In x (pcells unbalanced_env) -> m_err idx s x = - (1 / 2))).
    - intros s [C H].
      assert (E : forall x, In x (pcells unbalanced_env) ->
        m_err idx (mr_body idx (pcells unbalanced_env) (lap unbalanced_env false false unbalanced_flow) (1 / 4) s) x = - (1 / 2)).
      { intros x Hx. unfold mr_body. cbn [m_err]. unfold axpy. rewrite (unbalanced_lap _ _ H x Hx), (H x Hx). lra. }
      split; [|exact E].
      match goal with |- m_conv idx ?r = false => set (b := m_err idx r) in E;
        change (le_b (error_of idx (pcells unbalanced_env) b) (1 / 4) || m_conv idx s = false) end.
      rewrite C, orb_false_r. destruct (le_b (error_of idx (pcells unbalanced_env) b) (1 / 4)) eqn:B; [|reflexivity].
      exfalso. apply le_b_true in B.
      pose proof (error_bound idx _ _ _ B (0, 0, 0)%Z (line_in 2 0 ltac:(lia))) as K. rewrite E in K by (apply line_in; lia).
      rewrite Rabs_Ropp, Rabs_pos_eq in K by lra. lra.
    - tauto.
    - split; [reflexivity|]. intros. cbn [m_err mr_start]. now apply unbalanced_residual.
    - rewrite Hf, Z2Nat.id by lia. lia.
    - lia. }
  apply G. reflexivity.
Qed.

(** *** Two search directions between rigid walls: the bound is met after the
    first and lost after the second *)
Definition walls : prs_env := line 6 0 0 (fun _ => 1).
Definition walls_flow := flow [0; -3; 0; -1; 0; 1; -2].
Definition vals (u : idx -> R) (l : list R) : Prop :=
  u (0, 0, 0)%Z = nth 0 l 0 /\ u (1, 0, 0)%Z = nth 1 l 0 /\ u (2, 0, 0)%Z = nth 2 l 0 /\ u (3, 0, 0)%Z = nth 3 l 0 /\
  u (4, 0, 0)%Z = nth 4 l 0 /\ u (5, 0, 0)%Z = nth 5 l 0 /\ u (6, 0, 0)%Z = nth 6 l 0.
Lemma walls_lap : forall u a0 a1 a2 a3 a4 a5 a6, vals u [a0; a1; a2; a3; a4; a5; a6] ->
  let t1 := (a2 - a0) / 2 in let t2 := (a3 - a1) / 2 in let t3 := (a4 - a2) / 2 in
  let t4 := (a5 - a3) / 2 in let t5 := (a6 - a4) / 2 in
  vals (lap walls false true walls_flow u) [t1; t2 / 2; (t3 - t1) / 2; (t4 - t2) / 2; (t5 - t3) / 2; - t4 / 2; - t5].
Proof.
  intros u a0 a1 a2 a3 a4 a5 a6 (H0 & H1 & H2 & H3 & H4 & H5 & H6). cbn [nth] in *. intros.
  unfold vals, walls. lap_line. rewrite H0, H1, H2, H3, H4, H5, H6. repeat split; lra.
Qed.
Lemma walls_cells : pcells walls = [(0, 0, 0); (1, 0, 0); (2, 0, 0); (3, 0, 0); (4, 0, 0); (5, 0, 0); (6, 0, 0)]%Z.
Proof. reflexivity. Qed.
Lemma vals_dot : forall u v a0 a1 a2 a3 a4 a5 a6 b0 b1 b2 b3 b4 b5 b6,
  vals u [a0; a1; a2; a3; a4; a5; a6] -> vals v [b0; b1; b2; b3; b4; b5; b6] ->
  dot idx (pcells walls) u v = a0 * b0 + a1 * b1 + a2 * b2 + a3 * b3 + a4 * b4 + a5 * b5 + a6 * b6.
Proof.
  intros u v a0 a1 a2 a3 a4 a5 a6 b0 b1 b2 b3 b4 b5 b6 (H0 & H1 & H2 & H3 & H4 & H5 & H6) (J0 & J1 & J2 & J3 & J4 & J5 & J6).
  cbn [nth] in *. unfold dot, sumv. rewrite walls_cells. cbn -[Rplus Rminus Rmult Rdiv Ropp IZR].
  rewrite H0, H1, H2, H3, H4, H5, H6, J0, J1, J2, J3, J4, J5, J6. lra.
Qed.
Lemma vals_axpy : forall u v a0 a1 a2 a3 a4 a5 a6 b0 b1 b2 b3 b4 b5 b6 c,
  vals u [a0; a1; a2; a3; a4; a5; a6] -> vals v [b0; b1; b2; b3; b4; b5; b6] ->
  vals (axpy idx u c v) [a0 + c * b0; a1 + c * b1; a2 + c * b2; a3 + c * b3; a4 + c * b4; a5 + c * b5; a6 + c * b6].
Proof.
  intros u v a0 a1 a2 a3 a4 a5 a6 b0 b1 b2 b3 b4 b5 b6 c (H0 & H1 & H2 & H3 & H4 & H5 & H6) (J0 & J1 & J2 & J3 & J4 & J5 & J6).
  cbn [nth] in *. unfold vals, axpy. cbn [nth].
  rewrite H0, H1, H2, H3, H4, H5, H6, J0, J1, J2, J3, J4, J5, J6. repeat split; reflexivity.
Qed.
Lemma vals_conv : forall u l l', l = l' -> vals u l -> vals u l'.
Proof. intros. now subst. Qed.
Lemma is_zero_ne : forall a, a <> 0 -> is_zero a = false.
Proof. intros. unfold is_zero. now destruct (Req_EM_T a 0). Qed.
Ltac lists := repeat (apply f_equal2; [lra|]); try reflexivity.

Definition walls_err := lap walls true true walls_flow (fun _ => 0).
Lemma walls_err_vals : vals walls_err [3; 0; -1; 0; -1; 0; 1].
Proof. unfold vals, walls_err, walls, walls_flow, flow, tab. lap_line. repeat split; lra. Qed.
Lemma walls_q_vals : vals (lap walls false true walls_flow walls_err) [-2; 0; 1; 0; 1 / 2; 0; -1].
Proof. eapply vals_conv; [|apply (walls_lap _ _ _ _ _ _ _ _ walls_err_vals)]. lists. Qed.

Section Walls.
  Variables (p lp : nat -> idx -> R) (alpha den : nat -> R) (beta0 : R).
  Let st0 := gc_start idx (lap walls false true walls_flow) (fun _ => 0) walls_err beta0 p lp alpha den.
  Let st1 := gc_iter idx (pcells walls) (lap walls false true walls_flow) (9 / 25) 2 0 st0.
  Let e1 := axpy idx walls_err (34 / 25) (lap walls false true walls_flow walls_err).
  Lemma w_e1_vals : vals e1 [7 / 25; 0; 9 / 25; 0; -8 / 25; 0; -9 / 25].
  Proof. eapply vals_conv; [|apply (vals_axpy _ _ _ _ _ _ _ _ _ _ _ _ _ _ _ _ _ walls_err_vals walls_q_vals)]. lists. Qed.
  Lemma w_le_vals : vals (lap walls false true walls_flow e1) [1 / 25; 0; -19 / 100; 0; 4 / 25; 0; 1 / 50].
  Proof. eapply vals_conv; [|apply (walls_lap _ _ _ _ _ _ _ _ w_e1_vals)]. lists. Qed.
  Lemma w_qq : dot idx (pcells walls) (lap walls false true walls_flow walls_err) (lap walls false true walls_flow walls_err) = 25 / 4.
  Proof. rewrite (vals_dot _ _ _ _ _ _ _ _ _ _ _ _ _ _ _ _ walls_q_vals walls_q_vals). lra. Qed.
  Lemma w_eq : dot idx (pcells walls) walls_err (lap walls false true walls_flow walls_err) = - (17 / 2).
  Proof. rewrite (vals_dot _ _ _ _ _ _ _ _ _ _ _ _ _ _ _ _ walls_err_vals walls_q_vals). lra. Qed.
  Lemma w_lq : dot idx (pcells walls) (lap walls false true walls_flow e1) (lap walls false true walls_flow walls_err) = - (21 / 100).
  Proof. rewrite (vals_dot _ _ _ _ _ _ _ _ _ _ _ _ _ _ _ _ w_le_vals walls_q_vals). lra. Qed.
  Lemma w_st1 : g_err idx st1 = e1 /\ g_conv idx st1 = true /\
    g_lp idx st1 1%nat = axpy idx (lap walls false true walls_flow e1) (21 / 625) (lap walls false true walls_flow walls_err).
  Proof.
    unfold st1, gc_iter, st0, gc_start. cbn [g_err g_phi g_lp g_p g_den g_beta g_conv g_alpha].
    rewrite !setv_eq. rewrite w_qq, w_eq, is_zero_ne by lra.
    replace (- - (17 / 2) / (25 / 4)) with (34 / 25) by lra. fold e1.
    cbn [Nat.ltb Nat.leb Nat.sub seq fold_left].
    rewrite !setv_eq. rewrite is_zero_ne by lra. rewrite !setv_eq.
    cbn [g_err g_phi g_lp g_p g_den g_beta g_conv g_alpha].
    split; [reflexivity|]. split.
    - apply orb_true_iff. left. apply le_b_true.
      destruct w_e1_vals as (H0 & H1 & H2 & H3 & H4 & H5 & H6). cbn [nth] in *.
      unfold error_of, maxv, minv. rewrite walls_cells. cbn -[Rplus Rminus Rmult Rdiv Ropp IZR Rmax Rmin Rabs e1].
      rewrite H0, H1, H2, H3, H4, H5, H6.
      assert (M : forall a b c : R, a <= c -> b <= c -> Rmax a b <= c) by (intros; apply Rmax_lub; auto).
      apply M; apply Rabs_le.
      + split; [|repeat apply M; lra]. eapply Rle_trans; [|apply Rmax_l]. repeat (eapply Rle_trans; [|apply Rmax_l]). lra.
      + split; [repeat apply Rmin_glb; lra|]. repeat (eapply Rle_trans; [apply Rmin_l|]). lra.
    - rewrite w_lq. cbv [setv Nat.eqb].
      replace (- - (21 / 100) / (25 / 4)) with (21 / 625) by lra. reflexivity.
  Qed.
  Lemma w_q1_vals : vals (g_lp idx st1 1%nat) [-17 / 625; 0; -391 / 2500; 0; 221 / 1250; 0; -17 / 1250].
  Proof.
    destruct w_st1 as (_ & _ & ->).
    eapply vals_conv; [|apply (vals_axpy _ _ _ _ _ _ _ _ _ _ _ _ _ _ _ _ _ w_le_vals walls_q_vals)]. lists.
  Qed.
  Let st2 := gc_iter idx (pcells walls) (lap walls false true walls_flow) (9 / 25) 2 1 st1.
  Lemma w_st2 : g_conv idx st2 = true /\ g_err idx st2 (6, 0, 0)%Z = - (19 / 49).
  Proof.
    destruct w_st1 as (E1 & C1 & _).
    assert (Q : dot idx (pcells walls) (g_lp idx st1 1%nat) (g_lp idx st1 1%nat) = 14161 / 250000).
    { rewrite (vals_dot _ _ _ _ _ _ _ _ _ _ _ _ _ _ _ _ w_q1_vals w_q1_vals). lra. }
    assert (D : dot idx (pcells walls) (g_err idx st1) (g_lp idx st1 1%nat) = - (289 / 2500)).
    { rewrite E1. rewrite (vals_dot _ _ _ _ _ _ _ _ _ _ _ _ _ _ _ _ w_e1_vals w_q1_vals). lra. }
    destruct w_q1_vals as (_ & _ & _ & _ & _ & _ & Q6). cbn [nth] in Q6.
    destruct w_e1_vals as (_ & _ & _ & _ & _ & _ & E6). cbn [nth] in E6.
    unfold st2, gc_iter. clearbody st1.
    rewrite !setv_eq, Q, D, is_zero_ne by lra. rewrite C1.
    change (Nat.ltb 1 (2 - 1)) with false. cbv iota. cbn [g_conv g_err]. split; [apply orb_true_r|].
    unfold axpy. rewrite E1, E6, Q6. lra.
  Qed.
  Lemma w_body : gc_body idx (pcells walls) (lap walls false true walls_flow) (9 / 25) 2 st0 = st2.
  Proof. reflexivity. Qed.
End Walls.

Lemma walls_wrong : forall beta p lp alpha den, exists s,
  gcrk_update 2 walls (9 / 25) true walls_flow (fun _ => 0) beta p lp alpha den = Some (Done s) /\
  flow_div walls (corrected walls true walls_flow (g_phi idx s)) (6, 0, 0)%Z = 19 / 49.
Proof.
  intros. set (st0 := gc_start idx (lap walls false true walls_flow) (fun _ => 0) walls_err beta p lp alpha den).
  destruct (w_st2 p lp alpha den beta) as [C2 E2]. rewrite <- (w_body p lp alpha den beta) in C2, E2.
  exists (gc_body idx (pcells walls) (lap walls false true walls_flow) (9 / 25) 2 st0). split.
  - unfold gcrk_update. apply loop_first; [reflexivity|reflexivity|exact C2].
  - pose proof (line_fills 6 0 0 (fun _ => 1) ltac:(lia)) as F.
    assert (Cm : edges_compatible walls true) by now left.
    destruct (gc_at_inv walls F 2 (9 / 25) true walls_flow (fun _ => 0) beta p lp alpha den ltac:(lia) 1) as [[I _] _].
    specialize (I (6, 0, 0)%Z). rewrite (lap_div walls F) in I by exact Cm.
    change (gc_at walls 2 (9 / 25) true walls_flow (fun _ => 0) beta p lp alpha den 1)
      with (gc_body idx (pcells walls) (lap walls false true walls_flow) (9 / 25) 2 st0) in I.
    assert (I2 : - (19 / 49) = - flow_div walls (corrected walls true walls_flow
      (g_phi idx (gc_body idx (pcells walls) (lap walls false true walls_flow) (9 / 25) 2 st0))) (6, 0, 0)%Z)
      by (etransitivity; [symmetry; exact E2|exact I]). lra.
Qed.

Lemma gcrk_counterexample : exists E tol uvw x, fills E /\ edges_compatible E true /\ In x (pcells E) /\
  forall beta p lp alpha den, exists s,
  gcrk_update 2 E tol true uvw (fun _ => 0) beta p lp alpha den = Some (Done s) /\
  tol < Rabs (flow_div E (corrected E true uvw (g_phi idx s)) x).
Proof.
  exists walls, (9 / 25), walls_flow, (6, 0, 0)%Z. split; [apply line_fills; lia|]. split; [now left|].
  split; [apply line_in; lia|]. intros. destruct (walls_wrong beta p lp alpha den) as (s & H & D).
  exists s. split; [exact H|]. rewrite D, Rabs_pos_eq by lra. lra.
Qed.
Lemma absorber_counterexample : exists E tol uvw x s, fills E /\ In x (pcells E) /\
  mr_update E tol false uvw (fun _ => 0) (1 / 4) = Some (Done s) /\
  tol < Rabs (flow_div E (corrected E false uvw (m_phi idx s)) x).
Proof.
  destruct absorber_wrong as (s & H & D).
  exists absorber_env, (1 / 4), absorber_flow, (1, 0, 0)%Z, s. split; [apply line_fills; lia|].
  split; [apply line_in; lia|]. split; [exact H|]. rewrite D, Rabs_Ropp, Rabs_pos_eq by lra. lra.
Qed.
Lemma unbalanced_example : fills unbalanced_env /\ edges_compatible unbalanced_env false /\
  mr_update unbalanced_env (1 / 4) false unbalanced_flow (fun _ => 0) (1 / 4) = Some Stuck.
Proof.
  split; [apply line_fills; lia|]. split; [|exact unbalanced_stuck]. right. intros. right. reflexivity.
Qed.
Lemma walls_example : fills walls /\ edges_compatible walls true /\ length (pcells walls) = 7%nat /\
  (exists x, In x (pcells walls) /\ flow_div walls (corrected walls true walls_flow (fun _ => 0)) x <> 0) /\
  exists s, gcrk_update 2 walls (9 / 25) true walls_flow (fun _ => 0) (1 / 4) (fun _ _ => 0) (fun _ _ => 0) (fun _ => 1) (fun _ => 1)
    = Some (Done s).
Proof.
  assert (F : fills walls) by (apply line_fills; lia).
  split; [exact F|]. split; [now left|]. split; [reflexivity|]. split.
  - exists (0, 0, 0)%Z. split; [apply line_in; lia|].
    pose proof (lap_div walls F true walls_flow (fun _ => 0) (0, 0, 0)%Z (or_introl eq_refl)) as H.
    destruct walls_err_vals as (H0 & _). cbn [nth] in H0. unfold walls_err in H0. rewrite H0 in H. lra.
  - destruct (walls_wrong (1 / 4) (fun _ _ => 0) (fun _ _ => 0) (fun _ => 1) (fun _ => 1)) as (s & H & _). eauto.
Qed.
Lemma unchanged_example : let E := line 2 1 1 (fun _ => 1) in let u := flow [1; 1; 1] in
  fills E /\ on_edges E u /\ (forall x, In x (pcells E) -> flow_div E u x = 0) /\ u DX (1, 0, 0)%Z = 1 /\
  edges_compatible E false.
Proof.
  intros E u. split; [apply line_fills; lia|]. split; [|split; [|split]].
  - intros d [[x [|p|p]] [|q|q]] s H; destruct d; cbn in H; try discriminate.
    unfold u, flow, tab, tabz. cbn [fst].
    destruct (Z.eqb_spec x 0) as [->|]; [injection H as <-; reflexivity|].
    destruct (Z.eqb_spec x 2) as [->|]; [injection H as <-; reflexivity|discriminate].
  - intros x H. apply line_in_inv in H. destruct H as (k & -> & H).
    assert (k = 0 \/ k = 1 \/ k = 2)%Z as [->|[->| ->]] by lia;
    unfold flow_div, E, u, flow, tab, line, step_in, iadd; cbn -[Rplus Rminus Rmult Rdiv Ropp IZR]; lra.
  - reflexivity.
  - right. intros. right. reflexivity.
Qed.
