(** Proofs on surface drag: its work, and units of density. *)
From Coq Require Import ZArith Reals Lra Lia Bool FunctionalExtensionality.
From Verif Require Import Stencil SpecReal SpecStress ModelStress ModelHeat SpecHeat ModelGround ProofsCons1D ProofsStress ProofsHeat SpecGround ProofsGround.
Local Open Scope R_scope.

Lemma drag_none nd nug G v : calc_drag_cmpct nd nug G 0 v = fun _ _ => 0.
Proof. extensionality c; extensionality i. unfold calc_drag_cmpct. destruct nd; field. Qed.

Section Work.
  Variables (nd : ndims) (n : nat -> Z) (dx : nat -> R) (nug : bool) (G : idx -> R) (cd eta : R).
  Notation v := (upw nd).
  Notation hp := (hperiodic nd n).
  Hypothesis Hz : (2 <= n v)%Z.
  Notation gv := (Gv nug G).
  Variables (vel rhs : fields).
  Notation drag := (calc_drag_cmpct nd nug G cd vel).

  (** stresses in which [ground_rhs] differences *)
  Definition tau_of (a : R) : fields :=
    let srfc := calc_drag_cmpct nd nug G a vel in
    let div := fill_div nd (n v) (calc_vip_div_cmpct dx nug G nd vel) in
    let fill := fill_tnsr nd dx (n v) (vel (vax nd)) div srfc in
    fill (multiply_sgs_visc dx nug G nd compact (Dns eta) (fill (calc_deform_cmpct dx nd vel div))).
  Lemma lev_up k i : lev nd (ax (vax nd) k i) = (lev nd i + k)%Z.
  Proof. destruct i as [[x y] z], nd; reflexivity. Qed.
  Lemma tau_diff e i : tau_of cd e i = tau_of 0 e i +
    match offdiag nd e with Some b => if (lev nd i =? -1)%Z then 2 * drag b (ax (vax nd) 1 i) else 0 | None => 0 end.
  Proof.
    unfold tau_of. rewrite drag_none. cbn [multiply_sgs_visc]. unfold multiply_tnsr_const.
    generalize (calc_drag_cmpct nd nug G cd vel). intros b.
    generalize (fill_div nd (n v) (calc_vip_div_cmpct dx nug G nd vel)). intros dv.
    generalize (calc_deform_cmpct dx nd vel dv). intros t.
    unfold fill_tnsr. destruct (offdiag nd e) as [h|]; [|ring].
    rewrite !lev_up.
    destruct (Z.eqb_spec (lev nd i) (-1)) as [E|E].
    - rewrite E. change (-1 + 1)%Z with 0%Z. destruct (Z.eqb_spec 0 (-1)); [lia|]. destruct (Z.eqb_spec 0 (n v - 1)); [lia|]. ring.
    - destruct (Z.eqb_spec (lev nd i) (n v - 1)) as [E1|E1]; [|ring].
      rewrite E1. destruct (Z.eqb_spec (n v - 1 + -1) (-1)); [lia|]. destruct (Z.eqb_spec (n v - 1 + -1) (n v - 1)); [lia|]. ring.
  Qed.

  Hypothesis Hdx : forall d, dx d <> 0.
  Hypothesis HG : forall i, G i <> 0.
  Notation force a := (ground_rhs nd dx nug G (n v) a (Dns eta) vel rhs).

  Lemma comp_h c d : (c < v)%nat -> (d < v)%nat -> offdiag nd (comp nd c d) = None.
  Proof. unfold comp, offdiag. destruct nd; cbn [upw]; intros; destruct c as [|[|c]]; try lia; destruct d as [|[|d]]; try lia; reflexivity. Qed.
  Lemma face_h c d i : (c < v)%nat -> (d < v)%nat -> face nd (tau_of cd) c d i = face nd (tau_of 0) c d i.
  Proof. intros Hc Hd. unfold face. rewrite !(tau_diff (comp nd c d)), (comp_h c d Hc Hd). destruct (Nat.eqb c d); ring. Qed.
  Lemma face_v c i : (c < v)%nat -> face nd (tau_of cd) c v i = face nd (tau_of 0) c v i +
    (if (coord v i =? -1)%Z then drag c (step v 1 i) + drag c (step v 1 (step c (-1) i)) else 0).
  Proof.
    intros Hc. unfold face. rewrite (comp_ne nd c Hc). rewrite !(tau_diff (comp nd c v)), (comp_off nd c Hc).
    rewrite !lev_coord, (coordh nd c (-1) i Hc), !ax_step. change (vax nd) with v. destruct (_ =? _)%Z; field.
  Qed.
  Lemma force_diff c i : (c < v)%nat -> (0 <= coord v i)%Z ->
    gv i * (force cd c i - force 0 c i) =
    if (coord v i =? 0)%Z then - (2 * (drag c i + drag c (step c (-1) i)) / dx v) else 0.
  Proof.
    intros Hc Hi.
    transitivity (gv i * (force cd c i - rhs c i) - gv i * (force 0 c i - rhs c i)); [ring|].
    change (force cd) with (calc_stress_rhs_cmpct dx nug G nd rhs (tau_of cd) 2).
    change (force 0) with (calc_stress_rhs_cmpct dx nug G nd rhs (tau_of 0) 2).
    rewrite !(rhs_faces nd dx nug G) by assumption.
    rewrite !(face_v c) by exact Hc. rewrite coordv.
    assert (A : axes v (fun d => (face nd (tau_of cd) c d i - face nd (tau_of cd) c d (step d (-1) i)) / dx d) =
                axes v (fun d => (face nd (tau_of 0) c d i - face nd (tau_of 0) c d (step d (-1) i)) / dx d)).
    { assert (A1 : forall d, (d < v)%nat -> (face nd (tau_of cd) c d i - face nd (tau_of cd) c d (step d (-1) i)) / dx d =
                (face nd (tau_of 0) c d i - face nd (tau_of 0) c d (step d (-1) i)) / dx d) by (intros d Hd; rewrite !face_h by assumption; reflexivity).
      destruct nd; cbn [upw axes] in *; rewrite ?A1 by lia; reflexivity. }
    rewrite A. destruct (Z.eqb_spec (coord v i) (-1)); [lia|].
    destruct (Z.eqb_spec (coord v i + -1) (-1)), (Z.eqb_spec (coord v i) 0); try lia; [|field; apply Hdx].
    rewrite (step_step c v), !step_add. change (1 + -1)%Z with 0%Z. rewrite !step_0. field. apply Hdx.
  Qed.
  Lemma force_drag c i : (c < v)%nat -> (0 <= coord v i)%Z ->
    force cd c i = force 0 c i - if (coord v i =? 0)%Z then 2 * (drag c i + drag c (step c (-1) i)) / (dx v * gv i) else 0.
  Proof.
    intros Hc Hi. pose proof (force_diff c i Hc Hi) as D. pose proof (gop_nz nug G HG i) as Hg. specialize (Hdx v).
    apply (Rmult_eq_reg_l (gv i)); [|exact Hg].
    transitivity (gv i * (force cd c i - force 0 c i) + gv i * force 0 c i); [ring|]. rewrite D.
    destruct (_ =? _)%Z; field. auto.
  Qed.

  Hypothesis Hn : forall d, (0 < n d)%Z.
  Hypothesis PG : hp G.
  Hypothesis Pv : forall e, hp (vel e).
  Lemma gr_add f g : ground nd n (fun i => f i + g i) = ground nd n f + ground nd n g.
  Proof. unfold ground. rewrite <- cells_add. apply cells_ext. intros i. destruct (_ =? _)%Z; ring. Qed.
  Lemma gr_shift c f : (c < v)%nat -> hp f -> ground nd n (fun i => f (step c 1 i)) = ground nd n f.
  Proof.
    intros Hc P. unfold ground. rewrite <- (cells_step_h n Hn c (fun i => if (coord v i =? 0)%Z then f i else 0)).
    - apply cells_ext. intros i. rewrite (coordh nd c 1 i Hc). reflexivity.
    - apply (upwlt nd). exact Hc.
    - intros i. rewrite (coordh nd c _ i Hc), (P c i Hc). reflexivity.
  Qed.
  Lemma hp_dr c : hp (drag c).
  Proof. apply hp_drag; assumption. Qed.
  Lemma work_c c : (c < v)%nat -> ground nd n (fun i => vel c i * (drag c i + drag c (step c (-1) i))) =
    2 * ground nd n (fun i => drag c i * mid c (vel c) i).
  Proof.
    intros Hc. rewrite <- gr_scal.
    transitivity (ground nd n (fun i => vel c i * drag c i) + ground nd n (fun i => vel c i * drag c (step c (-1) i))).
    { rewrite <- gr_add. apply gr_ext. intros; ring. }
    rewrite <- (gr_shift c (fun i => vel c i * drag c (step c (-1) i)) Hc).
    - rewrite <- gr_add. apply gr_ext. intros i. rewrite step_add. change (-1 + 1)%Z with 0%Z. rewrite step_0. unfold mid. field.
    - intros d i Hd. rewrite (Pv c d i Hd), (step_step c d), (hp_dr c d _ Hd). reflexivity.
  Qed.
  Lemma work : weighted nd n (fun i => axes v (fun c => vel c i * (gv i * (force cd c i - force 0 c i)))) =
    - (2 * ground nd n (fun i => axes v (fun c => drag c i * mid c (vel c) i)) / dx v).
  Proof.
    transitivity (- / dx v * ground nd n (fun i => axes v (fun c => vel c i * (drag c i + drag c (step c (-1) i))))).
    - unfold weighted, ground. rewrite <- cells_scal. apply (cells_col nd n). intros i. apply total_ext. intros k Hk.
      rewrite coord_lift.
      assert (E : forall c, (c < v)%nat -> vel c (lift nd k i) * (gv (lift nd k i) * (force cd c (lift nd k i) - force 0 c (lift nd k i))) =
         if (k =? 0)%Z then - (2 * (vel c (lift nd k i) * (drag c (lift nd k i) + drag c (step c (-1) (lift nd k i)))) / dx v) else 0).
      { intros c Hc. rewrite force_diff by (try assumption; rewrite coord_lift; lia). rewrite coord_lift. destruct (_ =? _)%Z; [field; apply Hdx|ring]. }
      unfold weight.
      destruct nd; cbn [upw axes] in *; rewrite ?E by lia; destruct (Z.eqb_spec k 0); cbn [orb]; try (destruct (_ =? _)%Z); try (field; apply Hdx); ring.
    - assert (A : ground nd n (fun i => axes v (fun c => vel c i * (drag c i + drag c (step c (-1) i)))) =
         2 * ground nd n (fun i => axes v (fun c => drag c i * mid c (vel c) i))).
      { pose proof work_c as W. destruct (Nat.eq_dec v 1) as [V1|V1].
        - transitivity (ground nd n (fun i => vel 0%nat i * (drag 0%nat i + drag 0%nat (step 0 (-1) i)))).
          { apply gr_ext. intros i. rewrite V1. cbn [axes]. ring. }
          rewrite W by lia. f_equal. apply gr_ext. intros i. rewrite V1. cbn [axes]. ring.
        - assert (V2 : v = 2%nat) by (destruct nd; cbn in *; lia).
          transitivity (ground nd n (fun i => vel 0%nat i * (drag 0%nat i + drag 0%nat (step 0 (-1) i))) +
             ground nd n (fun i => vel 1%nat i * (drag 1%nat i + drag 1%nat (step 1 (-1) i)))).
          { rewrite <- gr_add. apply gr_ext. intros i. rewrite V2. cbn [axes]. ring. }
          rewrite !W by lia. rewrite <- Rmult_plus_distr_l. f_equal. rewrite <- gr_add. apply gr_ext. intros i. rewrite V2. cbn [axes]. ring. }
      rewrite A. field. apply Hdx.
  Qed.
End Work.

Lemma gr_ge0 nd n f : (forall i, 0 <= f i) -> 0 <= ground nd n f.
Proof. intros H. unfold ground. apply cells_ge0. intros i. destruct (_ =? _)%Z; [apply H|lra]. Qed.
Lemma drag_work_pos nd nug G cd v i : 0 <= cd -> (forall j, 0 <= G j) ->
  0 <= axes (upw nd) (fun c => calc_drag_cmpct nd nug G cd v c i * mid c (v c) i).
Proof.
  intros Hc HG.
  assert (P : forall c, (c < upw nd)%nat -> 0 <= calc_drag_cmpct nd nug G cd v c i * mid c (v c) i).
  { intros c H. rewrite drag_eq by exact H. unfold drag_law.
    set (s := sqrt _). assert (0 <= s) by apply sqrt_pos.
    assert (0 <= mid c (if nug then G else fun _ => 1) i) by (unfold mid; pose proof (HG i); pose proof (HG (step c 1 i)); destruct nug; lra).
    set (r := mid c (if nug then G else fun _ => 1) i) in *. set (u := mid c (v c) i).
    replace (cd * r * s * u * u) with (cd * (r * (s * (u * u)))) by ring.
    assert (0 <= u * u) by apply Rle_0_sqr.
    do 3 (apply Rmult_le_pos; [assumption|]). assumption. }
  destruct nd; cbn [upw axes] in *.
  - specialize (P 0%nat ltac:(lia)). lra.
  - pose proof (P 0%nat ltac:(lia)). pose proof (P 1%nat ltac:(lia)). lra.
Qed.
Lemma work_neg nd n dx nug G cd eta vel rhs :
  (2 <= n (upw nd))%Z -> (forall d, (0 < n d)%Z) -> (forall d, 0 < dx d) -> (forall i, 0 < G i) ->
  hperiodic nd n G -> (forall e, hperiodic nd n (vel e)) -> 0 <= cd ->
  weighted nd n (fun i => axes (upw nd) (fun c => vel c i * (Gv nug G i *
    (ground_rhs nd dx nug G (n (upw nd)) cd (Dns eta) vel rhs c i - ground_rhs nd dx nug G (n (upw nd)) 0 (Dns eta) vel rhs c i)))) <= 0.
Proof.
  intros Hz Hn Hdx HG PG Pv Hc.
  rewrite work; try assumption.
  - pose proof (gr_ge0 nd n _ (fun i => drag_work_pos nd nug G cd vel i Hc (fun j => Rlt_le _ _ (HG j)))) as W.
    assert (0 <= 2 * ground nd n (fun i => axes (upw nd) (fun c => calc_drag_cmpct nd nug G cd vel c i * mid c (vel c) i)) / dx (upw nd)); [|lra].
    apply pos_div; [lra|apply Hdx].
  - intros d. specialize (Hdx d). lra.
  - intros i. specialize (HG i). lra.
Qed.

(** ** Units of density *)
Section Units.
  Variables (nd : ndims) (dx : nat -> R) (G : idx -> R) (nz : Z) (lam : R).
  Hypothesis HG : forall i, 0 < G i.
  Hypothesis Hl : 0 < lam.
  Hypothesis Hdx : forall d, dx d <> 0.
  Notation lG := (fun i => lam * G i).
  Lemma div_unit v : calc_vip_div_cmpct dx true lG nd v = calc_vip_div_cmpct dx true G nd v.
  Proof.
    extensionality i. destruct i as [[x y] z]. cbn [calc_vip_div_cmpct]. destruct nd.
    - pose proof (HG (x, y + 1, z)%Z). pose proof (HG (x, y, z)). field. repeat split; try apply Hdx; lra || nra.
    - pose proof (HG (x, y, z + 1)%Z). pose proof (HG (x, y, z)). field. repeat split; try apply Hdx; lra || nra.
  Qed.
  Lemma mult_unit c t e i : multiply_tnsr_cmpct true lG nd t c e i = lam * multiply_tnsr_cmpct true G nd t c e i.
  Proof.
    destruct i as [[x y] z], c as [kh kv]. unfold multiply_tnsr_cmpct. destruct nd; destruct e as [|[|[|[|[|e]]]]];
      cbn [multiply_tnsr_cmpct2 multiply_tnsr_cmpct3 fst snd]; unfold Gop; ring.
  Qed.
  Lemma fill_unit w div t e i : e <> upw nd ->
    fill_tnsr nd dx nz w div (fun _ _ => 0) (fun e i => lam * t e i) e i = lam * fill_tnsr nd dx nz w div (fun _ _ => 0) t e i.
  Proof.
    intros H. unfold fill_tnsr. change (vax nd) with (upw nd). destruct (offdiag nd e).
    - destruct (_ =? _)%Z; [ring|]. destruct (_ =? _)%Z; ring.
    - destruct (Nat.eqb_spec e (upw nd)); [contradiction|ring].
  Qed.
  Lemma rhs_unit rhs t t' c i : (c < upw nd)%nat -> (forall e i, e <> upw nd -> t' e i = lam * t e i) ->
    calc_stress_rhs_cmpct dx true lG nd rhs t' 2 c i = calc_stress_rhs_cmpct dx true G nd rhs t 2 c i.
  Proof.
    intros Hc H. pose proof (Hdx 0%nat). pose proof (Hdx 1%nat). pose proof (Hdx 2%nat). pose proof (HG i).
    destruct i as [[x y] z]. destruct nd; cbn [upw] in *.
    - assert (c = 0%nat) by lia; subst c. cbn [calc_stress_rhs_cmpct calc_stress_rhs_cmpct2]. unfold Gop. rewrite !H by lia.
      field. repeat split; auto; lra.
    - assert (C : c = 0%nat \/ c = 1%nat) by lia. destruct C; subst c; cbn [calc_stress_rhs_cmpct calc_stress_rhs_cmpct3]; unfold Gop; rewrite !H by lia;
      field; repeat split; auto; lra.
  Qed.
  Lemma unit_free cl v rhs c i : eddy cl -> (c < upw nd)%nat ->
    ground_rhs nd dx true lG nz 0 cl v rhs c i = ground_rhs nd dx true G nz 0 cl v rhs c i.
  Proof.
    intros He Hc. unfold ground_rhs. rewrite !drag_none, div_unit. apply rhs_unit; [exact Hc|].
    intros e j Hj. rewrite <- fill_unit by exact Hj. f_equal. extensionality e'. extensionality j'.
    destruct cl; [contradiction| |]; cbn [multiply_sgs_visc]; apply mult_unit.
  Qed.
End Units.
