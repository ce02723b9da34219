(** Witness and examples for surface drag. *)
From Coq Require Import ZArith Reals Lra Lia Bool.
From Verif Require Import Stencil SpecReal SpecStress ModelStress ModelHeat SpecHeat ModelGround ProofsStress ProofsHeat SpecGround ProofsGround ProofsGround2.
Local Open Scope R_scope.

(** wind growing with height: 1, 2, 3, … *)
Definition lin_wind : fields := fun c '(_, y, _) => match c with O => IZR y + 1 | _ => 0 end.
Definition one_dx : nat -> R := fun _ => 1.
Definition strain_of (g : R) : Z -> R := fun y => if (y =? -1)%Z then 2 * g - 1 else if (y =? 2)%Z then -1 else 1.

Lemma lin_drag g x z : 0 <= g -> calc_drag_cmpct two true (fun _ => g) 1 lin_wind 0 (x, 0%Z, z) = g.
Proof.
  intros Hg. unfold calc_drag_cmpct, Gv, lin_wind. cbn [ax]. rewrite Rabs_right by lra. field.
Qed.
Lemma lin_div g : forall i, fill_div two 3 (calc_vip_div_cmpct one_dx true (fun _ => g) two lin_wind) i = 0.
Proof.
  intros [[x y] z]. unfold fill_div. cbn [ax vax calc_vip_div_cmpct lin_wind lev].
  replace (- (0 + 0) * (g - g)) with 0 by ring. unfold Rdiv. rewrite Rmult_0_l.
  destruct (_ =? _)%Z; [ring|]. destruct (_ =? _)%Z; ring.
Qed.
Definition lin_strain (g : R) : fields :=
  let div := fill_div two 3 (calc_vip_div_cmpct one_dx true (fun _ => g) two lin_wind) in
  fill_tnsr two one_dx 3 (lin_wind 1%nat) div (calc_drag_cmpct two true (fun _ => g) 1 lin_wind) (calc_deform_cmpct one_dx two lin_wind div).
Lemma lin_strain0 g i : lin_strain g 0%nat i = 0.
Proof.
  destruct i as [[x y] z]. unfold lin_strain, fill_tnsr. cbn [offdiag vax Nat.eqb calc_deform_cmpct calc_deform_cmpct2].
  rewrite !lin_div. unfold one_dx, lin_wind. field.
Qed.
Lemma lin_strain1 g i : lin_strain g 1%nat i = 0.
Proof.
  destruct i as [[x y] z]. unfold lin_strain, fill_tnsr. cbn [offdiag vax Nat.eqb calc_deform_cmpct calc_deform_cmpct2 ax lev].
  rewrite !lin_div. unfold one_dx, lin_wind. destruct (_ =? _)%Z; [field|]. destruct (_ =? _)%Z; field.
Qed.
Lemma lin_strain2 g x y z : 0 <= g -> lin_strain g 2%nat (x, y, z) = strain_of g y.
Proof.
  intros Hg. unfold lin_strain, fill_tnsr. cbn [offdiag vax Nat.eqb calc_deform_cmpct calc_deform_cmpct2 ax lev].
  unfold strain_of, one_dx. change (3 - 1)%Z with 2%Z. destruct (Z.eqb_spec y (-1)) as [->|E].
  - change (-1 + 1)%Z with 0%Z. rewrite (lin_drag g x z Hg). unfold lin_wind. change (0 + 1)%Z with 1%Z. field.
  - destruct (_ =? _)%Z; unfold lin_wind; rewrite ?plus_IZR; field.
Qed.
Lemma lin_tdef g x z y : 1 <= g -> tdef_sq_cmpct two (lin_strain g) (x, y, z) =
  (2 * pow2 (strain_of g y) + 2 * pow2 (strain_of g (y - 1))) / 8 + 2 * Rmax (pow2 (strain_of g y)) (pow2 (strain_of g (y - 1))) / 4.
Proof.
  intros Hg. unfold tdef_sq_cmpct, calc_tdef_sq_cmpct2. rewrite !lin_strain0, !lin_strain1, !lin_strain2 by lra.
  unfold max4. replace (pow2 0) with 0 by (unfold pow2; ring). rewrite (Rmax_left 0 0) by lra.
  rewrite !(Rmax_left (pow2 _) (pow2 _)) by lra || idtac. field.
Qed.
Lemma td0 g x z : 1 <= g -> tdef_sq_cmpct two (lin_strain g) (x, 0%Z, z) = (2 + 2 * pow2 (2 * g - 1)) / 8 + pow2 (2 * g - 1) / 2.
Proof.
  intros Hg. rewrite lin_tdef by exact Hg. change (0 - 1)%Z with (-1)%Z. unfold strain_of. cbn [Z.eqb Pos.eqb].
  rewrite Rmax_right by (unfold pow2; nra). unfold pow2. field.
Qed.
Lemma td12 g x z y : (y = 1 \/ y = 2)%Z -> 1 <= g -> tdef_sq_cmpct two (lin_strain g) (x, y, z) = 1.
Proof.
  intros Hy Hg. rewrite lin_tdef by exact Hg. unfold strain_of. destruct Hy; subst y; cbn [Z.eqb Pos.eqb Z.sub Z.add Z.opp Z.pos_sub Pos.pred_double];
  rewrite Rmax_left by (unfold pow2; lra); unfold pow2; field.
Qed.
Lemma lin_force g : 1 <= g ->
  ground_rhs two one_dx true (fun _ => g) 3 1 (Smg 1) lin_wind (fun _ _ => 0) 0%nat (0, 1, 0)%Z =
  4 / 9 * (1 - ((2 + 2 * pow2 (2 * g - 1)) / 8 + pow2 (2 * g - 1) / 2)).
Proof.
  intros Hg.
  change (calc_stress_rhs_cmpct one_dx true (fun _ => g) two (fun _ _ => 0)
    (fill_tnsr two one_dx 3 (lin_wind 1%nat) (fill_div two 3 (calc_vip_div_cmpct one_dx true (fun _ => g) two lin_wind))
       (calc_drag_cmpct two true (fun _ => g) 1 lin_wind) (multiply_sgs_visc one_dx true (fun _ => g) two compact (Smg 1) (lin_strain g)))
    2 0%nat (0, 1, 0)%Z = 4 / 9 * (1 - ((2 + 2 * pow2 (2 * g - 1)) / 8 + pow2 (2 * g - 1) / 2))).
  cbn [multiply_sgs_visc calc_stress_rhs_cmpct calc_stress_rhs_cmpct2].
  unfold fill_tnsr. cbn [offdiag vax Nat.eqb lev ax Z.eqb Pos.eqb Z.sub Z.add Z.opp Z.pos_sub Pos.pred_double].
  unfold multiply_tnsr_cmpct, multiply_tnsr_cmpct2. cbn [fst snd ModelStress.k_m Z.add Z.opp Pos.add Pos.succ Z.sub Z.pos_sub].
  rewrite !lin_strain0, !lin_strain2 by lra. rewrite !(td12 g _ _ 1), !(td12 g _ _ 2), !td0 by (auto || lra).
  unfold strain_of. cbn [Z.eqb Pos.eqb]. unfold Gop, dlta, one_dx. cbn. unfold pow2. field. lra.
Qed.
Lemma refuted_units : exists dx cl G cd v lam i,
  (forall d, 0 < dx d) /\ eddy cl /\ (forall j, 0 < G j) /\ 0 < cd /\ 0 < lam /\ (0 <= lev two i < 3)%Z /\
  ground_rhs two dx true (fun j => lam * G j) 3 cd cl v (fun _ _ => 0) 0%nat i <>
  ground_rhs two dx true G 3 cd cl v (fun _ _ => 0) 0%nat i.
Proof.
  exists one_dx, (Smg 1), (fun _ => 1), 1, lin_wind, 2, (0, 1, 0)%Z.
  repeat split; try (intros; unfold one_dx; lra); try exact I; try (cbn; lia).
  change (fun j : idx => 2 * 1) with (fun _ : idx => 2 * 1).
  rewrite !lin_force by lra. unfold pow2. lra.
Qed.
Definition two_cells : nat -> Z := fun d => match d with O => 2 | S O => 3 | _ => 1 end%Z.
Lemma lin_periodic c : hperiodic two two_cells (lin_wind c).
Proof. intros d [[x y] z] Hd. cbn in Hd. assert (d = 0%nat) by lia. subst d. reflexivity. Qed.
Lemma lin_ground : ground two two_cells (calc_drag_cmpct two true (fun _ => 1) 1 lin_wind 0%nat) = 2.
Proof.
  unfold ground, cells, total, two_cells. change (Z.to_nat (2 - 0)) with 2%nat. change (Z.to_nat (3 - 0)) with 3%nat. change (Z.to_nat (1 - 0)) with 1%nat.
  cbn [sumn upw coord fst snd]. cbn [Z.eqb Z.add Pos.add Pos.succ].
  rewrite !lin_drag by lra. ring.
Qed.
Lemma lin_momentum cl rhs : weighted two two_cells (fun i => Gv true (fun _ => 1) i *
  (ground_rhs two one_dx true (fun _ => 1) 3 1 cl lin_wind rhs 0%nat i - rhs 0%nat i)) = - 4.
Proof.
  change 3%Z with (two_cells (upw two)). rewrite (momentum_ground two two_cells one_dx true (fun _ => 1) 1).
  - rewrite lin_ground. unfold one_dx. field.
  - intros [|[|d]]; reflexivity.
  - intros; unfold one_dx; lra.
  - intros; lra.
  - intros d i _; reflexivity.
  - cbn; lia.
  - cbn; lia.
  - apply lin_periodic.
Qed.
Lemma lin_slow rhs : ground_rhs two one_dx true (fun _ => 1) 3 1 (Dns 5) lin_wind rhs 0%nat (0, 0, 0)%Z =
  ground_rhs two one_dx true (fun _ => 1) 3 0 (Dns 5) lin_wind rhs 0%nat (0, 0, 0)%Z - 4.
Proof.
  change 3%Z with (two_cells (upw two)).
  rewrite (force_drag two two_cells one_dx true (fun _ => 1) 1 5) with (c := 0%nat); try (cbn; lia).
  - cbn [coord upw Z.eqb fst snd step]. rewrite !lin_drag by lra. unfold Gv, one_dx. field.
  - intros; unfold one_dx; lra.
  - intros; lra.
Qed.
Lemma lin_forces :
  ground_rhs two one_dx true (fun _ => 1) 3 1 (Smg 1) lin_wind (fun _ _ => 0) 0%nat (0, 1, 0)%Z = 0 /\
  ground_rhs two one_dx true (fun _ => 2) 3 1 (Smg 1) lin_wind (fun _ _ => 0) 0%nat (0, 1, 0)%Z = - (8 / 3).
Proof. split; rewrite lin_force by lra; unfold pow2; field. Qed.
Lemma momentum_law : forall nd n dx (nug : bool) G cdrag,
  (forall d : nat, (0 < n d)%Z) -> (forall d : nat, dx d <> 0) -> (forall i : idx, G i <> 0) -> hperiodic nd n G -> (2 <= n (upw nd))%Z ->
  forall cl v rhs c, (c < upw nd)%nat -> (forall e, hperiodic nd n (v e)) ->
  weighted nd n (fun i => (if nug then G i else 1) * (ground_rhs nd dx nug G (n (upw nd)) cdrag cl v rhs c i - rhs c i)) =
  - (2 * ground nd n (drag_law nd (if nug then G else fun _ => 1) cdrag v c) / dx (upw nd)).
Proof.
  intros. rewrite (gr_ext nd n (drag_law nd (if nug then G else fun _ => 1) cdrag v c) (calc_drag_cmpct nd nug G cdrag v c)) by (intros i; symmetry; apply drag_eq; assumption).
  apply (momentum_ground nd n dx nug G cdrag); assumption.
Qed.

Lemma lin_energy : (forall d, (0 < two_cells d)%Z) /\ (2 <= two_cells (upw two))%Z /\ (forall d, 0 < one_dx d) /\
  visc_ok (Smg 1) /\ (forall e, hperiodic two two_cells (lin_wind e)) /\ (forall i, lin_wind (upw two) i = 0) /\
  2 * ground two two_cells (fun i => axes (upw two) (fun c => drag_law two (fun _ => 1) 1 lin_wind c i * mid c (lin_wind c) i)) / one_dx (upw two) = 4.
Proof.
  split; [intros [|[|d]]; reflexivity|]. split; [cbn; lia|]. split; [intros; unfold one_dx; lra|]. split; [exact I|].
  split; [apply lin_periodic|]. split; [intros [[x y] z]; reflexivity|].
  transitivity (2 * ground two two_cells (calc_drag_cmpct two true (fun _ => 1) 1 lin_wind 0%nat)); [|rewrite lin_ground; ring].
  unfold one_dx. transitivity (2 * ground two two_cells (fun i => axes (upw two) (fun c => drag_law two (fun _ => 1) 1 lin_wind c i * mid c (lin_wind c) i))); [field|].
  f_equal. unfold ground. apply cells_ext. intros [[x y] z]. cbn [coord upw fst snd]. destruct (Z.eqb_spec y 0) as [->|]; [|reflexivity].
  cbn [axes upw]. rewrite <- (drag_eq two true (fun _ => 1)) by (cbn; lia). rewrite lin_drag by lra. unfold mid, lin_wind. cbn [step fst snd]. field.
Qed.
