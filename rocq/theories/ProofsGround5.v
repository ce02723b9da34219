(** Proofs on surface drag: flow in a plane. *)
From Coq Require Import ZArith Reals Lra Lia Bool.
From Verif Require Import Stencil SpecReal SpecStress ModelStress ModelHeat SpecHeat ModelGround SpecGround ProofsGround ProofsGround2 ProofsGround3.
Local Open Scope R_scope.

Section Plane.
  Variables (dx2 dx3 : nat -> R) (G2 G3 : idx -> R) (nz : Z) (cd eta : R) (v rhs : fields).
  Hypothesis D0 : dx3 0%nat = dx2 0%nat.
  Hypothesis D2 : dx3 2%nat = dx2 1%nat.
  Hypothesis Hd : forall d, dx3 d <> 0.
  Notation pl := plane_idx.
  Notation v3 := (plane_vel v).

  Definition rel (t2 t3 : fields) : Prop := forall x y z,
    t3 0%nat (x, y, z) = t2 0%nat (x, z, 0%Z) /\ t3 2%nat (x, y, z) = t2 1%nat (x, z, 0%Z) /\ t3 4%nat (x, y, z) = t2 2%nat (x, z, 0%Z) /\
    t3 1%nat (x, y, z) = 0 /\ t3 3%nat (x, y, z) = 0 /\ t3 5%nat (x, y, z) = 0.
  Lemma rel_deform dv2 dv3 : (forall i, dv2 i = 0) -> (forall i, dv3 i = 0) ->
    rel (calc_deform_cmpct dx2 two v dv2) (calc_deform_cmpct dx3 three v3 dv3).
  Proof.
    intros E2 E3 x y z. pose proof (Hd 0%nat). pose proof (Hd 1%nat). pose proof (Hd 2%nat).
    unfold calc_deform_cmpct, calc_deform_cmpct2, calc_deform_cmpct3, plane_vel, plane_idx. rewrite !E2, !E3, <- D0, <- D2. repeat split; field; auto.
  Qed.
  Lemma rel_drag x y z : calc_drag_cmpct three false G3 cd v3 0 (x, y, z) = calc_drag_cmpct two false G2 cd v 0 (x, z, 0%Z) /\
    calc_drag_cmpct three false G3 cd v3 1 (x, y, z) = 0.
  Proof.
    unfold calc_drag_cmpct, plane_vel, plane_idx, Gv, ax. split; [|field].
    set (s := v 0%nat ((x + 1)%Z, z, 0%Z) + v 0%nat (x, z, 0%Z)).
    replace (pow2 s + pow2 (0 + 0)) with (Rsqr s) by (unfold pow2, Rsqr; ring). rewrite sqrt_Rsqr_abs. reflexivity.
  Qed.
  Lemma rel_fill dv2 dv3 b2 b3 t2 t3 : (forall i, dv2 i = 0) -> (forall i, dv3 i = 0) ->
    (forall x y z, b3 0%nat (x, y, z) = b2 0%nat (x, z, 0%Z)) -> (forall x y z, b3 1%nat (x, y, z) = 0) -> rel t2 t3 ->
    rel (fill_tnsr two dx2 nz (v 1%nat) dv2 b2 t2) (fill_tnsr three dx3 nz (v3 2%nat) dv3 b3 t3).
  Proof.
    intros E2 E3 B0 B1 H x y z. unfold fill_tnsr. cbn [offdiag vax Nat.eqb lev ax].
    assert (R : forall x y z, t3 0%nat (x, y, z) = t2 0%nat (x, z, 0%Z)) by apply H.
    assert (R1 : forall x y z, t3 1%nat (x, y, z) = 0) by (intros; apply H).
    assert (R2 : forall x y z, t3 2%nat (x, y, z) = t2 1%nat (x, z, 0%Z)) by (intros; apply H).
    assert (R3 : forall x y z, t3 3%nat (x, y, z) = 0) by (intros; apply H).
    assert (R4 : forall x y z, t3 4%nat (x, y, z) = t2 2%nat (x, z, 0%Z)) by (intros; apply H).
    assert (R5 : forall x y z, t3 5%nat (x, y, z) = 0) by (intros; apply H).
    rewrite ?R, ?R1, ?R2, ?R3, ?R4, ?R5, ?B0, ?B1, !E2, !E3, <- D2. unfold plane_vel, plane_idx.
    repeat split; destruct (_ =? _)%Z; try reflexivity; try ring; destruct (_ =? _)%Z; try reflexivity; ring.
  Qed.
  Lemma rel_visc t2 t3 : rel t2 t3 -> rel (multiply_sgs_visc dx2 false G2 two compact (Dns eta) t2) (multiply_sgs_visc dx3 false G3 three compact (Dns eta) t3).
  Proof.
    intros H x y z. destruct (H x y z) as (A & B & C & D & E & F). cbn [multiply_sgs_visc]. unfold multiply_tnsr_const.
    rewrite A, B, C, D, E, F. repeat split; ring.
  Qed.
  Lemma div_z nd dx G w : forall i, fill_div nd nz (calc_vip_div_cmpct dx false G nd w) i = 0.
  Proof.
    intros i. unfold fill_div. assert (E : forall j, calc_vip_div_cmpct dx false G nd w j = 0) by (intros [[? ?] ?]; reflexivity).
    rewrite !E. destruct (_ =? _)%Z; [ring|]. destruct (_ =? _)%Z; ring.
  Qed.
  Lemma plane_force : forall x y z,
    ground_rhs three dx3 false G3 nz cd (Dns eta) v3 (plane_vel rhs) 0%nat (x, y, z) = ground_rhs two dx2 false G2 nz cd (Dns eta) v rhs 0%nat (x, z, 0%Z) /\
    ground_rhs three dx3 false G3 nz cd (Dns eta) v3 (plane_vel rhs) 1%nat (x, y, z) = 0 /\
    ground_rhs three dx3 false G3 nz cd (Dns eta) v3 (plane_vel rhs) 2%nat (x, y, z) = ground_rhs two dx2 false G2 nz cd (Dns eta) v rhs 1%nat (x, z, 0%Z).
  Proof.
    intros x y z. unfold ground_rhs. cbv zeta.
    match goal with |- calc_stress_rhs_cmpct _ _ _ _ _ ?a _ _ _ = calc_stress_rhs_cmpct _ _ _ _ _ ?b _ _ _ /\ _ => assert (R : rel b a); [|generalize dependent a; generalize dependent b] end.
    { apply rel_fill; try apply div_z; try (intros; apply rel_drag). apply rel_visc. apply rel_fill; try apply div_z; try (intros; apply rel_drag).
      apply rel_deform; apply div_z. }
    intros t2 t3 R. pose proof (Hd 0%nat). pose proof (Hd 1%nat). pose proof (Hd 2%nat).
    assert (R0 : forall x y z, t3 0%nat (x, y, z) = t2 0%nat (x, z, 0%Z)) by apply R.
    assert (R1 : forall x y z, t3 1%nat (x, y, z) = 0) by (intros; apply R).
    assert (R2 : forall x y z, t3 2%nat (x, y, z) = t2 1%nat (x, z, 0%Z)) by (intros; apply R).
    assert (R3 : forall x y z, t3 3%nat (x, y, z) = 0) by (intros; apply R).
    assert (R4 : forall x y z, t3 4%nat (x, y, z) = t2 2%nat (x, z, 0%Z)) by (intros; apply R).
    assert (R5 : forall x y z, t3 5%nat (x, y, z) = 0) by (intros; apply R).
    cbn [calc_stress_rhs_cmpct calc_stress_rhs_cmpct2 calc_stress_rhs_cmpct3 Gop].
    rewrite ?R0, ?R1, ?R2, ?R3, ?R4, ?R5, <- D0, <- D2. unfold plane_vel, plane_idx. repeat split; field; auto.
  Qed.
End Plane.
Lemma plane_slow : ground_rhs three one_dx false (fun _ => 1) 3 1 (Dns 5) (plane_vel lin_wind) (plane_vel (fun _ _ => 0)) 0%nat (0, 7, 0)%Z =
  ground_rhs three one_dx false (fun _ => 1) 3 0 (Dns 5) (plane_vel lin_wind) (plane_vel (fun _ _ => 0)) 0%nat (0, 7, 0)%Z - 4.
Proof.
  assert (D : forall d, one_dx d <> 0) by (intros; unfold one_dx; lra).
  rewrite !(fun cd => proj1 (plane_force one_dx one_dx (fun _ => 1) (fun _ => 1) 3 cd 5 lin_wind (fun _ _ => 0) eq_refl eq_refl D 0%Z 7%Z 0%Z)).
  change 3%Z with (two_cells (upw two)).
  rewrite (force_drag two two_cells one_dx false (fun _ => 1) 1 5) with (c := 0%nat); try (cbn; lia); try assumption; [|intros; lra].
  cbn [coord upw Z.eqb fst snd step].
  assert (E : forall x k, calc_drag_cmpct two false (fun _ => 1) 1 lin_wind 0 (x, 0%Z, k) = calc_drag_cmpct two true (fun _ => 1) 1 lin_wind 0 (x, 0%Z, k)).
  { intros. unfold calc_drag_cmpct, Gv. field. }
  rewrite !E, !lin_drag by lra. unfold Gv, one_dx. field.
Qed.
