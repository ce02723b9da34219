(** Flow in a plane with varying density. *)
From Coq Require Import ZArith Reals Lra Lia Bool.
From Verif Require Import Stencil SpecReal SpecStress ModelStress ModelHeat SpecHeat ModelGround SpecGround ProofsGround3.
Local Open Scope R_scope.

(** density 1, 2, 4 at three levels; one cell of rising air *)
Definition dens (i : idx) : R := if (coord 1 i =? 0)%Z then 1 else if (coord 1 i =? 1)%Z then 2 else 4.
Definition riser : fields := fun c '(x, y, _) => match c with 0%nat => 0 | _ => if ((x =? 0) && (y =? 1))%Z then 1 else 0 end.
Lemma plane_two : ground_rhs two one_dx true dens 3 0 (Dns 1) riser (fun _ _ => 0) 0%nat (1, 1, 0)%Z = - (1 / 6).
Proof.
  unfold ground_rhs. cbv zeta. unfold calc_stress_rhs_cmpct, calc_stress_rhs_cmpct2, fill_tnsr, multiply_sgs_visc, multiply_tnsr_const, calc_deform_cmpct, calc_deform_cmpct2,
    fill_div, calc_vip_div_cmpct, riser, dens, one_dx, Gop, calc_drag_cmpct. cbn. field.
Qed.
Lemma plane_three : ground_rhs three one_dx true (fun i => dens (plane_idx i)) 3 0 (Dns 1) (plane_vel riser) (plane_vel (fun _ _ => 0)) 0%nat (1, 0, 1)%Z = - (1 / 9).
Proof.
  unfold ground_rhs. cbv zeta. unfold calc_stress_rhs_cmpct, calc_stress_rhs_cmpct3, fill_tnsr, multiply_sgs_visc, multiply_tnsr_const, calc_deform_cmpct, calc_deform_cmpct3,
    fill_div, calc_vip_div_cmpct, plane_vel, plane_idx, riser, dens, one_dx, Gop, calc_drag_cmpct. cbn. field.
Qed.
Lemma refuted_density : exists dx G eta v x y z, (forall d, 0 < dx d) /\ (forall i, 0 < G i) /\ 0 < eta /\ (0 <= z < 3)%Z /\
  ground_rhs three dx true (fun i => G (plane_idx i)) 3 0 (Dns eta) (plane_vel v) (plane_vel (fun _ _ => 0)) 0%nat (x, y, z) <>
  ground_rhs two dx true G 3 0 (Dns eta) v (fun _ _ => 0) 0%nat (x, z, 0%Z).
Proof.
  exists one_dx, dens, 1, riser, 1%Z, 0%Z, 1%Z. split; [intros; unfold one_dx; lra|]. split; [intros; unfold dens; destruct (_ =? _)%Z; [lra|]; destruct (_ =? _)%Z; lra|].
  split; [lra|]. split; [lia|]. rewrite plane_two, plane_three. lra.
Qed.
