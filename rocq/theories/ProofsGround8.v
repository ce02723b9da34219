(** Examples for ProofsGround6.v and ProofsGround7.v. *)
From Coq Require Import ZArith Reals Lra Lia Bool.
From Verif Require Import Stencil SpecReal SpecStress ModelStress ModelHeat SpecHeat ModelGround SpecGround
  ProofsGround ProofsGround2 ProofsGround3 ProofsGround5 ProofsGround6 ProofsGround7.
Local Open Scope R_scope.

(** the wind of the other examples, with something else stored outside of three levels *)
Definition lin_rubbish : fields := fun c i => if ((0 <=? coord 1 i) && (coord 1 i <? 3))%Z then lin_wind c i else 1000.
Lemma rubbish_same : (forall c, same_inside two 3 (lin_wind c) (lin_rubbish c)) /\ lin_rubbish 0%nat (0, 3, 0)%Z <> lin_wind 0%nat (0, 3, 0)%Z /\
  ground_rhs two one_dx true (fun _ => 2) 3 1 (Smg 1) lin_rubbish (fun _ _ => 0) 0%nat (0, 1, 0)%Z = - (8 / 3).
Proof.
  assert (S : forall c, same_inside two 3 (lin_wind c) (lin_rubbish c)).
  { intros c i H. unfold lin_rubbish. cbn [upw] in H. destruct (Z.leb_spec 0 (coord 1 i)); [|lia]. destruct (Z.ltb_spec (coord 1 i) 3); [reflexivity|lia]. }
  split; [exact S|split].
  - cbn. lra.
  - rewrite <- (proj2 lin_forces). symmetry.
    apply (inside two one_dx true (fun _ => 2) (fun _ => 2) 3 1 (Smg 1) lin_wind lin_rubbish (fun _ _ => 0)); [lia|intros j Hj; reflexivity|exact S|cbn; lia].
Qed.
Lemma fast_drag x z : calc_drag_cmpct two true (fun _ => 1) 1 (faster two (fun _ => 3) lin_wind) 0 (x, 0%Z, z) = 16.
Proof. unfold calc_drag_cmpct, Gv, faster, lin_wind. cbn. rewrite Rabs_right by lra. lra. Qed.
Lemma fast_slow rhs : ground_rhs two one_dx true (fun _ => 1) 3 1 (Dns 5) (faster two (fun _ => 3) lin_wind) rhs 0%nat (0, 0, 0)%Z =
  ground_rhs two one_dx true (fun _ => 1) 3 1 (Dns 5) lin_wind rhs 0%nat (0, 0, 0)%Z - 60.
Proof.
  assert (D : forall d, one_dx d <> 0) by (intros; unfold one_dx; lra).
  rewrite lin_slow.
  assert (F : forall w, ground_rhs two one_dx true (fun _ => 1) 3 1 (Dns 5) w rhs 0%nat (0, 0, 0)%Z = ground_rhs two one_dx true (fun _ => 1) 3 0 (Dns 5) w rhs 0%nat (0, 0, 0)%Z -
    2 * (calc_drag_cmpct two true (fun _ => 1) 1 w 0 (0, 0, 0)%Z + calc_drag_cmpct two true (fun _ => 1) 1 w 0 (-1, 0, 0)%Z) / (one_dx 1%nat * Gv true (fun _ => 1) (0, 0, 0)%Z)).
  { intros w. apply (force_drag two two_cells one_dx true (fun _ => 1) 1 5) with (c := 0%nat); try (cbn; lia); try assumption; intros; lra. }
  rewrite F, (faster_same two one_dx true (fun _ => 1) 3 (Dns 5) lin_wind rhs (fun _ => 3) D).
  rewrite !fast_drag. unfold Gv, one_dx. field.
Qed.
Lemma lin_back : ground_rhs two one_dx true (fun _ => 2) 3 1 (Smg 1) (fun c i => - lin_wind c i) (fun _ _ => 0) 0%nat (0, 1, 0)%Z = 8 / 3.
Proof.
  pose proof (neg_back two one_dx true (fun _ => 2) 3 1 (Smg 1) lin_wind (fun _ _ => 0) 0%nat (0, 1, 0)%Z ltac:(cbn; lia)) as E.
  rewrite (proj2 lin_forces) in E. lra.
Qed.
Lemma lin_mirror : ground_rhs two one_dx true (fun _ => 2) 3 1 (Smg 1) (mirror_vel lin_wind) (mirror_vel (fun _ _ => 0)) 0%nat (0, 1, 0)%Z = 8 / 3.
Proof.
  rewrite (mirror_force one_dx true (fun _ => 2) 3 1 lin_wind (fun _ _ => 0) two (Smg 1) 0%nat (0, 1, 0)%Z) by (cbn; lia).
  cbn [mirror_vel mirror_idx Z.opp]. rewrite (proj2 lin_forces). lra.
Qed.
Lemma lin_swap : ground_rhs three one_dx false (fun _ => 1) 3 1 (Dns 5) (swap_vel (plane_vel lin_wind)) (swap_vel (plane_vel (fun _ _ => 0))) 1%nat (7, 0, 0)%Z =
  ground_rhs three one_dx false (fun _ => 1) 3 0 (Dns 5) (swap_vel (plane_vel lin_wind)) (swap_vel (plane_vel (fun _ _ => 0))) 1%nat (7, 0, 0)%Z - 4.
Proof.
  pose proof (fun cd => swap_force one_dx false (fun _ => 1) 3 cd (plane_vel lin_wind) (plane_vel (fun _ _ => 0)) (Dns 5) 1%nat (7, 0, 0)%Z ltac:(lia)) as E.
  change (fun d => one_dx (swap_axis d)) with one_dx in E. rewrite !E. unfold swap_vel. cbn [swap_axis swap_idx]. exact plane_slow.
Qed.
