(** Proofs on heating above a ground: flow in a plane, mirror images, interchanged axes. *)
From Coq Require Import ZArith Reals Lra Lia Bool.
From Verif Require Import Stencil SpecReal SpecStress ModelStress ModelHeat SpecHeat SpecGround ProofsGround7 ProofsWarm.
Local Open Scope R_scope.

Section Plane.
  Variables (dx2 dx3 : nat -> R) (nug : bool) (G : idx -> R) (nz : Z) (h pr : R) (km2 km3 : nat -> idx -> R) (T : idx -> R).
  Hypothesis D0 : dx3 0%nat = dx2 0%nat.
  Hypothesis D2 : dx3 2%nat = dx2 1%nat.
  Hypothesis K0 : forall i, km3 0%nat i = km2 0%nat (plane_idx i).
  Hypothesis K2 : forall i, km3 2%nat i = km2 1%nat (plane_idx i).
  Lemma plane_heat x y z : hflux_frc three dx3 nug (fun i => G (plane_idx i)) nz h pr km3 (fun i => T (plane_idx i)) (x, y, z) =
    hflux_frc two dx2 nug G nz h pr km2 T (x, z, 0%Z).
  Proof.
    unfold hflux_frc, filled, hflux_srfc. cbn [vax Nat.eqb lev ax]. unfold heat_flux, grad_tht, Gv. cbn [ax]. rewrite !K0, !K2, D0, D2. cbn [plane_idx].
    replace (T (x, z, 0%Z) - T (x, z, 0%Z)) with 0 by ring. destruct nug; repeat lvl; unfold Rdiv; ring.
  Qed.
End Plane.
Lemma mirror_heat nd dx nug G nz h pr km T i :
  hflux_frc nd dx nug (fun j => G (mirror_idx j)) nz h pr (fun d j => km d (mirror_idx j)) (fun j => T (mirror_idx j)) i =
  hflux_frc nd dx nug G nz h pr km T (mirror_idx i).
Proof.
  destruct i as [[x y] z]. unfold hflux_frc, filled, hflux_srfc. destruct nd; cbn [vax Nat.eqb lev ax]; unfold heat_flux, grad_tht, Gv; cbn [ax mirror_idx lev];
    change (x + -1)%Z with (x - 1)%Z; change (- x + -1)%Z with (- x - 1)%Z; nz;
    replace (x - 1 + 1)%Z with x by lia; replace (-1 - x + 1)%Z with (- x)%Z by lia; destruct nug; repeat lvl; unfold Rdiv; ring.
Qed.
Lemma swap_heat dx nug G nz h pr km T i :
  hflux_frc three (fun d => dx (swap_axis d)) nug (fun j => G (swap_idx j)) nz h pr (fun d j => km (swap_axis d) (swap_idx j)) (fun j => T (swap_idx j)) i =
  hflux_frc three dx nug G nz h pr km T (swap_idx i).
Proof.
  destruct i as [[x y] z]. unfold hflux_frc, filled, hflux_srfc. cbn [vax Nat.eqb lev ax]; unfold heat_flux, grad_tht, Gv; cbn [ax swap_idx swap_axis lev].
  unfold Rdiv. destruct nug; repeat lvl; ring.
Qed.
Lemma heat_case : hflux_frc three (fun _ => 1) false (fun _ => 1) 3 0 1 (fun _ _ => 1) (fun i => warm_col (plane_idx i)) (5, 7, 1)%Z = 1.
Proof.
  change (fun _ : idx => 1) with (fun i : idx => (fun _ : idx => 1) (plane_idx i)) at 1.
  rewrite (plane_heat (fun _ => 1) (fun _ => 1) false (fun _ => 1) 3 0 1 (fun _ _ => 1) (fun _ _ => 1) warm_col); try reflexivity.
  unfold hflux_frc, filled, heat_flux, grad_tht, warm_col, hflux_srfc, Gv; cbn; field.
Qed.
