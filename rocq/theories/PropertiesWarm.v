(** Properties of heating above a ground. *)
From Coq Require Import ZArith Reals.
From Verif Require Import Stencil SpecStress ModelStress ModelHeat SpecHeat SpecGround ProofsWarm ProofsWarm2.
Local Open Scope R_scope.

(** C144: without surface flux the hottest cell is never heated and the coldest never cooled *)
Theorem C144_hottest : forall nd dx nug G nz pr km,
  (2 <= nz)%Z -> (forall d, 0 < dx d) -> (forall i, 0 < G i) -> 0 < pr -> (forall d i, 0 <= km d i) ->
  forall T i, (0 <= coord (upw nd) i < nz)%Z -> (forall j, (0 <= coord (upw nd) j < nz)%Z -> T j <= T i) ->
  hflux_frc nd dx nug G nz 0 pr km T i <= 0.
Proof. exact hottest. Qed.
Print Assumptions C144_hottest.
Theorem C144_coldest : forall nd dx nug G nz pr km,
  (2 <= nz)%Z -> (forall d, 0 < dx d) -> (forall i, 0 < G i) -> 0 < pr -> (forall d i, 0 <= km d i) ->
  forall T i, (0 <= coord (upw nd) i < nz)%Z -> (forall j, (0 <= coord (upw nd) j < nz)%Z -> T i <= T j) ->
  0 <= hflux_frc nd dx nug G nz 0 pr km T i.
Proof. exact coldest. Qed.
Print Assumptions C144_coldest.
(** a column with warm ground *)
Example C144_example : (forall j, (0 <= coord 1 j < 3)%Z -> warm_col j <= warm_col (0, 0, 0)%Z) /\ (forall j, (0 <= coord 1 j < 3)%Z -> warm_col (0, 1, 0)%Z <= warm_col j) /\
  hflux_frc two (fun _ => 1) false (fun _ => 1) 3 0 1 (fun _ _ => 1) warm_col (0, 0, 0)%Z = -2 /\
  hflux_frc two (fun _ => 1) false (fun _ => 1) 3 0 1 (fun _ _ => 1) warm_col (0, 1, 0)%Z = 1.
Proof. exact warm_case. Qed.

(** C145: heatings by given viscosities add up, and a constant added to temperature changes nothing *)
Theorem C145_superposition : forall nd dx nug G nz pr km h h' a b T T' i,
  hflux_frc nd dx nug G nz (a * h + b * h') pr km (fun j => a * T j + b * T' j) i =
  a * hflux_frc nd dx nug G nz h pr km T i + b * hflux_frc nd dx nug G nz h' pr km T' i.
Proof. exact warm_sum. Qed.
Print Assumptions C145_superposition.
Theorem C145_offset : forall nd dx nug G nz pr km h c T i,
  hflux_frc nd dx nug G nz h pr km (fun j => T j + c) i = hflux_frc nd dx nug G nz h pr km T i.
Proof. exact warm_const. Qed.
Print Assumptions C145_offset.
Example C145_example : hflux_frc two (fun _ => 1) false (fun _ => 1) 3 0 1 (fun _ _ => 1) (fun j => warm_col j + 300) (0, 0, 0)%Z = -2.
Proof. exact sum_case. Qed.

(** C146: what is stored outside of the levels of the domain doesn't matter *)
Theorem C146_heating_reads_inside_only : forall nd dx nug G G' nz h pr km km' T T',
  (2 <= nz)%Z -> same_inside nd nz G G' -> (forall d, same_inside nd nz (km d) (km' d)) -> same_inside nd nz T T' ->
  same_inside nd nz (hflux_frc nd dx nug G nz h pr km T) (hflux_frc nd dx nug G' nz h pr km' T').
Proof. exact warm_inside. Qed.
Print Assumptions C146_heating_reads_inside_only.
Example C146_example : same_inside two 3 warm_col warm_rubbish /\ warm_rubbish (0, 3, 0)%Z = 1000 /\
  hflux_frc two (fun _ => 1) false (fun _ => 1) 3 0 1 (fun _ _ => 1) warm_rubbish (0, 0, 0)%Z = -2.
Proof. exact rubbish_case. Qed.

(** C147: heating doesn't depend on the orientation of the horizontal axes, and air in a plane is heated alike in two dimensions and in three *)
Theorem C147_plane : forall dx2 dx3 nug G nz h pr km2 km3 T, dx3 0%nat = dx2 0%nat -> dx3 2%nat = dx2 1%nat ->
  (forall i, km3 0%nat i = km2 0%nat (plane_idx i)) -> (forall i, km3 2%nat i = km2 1%nat (plane_idx i)) -> forall x y z,
  hflux_frc three dx3 nug (fun i => G (plane_idx i)) nz h pr km3 (fun i => T (plane_idx i)) (x, y, z) =
  hflux_frc two dx2 nug G nz h pr km2 T (x, z, 0%Z).
Proof. exact plane_heat. Qed.
Print Assumptions C147_plane.
Theorem C147_mirrored : forall nd dx nug G nz h pr km T i,
  hflux_frc nd dx nug (fun j => G (mirror_idx j)) nz h pr (fun d j => km d (mirror_idx j)) (fun j => T (mirror_idx j)) i =
  hflux_frc nd dx nug G nz h pr km T (mirror_idx i).
Proof. exact mirror_heat. Qed.
Print Assumptions C147_mirrored.
Theorem C147_interchanged : forall dx nug G nz h pr km T i,
  hflux_frc three (fun d => dx (swap_axis d)) nug (fun j => G (swap_idx j)) nz h pr (fun d j => km (swap_axis d) (swap_idx j)) (fun j => T (swap_idx j)) i =
  hflux_frc three dx nug G nz h pr km T (swap_idx i).
Proof. exact swap_heat. Qed.
Print Assumptions C147_interchanged.
Example C147_example : hflux_frc three (fun _ => 1) false (fun _ => 1) 3 0 1 (fun _ _ => 1) (fun i => warm_col (plane_idx i)) (5, 7, 1)%Z = 1.
Proof. exact heat_case. Qed.
