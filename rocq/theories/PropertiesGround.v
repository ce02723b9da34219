(** Surface drag: momentum, work, units. *)
From Coq Require Import ZArith Reals.
From Verif Require Import Stencil SpecStress ModelStress ModelHeat SpecHeat ModelGround SpecGround ProofsGround ProofsGround2 ProofsGround3 ProofsGround4 ProofsGround5 ProofsGround6 ProofsGround7 ProofsGround8 ProofsGround9.
Local Open Scope R_scope.

(** C136: the stress at the surface is drag coefficient times density times speed times velocity … *)
Theorem C136_drag_law : forall nd (nug : bool) G cdrag v c i, (c < upw nd)%nat ->
  calc_drag_cmpct nd nug G cdrag v c i = drag_law nd (if nug then G else fun _ => 1) cdrag v c i.
Proof. exact drag_eq. Qed.
Print Assumptions C136_drag_law.
(** … and is all the horizontal momentum that viscous forces change, with every closure *)
Theorem C136_momentum : forall nd n dx (nug : bool) G cdrag,
  (forall d, (0 < n d)%Z) -> (forall d, dx d <> 0) -> (forall i, G i <> 0) -> hperiodic nd n G -> (2 <= n (upw nd))%Z ->
  forall cl v rhs c, (c < upw nd)%nat -> (forall e, hperiodic nd n (v e)) ->
  weighted nd n (fun i => (if nug then G i else 1) * (ground_rhs nd dx nug G (n (upw nd)) cdrag cl v rhs c i - rhs c i)) =
  - (2 * ground nd n (drag_law nd (if nug then G else fun _ => 1) cdrag v c) / dx (upw nd)).
Proof. exact momentum_law. Qed.
Print Assumptions C136_momentum.
(** wind of one at the ground, two and three above, density and drag coefficient one, two columns *)
Example C136_example : forall cl rhs, weighted two two_cells (fun i => Gv true (fun _ => 1) i *
  (ground_rhs two one_dx true (fun _ => 1) 3 1 cl lin_wind rhs 0%nat i - rhs 0%nat i)) = - 4.
Proof. exact lin_momentum. Qed.

(** C137: with constant viscosity drag acts on the lowest level only, against the wind, and takes energy out *)
Theorem C137_lowest_level : forall nd n dx nug G cdrag eta, (2 <= n (upw nd))%Z ->
  forall v rhs, (forall d, dx d <> 0) -> (forall i, G i <> 0) ->
  forall c i, (c < upw nd)%nat -> (0 <= coord (upw nd) i)%Z ->
  ground_rhs nd dx nug G (n (upw nd)) cdrag (Dns eta) v rhs c i =
  ground_rhs nd dx nug G (n (upw nd)) 0 (Dns eta) v rhs c i -
  if (coord (upw nd) i =? 0)%Z
  then 2 * (calc_drag_cmpct nd nug G cdrag v c i + calc_drag_cmpct nd nug G cdrag v c (step c (-1) i)) / (dx (upw nd) * Gv nug G i) else 0.
Proof. exact force_drag. Qed.
Print Assumptions C137_lowest_level.
Theorem C137_takes_energy : forall nd n dx nug G cdrag eta v rhs,
  (2 <= n (upw nd))%Z -> (forall d, (0 < n d)%Z) -> (forall d, 0 < dx d) -> (forall i, 0 < G i) ->
  hperiodic nd n G -> (forall e, hperiodic nd n (v e)) -> 0 <= cdrag ->
  weighted nd n (fun i => axes (upw nd) (fun c => v c i * (Gv nug G i *
    (ground_rhs nd dx nug G (n (upw nd)) cdrag (Dns eta) v rhs c i - ground_rhs nd dx nug G (n (upw nd)) 0 (Dns eta) v rhs c i)))) <= 0.
Proof. exact work_neg. Qed.
Print Assumptions C137_takes_energy.
Example C137_example : forall rhs,
  ground_rhs two one_dx true (fun _ => 1) 3 1 (Dns 5) lin_wind rhs 0%nat (0, 0, 0)%Z =
  ground_rhs two one_dx true (fun _ => 1) 3 0 (Dns 5) lin_wind rhs 0%nat (0, 0, 0)%Z - 4.
Proof. exact lin_slow. Qed.

(** C138: without drag the unit of density doesn't matter to eddy viscosities above a ground … *)
Theorem C138_units : forall nd dx G nz lam, (forall i, 0 < G i) -> 0 < lam -> (forall d, dx d <> 0) ->
  forall cl v rhs c i, eddy cl -> (c < upw nd)%nat ->
  ground_rhs nd dx true (fun j => lam * G j) nz 0 cl v rhs c i = ground_rhs nd dx true G nz 0 cl v rhs c i.
Proof. exact unit_free. Qed.
Print Assumptions C138_units.
(** … with drag it does *)
Theorem C138_units_drag_refuted : exists dx cl G cd v lam i,
  (forall d, 0 < dx d) /\ eddy cl /\ (forall j, 0 < G j) /\ 0 < cd /\ 0 < lam /\ (0 <= lev two i < 3)%Z /\
  ground_rhs two dx true (fun j => lam * G j) 3 cd cl v (fun _ _ => 0) 0%nat i <>
  ground_rhs two dx true G 3 cd cl v (fun _ _ => 0) 0%nat i.
Proof. exact refuted_units. Qed.
Print Assumptions C138_units_drag_refuted.
(** the witness: 0 with density 1, - 8 / 3 with density 2 *)
Example C138_example :
  ground_rhs two one_dx true (fun _ => 1) 3 1 (Smg 1) lin_wind (fun _ _ => 0) 0%nat (0, 1, 0)%Z = 0 /\
  ground_rhs two one_dx true (fun _ => 2) 3 1 (Smg 1) lin_wind (fun _ _ => 0) 0%nat (0, 1, 0)%Z = - (8 / 3).
Proof. exact lin_forces. Qed.

(** C139: with every closure viscous forces take at least the work of the drag out of flows
    that pass neither ground nor lid *)
Theorem C139_no_energy_fed : forall nd n dx G cdrag cl,
  (forall d, (0 < n d)%Z) -> (2 <= n (upw nd))%Z -> (forall d, 0 < dx d) -> visc_ok cl -> 0 <= cdrag ->
  forall v rhs, (forall e, hperiodic nd n (v e)) ->
  (forall i, coord (upw nd) i = 0%Z \/ coord (upw nd) i = (n (upw nd) - 1)%Z -> v (upw nd) i = 0) ->
  let loss := 2 * ground nd n (fun i => axes (upw nd) (fun c => drag_law nd (fun _ => 1) cdrag v c i * mid c (v c) i)) / dx (upw nd) in
  weighted nd n (fun i => axes (ndn nd) (fun c => v c i * (ground_rhs nd dx false G (n (upw nd)) cdrag cl v rhs c i - rhs c i))) <= - loss /\ 0 <= loss.
Proof. exact drag_energy. Qed.
Print Assumptions C139_no_energy_fed.
(** the wind of the other examples *)
Example C139_example : (forall d, (0 < two_cells d)%Z) /\ (2 <= two_cells (upw two))%Z /\ (forall d, 0 < one_dx d) /\
  visc_ok (Smg 1) /\ (forall e, hperiodic two two_cells (lin_wind e)) /\ (forall i, lin_wind (upw two) i = 0) /\
  2 * ground two two_cells (fun i => axes (upw two) (fun c => drag_law two (fun _ => 1) 1 lin_wind c i * mid c (lin_wind c) i)) / one_dx (upw two) = 4.
Proof. exact lin_energy. Qed.

(** C140: flow over x and height is slowed alike in two dimensions and in three *)
Theorem C140_plane_flow : forall dx2 dx3 G2 G3 nz cd eta v rhs,
  dx3 0%nat = dx2 0%nat -> dx3 2%nat = dx2 1%nat -> (forall d, dx3 d <> 0) -> forall x y z,
  ground_rhs three dx3 false G3 nz cd (Dns eta) (plane_vel v) (plane_vel rhs) 0%nat (x, y, z) = ground_rhs two dx2 false G2 nz cd (Dns eta) v rhs 0%nat (x, z, 0%Z) /\
  ground_rhs three dx3 false G3 nz cd (Dns eta) (plane_vel v) (plane_vel rhs) 1%nat (x, y, z) = 0 /\
  ground_rhs three dx3 false G3 nz cd (Dns eta) (plane_vel v) (plane_vel rhs) 2%nat (x, y, z) = ground_rhs two dx2 false G2 nz cd (Dns eta) v rhs 1%nat (x, z, 0%Z).
Proof. exact plane_force. Qed.
Print Assumptions C140_plane_flow.
(** spacings that meet the conditions, and a wind that drag slows in three dimensions *)
Example C140_example : ground_rhs three one_dx false (fun _ => 1) 3 1 (Dns 5) (plane_vel lin_wind) (plane_vel (fun _ _ => 0)) 0%nat (0, 7, 0)%Z =
  ground_rhs three one_dx false (fun _ => 1) 3 0 (Dns 5) (plane_vel lin_wind) (plane_vel (fun _ _ => 0)) 0%nat (0, 7, 0)%Z - 4.
Proof. exact plane_slow. Qed.
(** … but not where density varies: the divergence is taken out by halves in two dimensions and by thirds in three *)
Theorem C140_density_refuted : exists dx G eta v x y z, (forall d, 0 < dx d) /\ (forall i, 0 < G i) /\ 0 < eta /\ (0 <= z < 3)%Z /\
  ground_rhs three dx true (fun i => G (plane_idx i)) 3 0 (Dns eta) (plane_vel v) (plane_vel (fun _ _ => 0)) 0%nat (x, y, z) <>
  ground_rhs two dx true G 3 0 (Dns eta) v (fun _ _ => 0) 0%nat (x, z, 0%Z).
Proof. exact refuted_density. Qed.
Print Assumptions C140_density_refuted.

(** C141: what is stored outside of the levels of the domain doesn't matter *)
Theorem C141_reads_inside_only : forall nd dx nug G G' nz cd cl v v' rhs,
  (3 <= nz)%Z -> same_inside nd nz G G' -> (forall c, same_inside nd nz (v c) (v' c)) ->
  forall c, same_inside nd nz (ground_rhs nd dx nug G nz cd cl v rhs c) (ground_rhs nd dx nug G' nz cd cl v' rhs c).
Proof. exact inside. Qed.
Print Assumptions C141_reads_inside_only.
Example C141_example : (forall c, same_inside two 3 (lin_wind c) (lin_rubbish c)) /\ lin_rubbish 0%nat (0, 3, 0)%Z <> lin_wind 0%nat (0, 3, 0)%Z /\
  ground_rhs two one_dx true (fun _ => 2) 3 1 (Smg 1) lin_rubbish (fun _ _ => 0) 0%nat (0, 1, 0)%Z = - (8 / 3).
Proof. exact rubbish_same. Qed.

(** C142: without drag the mean wind doesn't matter *)
Theorem C142_mean_wind : forall nd dx nug G nz cl v rhs a, (forall d, dx d <> 0) ->
  ground_rhs nd dx nug G nz 0 cl (faster nd a v) rhs = ground_rhs nd dx nug G nz 0 cl v rhs.
Proof. exact faster_same. Qed.
Print Assumptions C142_mean_wind.
(** with drag it does, as it should *)
Example C142_example : forall rhs, ground_rhs two one_dx true (fun _ => 1) 3 1 (Dns 5) (faster two (fun _ => 3) lin_wind) rhs 0%nat (0, 0, 0)%Z =
  ground_rhs two one_dx true (fun _ => 1) 3 1 (Dns 5) lin_wind rhs 0%nat (0, 0, 0)%Z - 60.
Proof. exact fast_slow. Qed.

(** C143: no direction along the ground is preferred *)
Theorem C143_reversed : forall nd dx nug G nz cd cl v rhs c i, (c < ndn nd)%nat ->
  ground_rhs nd dx nug G nz cd cl (fun c i => - v c i) rhs c i - rhs c i = - (ground_rhs nd dx nug G nz cd cl v rhs c i - rhs c i).
Proof. exact neg_back. Qed.
Print Assumptions C143_reversed.
Theorem C143_mirrored : forall dx nug G nz cd v rhs nd cl c i, (c < ndn nd)%nat ->
  ground_rhs nd dx nug (fun i => G (mirror_idx i)) nz cd cl (mirror_vel v) (mirror_vel rhs) c i = mirror_vel (ground_rhs nd dx nug G nz cd cl v rhs) c i.
Proof. exact mirror_force. Qed.
Print Assumptions C143_mirrored.
Theorem C143_interchanged : forall dx nug G nz cd v rhs cl c i, (c < 3)%nat ->
  ground_rhs three (fun d => dx (swap_axis d)) nug (fun i => G (swap_idx i)) nz cd cl (swap_vel v) (swap_vel rhs) c i =
  swap_vel (ground_rhs three dx nug G nz cd cl v rhs) c i.
Proof. exact swap_force. Qed.
Print Assumptions C143_interchanged.
Example C143_example :
  ground_rhs two one_dx true (fun _ => 2) 3 1 (Smg 1) (fun c i => - lin_wind c i) (fun _ _ => 0) 0%nat (0, 1, 0)%Z = 8 / 3 /\
  ground_rhs two one_dx true (fun _ => 2) 3 1 (Smg 1) (mirror_vel lin_wind) (mirror_vel (fun _ _ => 0)) 0%nat (0, 1, 0)%Z = 8 / 3 /\
  ground_rhs three one_dx false (fun _ => 1) 3 1 (Dns 5) (swap_vel (plane_vel lin_wind)) (swap_vel (plane_vel (fun _ _ => 0))) 1%nat (7, 0, 0)%Z =
  ground_rhs three one_dx false (fun _ => 1) 3 0 (Dns 5) (swap_vel (plane_vel lin_wind)) (swap_vel (plane_vel (fun _ _ => 0))) 1%nat (7, 0, 0)%Z - 4.
Proof. exact (conj lin_back (conj lin_mirror lin_swap)). Qed.
