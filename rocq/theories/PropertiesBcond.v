(** Rigid walls, poles, and halos exchanged between processes (C27-C29). *)
From Coq Require Import ZArith List Bool Reals Lia Lra.
From Verif Require Import ModelIndex ModelBcond SpecBcond ProofsBcond ProofsRemote ProofsBcondEx.
Import ListNotations.
Local Open Scope Z_scope.

(** C27: scalars are mirrored about the walls, which are at the first and the
    last grid point; the domain itself is unchanged. *)
Theorem C27_scalar_mirrored : forall halo i, 1 <= halo -> halo <= last i - first i -> forall a n, 1 <= n <= halo ->
  let a' := rigid_rght_sclr halo i (rigid_left_sclr halo i a) in
  a' (first i - n) = a (first i + n) /\ a' (last i + n) = a (last i - n) /\
  forall j, in_rng j i -> a' j = a j.
Proof. exact rigid_scalar_mirrored. Qed.
Print Assumptions C27_scalar_mirrored.
Example C27_scalar_mirrored_ex :
  let a' := rigid_rght_sclr 2 (0, 4) (rigid_left_sclr 2 (0, 4) (fun j => IZR (j * j))) in
  (a' (-2)%Z = 4 /\ a' 5%Z = 9)%R.
Proof. split; vm_compute; reflexivity. Qed.

(** C27: velocities at faces on the two sides of a wall, at the same distance,
    are opposite: the velocity interpolated to the wall is zero. *)
Theorem C27_no_flow_at_wall : forall halo i, 1 <= halo -> halo <= last i - first i -> forall v n, 1 <= n <= halo ->
  let v' := rigid_rght_vctr halo i false (rigid_left_vctr halo i false v) in
  (v' (first i - n)%Z + v' (first i + n - 1)%Z = 0 /\ v' (last i + n - 1)%Z + v' (last i - n)%Z = 0)%R /\
  forall j, first i <= j < last i -> v' j = v j.
Proof. exact rigid_velocity. Qed.
Print Assumptions C27_no_flow_at_wall.
Example C27_no_flow_at_wall_ex :
  let v' := rigid_rght_vctr 2 (0, 4) false (rigid_left_vctr 2 (0, 4) false (fun j => IZR (j + 7))) in
  (v' (-1)%Z = - 7 /\ v' 0%Z = 7 /\ v' 5%Z = - 9 /\ v' 2%Z = 9)%R.
Proof. cbv zeta. rewrite !rght_vctr, !left_vctr by (cbn; lia). cbn. repeat split; lra. Qed.

(** C27: whatever the fluxes, a step which moves them between cells keeps the
    mass between the walls (half of the edge cells is behind a wall). *)
Theorem C27_mass : forall halo i (m f : Z -> R), 1 <= halo -> first i < last i ->
  let f' := rigid_rght_flux halo i (rigid_left_flux halo i f) in
  walled_mass i (fun j => (m j - (f' j - f' (j - 1)%Z))%R) = walled_mass i m.
Proof. exact rigid_mass. Qed.
Print Assumptions C27_mass.
Example C27_mass_ex : 1 <= 2 /\ first (0, 4) < last (0, 4) /\
  let i := (0, 4) in
  let f' := rigid_rght_flux 2 i (rigid_left_flux 2 i (fun j => IZR j + 1)%R) in
  (walled_mass i (fun j => 1 - (f' j - f' (j - 1)%Z)) = 4 /\ 1 - (f' 0%Z - f' (-1)%Z) = - 1)%R.
Proof. split; [lia|]. split; [cbn; lia|]. cbn. unfold walled_mass, sum_from, rigid_rght_flux, rigid_left_flux, upd. cbn. change (Pos.to_nat 3) with 3%nat. cbn. split; lra. Qed.

(** C27: the two walls are mirror images of each other. *)
Theorem C27_mirror : forall halo i, 1 <= halo ->
  (forall a j, first i - halo <= j <= last i + halo ->
    rigid_rght_sclr halo i (mirror_cells i a) j = mirror_cells i (rigid_left_sclr halo i a) j) /\
  (forall a j, first i - halo <= j <= last i + halo ->
    rigid_rght_pres halo i (mirror_cells i a) j = mirror_cells i (rigid_left_pres halo i a) j) /\
  (forall v j, first i - halo <= j < last i + halo ->
    rigid_rght_vctr halo i false (mirror_faces i v) j = mirror_faces i (rigid_left_vctr halo i false v) j) /\
  (forall v j, rigid_rght_flux halo i (mirror_faces i v) j = mirror_faces i (rigid_left_flux halo i v) j).
Proof.
  exact (fun halo i Hh => conj (rigid_mirror_sclr halo i Hh) (conj (rigid_mirror_pres halo i Hh)
    (conj (rigid_mirror_vctr halo i Hh) (rigid_mirror_flux halo i)))).
Qed.
Print Assumptions C27_mirror.
Example C27_mirror_ex : 1 <= 3 /\ first (0, 9) - 3 <= 11 <= last (0, 9) + 3.
Proof. split; [lia|cbn; lia]. Qed.

(** C27: but for the halos of antidiffusive velocities, with two or more halo
    points, the right wall is not the mirror image of the left one, and not
    reflecting. *)
Theorem C27_antidiffusive_mirror_refuted : exists halo i v j,
  1 <= halo /\ halo <= last i - first i /\ first i - halo <= j < last i + halo /\
  rigid_rght_vctr halo i true (mirror_faces i v) j <> mirror_faces i (rigid_left_vctr halo i true v) j /\
  (rigid_rght_vctr halo i true v (last i + 1)%Z + rigid_rght_vctr halo i true v (last i - 2)%Z)%R <> 0%R /\
  (rigid_left_vctr halo i true v (first i - 2)%Z + rigid_left_vctr halo i true v (first i + 1)%Z)%R = 0%R.
Proof. exact rigid_ad_not_mirror. Qed.
Print Assumptions C27_antidiffusive_mirror_refuted.

(** C28: with an odd number [2 p + 1] of longitudes (the last one repeats the
    first) the neighbour across a pole is the one half a period away: on the
    grid, the same for any periodic field, and the neighbour of the neighbour is
    the starting point. *)
Theorem C28_antipode : forall V p (g : Z -> V) j, 1 <= p -> - p <= j -> periodic (2 * p + 1) g ->
  g (polar_neighbours (2 * p + 1) j) = g (j + p) /\ 0 <= polar_neighbours (2 * p + 1) j < 2 * p.
Proof. exact polar_antipode. Qed.
Print Assumptions C28_antipode.
Example C28_antipode_ex : periodic 9 (fun j => j mod 8) /\ polar_neighbours 9 6 = 2 /\ polar_neighbours 9 (-2) = 2 /\ polar_neighbours 9 9 = 5.
Proof.
  split; [|repeat split]. intros j. replace (j + (9 - 1)) with (j + 1 * 8) by lia. apply Z.mod_add. lia.
Qed.
Theorem C28_involution : forall p j, 1 <= p -> 0 <= j < 2 * p ->
  polar_neighbours (2 * p + 1) (polar_neighbours (2 * p + 1) j) = j.
Proof. exact polar_involution. Qed.
Print Assumptions C28_involution.
Example C28_involution_ex : polar_neighbours 9 3 = 7 /\ polar_neighbours 9 7 = 3.
Proof. split; reflexivity. Qed.

(** C28: rows beyond a pole are the rows on this side of it, in reverse order,
    taken across the pole. *)
Theorem C28_rows : forall V halo i nlon, 1 <= halo -> forall (a : Z -> Z -> V) j k q,
  0 <= k < halo -> first j <= q <= last j ->
  polar_left_sclr V halo i nlon j a (first i - 1 - k) q = a (first i + k) (polar_neighbours nlon q) /\
  polar_rght_sclr V halo i nlon j a (last i + 1 + k) q = a (last i - k) (polar_neighbours nlon q) /\
  polar_left_nrml V halo i nlon j a (first i - 1 - k) q = a (first i + k) (polar_neighbours nlon q).
Proof.
  exact (fun V halo i nlon Hh a j k q Hk Hq => conj (polar_left V halo i nlon Hh a j k q Hk Hq)
    (conj (polar_rght V halo i nlon Hh a j k q Hk Hq) (polar_left_n V halo i nlon Hh a j k q Hk Hq))).
Qed.
Print Assumptions C28_rows.
Example C28_rows_ex : polar_left_sclr Z 2 (0, 4) 9 (0, 8) (fun i j => 10 * i + j) (-2) 1 = 15.
Proof. reflexivity. Qed.

(** C28: not so for an even number of longitudes, ... *)
Theorem C28_even_longitudes_refuted : exists nlon j j',
  4 <= nlon /\ 0 <= j < nlon - 1 /\ 0 <= j' < nlon - 1 /\ j <> j' /\ polar_neighbours nlon j = polar_neighbours nlon j'.
Proof. exact even_not_antipodal. Qed.
Print Assumptions C28_even_longitudes_refuted.
(** ... and not for the zonal velocities beyond the right pole, taken one row
    too far from it. *)
Theorem C28_right_pole_velocity_refuted : exists halo i nlon j (a : Z -> Z -> Z) k q,
  1 <= halo /\ halo <= last i - first i /\ Z.odd nlon = true /\ 0 <= k < halo /\ first j <= q <= last j /\
  polar_left_nrml Z halo i nlon j a (first i - 1 - k) q = a (first i + k) (polar_neighbours nlon q) /\
  polar_rght_nrml Z halo i nlon j a (last i + 1 + k) q <> a (last i - k) (polar_neighbours nlon q).
Proof. exact right_pole_off. Qed.
Print Assumptions C28_right_pole_velocity_refuted.

(** C29: halos of scalars.  Whatever the order in which processes proceed, once
    all of them are done with both their boundary conditions, every process
    holds at its own points and [halo] points around the values of the global
    field; with ends of the domain joined also beyond these ends. *)
Theorem C29_scalars : forall V halo n size cyclic, 2 <= size -> 1 <= halo -> wide_parts halo n size cyclic ->
  forall g : Z -> V, (cyclic = true -> periodic n g) -> forall d s,
  (forall r j, 0 <= r < size -> in_rng j (part n size r) -> d r j = g j) ->
  sclr_exchange V halo n size cyclic (start V d) s -> finished V size s ->
  forall r j, 0 <= r < size -> in_rng j (rng_ext (part n size r) halo) -> cyclic = true \/ 0 <= j <= n - 1 ->
  data s r j = g j.
Proof. exact sclr_values. Qed.
Print Assumptions C29_scalars.
Example C29_scalars_ex : 2 <= 4 /\ 1 <= 3 /\ wide_parts 3 17 4 true /\ periodic 17 (fun j => j mod 16) /\
  rng_ext (part 17 4 1) 3 = (1, 10).
Proof.
  split; [lia|]. split; [lia|]. split; [exact parts_ex|]. split; [|reflexivity].
  intros j. replace (j + (17 - 1)) with (j + 1 * 16) by lia. apply Z.mod_add. lia.
Qed.

(** C29: the same for staggered vector components. *)
Theorem C29_vectors : forall V halo n size cyclic, 2 <= size -> 1 <= halo -> wide_parts halo n size cyclic ->
  forall g : Z -> V, (cyclic = true -> periodic n g) -> forall d s, 2 <= rlen (part n size 0) ->
  (forall r j, 0 <= r < size -> in_rng j (own_faces n size r) -> d r j = g j) ->
  vctr_exchange V halo n size cyclic (start V d) s -> finished V size s ->
  forall r j, 0 <= r < size -> first (part n size r) - halo <= j < last (part n size r) + halo ->
  cyclic = true \/ 0 <= j < n - 1 -> data s r j = g j.
Proof. exact vctr_values. Qed.
Print Assumptions C29_vectors.
Example C29_vectors_ex : wide_parts 3 17 4 true /\ 2 <= rlen (part 17 4 0) /\ own_faces 17 4 1 = (3, 6).
Proof. split; [exact parts_ex|]. split; [vm_compute; discriminate|reflexivity]. Qed.

(** C29: for any number of processes, odd or even, no execution of an exchange
    deadlocks, none goes on for ever, and messages always have the length
    the receiver expects (a process receiving one of another length would be
    stuck). *)
Theorem C29_no_deadlock : forall V halo n size cyclic, 2 <= size -> 1 <= halo -> wide_parts halo n size cyclic -> forall d,
  (forall s, sclr_exchange V halo n size cyclic (start V d) s ->
     finished V size s \/ exists t, sclr_step V halo n size cyclic s t) /\
  (forall s, vctr_exchange V halo n size cyclic (start V d) s ->
     finished V size s \/ exists t, vctr_step V halo n size cyclic s t).
Proof.
  exact (fun V halo n size cyclic Hs Hh Hp d => conj (sclr_progress V halo n size cyclic Hs Hh Hp d) (vctr_progress V halo n size cyclic Hs Hh Hp d)).
Qed.
Print Assumptions C29_no_deadlock.
Example C29_no_deadlock_ex : wide_parts 3 17 4 true.
Proof. exact parts_ex. Qed.
Theorem C29_ends : forall V halo n size cyclic, 2 <= size -> 1 <= halo -> wide_parts halo n size cyclic ->
  forall (f : nat -> net V) d, f O = start V d ->
  ~ (forall k, sclr_step V halo n size cyclic (f k) (f (S k))) /\
  ~ (forall k, vctr_step V halo n size cyclic (f k) (f (S k))).
Proof.
  exact (fun V halo n size cyclic Hs Hh Hp f d F =>
    conj (sclr_ends V halo n size cyclic Hs Hh Hp f d F) (vctr_ends V halo n size cyclic Hs Hh Hp f d F)).
Qed.
Print Assumptions C29_ends.
Example C29_ends_ex : exists t : net Z, sclr_exchange Z 3 17 4 true (start Z (fun r j => r)) t /\ finished Z 4 t.
Proof. apply (sclr_completes Z 3 17 4 true ltac:(lia) ltac:(lia) parts_ex) with (d := fun r j => r). constructor. Qed.

(** C29: the pieces collected from all processes make up the global field. *)
Theorem C29_gather : forall V n size (d : Z -> Z -> V) (g : Z -> V) out, 0 <= n -> 0 < size ->
  (forall r j, 0 <= r < size -> in_rng j (part n size r) -> d r j = g j) ->
  forall j, gather V n size d out j = if (0 <=? j) && (j <? n) then g j else out j.
Proof. exact gather_spec. Qed.
Print Assumptions C29_gather.
Example C29_gather_ex : map (gather Z 7 3 (fun r j => if (first (part 7 3 r) <=? j) && (j <=? last (part 7 3 r)) then j * j else -1) (fun _ => -5)) [-1; 0; 1; 2; 3; 4; 5; 6; 7]
  = [-5; 0; 1; 4; 9; 16; 25; 36; -5].
Proof. vm_compute. reflexivity. Qed.
