(** Witnesses and concrete cases for the boundary conditions. *)
From Coq Require Import ZArith List Bool Reals Lia Lra ZifyBool ZifyNat.
From Verif Require Import ModelIndex ModelBcond SpecBcond ProofsBcond ProofsRemote.
Import ListNotations.
Local Open Scope Z_scope.

Lemma sclr_ends : forall V halo n size cyclic, 2 <= size -> 1 <= halo -> wide_parts halo n size cyclic -> forall (f : nat -> net V) d,
  f O = start V d -> ~ (forall k, sclr_step V halo n size cyclic (f k) (f (S k))).
Proof. intros V halo n size cyclic Hs Hh Hp. exact (remote_terminates V n size cyclic _ _ _ _ 0 Hs (len_sclr halo n size cyclic Hh Hp)). Qed.
Lemma vctr_ends : forall V halo n size cyclic, 2 <= size -> 1 <= halo -> wide_parts halo n size cyclic -> forall (f : nat -> net V) d,
  f O = start V d -> ~ (forall k, vctr_step V halo n size cyclic (f k) (f (S k))).
Proof. intros V halo n size cyclic Hs Hh Hp. exact (remote_terminates V n size cyclic _ _ _ _ 1 Hs (len_vctr halo n size cyclic Hs Hh Hp)). Qed.

Lemma parts_ex : wide_parts 3 17 4 true.
Proof.
  intros r Hr. assert (r = 0 \/ r = 1 \/ r = 2 \/ r = 3) as H by lia.
  destruct H as [-> | [-> | [-> | ->]]]; vm_compute; discriminate.
Qed.

Lemma even_not_antipodal : exists nlon j j',
  4 <= nlon /\ 0 <= j < nlon - 1 /\ 0 <= j' < nlon - 1 /\ j <> j' /\ polar_neighbours nlon j = polar_neighbours nlon j'.
Proof. exists 6, 0, 4. repeat split; try lia. Qed.

Lemma right_pole_off : exists halo i nlon j (a : Z -> Z -> Z) k q,
  1 <= halo /\ halo <= last i - first i /\ Z.odd nlon = true /\ 0 <= k < halo /\ first j <= q <= last j /\
  polar_left_nrml Z halo i nlon j a (first i - 1 - k) q = a (first i + k) (polar_neighbours nlon q) /\
  polar_rght_nrml Z halo i nlon j a (last i + 1 + k) q <> a (last i - k) (polar_neighbours nlon q).
Proof.
  exists 1, (0, 4), 9, (0, 8), (fun i j => 10 * i + j), 0, 3.
  repeat split; try (cbn; lia). vm_compute. discriminate.
Qed.
