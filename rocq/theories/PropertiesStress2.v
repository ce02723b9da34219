(** Property theorems: stresses of uniformly sheared flows (C111). *)
From Coq Require Import ZArith Reals Lra Lia.
From Verif Require Import Stencil SpecReal SpecStress SpecStress2 ModelStress ProofsStress7.
Local Open Scope R_scope.

(** C111: stresses do not depend on the orientation of the coordinate axes: a flow
    with uniform gradients turned by any rotation (or reflection) has the turned
    stress tensor, with constant or eddy viscosity, in two and three dimensions
    and with all three differencings, also on grids with unequal spacings. *)
Theorem C111_stress_isotropic : forall nd df cl dx nug G c c' w q i d e, (forall a, dx a <> 0) -> (df = compact -> nug = false) ->
  (forall s, cl <> SmgAni s) -> orthogonal (ndn nd) q -> (d < ndn nd)%nat -> (e < ndn nd)%nat ->
  stress dx nug G nd df cl (uniform_shear dx nd c' (rotated (ndn nd) q w)) i d e =
  rotated (ndn nd) q (stress dx nug G nd df cl (uniform_shear dx nd c w) i) d e.
Proof. exact isotropic. Qed.
Print Assumptions C111_stress_isotropic.

(** C111: the eddy viscosity of a uniformly sheared flow is the squared constant
    times filter width, times half the sum of the squares of all nine (four)
    components of the deformation. *)
Theorem C111_eddy_stress : forall nd df s dx nug G c w i d e, (forall a, dx a <> 0) -> (df = compact -> nug = false) ->
  (d < ndn nd)%nat -> (e < ndn nd)%nat ->
  stress dx nug G nd df (Smg s) (uniform_shear dx nd c w) i d e =
  (s * (axes (ndn nd) dx / 3)) ^ 2 * (axes (ndn nd) (fun f => axes (ndn nd) (fun g => (w f g + w g f) ^ 2)) / 2) * (w d e + w e d).
Proof. exact shear_stress. Qed.
Print Assumptions C111_eddy_stress.

Example C111_case : forall nd, orthogonal (ndn nd) turn /\ rotated (ndn nd) turn pure_shear 0%nat 0%nat = - (24 / 25) /\
  stress (fun _ => 1) false (fun _ => 1) nd normal (Smg 3) (uniform_shear (fun _ => 1) nd (fun _ => 0) pure_shear) (0, 0, 0)%Z 0%nat 1%nat =
  match nd with two => 32 | three => 72 end.
Proof.
  intros nd. split; [|split].
  - intros d e Hd He. unfold delta. destruct nd; cbn [ndn] in *; destruct d as [|[|[|d]]]; try lia; destruct e as [|[|[|e]]]; try lia;
      cbn; split; lra.
  - destruct nd; unfold rotated; cbn [ndn axes turn pure_shear]; lra.
  - rewrite C111_eddy_stress by (intros; try discriminate; try lra; destruct nd; cbn; lia). destruct nd; cbn [ndn axes pure_shear]; lra.
Qed.
