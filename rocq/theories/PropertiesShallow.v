(** Property theorems: the shallow-water solver. *)
From Coq Require Import ZArith List Bool Reals Lra Lia.
From Verif Require Import ModelRun Lang Stencil FormCommon SpecSym2 ModelVip ModelShallow SpecShallow ProofsShallow2 ProofsShallow3 ProofsShallow4.
Import ListNotations.
Local Open Scope R_scope.

(** C100: on a cyclic domain no water is lost or made, and without G factors
    neither is momentum. *)
Theorem C100_shallow_water_conserves : forall p nx ny, (0 < nx)%Z -> (0 < ny)%Z ->
  same_after (box nx ny) (G_of p) -> (forall x, G_of p x <> 0) ->
  forall q h n t, (forall d, same_after (box nx ny) (q d)) -> same_after (box nx ny) h -> sw_run p n (sw_start p q h) t ->
  total_of nx ny (fun x => G_of p x * h_ t x) = total_of nx ny (fun x => G_of p x * h x) /\
  (nug (w_o p) = false -> forall d, In d xy -> total_of nx ny (q_ t d) = total_of nx ny (q d)).
Proof. exact conserved. Qed.
Print Assumptions C100_shallow_water_conserves.
Example C100_example : forall n, exists t, sw_run waves n (sw_start waves drift bump) t /\
  total_of 4 5 (fun x => G_of waves x * h_ t x) = 25 /\ total_of 4 5 (q_ t DX) = 5 / 4.
Proof.
  intros n. destruct (waves_run n) as (t & R). exists t. split; [exact R|].
  destruct waves_start as (A & B & _).
  destruct (C100_shallow_water_conserves waves 4 5 eq_refl eq_refl (fun _ _ _ => eq_refl) ltac:(intros; rewrite waves_G; lra) drift bump n t A B R) as [M1 M2].
  rewrite M1, (M2 eq_refl DX (or_introl eq_refl)).
  split; unfold total_of, SpecReal.total, G_of, drift, bump, tab; cbn; change (Pos.to_nat 4) with 4%nat; change (Pos.to_nat 5) with 5%nat; cbn; lra.
Qed.

(** C101: a uniform current, in particular a lake at rest, stays as it is for
    ever; a lake at rest also with any G factors. *)
Theorem C101_uniform_current_stays : forall p H Q, second_order p -> (w_veps p = 0 -> H <> 0) ->
  (nug (w_o p) = false \/ forall d, In d xy -> Q d = 0) ->
  forall q h n, (forall d x, In d xy -> q d x = Q d) -> (forall x, h x = H) ->
  exists t, sw_run p n (sw_start p q h) t /\ (forall x, h_ t x = H) /\ (forall d x, In d xy -> q_ t d x = Q d).
Proof. exact uniform_stays. Qed.
Print Assumptions C101_uniform_current_stays.
Example C101_example : forall n, exists t, sw_run (pool 1 0) n (sw_start (pool 1 0) (fun d _ => match d with DX => 3 | _ => -1 end) (fun _ => 2)) t /\
  (forall x, h_ t x = 2) /\ q_ t DX (0, 0, 0)%Z = 3 /\ q_ t DY (5, 1, 0)%Z = -1.
Proof.
  intros n. destruct (C101_uniform_current_stays (pool 1 0) 2 (fun d => match d with DX => 3 | _ => -1 end) ltac:(split; reflexivity) ltac:(intros; lra)
    (or_introl eq_refl) _ _ n (fun _ _ _ => eq_refl) (fun _ => eq_refl)) as (t & R & A & B).
  exists t. repeat split; auto; rewrite B; cbn; auto.
Qed.

(** C102: depths never become negative (and the assertions on that never fire)
    while no step moves more out of a cell than is there. *)
Theorem C102_depth_not_negative : forall p q h n t, keeps_sign p -> (forall x, 0 < G_of p x) -> (forall x, 0 <= h x) ->
  (forall m s, (m < n)%nat -> sw_run p m (sw_start p q h) s -> forall x, outflow (advector p s) x <= G_of p x) ->
  sw_run p n (sw_start p q h) t -> forall x, 0 <= h_ t x.
Proof. exact depth_stays. Qed.
Print Assumptions C102_depth_not_negative.
Theorem C102_depth_not_negative_basic : forall p m q h n t, basic p -> 0 < m -> (forall x, m <= G_of p x <= 2 * m) -> (forall x, 0 <= h x) ->
  (forall k s, (k < n)%nat -> sw_run p k (sw_start p q h) s -> gentle_flow m (advector p s)) ->
  sw_run p n (sw_start p q h) t -> forall x, 0 <= h_ t x.
Proof. exact depth_gentle. Qed.
Print Assumptions C102_depth_not_negative_basic.
Example C102_example_basic : basic waves2 /\ w_nit waves2 = 2%nat /\ gentle_flow 1 (advector waves2 (sw_start waves2 drift bump)).
Proof. exact (conj waves2_basic (conj eq_refl waves2_gentle)). Qed.
Example C102_example : (forall m s, (m < 1)%nat -> sw_run waves m (sw_start waves drift bump) s -> forall x, outflow (advector waves s) x <= G_of waves x) /\
  keeps_sign waves /\ forall x, h_ (sw_step waves (sw_start waves drift bump)) x = tab (31 / 16) (9 / 8) 1 (15 / 16) x.
Proof.
  split; [|split; [apply waves_blind|exact waves_depth]]. intros m s Hm R. inversion R; subst; [exact waves_outflow|]. exfalso. lia.
Qed.

(** C103: a mirror, an exchange of the axes and translations commute with the
    solver. *)
Theorem C103_mirror_image : forall p d S, In d xy -> sign_blind p -> forall q h q' h' n t,
  (forall e x, In e xy -> q' e x = flip (dim_eqb e d) (q e (mirror d S x))) -> (forall x, h' x = h (mirror d S x)) ->
  sw_run p n (sw_start p q h) t ->
  exists t', sw_run (in_mirror d S p) n (sw_start (in_mirror d S p) q' h') t' /\
    (forall e x, In e xy -> q_ t' e x = flip (dim_eqb e d) (q_ t e (mirror d S x))) /\ forall x, h_ t' x = h_ t (mirror d S x).
Proof. exact mirrored. Qed.
Print Assumptions C103_mirror_image.
Theorem C103_axes_exchanged : forall p q h q' h' n t,
  (forall d x, In d xy -> q' d x = q (swap_axis d) (swapped x)) -> (forall x, h' x = h (swapped x)) ->
  sw_run p n (sw_start p q h) t ->
  exists t', sw_run (exchanged p) n (sw_start (exchanged p) q' h') t' /\
    (forall d x, In d xy -> q_ t' d x = q_ t (swap_axis d) (swapped x)) /\ forall x, h_ t' x = h_ t (swapped x).
Proof. exact axes_exchanged. Qed.
Print Assumptions C103_axes_exchanged.
Example C103_example : sign_blind waves /\ (forall n, exists t, sw_run waves n (sw_start waves drift bump) t) /\
  bump (mirror DX 1 (1, 2, 0)%Z) = 2 /\ bump (1, 2, 0)%Z = 1 /\ bump (swapped (1, 4, 0)%Z) = 2.
Proof. split; [apply waves_blind|]. split; [exact waves_run|]. unfold bump, tab; cbn; repeat split; lra. Qed.

(** C104: the result does not depend on the units: depths times [a], velocities
    times [b], lengths times [c] come out if gravity, time step, grid step and
    threshold are given in the new units. *)
Theorem C104_dynamic_similarity : forall p a b c, 0 < a -> 0 < b -> 0 < c -> (forall d, In d xy -> w_di p d <> 0) -> unit_blind p ->
  forall q h q' h' n t, (forall d x, In d xy -> q' d x = a * b * q d x) -> (forall x, h' x = a * h x) ->
  sw_run p n (sw_start p q h) t ->
  exists t', sw_run (rescaled a b c p) n (sw_start (rescaled a b c p) q' h') t' /\
    (forall d x, In d xy -> q_ t' d x = a * b * q_ t d x) /\ forall x, h_ t' x = a * h_ t x.
Proof. exact similar. Qed.
Print Assumptions C104_dynamic_similarity.
Example C104_example : unit_blind waves /\ (forall n, exists t, sw_run waves n (sw_start waves drift bump) t) /\
  w_grav (rescaled 10 2 3 waves) = 2 / 5 /\ w_dt (rescaled 10 2 3 waves) = 3 / 2.
Proof. split; [apply waves_blind|]. split; [exact waves_run|]. cbn. split; lra. Qed.

(** C105: data that do not vary in some direction, or repeat, give results that
    do not vary or repeat; flow along one axis stays along that axis. *)
Theorem C105_translations : forall p vs, same_after vs (G_of p) -> forall q h n t,
  (forall d, same_after vs (q d)) -> same_after vs h -> sw_run p n (sw_start p q h) t ->
  (forall d, same_after vs (q_ t d)) /\ same_after vs (h_ t).
Proof. intros p vs HG q h n t Hq Hh R. exact (conj (p_q vs t (per_run p vs HG n _ t (per_start p vs q h Hq Hh) R)) (p_h vs t (per_run p vs HG n _ t (per_start p vs q h Hq Hh) R))). Qed.
Print Assumptions C105_translations.
Theorem C105_one_dimensional_flow : forall p q h n t, iga (w_o p) = false \/ sign_blind p -> same_after [(0, 1, 0)%Z] (G_of p) ->
  (forall d, same_after [(0, 1, 0)%Z] (q d)) -> same_after [(0, 1, 0)%Z] h -> (forall x, q DY x = 0) ->
  sw_run p n (sw_start p q h) t ->
  same_after [(0, 1, 0)%Z] (h_ t) /\ same_after [(0, 1, 0)%Z] (q_ t DX) /\ forall x, q_ t DY x = 0.
Proof. exact one_dimensional. Qed.
Print Assumptions C105_one_dimensional_flow.
Example C105_example : same_after [(0, 1, 0)%Z] bump /\ (forall d, same_after [(0, 1, 0)%Z] (drift d)) /\ (forall x, drift DY x = 0) /\
  forall n, exists t, sw_run waves n (sw_start waves drift bump) t.
Proof. destruct waves_start as (_ & _ & A & B & C). auto using waves_run. Qed.

(** C106: the forcing is exactly minus gravity times depth times slope wherever
    the depth is a polynomial of degree two. *)
Theorem C106_forcing_exact : forall p a b m d x, In d xy -> w_di p d <> 0 -> m DX DY = m DY DX ->
  update_rhs p (parabolic p a b m) d x = - (w_grav p * parabolic p a b m x * slope p b m d x).
Proof. exact forcing_exact. Qed.
Print Assumptions C106_forcing_exact.
Example C106_example : update_rhs (pool 2 0) (parabolic (pool 2 0) 1 (fun _ => 3) (fun _ _ => 4)) DX (1, 2, 0)%Z = -840.
Proof. rewrite C106_forcing_exact by (cbn; auto; lra). unfold parabolic, slope, comp. cbn. lra. Qed.

(** C107: without gravity a uniform velocity stays uniform, whatever the depths. *)
Theorem C107_uniform_velocity_stays : forall p u q h n t, w_grav p = 0 -> w_veps p = 0 -> unit_blind p ->
  (forall d, In d xy -> 0 <= u d \/ oabs (w_o p) = true \/ iga (w_o p) = true \/ w_nit p = 1%nat) ->
  (forall d x, In d xy -> q d x = u d * h x) -> sw_run p n (sw_start p q h) t -> forall d x, In d xy -> q_ t d x = u d * h_ t x.
Proof. exact uniform_velocity. Qed.
Print Assumptions C107_uniform_velocity_stays.
Example C107_example : exists t, sw_run (pool 0 0) 1 (sw_start (pool 0 0) (fun d x => match d with DX => 1 / 2 * bump x | _ => 0 * bump x end) bump) t.
Proof. eexists. constructor; [constructor|]. intros _ x. cbn. unfold bump. apply tab_all; lra. Qed.

(** C108 does not hold: with a threshold for the division by depth, water that
    becomes shallower than the threshold gets half its former velocity with the
    opposite sign: though no velocity is ever negative, water appears in an
    empty cell behind an empty one. *)
Theorem C108_no_backward_flow_refuted : exists p q h s t, w_grav p = 0 /\ keeps_sign p /\ 0 < w_veps p /\
  same_after (box 4 4) (q DX) /\ same_after (box 4 4) h /\
  (forall x, 0 <= h x /\ 0 <= q DX x /\ q DY x = 0) /\
  sw_run p 1 (sw_start p q h) s /\ (forall x, 0 <= h_ s x /\ 0 <= q_ s DX x /\ q_ s DY x = 0) /\
  sw_run p 2 (sw_start p q h) t /\
  (forall j, h_ s (2, j, 0)%Z = 0 /\ h_ s (3, j, 0)%Z = 0 /\ h_ t (3, j, 0)%Z = 1 / 4).
Proof. exact backward. Qed.
Print Assumptions C108_no_backward_flow_refuted.
