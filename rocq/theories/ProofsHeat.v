(** Proofs on heat fluxes and the eddy viscosity of the Boussinesq solvers. *)
From Coq Require Import ZArith Reals Lra Lia Bool.
From Verif Require Import Stencil SpecReal SpecStress ModelStress ModelHeat SpecHeat ProofsCons1D ProofsStress.
Local Open Scope R_scope.

(** ** Sums *)
Lemma sumn_zero n : forall lo, sumn n lo (fun _ => 0) = 0.
Proof. induction n as [|n IH]; intros lo; cbn [sumn]; [reflexivity|]. rewrite IH. ring. Qed.
Lemma sumn_swap a : forall lo b lo' (h : Z -> Z -> R),
  sumn a lo (fun y => sumn b lo' (h y)) = sumn b lo' (fun z => sumn a lo (fun y => h y z)).
Proof.
  induction a as [|a IH]; intros lo b lo' h; cbn [sumn]; [now rewrite sumn_zero|].
  rewrite IH. transitivity (1 * sumn b lo' (h lo) + 1 * sumn b lo' (fun z => sumn a (lo + 1) (fun y => h y z))); [ring|].
  rewrite <- sumn_lin. apply sumn_ext. intros i _. ring.
Qed.
Lemma sumn_last n : forall lo f, sumn (S n) lo f = sumn n lo f + f (lo + Z.of_nat n)%Z.
Proof.
  induction n as [|n IH]; intros lo f.
  - cbn [sumn]. replace (lo + Z.of_nat 0)%Z with lo by lia. ring.
  - change (sumn (S (S n)) lo f) with (f lo + sumn (S n) (lo + 1) f). rewrite IH. cbn [sumn].
    replace (lo + 1 + Z.of_nat n)%Z with (lo + Z.of_nat (S n))%Z by lia. ring.
Qed.

(** summation by parts on a column: weight 1/2 at the ends, given flux [b] at the ground, none at the lid *)
Lemma abel_open n : forall q F, sumn n 0 (fun z => q z * (F z - F (z - 1)%Z)) =
  q (Z.of_nat n) * F (Z.of_nat n - 1)%Z - q 0%Z * F (-1)%Z - sumn n 0 (fun z => F z * (q (z + 1)%Z - q z)).
Proof.
  induction n as [|n IH]; intros q F.
  - cbn [sumn]. change (Z.of_nat 0) with 0%Z. change (0 - 1)%Z with (-1)%Z. ring.
  - rewrite !sumn_last, IH. replace (0 + Z.of_nat n)%Z with (Z.of_nat n) by lia.
    replace (Z.of_nat (S n)) with (Z.of_nat n + 1)%Z by lia. replace (Z.of_nat n + 1 - 1)%Z with (Z.of_nat n) by lia. ring.
Qed.
Lemma sumn_split_first n f : sumn (S n) 0 f = f 0%Z + sumn n 1 f.
Proof. reflexivity. Qed.

Lemma abel nz b q F : (2 <= nz)%Z ->
  F (-1)%Z = 2 * b - F 0%Z -> F (nz - 1)%Z = - F (nz - 2)%Z ->
  total 0 nz (fun z => weight nz z * (q z * (F z - F (z - 1)%Z))) =
  - (b * q 0%Z) - total 0 nz (fun z => if (z <? nz - 1)%Z then F z * (q (z + 1)%Z - q z) else 0).
Proof.
  intros Hz H0 H1.
  destruct (Z_of_nat_complete (nz - 2) ltac:(lia)) as [m Hm].
  unfold total. replace (Z.to_nat (nz - 0)) with (S (S m)) by lia.
  set (W := fun z => weight nz z * (q z * (F z - F (z - 1)%Z))).
  set (V := fun z => if (z <? nz - 1)%Z then F z * (q (z + 1)%Z - q z) else 0).
  assert (E1 : sumn (S (S m)) 0 W = sumn (S (S m)) 0 (fun z => q z * (F z - F (z - 1)%Z))
     - 1 / 2 * (q 0%Z * (F 0%Z - F (-1)%Z)) - 1 / 2 * (q (nz - 1)%Z * (F (nz - 1)%Z - F (nz - 2)%Z))).
  { rewrite (sumn_last (S m) 0 W), (sumn_last (S m) 0 (fun z => q z * (F z - F (z - 1)%Z))).
    rewrite (sumn_split_first m W), (sumn_split_first m (fun z => q z * (F z - F (z - 1)%Z))).
    rewrite (sumn_ext m 1 W (fun z => q z * (F z - F (z - 1)%Z))).
    2:{ intros z Hi. unfold W, weight. destruct (Z.eqb_spec z 0); [lia|]. destruct (Z.eqb_spec z (nz - 1)); [lia|]. cbn [orb]. ring. }
    replace (0 + Z.of_nat (S m))%Z with (nz - 1)%Z by lia. unfold W, weight. cbn [orb Z.eqb].
    rewrite (Z.eqb_refl (nz - 1)), orb_true_r. replace (nz - 1 - 1)%Z with (nz - 2)%Z by lia.
    change (0 - 1)%Z with (-1)%Z. field. }
  assert (E2 : sumn (S (S m)) 0 V = sumn (S m) 0 (fun z => F z * (q (z + 1)%Z - q z))).
  { rewrite sumn_last. rewrite (sumn_ext (S m) 0 V (fun z => F z * (q (z + 1)%Z - q z))).
    2:{ intros z Hi. unfold V. destruct (Z.ltb_spec z (nz - 1)); [reflexivity|lia]. }
    replace (0 + Z.of_nat (S m))%Z with (nz - 1)%Z by lia. unfold V. rewrite Z.ltb_irrefl. ring. }
  rewrite E1, E2, (sumn_last (S m)). replace (0 + Z.of_nat (S m))%Z with (nz - 1)%Z by lia.
  rewrite abel_open. replace (Z.of_nat (S m)) with (nz - 1)%Z by lia.
  replace (nz - 1 - 1)%Z with (nz - 2)%Z by lia. rewrite H0, H1. field.
Qed.

Section Budget.
  Variables (nd : ndims) (n : nat -> Z).
  Hypothesis Hn : forall d, (0 < n d)%Z.

  Definition lift (k : Z) (i : idx) : idx := let '(x, y, z) := i in match nd with two => (x, k, z) | three => (x, y, k) end.
  Lemma cells_col f g : (forall i, total 0 (n (upw nd)) (fun k => f (lift k i)) = total 0 (n (upw nd)) (fun k => g (lift k i))) ->
    cells n f = cells n g.
  Proof.
    intros H. unfold cells. apply total_ext; intros x _. unfold lift in H. destruct nd; cbn [upw] in H.
    - unfold total. rewrite (sumn_swap _ _ _ _ (fun y z => f (x, y, z))), (sumn_swap _ _ _ _ (fun y z => g (x, y, z))).
      apply sumn_ext; intros z _. apply (H (x, 0, z)%Z).
    - apply total_ext; intros y _. apply (H (x, y, 0)%Z).
  Qed.
  Lemma cells_step_h d f : (d < 2)%nat -> (forall i, f (step d (n d) i) = f i) -> cells n (fun i => f (step d 1 i)) = cells n f.
  Proof.
    intros Hd P. assert (N : forall d, (0 <= n d)%Z) by (intro e; specialize (Hn e); lia).
    unfold cells. destruct d as [|[|d]]; [| |lia]; cbn [step fst snd].
    - apply (total_move1 _ (fun x' => total 0 (n 1%nat) (fun y => total 0 (n 2%nat) (fun z => f (x', y, z))))); [apply N|].
      intros x. apply total_ext; intros y _. apply total_ext; intros z _. apply (P (x, y, z)).
    - apply total_ext; intros x _.
      apply (total_move1 _ (fun y => total 0 (n 2%nat) (fun z => f (x, y, z)))); [apply N|].
      intros y. apply total_ext; intros z _. apply (P (x, y, z)).
  Qed.
  Lemma upw_lt d : (d < upw nd)%nat -> (d < 2)%nat.
  Proof. destruct nd; cbn; lia. Qed.
  Lemma coord_h d k i : (d < upw nd)%nat -> coord (upw nd) (step d k i) = coord (upw nd) i.
  Proof. intros H. destruct i as [[x y] z], nd; cbn in *; destruct d as [|[|d]]; try lia; reflexivity. Qed.

  (** along a horizontal axis *)
  Lemma parts_h d u t : (d < upw nd)%nat -> hperiodic nd n u -> hperiodic nd n t ->
    weighted nd n (fun i => u i * (t i - t (step d (-1) i))) = - weighted nd n (fun i => t i * (u (step d 1 i) - u i)).
  Proof.
    intros Hd Pu Pt. unfold weighted. set (w := fun i => weight (n (upw nd)) (coord (upw nd) i)).
    assert (Ww : forall k i, w (step d k i) = w i) by (intros k i; unfold w; rewrite coord_h by exact Hd; reflexivity).
    assert (E : cells n (fun i => w i * (u (step d 1 i) * t i)) = cells n (fun i => w i * (u i * t (step d (-1) i)))).
    { rewrite <- (cells_step_h d (fun i => w i * (u i * t (step d (-1) i)))); [|apply upw_lt; exact Hd|].
      - apply cells_ext; intros i. rewrite step_add. change (-1 + 1)%Z with 0%Z. rewrite step_0, Ww. reflexivity.
      - intros i. rewrite Ww. rewrite (Pu d i Hd). rewrite step_step. rewrite (Pt d _ Hd). reflexivity. }
    transitivity (cells n (fun i => w i * (u i * t i)) - cells n (fun i => w i * (u i * t (step d (-1) i)))).
    - rewrite <- cells_sub. apply cells_ext; intros; unfold w; ring.
    - rewrite <- E. transitivity (cells n (fun i => w i * (u i * t i)) + -1 * cells n (fun i => w i * (u (step d 1 i) * t i))); [ring|].
      transitivity (-1 * cells n (fun i => w i * (t i * (u (step d 1 i) - u i)))); [|unfold w; ring].
      rewrite <- !cells_scal, <- cells_add. apply cells_ext; intros; ring.
  Qed.

  Notation v := (upw nd).
  Lemma coord_lift k i : coord v (lift k i) = k.
  Proof. destruct i as [[x y] z]; unfold lift; destruct nd; reflexivity. Qed.
  Lemma step_lift k j i : step v j (lift k i) = lift (k + j) i.
  Proof. destruct i as [[x y] z]; unfold lift; destruct nd; reflexivity. Qed.
  Lemma lift_self i : lift (coord v i) i = i.
  Proof. destruct i as [[x y] z]; unfold lift; destruct nd; reflexivity. Qed.

  (** along the vertical *)
  Lemma parts_v b q F : (2 <= n v)%Z ->
    (forall i, coord v i = 0%Z -> F (step v (-1) i) = 2 * b i - F i) ->
    (forall i, coord v i = (n v - 2)%Z -> F (step v 1 i) = - F i) ->
    weighted nd n (fun i => q i * (F i - F (step v (-1) i))) =
    - ground nd n (fun i => b i * q i) - cells n (fun i => if (coord v i <? n v - 1)%Z then F i * (q (step v 1 i) - q i) else 0).
  Proof.
    intros Hz H0 H1.
    transitivity (cells n (fun i => -1 * (if (coord v i =? 0)%Z then b i * q i else 0)
      + -1 * (if (coord v i <? n v - 1)%Z then F i * (q (step v 1 i) - q i) else 0))).
    2:{ rewrite cells_lin. unfold ground. ring. }
    apply cells_col. intros i.
    rewrite (total_ext 0 (n v) _ (fun k => weight (n v) k * (q (lift k i) * (F (lift k i) - F (lift (k - 1) i))))).
    2:{ intros k _. rewrite coord_lift, step_lift. replace (k + -1)%Z with (k - 1)%Z by lia. reflexivity. }
    rewrite (abel (n v) (b (lift 0 i)) (fun k => q (lift k i)) (fun k => F (lift k i)) Hz).
    2:{ specialize (H0 (lift 0 i) (coord_lift 0 i)). rewrite step_lift in H0. exact H0. }
    2:{ specialize (H1 (lift (n v - 2) i) (coord_lift _ i)). rewrite step_lift in H1.
        replace (n v - 2 + 1)%Z with (n v - 1)%Z in H1 by lia. exact H1. }
    rewrite total_lin_s.
    rewrite (total_ext 0 (n v) (fun k => if (coord v (lift k i) <? n v - 1)%Z then _ else 0)
       (fun k => if (k <? n v - 1)%Z then F (lift k i) * (q (lift (k + 1) i) - q (lift k i)) else 0)).
    2:{ intros k _. rewrite coord_lift, step_lift. reflexivity. }
    assert (G0 : total 0 (n v) (fun k => if (coord v (lift k i) =? 0)%Z then b (lift k i) * q (lift k i) else 0) = b (lift 0 i) * q (lift 0 i)).
    { destruct (Z_of_nat_complete (n v - 1) ltac:(lia)) as [m Hm]. unfold total.
      replace (Z.to_nat (n v - 0)) with (S m) by lia. rewrite sumn_split_first.
      rewrite (sumn_ext m 1 _ (fun _ => 0)).
      - rewrite sumn_zero, coord_lift. cbn [Z.eqb]. ring.
      - intros k Hk. rewrite coord_lift. destruct (Z.eqb_spec k 0); [lia|reflexivity]. }
    rewrite G0. ring.
  Qed.
End Budget.

Lemma ax_step d k i : ax d k i = step d k i.
Proof. destruct i as [[x y] z], d as [|[|d]]; reflexivity. Qed.
Lemma lev_coord nd i : lev nd i = coord (upw nd) i.
Proof. destruct i as [[x y] z], nd; reflexivity. Qed.
Lemma vax_upw nd : vax nd = upw nd.
Proof. destruct nd; reflexivity. Qed.

Section Heat.
  Variables (nd : ndims) (n : nat -> Z) (dx : nat -> R) (nug : bool) (G : idx -> R) (hc pr : R).
  Variables (km : nat -> idx -> R) (th : idx -> R).
  Hypothesis Hn : forall d, (0 < n d)%Z.
  Hypothesis Hdx : forall d, dx d <> 0.
  Hypothesis HG : forall i, G i <> 0.
  Hypothesis PG : hperiodic nd n G.
  Hypothesis Pk : forall d, hperiodic nd n (km d).
  Hypothesis Pt : hperiodic nd n th.
  Notation v := (upw nd).
  Hypothesis Hz : (2 <= n v)%Z.
  Notation fill := (filled nd dx nug G (n v) hc pr km th).
  Notation flux := (heat_flux dx nug G pr km th).
  Notation frc := (hflux_frc nd dx nug G (n v) hc pr km th).
  Notation gv := (Gv nug G).

  Lemma gv_nz i : gv i <> 0. Proof. unfold Gv. destruct nug; [apply HG|lra]. Qed.
  Lemma P_gv : hperiodic nd n gv.
  Proof. intros d i Hd. unfold Gv. destruct nug; [apply PG; exact Hd|reflexivity]. Qed.
  Lemma P_flux e : hperiodic nd n (flux e).
  Proof.
    intros d i Hd. unfold heat_flux, grad_tht. rewrite !ax_step, !(step_step e d).
    rewrite !(Pt d _ Hd), !(Pk e d _ Hd), !(P_gv d _ Hd). reflexivity.
  Qed.
  Lemma fill_h d i : (d < v)%nat -> fill d i = flux d i.
  Proof. intros H. unfold filled. rewrite vax_upw. destruct (Nat.eqb_spec d v); [lia|reflexivity]. Qed.
  Lemma fill_v i : fill v i = if (coord v i =? -1)%Z then 2 * hflux_srfc nug G hc (step v 1 i) - flux v (step v 1 i)
      else if (coord v i =? n v - 1)%Z then - flux v (step v (-1) i) else flux v i.
  Proof. unfold filled. change (vax nd) with v. rewrite Nat.eqb_refl, (ax_step v 1 i), (ax_step v (-1) i), lev_coord. reflexivity. Qed.
  Lemma coord_v k i : coord v (step v k i) = (coord v i + k)%Z.
  Proof. destruct i as [[x y] z], nd; reflexivity. Qed.

  Definition hparts (q : idx -> R) (d : nat) : R := weighted nd n (fun i => flux d i * (q (step d 1 i) - q i)) / dx d.
  Definition vparts (q : idx -> R) : R := cells n (fun i => if (coord v i <? n v - 1)%Z then flux v i * (q (step v 1 i) - q i) else 0) / dx v.

  Lemma wt_ext f g : (forall i, f i = g i) -> weighted nd n f = weighted nd n g.
  Proof. intros H. apply cells_ext. intros i. rewrite H. reflexivity. Qed.
  Lemma wt_lin a b f g : weighted nd n (fun i => a * f i + b * g i) = a * weighted nd n f + b * weighted nd n g.
  Proof. unfold weighted. rewrite <- cells_lin. apply cells_ext. intros; ring. Qed.
  Lemma gr_ext f g : (forall i, f i = g i) -> ground nd n f = ground nd n g.
  Proof. intros H. apply cells_ext. intros i. rewrite H. reflexivity. Qed.
  Lemma gr_scal a f : ground nd n (fun i => a * f i) = a * ground nd n f.
  Proof. unfold ground. rewrite <- cells_scal. apply cells_ext. intros i. destruct (_ =? _)%Z; ring. Qed.

  Lemma heat_h q d : (d < v)%nat -> hperiodic nd n q ->
    weighted nd n (fun i => q i * ((fill d i - fill d (step d (-1) i)) / dx d)) = - hparts q d.
  Proof.
    intros Hd Pq. transitivity (/ dx d * weighted nd n (fun i => q i * (flux d i - flux d (step d (-1) i)))
       + 0 * weighted nd n (fun _ => 0)).
    - rewrite <- wt_lin. apply wt_ext. intros i. rewrite !fill_h by exact Hd. field. apply Hdx.
    - rewrite parts_h by (auto using P_flux). unfold hparts. field. apply Hdx.
  Qed.
  Lemma fill_0 i : coord v i = 0%Z -> fill v i = flux v i.
  Proof. intros H. rewrite fill_v, H. destruct (Z.eqb_spec 0 (-1)); [lia|]. destruct (Z.eqb_spec 0 (n v - 1)); [lia|reflexivity]. Qed.
  Lemma vparts_fill q : cells n (fun i => if (coord v i <? n v - 1)%Z then fill v i * (q (step v 1 i) - q i) else 0)
    = dx v * vparts q.
  Proof.
    unfold vparts. transitivity (cells n (fun i => if (coord v i <? n v - 1)%Z then flux v i * (q (step v 1 i) - q i) else 0)).
    2:{ field. apply Hdx. }
    apply (cells_col nd n). intros i. apply total_ext. intros k Hk. rewrite coord_lift.
    destruct (Z.ltb_spec k (n v - 1)); [|reflexivity]. rewrite fill_v, coord_lift.
    destruct (Z.eqb_spec k (-1)); [lia|]. destruct (Z.eqb_spec k (n v - 1)); [lia|]. reflexivity.
  Qed.
  Lemma heat_v q :
    weighted nd n (fun i => q i * ((fill v i - fill v (step v (-1) i)) / dx v)) =
    ground nd n (fun i => hc * gv i * q i) / dx v - vparts q.
  Proof.
    transitivity (/ dx v * weighted nd n (fun i => q i * (fill v i - fill v (step v (-1) i)))
       + 0 * weighted nd n (fun _ => 0)).
    - rewrite <- wt_lin. apply wt_ext. intros i. field. apply Hdx.
    - rewrite (parts_v nd n Hn (fun i => hflux_srfc nug G hc i) q (fill v) Hz).
      + rewrite vparts_fill.
        replace (ground nd n (fun i => hflux_srfc nug G hc i * q i)) with (-1 * ground nd n (fun i => hc * gv i * q i)).
        * field. apply Hdx.
        * rewrite <- gr_scal. apply gr_ext. intros i. unfold hflux_srfc, Gv. destruct nug; ring.
      + intros i Hi. rewrite fill_v, coord_v, Hi. cbn [Z.add Z.eqb Z.opp]. change (0 + -1 =? -1)%Z with true. cbn iota.
        rewrite !step_add. change (1 + -1)%Z with 0%Z. rewrite !step_0, (fill_0 i Hi). reflexivity.
      + intros i Hi. rewrite !fill_v, coord_v, Hi.
        destruct (Z.eqb_spec (n v - 2 + 1) (-1)); [lia|]. destruct (Z.eqb_spec (n v - 2 + 1) (n v - 1)); [|lia].
        destruct (Z.eqb_spec (n v - 2) (-1)); [lia|]. destruct (Z.eqb_spec (n v - 2) (n v - 1)); [lia|].
        rewrite step_add. change (-1 + 1)%Z with 0%Z. rewrite step_0. reflexivity.
  Qed.
  Lemma heat_parts q : hperiodic nd n q ->
    weighted nd n (fun i => q i * (gv i * frc i)) =
    ground nd n (fun i => hc * gv i * q i) / dx v - vparts q - axes v (hparts q).
  Proof.
    intros Pq.
    assert (E : forall i, q i * (gv i * frc i) = 1 * (q i * ((fill v i - fill v (step v (-1) i)) / dx v)) +
       1 * (q i * axes v (fun d => (fill d i - fill d (step d (-1) i)) / dx d))).
    { intros i. unfold hflux_frc. rewrite !ax_step. destruct nd; cbn [axes upw]; field; repeat split; try apply gv_nz; apply Hdx. }
    rewrite (wt_ext _ _ E), wt_lin, heat_v.
    assert (A : weighted nd n (fun i => q i * axes v (fun d => (fill d i - fill d (step d (-1) i)) / dx d)) = - axes v (hparts q)).
    { destruct (Nat.eq_dec v 1) as [V1|V1].
      - transitivity (weighted nd n (fun i => q i * ((fill 0 i - fill 0 (step 0 (-1) i)) / dx 0%nat))).
        + apply wt_ext. intros i. rewrite V1. cbn [axes]. ring.
        + rewrite heat_h; [rewrite V1; cbn [axes]; ring|lia|exact Pq].
      - assert (V2 : v = 2%nat) by (destruct nd; cbn in *; lia).
        transitivity (1 * weighted nd n (fun i => q i * ((fill 0 i - fill 0 (step 0 (-1) i)) / dx 0%nat)) +
          1 * weighted nd n (fun i => q i * ((fill 1 i - fill 1 (step 1 (-1) i)) / dx 1%nat))).
        + rewrite <- wt_lin. apply wt_ext. intros i. rewrite V2. cbn [axes]. ring.
        + rewrite !heat_h by (rewrite ?V2; auto; lia). rewrite V2. cbn [axes]. ring. }
    rewrite A. ring.
  Qed.

  Lemma budget : weighted nd n (fun i => gv i * frc i) = ground nd n (fun i => hc * gv i) / dx v.
  Proof.
    transitivity (weighted nd n (fun i => 1 * (gv i * frc i))); [apply wt_ext; intros; ring|].
    rewrite (heat_parts (fun _ => 1)) by (intros d i _; reflexivity).
    assert (Hh : forall d, hparts (fun _ => 1) d = 0).
    { intros d. unfold hparts, weighted. rewrite (cells_ext n _ (fun _ => 0 * 0)) by (intros; ring).
      rewrite cells_scal. field. apply Hdx. }
    assert (Hv : vparts (fun _ => 1) = 0).
    { unfold vparts. rewrite (cells_ext n _ (fun _ => 0 * 0)) by (intros i; destruct (_ <? _)%Z; ring). rewrite cells_scal. field. apply Hdx. }
    rewrite Hv. replace (axes v (hparts (fun _ => 1))) with 0.
    - rewrite (gr_ext (fun i => hc * gv i * 1) (fun i => hc * gv i)) by (intros; ring). ring.
    - destruct nd; cbn [axes upw]; rewrite !Hh; ring.
  Qed.
  Hypothesis Dx : forall d, 0 < dx d.
  Hypothesis Hkm : forall d i, 0 <= km d i.
  Hypothesis HGp : forall i, 0 < G i.
  Hypothesis Hpr : 0 < pr.
  Lemma flux_pos d i : 0 <= flux d i * (th (step d 1 i) - th i).
  Proof.
    unfold heat_flux, grad_tht. rewrite ax_step.
    replace ((th (step d 1 i) - th i) / dx d * (1 / pr * (1 / 2) * (km d (step d 1 i) + km d i) * (1 / 2) * (gv (step d 1 i) + gv i)) *
       (th (step d 1 i) - th i)) with
     ((th (step d 1 i) - th i) * (th (step d 1 i) - th i) * / dx d * (/ pr) * (1 / 4) * ((km d (step d 1 i) + km d i) * (gv (step d 1 i) + gv i))).
    2:{ field. specialize (Hdx d). split; lra. }
    assert (0 < gv (step d 1 i) + gv i).
    { assert (P : forall j, 0 < gv j) by (intros j; unfold Gv; destruct nug; [apply HGp|lra]). pose proof (P i); pose proof (P (step d 1 i)); lra. }
    pose proof (Hkm d i). pose proof (Hkm d (step d 1 i)).
    assert (0 < / dx d) by (apply Rinv_0_lt_compat, Dx). assert (0 < / pr) by (apply Rinv_0_lt_compat, Hpr).
    assert (0 <= (th (step d 1 i) - th i) * (th (step d 1 i) - th i)) by apply Rle_0_sqr.
    apply Rmult_le_pos; [|apply Rmult_le_pos; lra]. apply Rmult_le_pos; [|lra].
    apply Rmult_le_pos; [|lra]. apply Rmult_le_pos; lra.
  Qed.
  Lemma pos_div a b : 0 <= a -> 0 < b -> 0 <= a / b.
  Proof. intros. apply Rmult_le_pos; [lra|]. left. apply Rinv_0_lt_compat. lra. Qed.
  Lemma cells_ge0 f : (forall i, 0 <= f i) -> 0 <= cells n f.
  Proof. intros H. assert (cells n (fun i => -1 * f i) <= 0) by (apply cells_le0; intros i; specialize (H i); lra).
    rewrite cells_scal in H0. lra. Qed.
  Lemma variance : hc = 0 -> weighted nd n (fun i => th i * (gv i * frc i)) <= 0.
  Proof.
    intros Hc. rewrite (heat_parts th Pt), Hc.
    rewrite (gr_ext (fun i => 0 * gv i * th i) (fun i => 0 * 0)) by (intros; ring). rewrite gr_scal.
    assert (Hv : 0 <= vparts th).
    { apply pos_div; [|apply Dx]. apply cells_ge0. intros i. destruct (_ <? _)%Z; [apply flux_pos|lra]. }
    assert (Hh : forall d, 0 <= hparts th d).
    { intros d. apply pos_div; [|apply Dx]. apply cells_ge0. intros i. apply Rmult_le_pos; [|apply flux_pos].
      unfold weight. destruct (orb _ _); lra. }
    assert (0 <= axes v (hparts th)).
    { destruct nd; cbn [axes upw]; [specialize (Hh 0%nat); lra|]. pose proof (Hh 0%nat). pose proof (Hh 1%nat). lra. }
    specialize (Hdx v). replace (0 * ground nd n (fun _ => 0) / dx v) with 0 by (field; exact Hdx). lra.
  Qed.
End Heat.

(** ** Eddy viscosity *)
Lemma isneg_pos x : 0 < x -> isneg x = false.
Proof. intros H. unfold isneg. destruct (Rlt_dec x 0); [lra|reflexivity]. Qed.
Lemma visc_closed g T pr c l ga gb s2 : 0 < T -> 0 < pr -> 0 <= s2 -> 0 < s2 \/ 0 <= g * (ga + gb) ->
  k_m g T pr c l ga gb s2 = Fin (ri_visc c l pr (g * ((ga + gb) / 2) / T) s2).
Proof.
  intros HT Hp Hs D. unfold k_m, rcdsn_num, ri_visc.
  destruct (Req_EM_T s2 0) as [E0|E0].
  - destruct D as [D|D]; [lra|]. subst s2.
    assert (N : 0 <= g * ((ga + gb) / 2) / T / pr).
    { apply pos_div; [|exact Hp]. apply pos_div; [lra|exact HT]. }
    rewrite Rmax_left by lra. rewrite sqrt_0. cbn [xdiv].
    destruct (Req_EM_T (T * 0) 0) as [_|Ne]; [|exfalso; apply Ne; ring].
    destruct (Req_EM_T (g * (1 / 2) * (ga + gb)) 0) as [Z|Z].
    + cbn. f_equal. ring.
    + rewrite isneg_pos by lra. cbn [xdiv xlt]. rewrite isneg_pos by exact Hp. cbn. f_equal. ring.
  - assert (Hs' : 0 < s2) by lra. assert (T * s2 <> 0) by (apply Rmult_integral_contrapositive; lra).
    cbn [xdiv]. destruct (Req_EM_T (T * s2) 0) as [Z|_]; [contradiction|]. cbn [xdiv].
    destruct (Req_EM_T pr 0) as [Z|_]; [lra|]. cbn [xlt].
    set (N2 := g * ((ga + gb) / 2) / T).
    replace (g * (1 / 2) * (ga + gb) / (T * s2) / pr) with (N2 / pr / s2) by (unfold N2; field; lra).
    destruct (Rlt_dec (N2 / pr / s2) 1) as [L|L].
    + assert (N2 / pr < s2).
      { apply (Rmult_lt_compat_r s2) in L; [|exact Hs']. replace (N2 / pr / s2 * s2) with (N2 / pr) in L by (field; lra). lra. }
      cbn [xsub xopp xadd xmul xsqrt].
      replace (s2 * (1 + - (N2 / pr / s2))) with (s2 - N2 / pr) by (field; lra).
      destruct (Rlt_dec (s2 - N2 / pr) 0); [lra|]. cbn [xmul]. rewrite Rmax_right by lra. reflexivity.
    + assert (s2 <= N2 / pr).
      { apply Rnot_lt_le in L. apply (Rmult_le_compat_r s2) in L; [|lra]. replace (N2 / pr / s2 * s2) with (N2 / pr) in L by (field; lra). lra. }
      rewrite Rmax_left by lra. rewrite sqrt_0. f_equal. ring.
Qed.
Lemma visc_nan g T pr c l ga gb : 0 < pr -> g * (ga + gb) < 0 -> k_m g T pr c l ga gb 0 = NaN.
Proof.
  intros Hp H. unfold k_m, rcdsn_num. cbn [xdiv].
  destruct (Req_EM_T (T * 0) 0) as [_|Ne]; [|exfalso; apply Ne; ring].
  destruct (Req_EM_T (g * (1 / 2) * (ga + gb)) 0) as [Z|Z]; [exfalso; lra|].
  assert (I : isneg (g * (1 / 2) * (ga + gb)) = true) by (unfold isneg; destruct (Rlt_dec _ 0); [reflexivity|exfalso; lra]).
  rewrite I. cbn [xdiv]. rewrite isneg_pos by exact Hp. cbn.
  destruct (Req_EM_T 0 0) as [_|Ne]; [reflexivity|exfalso; apply Ne; reflexivity].
Qed.
Lemma heat_nan pr dz grad kb fb : col_heating dz (face_flux pr grad NaN kb) fb = NaN.
Proof. destruct kb, fb; reflexivity. Qed.
Lemma visc_refuted : exists g T pr c l ga gb, 0 < g /\ 0 < T /\ 0 < pr /\ 0 < c /\ 0 < l /\
  k_m g T pr c l ga gb 0 <> Fin (ri_visc c l pr (g * ((ga + gb) / 2) / T) 0) /\
  forall dz grad kb fb, col_heating dz (face_flux pr grad (k_m g T pr c l ga gb 0) kb) fb = NaN.
Proof.
  exists 1, 1, 1, 1, 1, (-1), (-1). rewrite visc_nan by lra.
  repeat (split; [lra|]). split; [discriminate|]. intros. apply heat_nan.
Qed.
Lemma ri_visc_ge c l pr n2 s2 : 0 <= ri_visc c l pr n2 s2.
Proof. unfold ri_visc. apply Rmult_le_pos; [apply Rle_0_sqr|apply sqrt_pos]. Qed.
(** more stratification, less mixing; none beyond the critical Richardson number *)
Lemma ri_visc_mono c l pr n2 n2' s2 : 0 < pr -> n2 <= n2' -> ri_visc c l pr n2' s2 <= ri_visc c l pr n2 s2.
Proof.
  intros Hp H. unfold ri_visc. apply Rmult_le_compat_l; [apply Rle_0_sqr|]. apply sqrt_le_1_alt.
  apply Rle_max_compat_l. assert (n2 / pr <= n2' / pr); [|lra].
  apply Rmult_le_compat_r; [|exact H]. left. apply Rinv_0_lt_compat. exact Hp.
Qed.
Lemma ri_visc_cut c l pr n2 s2 : 0 < pr -> pr * s2 <= n2 -> ri_visc c l pr n2 s2 = 0.
Proof.
  intros Hp H. unfold ri_visc. rewrite Rmax_left; [rewrite sqrt_0; ring|].
  assert (s2 <= n2 / pr); [|lra]. apply (Rmult_le_reg_l pr); [exact Hp|]. replace (pr * (n2 / pr)) with n2 by (field; lra). exact H.
Qed.

(** example: a column of three levels of unit spacing heated from below *)
Definition three_levels (d : nat) : Z := match d with 1%nat => 3%Z | _ => 1%Z end.
Definition warm_ground (i : idx) : R := if (coord 1 i =? 0)%Z then 1 else 0.
Lemma column_example :
  (forall d, (0 < three_levels d)%Z) /\ hperiodic two three_levels warm_ground /\ (2 <= three_levels (upw two))%Z /\
  (forall z, hflux_frc two (fun _ => 1) false (fun _ => 1) 3 (1 / 10) 1 (fun _ _ => 1) warm_ground (0, z, 0)%Z =
     if (z =? 0)%Z then -2 + 1 / 5 else if (z =? 1)%Z then 1 else if (z =? 2)%Z then 0 else
     hflux_frc two (fun _ => 1) false (fun _ => 1) 3 (1 / 10) 1 (fun _ _ => 1) warm_ground (0, z, 0)%Z).
Proof.
  split; [intros [|[|d]]; cbn; lia|]. split.
  { intros d [[x y] z] Hd. cbn in Hd. destruct d; [|lia]. reflexivity. }
  split; [cbn; lia|]. intros z.
  destruct (Z.eqb_spec z 0) as [->|]; [cbn; unfold hflux_frc, filled, heat_flux, grad_tht, warm_ground, hflux_srfc, Gv; cbn; field|].
  destruct (Z.eqb_spec z 1) as [->|]; [cbn; unfold hflux_frc, filled, heat_flux, grad_tht, warm_ground, hflux_srfc, Gv; cbn; field|].
  destruct (Z.eqb_spec z 2) as [->|]; [cbn; unfold hflux_frc, filled, heat_flux, grad_tht, warm_ground, hflux_srfc, Gv; cbn; field|reflexivity].
Qed.

Lemma visc_cut g T pr c l ga gb s2 : 0 < T -> 0 < pr -> 0 <= s2 -> 0 < s2 \/ 0 <= g * (ga + gb) ->
  exists x, k_m g T pr c l ga gb s2 = Fin x /\ 0 <= x /\ (pr * s2 <= g * ((ga + gb) / 2) / T -> x = 0).
Proof.
  intros H1 H2 H3 H4. eexists. split; [apply visc_closed; assumption|]. split; [apply ri_visc_ge|]. apply ri_visc_cut; assumption.
Qed.
Lemma visc_mono g T pr c l ga gb ga' gb' s2 : 0 < g -> 0 < T -> 0 < pr -> 0 < s2 -> ga + gb <= ga' + gb' ->
  exists x x', k_m g T pr c l ga gb s2 = Fin x /\ k_m g T pr c l ga' gb' s2 = Fin x' /\ x' <= x.
Proof.
  intros Hg HT Hp Hs H. do 2 eexists. split; [apply visc_closed; auto; lra|]. split; [apply visc_closed; auto; lra|].
  apply ri_visc_mono; [exact Hp|]. apply Rmult_le_compat_r; [left; apply Rinv_0_lt_compat; exact HT|].
  apply Rmult_le_compat_l; lra.
Qed.
