(** Boussinesq solvers: pressure does no work on flows without divergence. *)
From Coq Require Import ZArith List Bool Reals Lra Lia.
From Verif Require Import Stencil SpecReal ModelVip ModelStress ModelBouss ProofsBouss SpecStress SpecBouss ProofsBouss2 ProofsBouss3 ProofsStress.
Import ListNotations.
Local Open Scope R_scope.

Lemma sum_app A B f : sum_over (A ++ B) f = sum_over A f + sum_over B f.
Proof. induction A as [|a A IH]; [change (sum_over B f = 0 + sum_over B f); ring|]. cbn [app]. rewrite !soc, IH. ring. Qed.
Lemma sum_flat k : forall lo (g : Z -> list idx) f,
  sum_over (flat_map g (map Z.of_nat (seq lo k))) f = sumn k (Z.of_nat lo) (fun x => sum_over (g x) f).
Proof.
  induction k as [|k IH]; intros lo g f; [reflexivity|]. cbn [seq map flat_map sumn]. rewrite sum_app, IH.
  replace (Z.of_nat (S lo)) with (Z.of_nat lo + 1)%Z by lia. reflexivity.
Qed.
Lemma sum_map k : forall lo (g : Z -> idx) f,
  sum_over (map g (map Z.of_nat (seq lo k))) f = sumn k (Z.of_nat lo) (fun x => f (g x)).
Proof.
  induction k as [|k IH]; intros lo g f; [reflexivity|]. cbn [seq map sumn]. rewrite soc, IH.
  replace (Z.of_nat (S lo)) with (Z.of_nat lo + 1)%Z by lia. reflexivity.
Qed.
Lemma sum_all n f : sum_over (all_cells n) f = cells n f.
Proof.
  unfold all_cells, upto, cells, total. rewrite sum_flat. rewrite Z.sub_0_r. apply sumn_ext. intros x _.
  rewrite sum_flat, Z.sub_0_r. apply sumn_ext. intros y _. rewrite sum_map, Z.sub_0_r. reflexivity.
Qed.

Section Work.
  Variables (n : nat -> Z) (dx : nat -> R).
  Hypothesis Hn : forall d, (0 < n d)%Z.
  Hypothesis Hdx : forall d, dx d <> 0.
  Lemma no_work_1 k v phi : (k <= 3)%nat -> div_free n k dx v -> periodic n phi ->
    cells n (fun i => axes k (fun d => cdiff dx d phi i * v d i)) = 0.
  Proof.
    intros Hk [Pv D] Pp.
    assert (E : forall d, (d < k)%nat -> cells n (fun i => cdiff dx d phi i * v d i) = - cells n (fun i => phi i * cdiff dx d (v d) i)).
    { intros d Hd. pose proof (parts_c n Hn d (v d) phi (Pv d Hd) Pp) as K.
      transitivity (/ (2 * dx d) * cells n (fun i => v d i * (phi (step d 1 i) - phi (step d (-1) i)))).
      - rewrite <- cells_scal. apply cells_ext. intros i. unfold cdiff. field. apply Hdx.
      - rewrite K. transitivity (-1 * (/ (2 * dx d) * cells n (fun i => (v d (step d 1 i) - v d (step d (-1) i)) * phi i))); [ring|].
        transitivity (-1 * cells n (fun i => phi i * cdiff dx d (v d) i)); [|ring]. f_equal. rewrite <- cells_scal. apply cells_ext. intros i. unfold cdiff. field. apply Hdx. }
    transitivity (- cells n (fun i => phi i * axes k (fun d => cdiff dx d (v d) i))).
    2:{ rewrite (cells_ext n _ (fun _ => 0 * 0)); [rewrite cells_scal; ring|]. intros i. rewrite D. ring. }
    clear D. induction k as [|k IH].
    - cbn [axes]. transitivity (0 * cells n (fun _ => 0)); [rewrite <- cells_scal; apply cells_ext; intros; ring|].
      transitivity (- (0 * cells n (fun _ => 0))); [ring|]. f_equal. rewrite <- cells_scal. apply cells_ext; intros; ring.
    - cbn [axes]. rewrite cells_add, IH, E by (auto with arith; lia).
      transitivity (- (cells n (fun i => phi i * axes k (fun d => cdiff dx d (v d) i)) + cells n (fun i => phi i * cdiff dx k (v k) i))); [ring|].
      f_equal. rewrite <- cells_add. apply cells_ext. intros i. ring.
  Qed.
  Lemma axes_add k f g : axes k (fun d => f d + g d) = axes k f + axes k g.
  Proof. induction k as [|k IH]; cbn [axes]; [ring|]. rewrite IH. ring. Qed.
  Lemma axes_ext k f g : (forall d, (d < k)%nat -> f d = g d) -> axes k f = axes k g.
  Proof. induction k as [|k IH]; intros H; cbn [axes]; [reflexivity|]. rewrite IH, (H k) by (intros; try apply H; lia). reflexivity. Qed.
  Lemma no_work c u m : let k := ndn (c_nd c) in
    gradient n k dx (p_force c m u) -> gradient n k dx (p_force c (S m) u) ->
    div_free n k dx (fst (state c m u)) -> div_free n k dx (fst (state c (S m) u)) ->
    sum_over (all_cells n) (p_work c u m) = 0.
  Proof.
    intros k [p [Pp Ep]] [q [Pq Eq]] V W. rewrite sum_all.
    set (v := fst (state c m u)) in *. set (w := fst (state c (S m) u)) in *.
    set (vw := fun d i => v d i + w d i). set (pq := fun i => p i + q i).
    assert (Dv : div_free n k dx vw).
    { destruct V as [V1 V2], W as [W1 W2]. split.
      - intros d Hd e i He. unfold vw. rewrite (V1 d Hd), (W1 d Hd) by exact He. reflexivity.
      - intros i. transitivity (axes k (fun d => cdiff dx d (v d) i) + axes k (fun d => cdiff dx d (w d) i)); [|rewrite V2, W2; ring].
        rewrite <- axes_add. apply axes_ext. intros d _. unfold cdiff, vw. field. apply Hdx. }
    assert (Dp : periodic n pq) by (intros e i He; unfold pq; rewrite Pp, Pq by exact He; reflexivity).
    rewrite <- (no_work_1 k vw pq) by (auto; unfold k; destruct (c_nd c); cbn; lia).
    apply cells_ext. intros i. unfold p_work. fold k v w. apply axes_ext. intros d Hd.
    rewrite Ep, Eq by exact Hd. unfold cdiff, pq, vw. field. apply Hdx.
  Qed.
End Work.

Lemma energy_flow c u n dx N : solvable c -> c_impl c = true -> c_ab c <> Expl -> c_sgs c = None -> (forall i, c_heat c i = 0) ->
  (forall m s, c_adv c m s = s) -> (forall d i, c_relax c d i = 0) -> (forall i, 0 < profile c i) ->
  (forall i, c_abs c i = 0) -> (forall i, c_coeff c i = 0) ->
  (forall d, (0 < n d)%Z) -> (forall d, dx d <> 0) ->
  (forall m, (m <= N)%nat -> gradient n (ndn (c_nd c)) dx (p_force c m u) /\ div_free n (ndn (c_nd c)) dx (fst (state c m u))) ->
  cells n (energy (ndn (c_nd c)) (phys_of c) (state c N u)) = cells n (energy (ndn (c_nd c)) (phys_of c) (state c 0 u)).
Proof.
  intros. rewrite <- !sum_all. apply energy_kept; auto. intros m Hm.
  destruct (H11 m ltac:(lia)). destruct (H11 (S m) ltac:(lia)). apply (no_work n dx); assumption.
Qed.
Lemma energy_flow_le c u n dx N : solvable c -> c_impl c = true -> c_ab c <> Expl -> c_sgs c = None -> (forall i, c_heat c i = 0) ->
  (forall m s, c_adv c m s = s) -> (forall d i, c_relax c d i = 0) -> (forall i, 0 < profile c i) ->
  0 < c_dt c -> 0 < c_g c / c_T c -> (forall i, 0 <= c_abs c i) -> (forall i, 0 <= c_coeff c i) ->
  (forall d, (0 < n d)%Z) -> (forall d, dx d <> 0) ->
  (forall m, (m <= N)%nat -> gradient n (ndn (c_nd c)) dx (p_force c m u) /\ div_free n (ndn (c_nd c)) dx (fst (state c m u))) ->
  cells n (energy (ndn (c_nd c)) (phys_of c) (state c N u)) <= cells n (energy (ndn (c_nd c)) (phys_of c) (state c 0 u)).
Proof.
  intros. rewrite <- !sum_all. apply energy_never_grows; auto. intros m Hm.
  destruct (H13 m ltac:(lia)). destruct (H13 (S m) ltac:(lia)). apply (no_work n dx); assumption.
Qed.

(** the uniform case of ProofsBouss3.v stays uniform *)
Lemma wave_p m d i : p_force (wave_case two) m lifting d i = 0.
Proof. destruct m as [|k]; unfold p_force; [reflexivity|]. replace (p_grad (after (wave_case two) (S k) lifting) d i) with 0 by reflexivity. unfold Rdiv; ring. Qed.
Lemma wave_uniform m : forall i j, (forall d, (d < 2)%nat -> fst (state (wave_case two) m lifting) d i = fst (state (wave_case two) m lifting) d j) /\
  snd (state (wave_case two) m lifting) i = snd (state (wave_case two) m lifting) j.
Proof.
  induction m as [|m IH]; intros i j; [split; reflexivity|].
  pose proof (every_step (wave_case two) m lifting (wave_solvable two)) as H. unfold trapezoidal in H.
  set (y := state (wave_case two) (S m) lifting) in *. set (x := state (wave_case two) m lifting) in *.
  assert (E : forall i, snd y i = snd x i - 7 / 2 * (3 / 2) * (fst x 1%nat i + fst y 1%nat i) /\
     fst y 1%nat i = fst x 1%nat i + 7 / 2 * (10 / 300) * (snd x i + snd y i) /\ fst y 0%nat i = fst x 0%nat i).
  { intros k. assert (HT := f_equal (fun s => snd s k) H). assert (HV := fun d => f_equal (fun s => fst s d k) H). clear H. cbv beta in HT, HV.
    unfold rate, rate_dev, plus, ahead, heating in HT, HV.
    cbn [fst snd wave_case c_impl c_dt c_adv c_sgs c_ab c_heat] in HT, HV.
    cbn [phys_of up gT damb al nu rel c_nd c_g c_T c_abs c_ab c_relax] in HT, HV. fold (wave_case two) in HT, HV.
    split; [|split].
    - etransitivity; [exact HT|]. rewrite wave_profile. cbn. lra.
    - etransitivity; [exact (HV 1%nat)|]. rewrite !wave_p. cbn. lra.
    - etransitivity; [exact (HV 0%nat)|]. rewrite !wave_p. cbn. lra. }
  destruct (IH i j) as [I1 I2]. pose proof (I1 0%nat ltac:(lia)) as A0. pose proof (I1 1%nat ltac:(lia)) as A1.
  destruct (E i) as (T & W & U). destruct (E j) as (T' & W' & U'). clear E H.
  assert (D1 : fst y 1%nat i = fst y 1%nat j) by lra.
  split; [|lra]. intros [|[|d]] Hd; [congruence|exact D1|lia].
Qed.
Lemma wave_flow_ok N : forall n dx, (forall d, dx d <> 0) -> forall m, (m <= N)%nat ->
  gradient n 2 dx (p_force (wave_case two) m lifting) /\ div_free n 2 dx (fst (state (wave_case two) m lifting)).
Proof.
  intros n dx Hd m _. split.
  - exists (fun _ => 0). split; [intros d i _; reflexivity|]. intros d i _. rewrite wave_p. unfold cdiff, Rdiv. ring.
  - split; [intros d Hd' e i _; apply (proj1 (wave_uniform m _ _)); exact Hd'|]. intros i. cbn [axes]. unfold cdiff.
    rewrite (proj1 (wave_uniform m (step 0 1 i) (step 0 (-1) i)) 0%nat) by lia.
    rewrite (proj1 (wave_uniform m (step 1 1 i) (step 1 (-1) i)) 1%nat) by lia. unfold Rdiv. ring.
Qed.
