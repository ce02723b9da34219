(** Viscous forces: exactness, rigid motions, scaling. *)
From Coq Require Import ZArith Reals Lra Lia Field.
From Verif Require Import Stencil SpecReal SpecStress ModelStress.
Local Open Scope R_scope.

(** ** Operators respect pointwise equality *)
Lemma grad_step d x dx i : grad d x dx i = (x (step d 1 i) - x (step d (-1) i)) / dx / 2.
Proof. destruct i as [[a b] c], d as [|[|d]]; reflexivity. Qed.
Lemma helper_step d x i : pade_helper d x i = x (step d 1 i) + 2 * x i + x (step d (-1) i).
Proof. destruct i as [[a b] c], d as [|[|d]]; reflexivity. Qed.
Lemma grad_ext d dx f g : (forall i, f i = g i) -> forall i, grad d f dx i = grad d g dx i.
Proof. intros H i. rewrite !grad_step, !H. reflexivity. Qed.
Lemma helper_ext d f g : (forall i, f i = g i) -> forall i, pade_helper d f i = pade_helper d g i.
Proof. intros H i. rewrite !helper_step, !H. reflexivity. Qed.
Lemma pade_ext m d f g : (forall i, f i = g i) -> forall i, pade_wrk m d f i = pade_wrk m d g i.
Proof.
  intros H. induction m as [|m IH]; intros i; cbn [pade_wrk]; [apply H|].
  rewrite IH, H, (helper_ext d _ _ IH). reflexivity.
Qed.
(** the correction leaves fields alone that the three-point average leaves alone *)
Lemma pade_fix m d f : (forall i, pade_helper d f i = 4 * f i) -> forall i, pade_wrk m d f i = f i.
Proof.
  intros H. induction m as [|m IH]; intros i; cbn [pade_wrk]; [reflexivity|].
  rewrite (helper_ext d _ _ IH), IH, H. field.
Qed.

Section Forces.
  Variable dx : nat -> R.
  Variable nug : bool.
  Variable G : field.
  Notation F nd df rhs tau := (forces dx nug G nd df rhs tau).
  Lemma forces_ext nd df rhs t t' : (forall c i, t c i = t' c i) -> forall c i, F nd df rhs t c i = F nd df rhs t' c i.
  Proof.
    intros H c i. destruct nd, df; cbn [forces calc_stress_rhs calc_stress_rhs_cmpct]; destruct i as [[x y] z], c as [|[|[|c]]];
      cbn [calc_stress_rhs2 calc_stress_rhs3 calc_stress_rhs_cmpct2 calc_stress_rhs_cmpct3 calc_stress_div calc_stress_div2 calc_stress_div3 pade_deriv];
      unfold pade_deriv; cbn [calc_stress_div calc_stress_div2 calc_stress_div3];
      repeat (rewrite (pade_ext 3 _ _ _ (grad_ext _ _ _ _ (H _))) || rewrite (grad_ext _ _ _ _ (H _)) || rewrite H); reflexivity.
  Qed.
End Forces.

Lemma pade_lin m d a b f g i : pade_wrk m d (fun j => a * f j + b * g j) i = a * pade_wrk m d f i + b * pade_wrk m d g i.
Proof.
  revert i. induction m as [|m IH]; intros i; cbn [pade_wrk]; [reflexivity|].
  rewrite (helper_ext d _ _ IH), IH, !helper_step. cbv beta. field.
Qed.
Lemma grad_lin d dx a b f g i : grad d (fun j => a * f j + b * g j) dx i = a * grad d f dx i + b * grad d g dx i.
Proof. rewrite !grad_step. unfold Rdiv. ring. Qed.
Lemma pade_const m d c i : pade_wrk m d (fun _ => c) i = c.
Proof. apply (pade_fix m d (fun _ => c)). intros j. rewrite helper_step. ring. Qed.

Lemma IZR_step d e k i : IZR (coord d (step e k i)) = IZR (coord d i) + (if Nat.eqb (Nat.min d 2) (Nat.min e 2) then IZR k else 0).
Proof. destruct i as [[x y] z], d as [|[|d]], e as [|[|e]]; cbn; rewrite ?Nat.min_0_r; cbn; rewrite ?plus_IZR; try reflexivity; ring. Qed.

Section Deform.
  Variable dx : nat -> R.
  Variable nug : bool.
  Variable G : field.
  Hypothesis Hdx : forall d, dx d <> 0.

  (** deformation is linear in the velocity *)
  Lemma deform_lin nd df a b v w c i :
    deform dx nug G nd df (fun e j => a * v e j + b * w e j) c i = a * deform dx nug G nd df v c i + b * deform dx nug G nd df w c i.
  Proof.
    destruct nd, df; cbn [deform]; destruct i as [[x y] z];
    destruct c as [|[|[|[|[|c]]]]];
      cbn [calc_deform calc_deform2 calc_deform3 calc_vgrad]; unfold pade_deriv; cbn [calc_vgrad2 calc_vgrad3];
      repeat (rewrite (pade_ext 3 _ _ _ (fun i => grad_lin _ _ a b _ _ i)) || rewrite pade_lin || rewrite grad_lin);
      cbn [calc_deform_cmpct calc_deform_cmpct2 calc_deform_cmpct3 calc_vip_div_cmpct]; try ring;
      destruct nug; cbn [calc_vip_div_cmpct]; unfold Rdiv; ring.
  Qed.
  Lemma deform_ext nd df v w : (forall e j, v e j = w e j) -> forall c i, deform dx nug G nd df v c i = deform dx nug G nd df w c i.
  Proof.
    intros H c i.
    destruct nd, df; cbn [deform]; destruct i as [[x y] z];
    destruct c as [|[|[|[|[|c]]]]];
      cbn [calc_deform calc_deform2 calc_deform3 calc_vgrad]; unfold pade_deriv; cbn [calc_vgrad2 calc_vgrad3];
      repeat (rewrite (pade_ext 3 _ _ _ (grad_ext _ _ _ _ (H _))) || rewrite (grad_ext _ _ _ _ (H _)));
      cbn [calc_deform_cmpct calc_deform_cmpct2 calc_deform_cmpct3 calc_vip_div_cmpct]; rewrite ?H; reflexivity.
  Qed.

  (** derivatives of linear fields *)
  Lemma pos_step d e k i : (d < 3)%nat -> (e < 3)%nat -> pos dx d (step e k i) = pos dx d i + (if Nat.eqb d e then IZR k * dx d else 0).
  Proof.
    intros Hd He. unfold pos. rewrite IZR_step. rewrite !Nat.min_l by lia. destruct (Nat.eqb d e); ring.
  Qed.
  Lemma grad_linear nd c w d i : (d < ndn nd)%nat -> grad d (linear (ndn nd) dx c w) (dx d) i = w d.
  Proof.
    intros Hd. rewrite grad_step. unfold linear.
    destruct nd; cbn [ndn] in *; destruct d as [|[|[|d]]]; try lia; cbn [axes]; rewrite !pos_step by lia; cbn [Nat.eqb];
      field; apply Hdx.
  Qed.
End Deform.
