(** Viscous forces: exactness on quadratic velocities. *)
From Coq Require Import ZArith Reals Lra Lia Field.
From Verif Require Import Stencil SpecReal SpecStress ModelStress ProofsStress2 ProofsStress3.
Local Open Scope R_scope.

Section Main.
  Variable dx : nat -> R.
  Variable G : field.
  Hypothesis Hdx : forall d, dx d <> 0.
  Notation rhsof nd df cl v rhs := (vip_rhs_expl_calc dx false G nd df cl v rhs).
  Variables (a : nat -> R) (b : nat -> nat -> R) (h : nat -> nat -> nat -> R).
  Notation qv nd := (quad_vel dx nd a b h).
  Notation visc_exact nd d := (lap_graddiv nd h d).

  Ltac posn := unfold quad_vel, quad, pos; cbn [ndn axes coord fst snd]; rewrite ?plus_IZR, ?minus_IZR.

  Lemma exact_cmpct nd eta rhs d i : (d < ndn nd)%nat ->
    rhsof nd compact (Dns eta) (qv nd) rhs d i = rhs d i + 2 * eta * visc_exact nd d.
  Proof.
    intros Hd. destruct i as [[x y] z].
    pose proof (Hdx 0). pose proof (Hdx 1). pose proof (Hdx 2).
    destruct nd; cbn [ndn] in Hd; destruct d as [|[|[|d]]]; try lia;
      unfold vip_rhs_expl_calc; cbn [forces multiply_sgs_visc deform calc_stress_rhs_cmpct calc_stress_rhs_cmpct2 calc_stress_rhs_cmpct3];
      unfold multiply_tnsr_const, Gop;
      cbn [calc_deform_cmpct calc_deform_cmpct2 calc_deform_cmpct3 calc_vip_div_cmpct];
      unfold lap_graddiv, quad_dd; posn; field; auto.
  Qed.

  (** gradients of quadratic fields *)
  Definition qgrad (nd : ndims) (c d : nat) : field := linear (ndn nd) dx (b c d) (fun e => h c d e + h c e d).
  Lemma grad_quad nd c d i : (d < ndn nd)%nat -> grad d (qv nd c) (dx d) i = qgrad nd c d i.
  Proof.
    intros Hd. destruct i as [[x y] z]. pose proof (Hdx d) as D.
    destruct nd; cbn [ndn] in Hd; destruct d as [|[|[|d]]]; try lia; cbn [grad]; unfold qgrad, linear; posn; field; exact D.
  Qed.
  Lemma helper_linear nd c w d i : (d < ndn nd)%nat -> pade_helper d (linear (ndn nd) dx c w) i = 4 * linear (ndn nd) dx c w i.
  Proof.
    intros Hd. destruct i as [[x y] z].
    destruct nd; cbn [ndn] in Hd; destruct d as [|[|[|d]]]; try lia; cbn [pade_helper]; unfold linear; posn; ring.
  Qed.
  Lemma pade_quad nd c d i : (d < ndn nd)%nat -> pade_wrk 3 d (grad d (qv nd c) (dx d)) i = qgrad nd c d i.
  Proof.
    intros Hd. rewrite (pade_ext 3 d _ (qgrad nd c d)) by (intros; apply grad_quad; assumption).
    apply pade_fix. intros j. apply helper_linear. exact Hd.
  Qed.

  (** the deformation, as an affine field, whether corrected or not *)
  Definition qdef (nd : ndims) (c : nat) : field :=
    let s d e := linear (ndn nd) dx (b d e + b e d) (fun f => h d e f + h d f e + (h e d f + h e f d)) in
    match nd with
    | two => match c with 0%nat => s 0%nat 0%nat | 1%nat => s 0%nat 1%nat | _ => s 1%nat 1%nat end
    | three => match c with 0%nat => s 0%nat 0%nat | 1%nat => s 0%nat 1%nat | 2%nat => s 0%nat 2%nat
                          | 3%nat => s 1%nat 1%nat | 4%nat => s 1%nat 2%nat | _ => s 2%nat 2%nat end
    end.
  Lemma deform_quad nd df c i : df <> compact -> deform dx false G nd df (qv nd) c i = qdef nd c i.
  Proof.
    intros N. destruct df; [| |congruence].
    - destruct nd; cbn [deform]; destruct c as [|[|[|[|[|c]]]]]; cbn [calc_deform calc_deform2 calc_deform3 calc_vgrad calc_vgrad2 calc_vgrad3 qdef];
        rewrite !grad_quad by (cbn; lia); unfold qgrad, linear; cbn [ndn axes]; ring.
    - destruct nd; cbn [deform]; unfold pade_deriv; destruct c as [|[|[|[|[|c]]]]];
        cbn [calc_deform calc_deform2 calc_deform3 calc_vgrad calc_vgrad2 calc_vgrad3 qdef pade_dir];
        rewrite !pade_quad by (cbn; lia); unfold qgrad, linear; cbn [ndn axes]; ring.
  Qed.

  Lemma grad_scaled nd c w k d i : (d < ndn nd)%nat -> grad d (fun j => linear (ndn nd) dx c w j * k) (dx d) i = w d * k.
  Proof.
    intros Hd. transitivity (k * grad d (linear (ndn nd) dx c w) (dx d) i + 0 * grad d (linear (ndn nd) dx c w) (dx d) i).
    - rewrite <- grad_lin. apply grad_ext. intros; ring.
    - rewrite grad_linear by assumption. ring.
  Qed.
  Lemma pade_scaled nd c w k d i : (d < ndn nd)%nat -> pade_wrk 3 d (grad d (fun j => linear (ndn nd) dx c w j * k) (dx d)) i = w d * k.
  Proof.
    intros Hd. rewrite (pade_ext 3 d _ (fun _ => w d * k)) by (intros; apply grad_scaled; assumption). apply pade_const.
  Qed.

  Lemma exact_all nd df eta rhs d i : (d < ndn nd)%nat ->
    rhsof nd df (Dns eta) (qv nd) rhs d i = rhs d i + 2 * eta * visc_exact nd d.
  Proof.
    intros Hd. destruct df; [| |apply exact_cmpct; exact Hd]; unfold vip_rhs_expl_calc; cbn [multiply_sgs_visc];
      rewrite (forces_ext dx false G nd _ rhs _ (fun c j => qdef nd c j * eta))
        by (intros; rewrite deform_quad by congruence; reflexivity);
      cbn [forces]; unfold lap_graddiv, quad_dd.
    - destruct nd; cbn [ndn] in Hd; destruct d as [|[|[|d]]]; try lia;
        cbn [calc_stress_rhs calc_stress_rhs2 calc_stress_rhs3 calc_stress_div calc_stress_div2 calc_stress_div3 qdef];
        rewrite ?(grad_scaled two), ?(grad_scaled three) by (cbn; lia); cbn [ndn axes]; ring.
    - unfold pade_deriv. destruct nd; cbn [ndn] in Hd; destruct d as [|[|[|d]]]; try lia;
        cbn [calc_stress_rhs calc_stress_rhs2 calc_stress_rhs3 calc_stress_div calc_stress_div2 calc_stress_div3 qdef pade_dir];
        rewrite ?(pade_scaled two), ?(pade_scaled three) by (cbn; lia); cbn [ndn axes]; ring.
  Qed.
End Main.
