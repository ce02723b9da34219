(** Viscous forces: exactness on quadratic velocities, rigid motions, scaling. *)
From Coq Require Import ZArith Reals Lra Lia Field.
From Verif Require Import Stencil SpecReal SpecStress ModelStress ProofsStress2.
Local Open Scope R_scope.

Section Main.
  Variable dx : nat -> R.
  Variable nug : bool.
  Variable G : field.
  Hypothesis Hdx : forall d, dx d <> 0.
  Notation rhsof nd df cl v rhs := (vip_rhs_expl_calc dx nug G nd df cl v rhs).

  Lemma tdef_ext nd t t' : (forall c i, t c i = t' c i) -> forall i, tdef_sq nd t i = tdef_sq nd t' i.
  Proof. intros H i. destruct nd; cbn [tdef_sq]; unfold calc_tdef_sq2, calc_tdef_sq3; rewrite !H; reflexivity. Qed.
  Lemma tdef_c_ext nd t t' : (forall c i, t c i = t' c i) -> forall i, tdef_sq_cmpct nd t i = tdef_sq_cmpct nd t' i.
  Proof.
    intros H i. destruct i as [[x y] z], nd; cbn [tdef_sq_cmpct calc_tdef_sq_cmpct2 calc_tdef_sq_cmpct3]; cbv zeta; rewrite !H; reflexivity.
  Qed.
  Lemma km_ext nd cl t t' : (forall i, t i = t' i) ->
    (forall i, fst (k_m dx nd cl t) i = fst (k_m dx nd cl t') i) /\ (forall i, snd (k_m dx nd cl t) i = snd (k_m dx nd cl t') i).
  Proof. intros H. destruct cl; cbn [k_m fst snd]; split; intros; rewrite ?H; reflexivity. Qed.
  Lemma mult_ext nd t t' k k' : (forall c i, t c i = t' c i) -> (forall i, fst k i = fst k' i) -> (forall i, snd k i = snd k' i) ->
    forall c i, multiply_tnsr_cmpct nug G nd t k c i = multiply_tnsr_cmpct nug G nd t' k' c i.
  Proof.
    intros H H1 H2 c [[x y] z]. destruct nd; cbn [multiply_tnsr_cmpct];
      destruct c as [|[|[|[|[|c]]]]]; cbn [multiply_tnsr_cmpct2 multiply_tnsr_cmpct3]; rewrite ?H, ?H1, ?H2; reflexivity.
  Qed.
  Lemma visc_ext nd df cl t t' : (forall c i, t c i = t' c i) ->
    forall c i, multiply_sgs_visc dx nug G nd df cl t c i = multiply_sgs_visc dx nug G nd df cl t' c i.
  Proof.
    intros H c i. pose proof (tdef_ext nd t t' H) as T. pose proof (tdef_c_ext nd t t' H) as TC.
    destruct df; cbn [multiply_sgs_visc].
    1,2: destruct cl; cbv beta; rewrite H; try reflexivity; f_equal; apply (km_ext nd _ _ _ T).
    destruct cl; [unfold multiply_tnsr_const; rewrite H; reflexivity| |];
      apply mult_ext; auto; apply (km_ext nd _ _ _ TC).
  Qed.

  Lemma rhs_deform nd df cl v w rhs : (forall c i, deform dx nug G nd df v c i = deform dx nug G nd df w c i) ->
    forall c i, rhsof nd df cl v rhs c i = rhsof nd df cl w rhs c i.
  Proof. intros H c i. unfold vip_rhs_expl_calc. apply forces_ext. apply visc_ext. exact H. Qed.

  (** *** Rigid motions *)
  Notation rigid := (SpecStress.rigid dx).

  Lemma deform_rigid nd df c w : (df = compact -> nug = false) -> antisym w ->
    forall e i, deform dx nug G nd df (rigid nd c w) e i = 0.
  Proof.
    intros Hg Ha e i.
    assert (W : forall d, w d d = 0) by (intros d; specialize (Ha d d); lra).
    assert (L : forall d f i, (d < ndn nd)%nat -> grad d (rigid nd c w f) (dx d) i = w f d).
    { intros d f j Hd. unfold SpecStress.rigid. apply grad_linear; assumption. }
    assert (P : forall d f i, (d < ndn nd)%nat -> pade_wrk 3 d (grad d (rigid nd c w f) (dx d)) i = w f d).
    { intros d f j Hd. rewrite (pade_ext 3 d _ (fun _ => w f d)) by (intros; apply L; assumption). apply pade_const. }
    destruct df.
    - destruct nd; cbn [deform]; destruct e as [|[|[|[|[|e]]]]]; cbn [calc_deform calc_deform2 calc_deform3 calc_vgrad calc_vgrad2 calc_vgrad3];
        rewrite ?L by (cbn; lia); rewrite ?W; try ring;
        match goal with |- w ?a ?b + w ?b ?a = 0 => rewrite (Ha a b); ring end.
    - destruct nd; cbn [deform]; unfold pade_deriv; destruct e as [|[|[|[|[|e]]]]];
        cbn [calc_deform calc_deform2 calc_deform3 calc_vgrad calc_vgrad2 calc_vgrad3 pade_dir];
        rewrite ?P by (cbn; lia); rewrite ?W; try ring;
        match goal with |- w ?a ?b + w ?b ?a = 0 => rewrite (Ha a b); ring end.
    - rewrite (Hg eq_refl). destruct i as [[x y] z].
      pose proof (Hdx 0). pose proof (Hdx 1). pose proof (Hdx 2).
      destruct nd; cbn [deform]; destruct e as [|[|[|[|[|e]]]]];
        cbn [calc_deform_cmpct calc_deform_cmpct2 calc_deform_cmpct3 calc_vip_div_cmpct];
        unfold SpecStress.rigid, linear, pos; cbn [ndn axes coord fst snd]; rewrite ?plus_IZR, ?W;
        rewrite ?(Ha 1%nat 0%nat), ?(Ha 2%nat 0%nat), ?(Ha 2%nat 1%nat);
        field; auto.
  Qed.

  Lemma rhs_rigid nd df cl c w v rhs : (df = compact -> nug = false) -> antisym w ->
    forall d i, rhsof nd df cl (fun e j => v e j + rigid nd c w e j) rhs d i = rhsof nd df cl v rhs d i.
  Proof.
    intros Hg Ha. apply rhs_deform. intros e i.
    rewrite (deform_ext dx nug G nd df _ (fun e j => 1 * v e j + 1 * rigid nd c w e j)) by (intros; ring).
    rewrite deform_lin, deform_rigid by assumption. ring.
  Qed.

  (** *** Scaling *)
  Lemma max_scale k a b : 0 <= k -> Rmax (k * a) (k * b) = k * Rmax a b.
  Proof. intros. rewrite RmaxRmult; auto. Qed.

  Lemma tdef_cmpct_scale nd k t i : tdef_sq_cmpct nd (fun c j => k * t c j) i = k * k * tdef_sq_cmpct nd t i.
  Proof.
    assert (P : forall x, pow2 (k * x) = (k * k) * pow2 x) by (intros; unfold pow2; ring).
    assert (K : 0 <= k * k) by (apply Rle_0_sqr).
    destruct i as [[x y] z], nd; cbn [tdef_sq_cmpct calc_tdef_sq_cmpct2 calc_tdef_sq_cmpct3]; cbv zeta; unfold max4;
      rewrite !P, !max_scale by assumption; field.
  Qed.
  Lemma tdef_scale nd k t i : tdef_sq nd (fun c j => k * t c j) i = k * k * tdef_sq nd t i.
  Proof. destruct nd; cbn [tdef_sq]; unfold calc_tdef_sq2, calc_tdef_sq3, pow2; field. Qed.


  Lemma visc_scale nd df cl k t c i : eddy cl ->
    multiply_sgs_visc dx nug G nd df cl (fun c j => k * t c j) c i = k * k * k * multiply_sgs_visc dx nug G nd df cl t c i.
  Proof.
    intros E. destruct df.
    1,2: destruct cl; try contradiction; cbn [multiply_sgs_visc k_m fst]; rewrite tdef_scale; ring.
    destruct nd; destruct cl; try contradiction; cbn [multiply_sgs_visc multiply_tnsr_cmpct k_m fst snd];
      destruct i as [[x y] z]; destruct c as [|[|[|[|[|[|c]]]]]]; cbn [multiply_tnsr_cmpct2 multiply_tnsr_cmpct3];
      rewrite !tdef_cmpct_scale; field.
  Qed.

  Lemma forces_zero nd df rhs t d i : (d < ndn nd)%nat ->
    forces dx nug G nd df rhs t d i = rhs d i + forces dx nug G nd df (fun _ _ => 0) t d i.
  Proof.
    intros Hd. destruct nd, df; cbn [ndn] in Hd; cbn [forces calc_stress_rhs calc_stress_rhs_cmpct]; destruct i as [[x y] z];
      destruct d as [|[|[|d]]]; try lia;
      cbn [calc_stress_rhs2 calc_stress_rhs3 calc_stress_rhs_cmpct2 calc_stress_rhs_cmpct3]; ring.
  Qed.
  Lemma forces_lin nd df a b t u d i :
    forces dx nug G nd df (fun _ _ => 0) (fun c j => a * t c j + b * u c j) d i =
    a * forces dx nug G nd df (fun _ _ => 0) t d i + b * forces dx nug G nd df (fun _ _ => 0) u d i.
  Proof.
    destruct nd, df; cbn [forces calc_stress_rhs calc_stress_rhs_cmpct]; destruct i as [[x y] z];
      destruct d as [|[|[|d]]];
      cbn [calc_stress_rhs2 calc_stress_rhs3 calc_stress_rhs_cmpct2 calc_stress_rhs_cmpct3 calc_stress_div];
      unfold pade_deriv; cbn [calc_stress_div2 calc_stress_div3];
      repeat (rewrite (pade_ext 3 _ _ _ (fun i => grad_lin _ _ a b _ _ i)) || rewrite pade_lin || rewrite grad_lin);
      unfold Rdiv; ring.
  Qed.

  Lemma rhs_scale nd df cl k v rhs d i : eddy cl -> (d < ndn nd)%nat ->
    rhsof nd df cl (fun e j => k * v e j) rhs d i - rhs d i = k * k * k * (rhsof nd df cl v rhs d i - rhs d i).
  Proof.
    intros E Hd. unfold vip_rhs_expl_calc. rewrite !(forces_zero nd df rhs) by assumption.
    rewrite (forces_ext _ _ _ nd df _ _
      (fun c j => k * k * k * multiply_sgs_visc dx nug G nd df cl (deform dx nug G nd df v) c j
                  + 0 * multiply_sgs_visc dx nug G nd df cl (deform dx nug G nd df v) c j)).
    - rewrite forces_lin. ring.
    - intros c j. rewrite (visc_ext nd df cl _ (fun c j => k * deform dx nug G nd df v c j)).
      + rewrite visc_scale by assumption. ring.
      + intros c' j'. rewrite (deform_ext dx nug G nd df _ (fun e j => k * v e j + 0 * v e j)) by (intros; ring).
        rewrite deform_lin. ring.
  Qed.
End Main.
