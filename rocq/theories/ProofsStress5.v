(** Viscous forces on cyclic domains: no momentum is created, no energy is fed in. *)
From Coq Require Import ZArith Reals Lra Lia Field.
From Verif Require Import Stencil SpecReal SpecStress ModelStress ProofsStress ProofsStress2 ProofsStress3.
Local Open Scope R_scope.

(** ** Periodicity *)
Section Per.
  Variable n : nat -> Z.
  Notation per := (periodic n).
  Lemma perX f : per f -> forall x y z, f (x + n 0%nat, y, z)%Z = f (x, y, z).
  Proof. intros P x y z. apply (P 0%nat (x, y, z)). lia. Qed.
  Lemma perY f : per f -> forall x y z, f (x, y + n 1%nat, z)%Z = f (x, y, z).
  Proof. intros P x y z. apply (P 1%nat (x, y, z)). lia. Qed.
  Lemma perZ f : per f -> forall x y z, f (x, y, z + n 2%nat)%Z = f (x, y, z).
  Proof. intros P x y z. apply (P 2%nat (x, y, z)). lia. Qed.

  Lemma swap1 a b : (a + b + 1 = a + 1 + b)%Z. Proof. lia. Qed.
  Lemma swapm a b : (a + b - 1 = a - 1 + b)%Z. Proof. lia. Qed.

  Variable dx : nat -> R.
  Variable nug : bool.
  Variable G : field.
  Hypothesis PG : nug = true -> per G.

  Lemma per_Gop : per (Gop nug G).
  Proof. intros d i Hd. unfold Gop. destruct nug; [apply PG; auto|reflexivity]. Qed.

  Ltac unstep := intros d0 [[x y] z] Hd0; destruct d0 as [|[|[|d0]]]; [| | |exfalso; clear -Hd0; lia]; cbn [step fst snd].

  Lemma per_grad d f : per f -> per (grad d f (dx d)).
  Proof.
    intros P. unstep; destruct d as [|[|d]]; cbn [grad]; rewrite ?swap1, ?swapm, ?(perX f P), ?(perY f P), ?(perZ f P); reflexivity.
  Qed.
  Lemma per_helper d f : per f -> per (pade_helper d f).
  Proof.
    intros P. unstep; destruct d as [|[|d]]; cbn [pade_helper]; rewrite ?swap1, ?swapm, ?(perX f P), ?(perY f P), ?(perZ f P); reflexivity.
  Qed.
  Lemma per_pade m d f : per f -> per (pade_wrk m d f).
  Proof.
    intros P. induction m as [|m IH]; [exact P|]. intros e i He. cbn [pade_wrk].
    rewrite (IH e i He), (P e i He), (per_helper d _ IH e i He). reflexivity.
  Qed.

  Lemma per_div nd v : (forall c, per (v c)) -> per (calc_vip_div_cmpct dx nug G nd v).
  Proof.
    intros P. unstep; cbn [calc_vip_div_cmpct]; destruct nug eqn:E; try reflexivity; specialize (PG eq_refl);
      destruct nd; rewrite ?swap1, ?swapm, ?(perX _ (P _)), ?(perY _ (P _)), ?(perZ _ (P _)), ?(perX _ PG), ?(perY _ PG), ?(perZ _ PG); reflexivity.
  Qed.

  Lemma per_deform nd df v : (forall c, per (v c)) -> forall c, per (deform dx nug G nd df v c).
  Proof.
    intros P c.
    assert (V : forall c, per (calc_vgrad dx nd v c)).
    { intros e. destruct nd; cbn [calc_vgrad]; destruct e as [|[|[|[|[|[|[|[|e]]]]]]]]; apply per_grad; apply P. }
    assert (D : forall vg, (forall c, per (vg c)) -> per (calc_deform nd vg c)).
    { intros vg Q d i Hd. destruct nd; cbn [calc_deform]; destruct c as [|[|[|[|[|c]]]]]; cbn [calc_deform2 calc_deform3]; rewrite !Q by exact Hd; reflexivity. }
    destruct df; cbn [deform].
    - apply D. exact V.
    - apply D. intros e. unfold pade_deriv. apply per_pade. apply V.
    - pose proof (per_div nd v P) as Q.
      generalize dependent (calc_vip_div_cmpct dx nug G nd v). intros dv Q.
      unstep; destruct nd; cbn [calc_deform_cmpct]; destruct c as [|[|[|[|[|c]]]]]; cbn [calc_deform_cmpct2 calc_deform_cmpct3];
        rewrite ?swap1, ?swapm; rewrite ?(perX _ (P _)), ?(perY _ (P _)), ?(perZ _ (P _)), ?(perX _ Q), ?(perY _ Q), ?(perZ _ Q); reflexivity.
  Qed.

  Lemma per_tdef nd t : (forall c, per (t c)) -> per (tdef_sq nd t).
  Proof. intros P d i Hd. destruct nd; cbn [tdef_sq]; unfold calc_tdef_sq2, calc_tdef_sq3; rewrite !P by exact Hd; reflexivity. Qed.
  Lemma per_tdef_c nd t : (forall c, per (t c)) -> per (tdef_sq_cmpct nd t).
  Proof.
    intros P. unstep; destruct nd; cbn [tdef_sq_cmpct calc_tdef_sq_cmpct2 calc_tdef_sq_cmpct3]; cbv zeta;
      rewrite ?swap1, ?swapm; rewrite ?(perX _ (P _)), ?(perY _ (P _)), ?(perZ _ (P _)); reflexivity.
  Qed.
  Lemma per_km nd cl t : per t -> per (fst (k_m dx nd cl t)) /\ per (snd (k_m dx nd cl t)).
  Proof. intros P. destruct cl; cbn [k_m fst snd]; split; intros d i Hd; rewrite ?(P d i Hd); reflexivity. Qed.

  Lemma per_visc nd df cl t : (forall c, per (t c)) -> forall c, per (multiply_sgs_visc dx nug G nd df cl t c).
  Proof.
    intros P c.
    assert (M : forall k, per (fst k) -> per (snd k) -> per (multiply_tnsr_cmpct nug G nd t k c)).
    { intros [kh kv] KH KV. cbn [fst snd] in *. pose proof per_Gop as PGo.
      unstep; destruct nd; cbn [multiply_tnsr_cmpct fst snd]; destruct c as [|[|[|[|[|c]]]]]; cbn [multiply_tnsr_cmpct2 multiply_tnsr_cmpct3];
        rewrite ?swap1, ?swapm; rewrite ?(perX _ (P _)), ?(perY _ (P _)), ?(perZ _ (P _)), ?(perX _ KH), ?(perY _ KH), ?(perZ _ KH),
          ?(perX _ KV), ?(perY _ KV), ?(perZ _ KV), ?(perX _ PGo), ?(perY _ PGo), ?(perZ _ PGo); reflexivity. }
    destruct df; cbn [multiply_sgs_visc].
    1,2: destruct cl; intros d i Hd; cbv beta; rewrite (P c d i Hd); try reflexivity;
         rewrite (proj1 (per_km nd _ _ (per_tdef nd t P)) d i Hd); reflexivity.
    destruct cl.
    - intros d i Hd. unfold multiply_tnsr_const. rewrite (P c d i Hd). reflexivity.
    - apply M; apply per_km; apply per_tdef_c; exact P.
    - apply M; apply per_km; apply per_tdef_c; exact P.
  Qed.
End Per.

(** ** Virtual power of the forces *)
Section Power.
  Variable n : nat -> Z.
  Hypothesis Hn : forall d, (0 < n d)%Z.
  Notation per := (periodic n).
  Variable dx : nat -> R.
  Variable nug : bool.
  Variable G : field.
  Hypothesis Hdx : forall d, dx d <> 0.
  Hypothesis HG : forall i, Gop nug G i <> 0.

  Lemma adj_grad d u t : per u -> per t -> cells n (fun i => u i * grad d t (dx d) i) = - cells n (fun i => grad d u (dx d) i * t i).
  Proof.
    intros U T.
    transitivity (/ dx d * / 2 * cells n (fun i => u i * (t (step d 1 i) - t (step d (-1) i)))).
    { rewrite <- cells_scal. apply cells_ext. intros i. rewrite grad_step. unfold Rdiv. ring. }
    rewrite parts_c by assumption.
    transitivity (- (/ dx d * / 2 * cells n (fun i => (u (step d 1 i) - u (step d (-1) i)) * t i))); [ring|].
    f_equal. rewrite <- cells_scal. apply cells_ext. intros i. rewrite grad_step. unfold Rdiv. ring.
  Qed.
  Lemma adj_helper d u t : per u -> per t -> cells n (fun i => u i * pade_helper d t i) = cells n (fun i => pade_helper d u i * t i).
  Proof.
    intros U T.
    transitivity (cells n (fun i => u i * t (step d 1 i)) + 2 * cells n (fun i => u i * t i) + cells n (fun i => u i * t (step d (-1) i))).
    { rewrite <- cells_scal, <- !cells_add. apply cells_ext. intros i. rewrite helper_step. ring. }
    rewrite cells_adj, cells_adjm by assumption.
    rewrite <- cells_scal, <- !cells_add. apply cells_ext. intros i. rewrite helper_step. ring.
  Qed.
  Lemma helper_pade m d f i : pade_helper d (pade_wrk m d f) i = pade_wrk m d (pade_helper d f) i.
  Proof.
    revert i. induction m as [|m IH]; intros i; cbn [pade_wrk]; [reflexivity|].
    rewrite <- (helper_ext d _ _ IH), <- IH. rewrite !helper_step. field.
  Qed.
  Lemma adj_pade m d u t : per u -> per t -> cells n (fun i => u i * pade_wrk m d t i) = cells n (fun i => pade_wrk m d u i * t i).
  Proof.
    revert u. induction m as [|m IH]; intros u U T; cbn [pade_wrk]; [reflexivity|].
    transitivity (cells n (fun i => u i * pade_wrk m d t i) + cells n (fun i => u i * t i) + (- (1 / 4)) * cells n (fun i => u i * pade_helper d (pade_wrk m d t) i)).
    { rewrite <- cells_scal, <- !cells_add. apply cells_ext. intros; ring. }
    rewrite (adj_helper d u (pade_wrk m d t) U (per_pade n m d t T)).
    rewrite (IH (pade_helper d u) (per_helper n d u U) T), (IH u U T).
    rewrite <- cells_scal, <- !cells_add. apply cells_ext. intros i. rewrite helper_pade. ring.
  Qed.
  Lemma grad_pade m d f i : grad d (pade_wrk m d f) (dx d) i = pade_wrk m d (grad d f (dx d)) i.
  Proof.
    revert i. induction m as [|m IH]; intros i; cbn [pade_wrk]; [reflexivity|].
    rewrite <- (helper_ext d _ _ IH), <- IH, !helper_step, !grad_step. cbn [pade_wrk]. rewrite !helper_step.
    rewrite !step_add. change (1 + -1)%Z with 0%Z. change (-1 + 1)%Z with 0%Z. rewrite !step_0. field. apply Hdx.
  Qed.

  Definition der (df : sdiff) (d : nat) (f : field) : field :=
    match df with pade => pade_wrk 3 d (grad d f (dx d)) | _ => grad d f (dx d) end.
  Lemma adj_der df d u t : per u -> per t -> cells n (fun i => u i * der df d t i) = - cells n (fun i => der df d u i * t i).
  Proof.
    intros U T. destruct df; cbn [der]; try (apply adj_grad; assumption).
    rewrite adj_pade by (try apply per_grad; assumption).
    rewrite adj_grad by (try apply per_pade; assumption).
    f_equal. apply cells_ext. intros i. rewrite grad_pade. reflexivity.
  Qed.

  (** stress : strain *)
  Definition dot (nd : ndims) (df : sdiff) (e t : fields) (i : idx) : R :=
    match df, nd with
    | compact, two => e 0%nat i * t 0%nat i + e 1%nat i * t 1%nat i + 2 * (e 2%nat i * t 2%nat i)
    | compact, three => e 0%nat i * t 0%nat i + e 1%nat i * t 1%nat i + e 2%nat i * t 2%nat i
                        + 2 * (e 3%nat i * t 3%nat i) + 2 * (e 4%nat i * t 4%nat i) + 2 * (e 5%nat i * t 5%nat i)
    | _, two => e 0%nat i * t 0%nat i + 2 * (e 1%nat i * t 1%nat i) + e 2%nat i * t 2%nat i
    | _, three => e 0%nat i * t 0%nat i + 2 * (e 1%nat i * t 1%nat i) + 2 * (e 2%nat i * t 2%nat i)
                  + e 3%nat i * t 3%nat i + 2 * (e 4%nat i * t 4%nat i) + e 5%nat i * t 5%nat i
    end.
  Notation wt := (mass nug G).

  Lemma power_der nd df u t : df <> compact -> (forall c, per (u c)) -> (forall c, per (t c)) ->
    cells n (fun i => axes (ndn nd) (fun d => u d i * (wt df i * forces dx nug G nd df (fun _ _ => 0) t d i))) =
    - cells n (dot nd df (deform dx false G nd df u) t).
  Proof.
    intros N U T.
    assert (A : forall d a b, cells n (fun i => u a i * der df d (t b) i) = - cells n (fun i => der df d (u a) i * t b i))
      by (intros; apply adj_der; auto).
    destruct nd.
    - transitivity (2 * cells n (fun i => u 0%nat i * der df 0 (t 0%nat) i) + 2 * cells n (fun i => u 0%nat i * der df 1 (t 1%nat) i)
                    + 2 * cells n (fun i => u 1%nat i * der df 0 (t 1%nat) i) + 2 * cells n (fun i => u 1%nat i * der df 1 (t 2%nat) i)).
      { rewrite <- !cells_scal, <- !cells_add. apply cells_ext. intros i.
        destruct df; [| |congruence]; unfold forces, pade_deriv, mass;
          cbn [ndn axes calc_stress_rhs calc_stress_rhs2 calc_stress_div calc_stress_div2 der pade_dir]; ring. }
      rewrite !A.
      transitivity (- (2 * cells n (fun i => der df 0 (u 0%nat) i * t 0%nat i) + 2 * cells n (fun i => der df 1 (u 0%nat) i * t 1%nat i)
                    + 2 * cells n (fun i => der df 0 (u 1%nat) i * t 1%nat i) + 2 * cells n (fun i => der df 1 (u 1%nat) i * t 2%nat i))); [ring|].
      f_equal. rewrite <- !cells_scal, <- !cells_add. apply cells_ext. intros i.
      destruct df; [| |congruence]; unfold dot, deform, pade_deriv; cbn [calc_deform calc_deform2 calc_vgrad calc_vgrad2 der pade_dir]; ring.
    - transitivity (2 * cells n (fun i => u 0%nat i * der df 0 (t 0%nat) i) + 2 * cells n (fun i => u 0%nat i * der df 1 (t 1%nat) i)
                    + 2 * cells n (fun i => u 0%nat i * der df 2 (t 2%nat) i) + 2 * cells n (fun i => u 1%nat i * der df 0 (t 1%nat) i)
                    + 2 * cells n (fun i => u 1%nat i * der df 1 (t 3%nat) i) + 2 * cells n (fun i => u 1%nat i * der df 2 (t 4%nat) i)
                    + 2 * cells n (fun i => u 2%nat i * der df 0 (t 2%nat) i) + 2 * cells n (fun i => u 2%nat i * der df 1 (t 4%nat) i)
                    + 2 * cells n (fun i => u 2%nat i * der df 2 (t 5%nat) i)).
      { rewrite <- !cells_scal, <- !cells_add. apply cells_ext. intros i.
        destruct df; [| |congruence]; unfold forces, pade_deriv, mass;
          cbn [ndn axes calc_stress_rhs calc_stress_rhs3 calc_stress_div calc_stress_div3 der pade_dir]; ring. }
      rewrite !A.
      transitivity (- (2 * cells n (fun i => der df 0 (u 0%nat) i * t 0%nat i) + 2 * cells n (fun i => der df 1 (u 0%nat) i * t 1%nat i)
                    + 2 * cells n (fun i => der df 2 (u 0%nat) i * t 2%nat i) + 2 * cells n (fun i => der df 0 (u 1%nat) i * t 1%nat i)
                    + 2 * cells n (fun i => der df 1 (u 1%nat) i * t 3%nat i) + 2 * cells n (fun i => der df 2 (u 1%nat) i * t 4%nat i)
                    + 2 * cells n (fun i => der df 0 (u 2%nat) i * t 2%nat i) + 2 * cells n (fun i => der df 1 (u 2%nat) i * t 4%nat i)
                    + 2 * cells n (fun i => der df 2 (u 2%nat) i * t 5%nat i))); [ring|].
      f_equal. rewrite <- !cells_scal, <- !cells_add. apply cells_ext. intros i.
      destruct df; [| |congruence]; unfold dot, deform, pade_deriv; cbn [calc_deform calc_deform3 calc_vgrad calc_vgrad3 der pade_dir]; ring.
  Qed.

  Ltac unidx := cbn [step fst snd]; unfold Z.sub; cbn [Z.opp].

  (** summation by parts for the differences of the compact scheme *)
  Lemma pc_o d u t : per u -> per t ->
    cells n (fun i => u i * ((t i - t (step d (-1) i)) / dx d)) = - cells n (fun i => (u (step d 1 i) - u i) / dx d * t i).
  Proof.
    intros U T. transitivity (/ dx d * cells n (fun i => u i * (t i - t (step d (-1) i)))).
    { rewrite <- cells_scal. apply cells_ext. intros; unfold Rdiv; ring. }
    rewrite parts_o by assumption.
    transitivity (- (/ dx d * cells n (fun i => (u (step d 1 i) - u i) * t i))); [ring|].
    f_equal. rewrite <- cells_scal. apply cells_ext. intros; unfold Rdiv; ring.
  Qed.
  Lemma pc_ao d e u t : per u -> per t ->
    cells n (fun i => u i * (5 / 10 * (t i - t (step e (-1) i) + t (step d (-1) i) - t (step e (-1) (step d (-1) i))) / dx e)) =
    - cells n (fun i => 1 / 2 * (u (step e 1 i) - u i + u (step e 1 (step d 1 i)) - u (step d 1 i)) / dx e * t i).
  Proof.
    intros U T.
    transitivity (1 / 2 * / dx e * cells n (fun i => u i * (t i - t (step e (-1) i) + (t (step d (-1) i) - t (step e (-1) (step d (-1) i)))))).
    { rewrite <- cells_scal. apply cells_ext. intros; field. apply Hdx. }
    rewrite parts_ao by assumption.
    transitivity (- (1 / 2 * / dx e * cells n (fun i => (u (step e 1 i) - u i + (u (step e 1 (step d 1 i)) - u (step d 1 i))) * t i))); [ring|].
    f_equal. rewrite <- cells_scal. apply cells_ext. intros; field. apply Hdx.
  Qed.

  Definition d1 (d : nat) (t : field) (i : idx) : R := (t i - t (step d (-1) i)) / dx d.
  Definition d2 (d e : nat) (t : field) (i : idx) : R :=
    5 / 10 * (t i - t (step e (-1) i) + t (step d (-1) i) - t (step e (-1) (step d (-1) i))) / dx e.
  Definition s1 (d : nat) (u : field) (i : idx) : R := (u (step d 1 i) - u i) / dx d.
  Definition s2 (d e : nat) (u : field) (i : idx) : R :=
    1 / 2 * (u (step e 1 i) - u i + u (step e 1 (step d 1 i)) - u (step d 1 i)) / dx e.

  Lemma Gcancel i a : Gop nug G i * (0 + 2 * a / Gop nug G i) = 2 * a.
  Proof. field. apply HG. Qed.

  Lemma power_cmpct nd u t : (forall c, per (u c)) -> (forall c, per (t c)) ->
    cells n (fun i => axes (ndn nd) (fun d => u d i * (wt compact i * forces dx nug G nd compact (fun _ _ => 0) t d i))) =
    - cells n (dot nd compact (deform dx false G nd compact u) t).
  Proof.
    intros U T.
    assert (A : forall d a b, cells n (fun i => u a i * d1 d (t b) i) = - cells n (fun i => s1 d (u a) i * t b i))
      by (intros; apply pc_o; auto).
    assert (B : forall d e a b, cells n (fun i => u a i * d2 d e (t b) i) = - cells n (fun i => s2 d e (u a) i * t b i))
      by (intros; apply pc_ao; auto).
    destruct nd.
    - transitivity (2 * cells n (fun i => u 0%nat i * d1 0 (t 0%nat) i) + 2 * cells n (fun i => u 0%nat i * d2 0 1 (t 2%nat) i)
                    + 2 * cells n (fun i => u 1%nat i * d2 1 0 (t 2%nat) i) + 2 * cells n (fun i => u 1%nat i * d1 1 (t 1%nat) i)).
      { rewrite <- !cells_scal, <- !cells_add. apply cells_ext. intros [[x y] z].
        cbn [forces calc_stress_rhs_cmpct mass ndn axes calc_stress_rhs_cmpct2]. fold (Gop nug G (x, y, z)). rewrite !Gcancel. unfold d1, d2. unidx. ring. }
      rewrite !A, !B.
      transitivity (- (2 * cells n (fun i => s1 0 (u 0%nat) i * t 0%nat i) + 2 * cells n (fun i => s2 0 1 (u 0%nat) i * t 2%nat i)
                    + 2 * cells n (fun i => s2 1 0 (u 1%nat) i * t 2%nat i) + 2 * cells n (fun i => s1 1 (u 1%nat) i * t 1%nat i))); [ring|].
      f_equal. rewrite <- !cells_scal, <- !cells_add. apply cells_ext. intros [[x y] z].
      cbn [dot deform calc_deform_cmpct calc_deform_cmpct2 calc_vip_div_cmpct]. unfold s1, s2. unidx. field. auto.
    - transitivity (2 * cells n (fun i => u 0%nat i * d1 0 (t 0%nat) i) + 2 * cells n (fun i => u 0%nat i * d2 0 1 (t 3%nat) i)
                    + 2 * cells n (fun i => u 0%nat i * d2 0 2 (t 4%nat) i) + 2 * cells n (fun i => u 1%nat i * d2 1 0 (t 3%nat) i)
                    + 2 * cells n (fun i => u 1%nat i * d1 1 (t 1%nat) i) + 2 * cells n (fun i => u 1%nat i * d2 1 2 (t 5%nat) i)
                    + 2 * cells n (fun i => u 2%nat i * d2 2 0 (t 4%nat) i) + 2 * cells n (fun i => u 2%nat i * d2 2 1 (t 5%nat) i)
                    + 2 * cells n (fun i => u 2%nat i * d1 2 (t 2%nat) i)).
      { rewrite <- !cells_scal, <- !cells_add. apply cells_ext. intros [[x y] z].
        cbn [forces calc_stress_rhs_cmpct mass ndn axes calc_stress_rhs_cmpct3]. fold (Gop nug G (x, y, z)). rewrite !Gcancel. unfold d1, d2. unidx. ring. }
      rewrite !A, !B.
      transitivity (- (2 * cells n (fun i => s1 0 (u 0%nat) i * t 0%nat i) + 2 * cells n (fun i => s2 0 1 (u 0%nat) i * t 3%nat i)
                    + 2 * cells n (fun i => s2 0 2 (u 0%nat) i * t 4%nat i) + 2 * cells n (fun i => s2 1 0 (u 1%nat) i * t 3%nat i)
                    + 2 * cells n (fun i => s1 1 (u 1%nat) i * t 1%nat i) + 2 * cells n (fun i => s2 1 2 (u 1%nat) i * t 5%nat i)
                    + 2 * cells n (fun i => s2 2 0 (u 2%nat) i * t 4%nat i) + 2 * cells n (fun i => s2 2 1 (u 2%nat) i * t 5%nat i)
                    + 2 * cells n (fun i => s1 2 (u 2%nat) i * t 2%nat i))); [ring|].
      f_equal. rewrite <- !cells_scal, <- !cells_add. apply cells_ext. intros [[x y] z].
      cbn [dot deform calc_deform_cmpct calc_deform_cmpct3 calc_vip_div_cmpct]. unfold s1, s2. unidx. field. auto.
  Qed.

  Lemma power nd df u t : (forall c, per (u c)) -> (forall c, per (t c)) ->
    cells n (fun i => axes (ndn nd) (fun d => u d i * (wt df i * forces dx nug G nd df (fun _ _ => 0) t d i))) =
    - cells n (dot nd df (deform dx false G nd df u) t).
  Proof. intros U T. destruct df; [apply power_der; auto; congruence|apply power_der; auto; congruence|apply power_cmpct; auto]. Qed.

  Hypothesis PG : nug = true -> per G.

  (** *** Momentum *)
  Lemma momentum nd df cl v rhs d : (forall c, per (v c)) -> (d < ndn nd)%nat ->
    cells n (fun i => wt df i * (vip_rhs_expl_calc dx nug G nd df cl v rhs d i - rhs d i)) = 0.
  Proof.
    intros V Hd. unfold vip_rhs_expl_calc.
    set (t := multiply_sgs_visc dx nug G nd df cl (deform dx nug G nd df v)).
    assert (T : forall c, per (t c)) by (apply per_visc; [exact PG|]; apply per_deform; assumption).
    set (u := fun (c : nat) (_ : idx) => if Nat.eqb c d then 1 else 0).
    transitivity (cells n (fun i => axes (ndn nd) (fun d => u d i * (wt df i * forces dx nug G nd df (fun _ _ => 0) t d i)))).
    { apply cells_ext. intros i. rewrite (forces_zero dx nug G nd df rhs) by exact Hd. unfold u.
      destruct nd; cbn [ndn] in *; destruct d as [|[|[|d]]]; try (exfalso; clear -Hd; lia); cbn [axes Nat.eqb]; ring. }
    rewrite power; [|intros c e i _; reflexivity|exact T].
    transitivity (- cells n (fun i => 0 * t 0%nat i)).
    - f_equal. apply cells_ext. intros i.
      assert (Z : forall c, deform dx false G nd df u c i = 0).
      { intros c.
        rewrite (deform_ext dx false G nd df u (SpecStress.rigid dx nd (fun c => if Nat.eqb c d then 1 else 0) (fun _ _ => 0))).
        - apply deform_rigid; auto. intros a b. ring.
        - intros e j. unfold u, SpecStress.rigid, linear. destruct nd; cbn [ndn axes]; ring. }
      destruct df, nd; cbn [dot]; rewrite !Z; ring.
    - rewrite cells_scal. ring.
  Qed.

  (** *** Energy *)

  Lemma pow2_ge x : 0 <= pow2 x.
  Proof. apply Rle_0_sqr. Qed.
  Lemma tdef_ge nd t i : 0 <= tdef_sq nd t i.
  Proof.
    destruct nd; cbn [tdef_sq]; unfold calc_tdef_sq2, calc_tdef_sq3;
      pose proof (pow2_ge (t 0%nat i)); pose proof (pow2_ge (t 1%nat i)); pose proof (pow2_ge (t 2%nat i));
      pose proof (pow2_ge (t 3%nat i)); pose proof (pow2_ge (t 4%nat i)); pose proof (pow2_ge (t 5%nat i)); lra.
  Qed.
  Lemma max_ge a b : 0 <= a -> 0 <= Rmax a b.
  Proof. intros H. eapply Rle_trans; [exact H|apply Rmax_l]. Qed.
  Lemma tdef_c_ge nd t i : 0 <= tdef_sq_cmpct nd t i.
  Proof.
    assert (M : forall a b, 0 <= Rmax (pow2 a) b) by (intros; apply max_ge, pow2_ge).
    assert (M4 : forall a b c d, 0 <= max4 (pow2 a) b c d) by (intros; unfold max4; apply max_ge, M).
    destruct i as [[x y] z], nd; cbn [tdef_sq_cmpct calc_tdef_sq_cmpct2 calc_tdef_sq_cmpct3]; cbv zeta;
      apply Rplus_le_le_0_compat;
      (apply Rmult_le_pos; [repeat apply Rplus_le_le_0_compat; try apply pow2_ge; try apply M; apply Rmult_le_pos; try apply M4; lra|lra]).
  Qed.
  Lemma km_ge nd cl t : visc_ok cl -> (forall i, 0 <= t i) -> forall i, 0 <= fst (k_m dx nd cl t) i /\ 0 <= snd (k_m dx nd cl t) i.
  Proof.
    intros V H i. destruct cl; cbn [k_m fst snd visc_ok] in *; split; try exact V; apply Rmult_le_pos; try apply pow2_ge; apply H.
  Qed.

  (** stresses are the deformation times something not negative *)
  Definition ntau (nd : ndims) : nat := match nd with two => 3 | three => 6 end.
  Lemma visc_factor nd df cl t c i : (df = compact -> nug = false) -> visc_ok cl -> (c < ntau nd)%nat ->
    exists k, 0 <= k /\ multiply_sgs_visc dx nug G nd df cl t c i = t c i * k.
  Proof.
    intros Hg V Hc.
    assert (M : nug = false -> forall kk, (forall i, 0 <= fst kk i /\ 0 <= snd kk i) ->
                exists k, 0 <= k /\ multiply_tnsr_cmpct nug G nd t kk c i = t c i * k).
    { intros Hf [kh kv] K. cbn [fst snd] in K.
      assert (KH : forall i, 0 <= kh i) by (intros; apply K). assert (KV : forall i, 0 <= kv i) by (intros; apply K).
      destruct i as [[x y] z].
      destruct nd; cbn [multiply_tnsr_cmpct fst snd]; destruct c as [|[|[|[|[|[|c]]]]]];
        try (exfalso; clear -Hc; cbn in Hc; lia);
        cbn [multiply_tnsr_cmpct2 multiply_tnsr_cmpct3]; eexists; (split; [|reflexivity]);
        unfold Gop; rewrite Hf; repeat apply Rmult_le_pos; try lra; repeat apply Rplus_le_le_0_compat; auto; lra. }
    destruct df; cbn [multiply_sgs_visc].
    1,2: destruct cl; [exists eta; split; [exact V|reflexivity]| |];
         (eexists; split; [|reflexivity]; apply km_ge; [exact V|apply tdef_ge]).
    destruct cl; [exists eta; split; [exact V|reflexivity]| |];
      apply M; auto; intros j; apply km_ge; auto; apply tdef_c_ge.
  Qed.

  Lemma mul_sq a k : 0 <= k -> 0 <= a * (a * k).
  Proof. intros K. rewrite <- Rmult_assoc. apply Rmult_le_pos; [apply Rle_0_sqr|exact K]. Qed.

  Lemma deform_nug nd df v c i : (df = compact -> nug = false) -> deform dx nug G nd df v c i = deform dx false G nd df v c i.
  Proof. intros H. destruct df; try reflexivity. rewrite (H eq_refl). reflexivity. Qed.
  Lemma wt_1 df i : (df = compact -> nug = false) -> wt df i = 1.
  Proof. intros H. destruct df; try reflexivity. cbn [mass]. rewrite (H eq_refl). reflexivity. Qed.

  Lemma power_rhs nd df cl v rhs : (df = compact -> nug = false) -> (forall c, per (v c)) ->
    cells n (fun i => axes (ndn nd) (fun d => v d i * (vip_rhs_expl_calc dx nug G nd df cl v rhs d i - rhs d i))) =
    - cells n (dot nd df (deform dx nug G nd df v) (multiply_sgs_visc dx nug G nd df cl (deform dx nug G nd df v))).
  Proof.
    intros Hg V. unfold vip_rhs_expl_calc.
    set (t := multiply_sgs_visc dx nug G nd df cl (deform dx nug G nd df v)).
    assert (T : forall c, per (t c)) by (apply per_visc; [exact PG|]; apply per_deform; assumption).
    transitivity (cells n (fun i => axes (ndn nd) (fun d => v d i * (wt df i * forces dx nug G nd df (fun _ _ => 0) t d i)))).
    { apply cells_ext. intros i. rewrite wt_1 by exact Hg.
      assert (E : forall d, (d < ndn nd)%nat -> forces dx nug G nd df rhs t d i - rhs d i = 1 * forces dx nug G nd df (fun _ _ => 0) t d i).
      { intros d Hd. rewrite (forces_zero dx nug G nd df rhs) by exact Hd. ring. }
      destruct nd; cbn [ndn axes] in *; rewrite !E by (clear; lia); reflexivity. }
    rewrite power by assumption. f_equal. apply cells_ext. intros i.
    unfold dot. destruct df, nd; rewrite !(deform_nug _ _ v) by exact Hg; reflexivity.
  Qed.

  Lemma energy nd df cl v rhs : (df = compact -> nug = false) -> visc_ok cl -> (forall c, per (v c)) ->
    cells n (fun i => axes (ndn nd) (fun d => v d i * (vip_rhs_expl_calc dx nug G nd df cl v rhs d i - rhs d i))) <= 0.
  Proof.
    intros Hg K V. rewrite power_rhs by assumption.
    set (e := deform dx nug G nd df v). set (t := multiply_sgs_visc dx nug G nd df cl e).
    assert (E : cells n (fun i => -1 * dot nd df e t i) <= 0).
    { apply cells_le0. intros i.
      assert (P : forall c, (c < ntau nd)%nat -> 0 <= e c i * t c i).
      { intros c Hc. destruct (visc_factor nd df cl e c i Hg K Hc) as (k & Hk & E). unfold t. rewrite E. apply mul_sq. exact Hk. }
      destruct nd; cbn [ntau] in P.
      - pose proof (P 0%nat ltac:(lia)). pose proof (P 1%nat ltac:(lia)). pose proof (P 2%nat ltac:(lia)).
        destruct df; cbn [dot]; lra.
      - pose proof (P 0%nat ltac:(lia)). pose proof (P 1%nat ltac:(lia)). pose proof (P 2%nat ltac:(lia)).
        pose proof (P 3%nat ltac:(lia)). pose proof (P 4%nat ltac:(lia)). pose proof (P 5%nat ltac:(lia)).
        destruct df; cbn [dot]; lra. }
    rewrite cells_scal in E. lra.
  Qed.

  Lemma cdiff_grad d f i : cdiff dx d f i = grad d f (dx d) i.
  Proof. unfold cdiff. rewrite grad_step. field. apply Hdx. Qed.
  Lemma energy_eq nd eta v rhs : (forall c, per (v c)) ->
    cells n (fun i => axes (ndn nd) (fun d => v d i * (vip_rhs_expl_calc dx nug G nd normal (Dns eta) v rhs d i - rhs d i))) =
    - (4 * eta * cells n (strain2 (ndn nd) dx v)).
  Proof.
    intros V. rewrite power_rhs by (congruence || assumption). f_equal. rewrite <- cells_scal. apply cells_ext. intros i.
    unfold strain2. destruct nd; cbn [dot multiply_sgs_visc deform calc_deform ndn axes calc_vgrad]; rewrite !cdiff_grad;
      cbn [calc_deform2 calc_deform3 calc_vgrad2 calc_vgrad3]; field.
  Qed.
End Power.
