(** Proofs on viscous forces above a ground with surface drag. *)
From Coq Require Import ZArith Reals Lra Lia Bool.
From Verif Require Import Stencil SpecReal SpecStress ModelStress ModelHeat SpecHeat ModelGround ProofsCons1D ProofsStress ProofsStress5 ProofsHeat SpecGround.
Local Open Scope R_scope.

Lemma upwlt nd d : (d < upw nd)%nat -> (d < 2)%nat.
Proof. clear. destruct nd; cbn; lia. Qed.
Lemma coordh nd d k i : (d < upw nd)%nat -> coord (upw nd) (step d k i) = coord (upw nd) i.
Proof. intros H. destruct i as [[x y] z], nd; cbn in *; destruct d as [|[|d]]; try lia; reflexivity. Qed.
Lemma coordv nd k i : coord (upw nd) (step (upw nd) k i) = (coord (upw nd) i + k)%Z.
Proof. destruct i as [[x y] z], nd; reflexivity. Qed.

Section HPer.
  Variables (nd : ndims) (n : nat -> Z).
  Notation hp := (hperiodic nd n).
  Lemma hpX f : hp f -> forall x y z, f (x + n 0%nat, y, z)%Z = f (x, y, z).
  Proof. intros P x y z. apply (P 0%nat (x, y, z)). destruct nd; cbn; lia. Qed.
  Lemma hpY f : hp f -> (1 < upw nd)%nat -> forall x y z, f (x, y + n 1%nat, z)%Z = f (x, y, z).
  Proof. intros P H x y z. apply (P 1%nat (x, y, z)). exact H. Qed.
  Lemma upw_cases d : (d < upw nd)%nat -> d = 0%nat \/ d = 1%nat /\ nd = three.
  Proof. destruct nd; cbn; lia || (intros; destruct d as [|[|d]]; auto; lia). Qed.

  Variables (dx : nat -> R) (nug : bool) (G : field) (nz : Z) (cd : R).
  Hypothesis PG : hp G.
  Lemma hp_Gop : hp (Gop nug G).
  Proof. intros d i Hd. unfold Gop. destruct nug; [apply PG; auto|reflexivity]. Qed.
  Lemma hp_Gv : hp (Gv nug G).
  Proof. intros d i Hd. unfold Gv. destruct nug; [apply PG; auto|reflexivity]. Qed.
  Lemma hp_ax f e k : hp f -> hp (fun i => f (ax e k i)).
  Proof. intros P d i Hd. rewrite !ax_step, (step_step e d). apply P; exact Hd. Qed.
  Lemma hp_at f d e k i : hp f -> (d < upw nd)%nat -> f (ax e k (step d (n d) i)) = f (ax e k i).
  Proof. intros P Hd. apply (hp_ax f e k P d i Hd). Qed.
  Lemma lev_h d k i : (d < upw nd)%nat -> lev nd (step d k i) = lev nd i.
  Proof. intros Hd. rewrite !lev_coord. apply coordh. exact Hd. Qed.

  Lemma hp_drag v : (forall c, hp (v c)) -> forall c, hp (calc_drag_cmpct nd nug G cd v c).
  Proof.
    intros P c d i Hd. unfold calc_drag_cmpct. pose proof hp_Gv as Q.
    assert (A : forall f, hp f -> forall e k, f (ax e k (step d (n d) i)) = f (ax e k i)) by (intros; apply hp_at; assumption).
    destruct nd eqn:E; rewrite <- E in *; rewrite !(A _ (P _)), !(A _ Q), !(P _ d i Hd), (Q d i Hd); reflexivity.
  Qed.
  Lemma hp_fill_div a : hp a -> hp (fill_div nd nz a).
  Proof. intros P d i Hd. unfold fill_div. rewrite lev_h by exact Hd. rewrite !hp_at, (P d i Hd) by assumption. reflexivity. Qed.
  Lemma hp_fill w div bv t : hp w -> hp div -> (forall c, hp (bv c)) -> (forall c, hp (t c)) ->
    forall c, hp (fill_tnsr nd dx nz w div bv t c).
  Proof.
    intros Pw Pd Pb Pt c d i Hd. unfold fill_tnsr. rewrite lev_h by exact Hd.
    destruct (offdiag nd c); rewrite !hp_at by auto; [|rewrite (Pd d i Hd)]; rewrite (Pt c d i Hd); reflexivity.
  Qed.

  Ltac unst := intros d0 [[x y] z] Hd0; let e := fresh "E" in destruct (upw_cases d0 Hd0) as [->|[-> e]]; cbn [step fst snd].
  Lemma hp_div v : (forall c, hp (v c)) -> hp (calc_vip_div_cmpct dx nug G nd v).
  Proof.
    intros P. unst; cbn [calc_vip_div_cmpct]; destruct nug; try reflexivity; destruct nd eqn:En; try discriminate; rewrite <- En in *;
      rewrite ?swap1, ?swapm, ?(hpX _ (P _)), ?(hpX _ PG), ?(hpY _ (P _) Hd0), ?(hpY _ PG Hd0); reflexivity.
  Qed.
  Lemma hp_deform v dv : (forall c, hp (v c)) -> hp dv -> forall c, hp (calc_deform_cmpct dx nd v dv c).
  Proof.
    intros P Q c. unst; unfold calc_deform_cmpct; destruct nd eqn:En; try discriminate; rewrite <- En in *;
      destruct c as [|[|[|[|[|c]]]]]; cbn [calc_deform_cmpct2 calc_deform_cmpct3];
      rewrite ?swap1, ?swapm; rewrite ?(hpX _ (P _)), ?(hpX _ Q), ?(hpY _ (P _) Hd0), ?(hpY _ Q Hd0); reflexivity.
  Qed.
  Lemma hp_tdef t : (forall c, hp (t c)) -> hp (tdef_sq_cmpct nd t).
  Proof.
    intros P. unst; unfold tdef_sq_cmpct; destruct nd eqn:En; try discriminate; rewrite <- En in *;
      cbn [calc_tdef_sq_cmpct2 calc_tdef_sq_cmpct3]; cbv zeta;
      rewrite ?swap1, ?swapm; rewrite ?(hpX _ (P _)), ?(hpY _ (P _) Hd0); reflexivity.
  Qed.
  Lemma hp_km cl t : hp t -> hp (fst (ModelStress.k_m dx nd cl t)) /\ hp (snd (ModelStress.k_m dx nd cl t)).
  Proof. intros P. destruct cl; cbn [ModelStress.k_m fst snd]; split; intros d i Hd; rewrite ?(P d i Hd); reflexivity. Qed.
  Lemma hp_visc cl t : (forall c, hp (t c)) -> forall c, hp (multiply_sgs_visc dx nug G nd compact cl t c).
  Proof.
    intros P c.
    assert (M : forall k, hp (fst k) -> hp (snd k) -> hp (multiply_tnsr_cmpct nug G nd t k c)).
    { intros [kh kv] KH KV. cbn [fst snd] in *. pose proof hp_Gop as PGo.
      unst; unfold multiply_tnsr_cmpct; destruct nd eqn:En; try discriminate; rewrite <- En in *; cbn [fst snd];
        destruct c as [|[|[|[|[|c]]]]]; cbn [multiply_tnsr_cmpct2 multiply_tnsr_cmpct3];
        rewrite ?swap1, ?swapm; rewrite ?(hpX _ (P _)), ?(hpX _ KH), ?(hpX _ KV), ?(hpX _ PGo),
          ?(hpY _ (P _) Hd0), ?(hpY _ KH Hd0), ?(hpY _ KV Hd0), ?(hpY _ PGo Hd0); reflexivity. }
    cbn [multiply_sgs_visc]. destruct cl.
    - intros d i Hd. unfold multiply_tnsr_const. rewrite (P c d i Hd). reflexivity.
    - apply M; apply hp_km; apply hp_tdef; exact P.
    - apply M; apply hp_km; apply hp_tdef; exact P.
  Qed.
End HPer.

(** ** Momentum *)
Section Budget.
  Variables (nd : ndims) (n : nat -> Z) (dx : nat -> R) (nug : bool) (G : idx -> R) (cd : R).
  Hypothesis Hn : forall d, (0 < n d)%Z.
  Hypothesis Hdx : forall d, dx d <> 0.
  Hypothesis HG : forall i, G i <> 0.
  Hypothesis PG : hperiodic nd n G.
  Notation v := (upw nd).
  Notation hp := (hperiodic nd n).
  Hypothesis Hz : (2 <= n v)%Z.
  Notation gv := (Gv nug G).

  (** number of the stress between axes [c] and [d] in arrays *)
  Definition comp (c d : nat) : nat :=
    match nd with
    | two => if Nat.eqb c d then c else 2%nat
    | three => if Nat.eqb c d then c else if Nat.eqb (c + d) 1 then 3%nat else if Nat.eqb (c + d) 2 then 4%nat else 5%nat
    end.
  (** stress as it enters the balance of momentum along [c] *)
  Definition face (t : fields) (c d : nat) (i : idx) : R :=
    if Nat.eqb c d then t (comp c d) i else 1 / 2 * (t (comp c d) i + t (comp c d) (step c (-1) i)).

  Lemma gop_nz i : gv i <> 0. Proof. unfold Gv. destruct nug; [apply HG|lra]. Qed.
  Lemma rhs_faces t rhs c i : (c < v)%nat ->
    gv i * (calc_stress_rhs_cmpct dx nug G nd rhs t 2 c i - rhs c i) =
    2 * (axes v (fun d => (face t c d i - face t c d (step d (-1) i)) / dx d) + (face t c v i - face t c v (step v (-1) i)) / dx v).
  Proof using Hdx HG.
    clear Hn PG Hz n.
    intros Hc. pose proof (gop_nz i) as Hg. pose proof (Hdx 0%nat). pose proof (Hdx 1%nat). pose proof (Hdx 2%nat).
    destruct i as [[x y] z]. change (Gop nug G (x, y, z)) with (gv (x, y, z)) in *.
    unfold face, comp. destruct nd; cbn [upw] in *.
    - assert (c = 0%nat) by lia; subst c. cbn [Nat.eqb axes step fst snd calc_stress_rhs_cmpct calc_stress_rhs_cmpct2].
      change (Gop nug G (x, y, z)) with (gv (x, y, z)). unfold Z.sub. cbn [Z.opp]. field. auto.
    - assert (C : c = 0%nat \/ c = 1%nat) by lia. destruct C; subst c;
      cbn [Nat.eqb Nat.add axes step fst snd calc_stress_rhs_cmpct calc_stress_rhs_cmpct3];
      change (Gop nug G (x, y, z)) with (gv (x, y, z)); unfold Z.sub; cbn [Z.opp]; field; auto.
  Qed.

  Lemma hp_face t c d : (forall e, hp (t e)) -> hp (face t c d).
  Proof. intros P e i He. unfold face. rewrite (step_step c e). rewrite !(P _ e _ He). reflexivity. Qed.

  Lemma part_h t c d : (d < v)%nat -> (forall e, hp (t e)) ->
    weighted nd n (fun i => (face t c d i - face t c d (step d (-1) i)) / dx d) = 0.
  Proof.
    intros Hd P. transitivity (/ dx d * weighted nd n (fun i => 1 * (face t c d i - face t c d (step d (-1) i))) + 0 * weighted nd n (fun _ => 0)).
    - rewrite <- wt_lin. apply wt_ext. intros i. field. apply Hdx.
    - rewrite (parts_h nd n Hn d (fun _ => 1) (face t c d) Hd) by (try (intros ? ? _; reflexivity); apply hp_face; exact P).
      rewrite (wt_ext nd n _ (fun _ => 0 * 0 + 0 * 0)) by (intros; ring). rewrite wt_lin. ring.
  Qed.
  Lemma part_v t c b : (c < v)%nat ->
    (forall i, coord v i = 0%Z -> face t c v (step v (-1) i) = 2 * b i - face t c v i) ->
    (forall i, coord v i = (n v - 2)%Z -> face t c v (step v 1 i) = - face t c v i) ->
    weighted nd n (fun i => (face t c v i - face t c v (step v (-1) i)) / dx v) = - ground nd n b / dx v.
  Proof.
    intros Hc H0 H1.
    transitivity (/ dx v * weighted nd n (fun i => 1 * (face t c v i - face t c v (step v (-1) i))) + 0 * weighted nd n (fun _ => 0)).
    - rewrite <- wt_lin. apply wt_ext. intros i. field. apply Hdx.
    - rewrite (parts_v nd n Hn b (fun _ => 1) (face t c v) Hz H0 H1).
      rewrite (gr_ext nd n (fun i => b i * 1) b) by (intros; ring).
      rewrite (cells_ext n (fun i => if (coord v i <? n v - 1)%Z then _ else 0) (fun _ => 0 * 0)) by (intros i; destruct (_ <? _)%Z; ring).
      rewrite cells_scal. field. apply Hdx.
  Qed.
  Lemma momentum_faces t rhs c b : (c < v)%nat -> (forall e, hp (t e)) ->
    (forall i, coord v i = 0%Z -> face t c v (step v (-1) i) = 2 * b i - face t c v i) ->
    (forall i, coord v i = (n v - 2)%Z -> face t c v (step v 1 i) = - face t c v i) ->
    weighted nd n (fun i => gv i * (calc_stress_rhs_cmpct dx nug G nd rhs t 2 c i - rhs c i)) = - (2 * ground nd n b / dx v).
  Proof.
    intros Hc P H0 H1.
    rewrite (wt_ext nd n _ (fun i => 2 * axes v (fun d => (face t c d i - face t c d (step d (-1) i)) / dx d)
       + 2 * ((face t c v i - face t c v (step v (-1) i)) / dx v))).
    2:{ intros i. rewrite rhs_faces by exact Hc. ring. }
    rewrite wt_lin, (part_v t c b Hc H0 H1).
    assert (A : weighted nd n (fun i => axes v (fun d => (face t c d i - face t c d (step d (-1) i)) / dx d)) = 0).
    { destruct (Nat.eq_dec v 1) as [V1|V1].
      - transitivity (weighted nd n (fun i => (face t c 0 i - face t c 0 (step 0 (-1) i)) / dx 0%nat)).
        + apply wt_ext. intros i. rewrite V1. cbn [axes]. ring.
        + apply part_h; [lia|exact P].
      - assert (V2 : v = 2%nat) by (destruct nd; cbn in *; lia).
        transitivity (1 * weighted nd n (fun i => (face t c 0 i - face t c 0 (step 0 (-1) i)) / dx 0%nat) +
          1 * weighted nd n (fun i => (face t c 1 i - face t c 1 (step 1 (-1) i)) / dx 1%nat)).
        + rewrite <- wt_lin. apply wt_ext. intros i. rewrite V2. cbn [axes]. ring.
        + rewrite !part_h by (try exact P; lia). ring. }
    rewrite A. field. apply Hdx.
  Qed.

  Lemma comp_off c : (c < v)%nat -> offdiag nd (comp c v) = Some c.
  Proof using. clear. unfold comp, offdiag. destruct nd; cbn [upw]; intros; destruct c as [|[|c]]; try lia; reflexivity. Qed.
  Lemma comp_ne c : (c < v)%nat -> Nat.eqb c v = false.
  Proof using. clear. intros. apply Nat.eqb_neq. lia. Qed.

  Section Fill.
    Variables (w div : field) (bv t : fields).
    Notation ft := (fill_tnsr nd dx (n v) w div bv t).
    Lemma ft_off c i : (c < v)%nat -> ft (comp c v) i =
      if (coord v i =? -1)%Z then 2 * bv c (step v 1 i) - t (comp c v) (step v 1 i)
      else if (coord v i =? n v - 1)%Z then - t (comp c v) (step v (-1) i) else t (comp c v) i.
    Proof. intros Hc. unfold fill_tnsr. rewrite (comp_off c Hc). rewrite !ax_step, lev_coord. change (vax nd) with v. reflexivity. Qed.
    Lemma ft_0 c i : (c < v)%nat -> coord v i = 0%Z -> ft (comp c v) (step v (-1) i) = 2 * bv c i - ft (comp c v) i.
    Proof.
      intros Hc Hi. rewrite !(ft_off c) by exact Hc. rewrite coordv, Hi. change (0 + -1 =? -1)%Z with true. cbn iota.
      destruct (Z.eqb_spec 0 (-1)); [lia|]. destruct (Z.eqb_spec 0 (n v - 1)); [lia|].
      rewrite step_add. change (1 + -1)%Z with 0%Z. rewrite step_0. reflexivity.
    Qed.
    Lemma ft_1 c i : (c < v)%nat -> coord v i = (n v - 2)%Z -> ft (comp c v) (step v 1 i) = - ft (comp c v) i.
    Proof.
      intros Hc Hi. rewrite !(ft_off c) by exact Hc. rewrite coordv, Hi.
      destruct (Z.eqb_spec (n v - 2 + 1) (-1)); [lia|]. destruct (Z.eqb_spec (n v - 2 + 1) (n v - 1)); [|lia].
      destruct (Z.eqb_spec (n v - 2) (-1)); [lia|]. destruct (Z.eqb_spec (n v - 2) (n v - 1)); [lia|].
      rewrite step_add. change (-1 + 1)%Z with 0%Z. rewrite step_0. reflexivity.
    Qed.
    Lemma mom_fill rhs c : (c < v)%nat -> (forall e, hp (ft e)) -> (forall e, hp (bv e)) ->
      weighted nd n (fun i => gv i * (calc_stress_rhs_cmpct dx nug G nd rhs ft 2 c i - rhs c i)) = - (2 * ground nd n (bv c) / dx v).
    Proof.
      intros Hc P Pb. rewrite (momentum_faces ft rhs c (fun i => 1 / 2 * (bv c i + bv c (step c (-1) i))) Hc P).
      - f_equal. f_equal. f_equal.
        assert (S : ground nd n (fun i => bv c (step c (-1) i)) = ground nd n (bv c)).
        { unfold ground. rewrite <- (cells_step_h n Hn c (fun i => if (coord v i =? 0)%Z then bv c (step c (-1) i) else 0)).
          - apply cells_ext. intros i. rewrite (coordh nd c 1 i Hc), step_add. change (-1 + 1)%Z with 0%Z. rewrite step_0. reflexivity.
          - apply (upwlt nd). exact Hc.
          - intros i. rewrite (coordh nd c _ i Hc), step_step, (Pb c c _ Hc). reflexivity. }
        transitivity (1 / 2 * (ground nd n (bv c) + ground nd n (fun i => bv c (step c (-1) i)))); [|rewrite S; field].
        unfold ground. rewrite <- cells_add, <- cells_scal. apply cells_ext. intros i. destruct (_ =? _)%Z; ring.
      - intros i Hi. unfold face. rewrite (comp_ne c Hc).
        rewrite (ft_0 c i Hc Hi). rewrite (step_step c v). rewrite (ft_0 c (step c (-1) i) Hc) by (rewrite coordh by exact Hc; exact Hi). field.
      - intros i Hi. unfold face. rewrite (comp_ne c Hc).
        rewrite (ft_1 c i Hc Hi). rewrite (step_step c v). rewrite (ft_1 c (step c (-1) i) Hc) by (rewrite coordh by exact Hc; exact Hi). field.
    Qed.
  End Fill.

  Lemma momentum_ground cl vel rhs c : (c < v)%nat -> (forall e, hp (vel e)) ->
    weighted nd n (fun i => gv i * (ground_rhs nd dx nug G (n v) cd cl vel rhs c i - rhs c i)) =
    - (2 * ground nd n (calc_drag_cmpct nd nug G cd vel c) / dx v).
  Proof.
    intros Hc P. unfold ground_rhs. apply mom_fill; [exact Hc| |].
    - assert (D : hp (fill_div nd (n v) (calc_vip_div_cmpct dx nug G nd vel))) by (apply hp_fill_div, hp_div; assumption).
      assert (S : forall e, hp (calc_drag_cmpct nd nug G cd vel e)) by (apply hp_drag; assumption).
      apply hp_fill; auto. apply hp_visc; [exact PG|]. apply hp_fill; auto. eapply hp_deform; eauto.
    - apply hp_drag; assumption.
  Qed.
End Budget.

(** ** The drag itself *)
Lemma drag_eq nd nug G cd v c i : (c < upw nd)%nat ->
  calc_drag_cmpct nd nug G cd v c i = drag_law nd (if nug then G else fun _ => 1) cd v c i.
Proof.
  intros Hc. unfold calc_drag_cmpct, drag_law, mid, Gv. rewrite !ax_step. unfold pow2.
  destruct nd; cbn [upw axes] in *.
  - assert (c = 0%nat) by lia; subst c.
    set (s := v 0%nat (step 0 1 i) + v 0%nat i).
    rewrite Rplus_0_l, sqrt_Rsqr_abs. unfold Rdiv. rewrite Rabs_mult, (Rabs_right (/ 2)) by lra. destruct nug; field.
  - set (a := v 0%nat (step c 1 i) + v 0%nat i). set (b := v 1%nat (step c 1 i) + v 1%nat i).
    replace (sqrt (a * a + b * b)) with (2 * sqrt (0 + Rsqr (a / 2) + Rsqr (b / 2))).
    + destruct nug; field.
    + rewrite <- (sqrt_Rsqr 2) at 1 by lra. rewrite <- sqrt_mult_alt by (unfold Rsqr; lra). f_equal. unfold Rsqr. field.
Qed.
