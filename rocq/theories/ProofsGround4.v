(** Proofs on surface drag: energy. *)
From Coq Require Import ZArith Reals Lra Lia Bool.
From Verif Require Import Stencil SpecReal SpecStress ModelStress ModelHeat SpecHeat ModelGround ProofsCons1D ProofsStress ProofsStress5 ProofsHeat SpecGround ProofsGround ProofsGround2.
Local Open Scope R_scope.

Lemma sum_shift n : forall S q, sumn n 0 (fun k => (S k + S (k - 1)%Z) * q k) =
  sumn n 0 (fun k => S k * (q k + q (k + 1)%Z)) + S (-1)%Z * q 0%Z - S (Z.of_nat n - 1)%Z * q (Z.of_nat n).
Proof.
  induction n as [|n IH]; intros S q.
  - cbn [sumn]. change (Z.of_nat 0) with 0%Z. change (0 - 1)%Z with (-1)%Z. ring.
  - rewrite !sumn_last, IH. replace (0 + Z.of_nat n)%Z with (Z.of_nat n) by lia.
    replace (Z.of_nat (Datatypes.S n)) with (Z.of_nat n + 1)%Z by lia. replace (Z.of_nat n + 1 - 1)%Z with (Z.of_nat n) by lia. ring.
Qed.
Lemma col_shift nz S q : (2 <= nz)%Z -> q 0%Z = 0 -> q (nz - 1)%Z = 0 ->
  total 0 nz (fun k => weight nz k * (1 / 2 * (S k + S (k - 1)%Z) * q k)) =
  total 0 nz (fun k => if (k <? nz - 1)%Z then S k * ((q (k + 1)%Z + q k) / 2) else 0).
Proof.
  intros Hz Q0 Q1. destruct (Z_of_nat_complete (nz - 1) ltac:(lia)) as [m Hm].
  transitivity (total 0 nz (fun k => (1 / 2) * ((S k + S (k - 1)%Z) * q k) + 0 * 0)).
  { apply total_ext. intros k _. unfold weight. destruct (Z.eqb_spec k 0) as [->|E]; [rewrite Q0; cbn [orb]; ring|].
    destruct (Z.eqb_spec k (nz - 1)) as [->|E1]; [rewrite Q1; cbn [orb]; ring|]. cbn [orb]. field. }
  rewrite total_lin_s. unfold total. replace (Z.to_nat (nz - 0)) with (Datatypes.S m) by lia.
  rewrite (sumn_last m 0 (fun k => (S k + S (k - 1)%Z) * q k)), sum_shift.
  rewrite (sumn_last m 0 (fun k => if (k <? nz - 1)%Z then _ else _)).
  replace (0 + Z.of_nat m)%Z with (nz - 1)%Z by lia. rewrite Z.ltb_irrefl.
  replace (Z.of_nat m) with (nz - 1)%Z by lia. rewrite Q0, Q1.
  rewrite (sumn_ext m 0 (fun k => if (k <? nz - 1)%Z then _ else _) (fun k => (1 / 2) * (S k * (q k + q (k + 1)%Z)) + 0 * 0)).
  2:{ intros k Hk. destruct (Z.ltb_spec k (nz - 1)); [field|lia]. }
  rewrite sumn_lin. ring.
Qed.

Section Energy.
  Variables (nd : ndims) (n : nat -> Z) (dx : nat -> R).
  Notation v := (upw nd).
  Notation hp := (hperiodic nd n).
  Hypothesis Hn : forall d, (0 < n d)%Z.
  Hypothesis Hz : (2 <= n v)%Z.
  Hypothesis Hdx : forall d, dx d <> 0.

  Definition inner (f : idx -> R) : R := cells n (fun i => if (coord v i <? n v - 1)%Z then f i else 0).
  Definition D (d : nat) (u : idx -> R) (i : idx) : R := (u (step d 1 i) - u i) / dx d.

  Lemma wt_ext_in f g : (forall i, (0 <= coord v i < n v)%Z -> f i = g i) -> weighted nd n f = weighted nd n g.
  Proof.
    intros H. unfold weighted. apply (cells_col nd n). intros i. apply total_ext. intros k Hk.
    rewrite coord_lift, H by (rewrite coord_lift; lia). reflexivity.
  Qed.
  Lemma inner_ext_in f g : (forall i, (0 <= coord v i < n v - 1)%Z -> f i = g i) -> inner f = inner g.
  Proof.
    intros H. unfold inner. apply (cells_col nd n). intros i. apply total_ext. intros k Hk.
    rewrite coord_lift. destruct (Z.ltb_spec k (n v - 1)); [|reflexivity]. apply H. rewrite coord_lift. lia.
  Qed.
  Lemma inner_lin a b f g : inner (fun i => a * f i + b * g i) = a * inner f + b * inner g.
  Proof. unfold inner. rewrite <- cells_lin. apply cells_ext. intros i. destruct (_ <? _)%Z; ring. Qed.
  Lemma inner_ge0 f : (forall i, (0 <= coord v i < n v - 1)%Z -> 0 <= f i) -> 0 <= inner f.
  Proof.
    intros H. rewrite (inner_ext_in f (fun i => if andb (0 <=? coord v i)%Z (coord v i <? n v - 1)%Z then f i else 0)).
    - apply cells_ge0. intros i. destruct (coord v i <? n v - 1)%Z eqn:E; [|lra].
      destruct (0 <=? coord v i)%Z eqn:E0; cbn [andb]; [|lra]. apply H. lia.
    - intros i Hi. replace (0 <=? coord v i)%Z with true by lia. replace (coord v i <? n v - 1)%Z with true by lia. reflexivity.
  Qed.
  Lemma wt_ge0 f : (forall i, 0 <= f i) -> 0 <= weighted nd n f.
  Proof. intros H. apply cells_ge0. intros i. apply Rmult_le_pos; [|apply H]. unfold weight. destruct (_ || _); lra. Qed.

  Lemma hp_D d u : hp u -> hp (D d u).
  Proof. intros P e i He. unfold D. rewrite (step_step d e), !(P e _ He). reflexivity. Qed.
  Lemma wt_shift c t g : (c < v)%nat -> hp t -> hp g ->
    weighted nd n (fun i => t (step c (-1) i) * g i) = weighted nd n (fun i => t i * g (step c 1 i)).
  Proof.
    intros Hc Pt Pg. unfold weighted.
    rewrite <- (cells_step_h n Hn c (fun i => weight (n v) (coord v i) * (t (step c (-1) i) * g i))).
    - apply cells_ext. intros i. rewrite (coordh nd c 1 i Hc), step_add. change (-1 + 1)%Z with 0%Z. rewrite step_0. reflexivity.
    - apply (upwlt nd). exact Hc.
    - intros i. rewrite (coordh nd c _ i Hc), (step_step c c), (Pt c _ Hc), (Pg c i Hc). reflexivity.
  Qed.
  Lemma inner_shift c t g : (c < v)%nat -> hp t -> hp g ->
    inner (fun i => t (step c (-1) i) * g i) = inner (fun i => t i * g (step c 1 i)).
  Proof.
    intros Hc Pt Pg. unfold inner.
    rewrite <- (cells_step_h n Hn c (fun i => if (coord v i <? n v - 1)%Z then t (step c (-1) i) * g i else 0)).
    - apply cells_ext. intros i. rewrite (coordh nd c 1 i Hc), step_add. change (-1 + 1)%Z with 0%Z. rewrite step_0. reflexivity.
    - apply (upwlt nd). exact Hc.
    - intros i. rewrite (coordh nd c _ i Hc), (step_step c c), (Pt c _ Hc), (Pg c i Hc). reflexivity.
  Qed.
  Lemma wt_half c t g : (c < v)%nat -> hp t -> hp g ->
    weighted nd n (fun i => 1 / 2 * (t i + t (step c (-1) i)) * g i) = weighted nd n (fun i => t i * mid c g i).
  Proof.
    intros Hc Pt Pg.
    transitivity (1 / 2 * weighted nd n (fun i => t i * g i) + 1 / 2 * weighted nd n (fun i => t (step c (-1) i) * g i)).
    - rewrite <- wt_lin. apply wt_ext. intros; ring.
    - rewrite wt_shift by assumption. rewrite <- wt_lin. apply wt_ext. intros i. unfold mid. field.
  Qed.
  Lemma inner_half c t g : (c < v)%nat -> hp t -> hp g ->
    inner (fun i => 1 / 2 * (t i + t (step c (-1) i)) * g i) = inner (fun i => t i * mid c g i).
  Proof.
    intros Hc Pt Pg.
    transitivity (1 / 2 * inner (fun i => t i * g i) + 1 / 2 * inner (fun i => t (step c (-1) i) * g i)).
    - rewrite <- inner_lin. apply inner_ext_in. intros; ring.
    - rewrite inner_shift by assumption. rewrite <- inner_lin. apply inner_ext_in. intros i _. unfold mid. field.
  Qed.

  Section Terms.
    Variable t : fields.
    Hypothesis Pt : forall e, hp (t e).
    Variable u : fields.
    Hypothesis Pu : forall e, hp (u e).
    Notation F := (face nd t).
    (** difference along [d] of stresses for momentum along [c], times velocity *)
    Definition term (c d : nat) : R := weighted nd n (fun i => u c i * ((F c d i - F c d (step d (-1) i)) / dx d)).

    Lemma term_hh c d : (d < v)%nat -> term c d = - weighted nd n (fun i => F c d i * D d (u c) i).
    Proof.
      intros Hd. unfold term.
      transitivity (/ dx d * weighted nd n (fun i => u c i * (F c d i - F c d (step d (-1) i))) + 0 * weighted nd n (fun _ => 0)).
      { rewrite <- wt_lin. apply wt_ext. intros i. field. apply Hdx. }
      rewrite (parts_h nd n Hn d (u c) (F c d) Hd (Pu c)) by (apply hp_face; exact Pt).
      transitivity (- (/ dx d * weighted nd n (fun i => F c d i * (u c (step d 1 i) - u c i)) + 0 * weighted nd n (fun _ => 0))); [ring|].
      f_equal. rewrite <- wt_lin. apply wt_ext. intros i. unfold D. field. apply Hdx.
    Qed.
    Lemma term_diag c : (c < v)%nat -> term c c = - weighted nd n (fun i => t (comp nd c c) i * D c (u c) i).
    Proof. intros Hc. rewrite term_hh by exact Hc. f_equal. apply wt_ext. intros i. unfold face. rewrite Nat.eqb_refl. reflexivity. Qed.
    Lemma term_off c d : (c < v)%nat -> (d < v)%nat -> c <> d -> term c d = - weighted nd n (fun i => t (comp nd c d) i * mid c (D d (u c)) i).
    Proof.
      intros Hc Hd Hne. rewrite term_hh by exact Hd. f_equal. rewrite <- wt_half by (try apply hp_D; auto).
      apply wt_ext. intros i. unfold face. destruct (Nat.eqb_spec c d); [contradiction|reflexivity].
    Qed.
    Lemma term_cv c b : (c < v)%nat -> hp b ->
      (forall i, coord v i = 0%Z -> t (comp nd c v) (step v (-1) i) = 2 * b i - t (comp nd c v) i) ->
      (forall i, coord v i = (n v - 2)%Z -> t (comp nd c v) (step v 1 i) = - t (comp nd c v) i) ->
      term c v = - ground nd n (fun i => b i * mid c (u c) i) / dx v - inner (fun i => t (comp nd c v) i * mid c (D v (u c)) i).
    Proof.
      intros Hc Pb H0 H1. unfold term.
      transitivity (/ dx v * weighted nd n (fun i => u c i * (F c v i - F c v (step v (-1) i))) + 0 * weighted nd n (fun _ => 0)).
      { rewrite <- wt_lin. apply wt_ext. intros i. field. apply Hdx. }
      rewrite (parts_v nd n Hn (fun i => 1 / 2 * (b i + b (step c (-1) i))) (u c) (F c v) Hz).
      - fold (inner (fun i => F c v i * (u c (step v 1 i) - u c i))).
        assert (G1 : ground nd n (fun i => 1 / 2 * (b i + b (step c (-1) i)) * u c i) = ground nd n (fun i => b i * mid c (u c) i)).
        { transitivity (1 / 2 * (ground nd n (fun i => b i * u c i) + ground nd n (fun i => b (step c (-1) i) * u c i))).
          { unfold ground. rewrite <- cells_add, <- cells_scal. apply cells_ext. intros i. destruct (_ =? _)%Z; ring. }
          rewrite <- (gr_shift nd n Hn c (fun i => b (step c (-1) i) * u c i) Hc).
          - unfold ground. rewrite <- cells_add, <- cells_scal. apply cells_ext. intros i. rewrite step_add. change (-1 + 1)%Z with 0%Z. rewrite step_0.
            unfold mid. destruct (_ =? _)%Z; field.
          - intros d i Hd. rewrite (step_step c d), (Pb d _ Hd), (Pu c d i Hd). reflexivity. }
        rewrite G1, <- inner_half by (try apply hp_D; auto).
        transitivity (- ground nd n (fun i => b i * mid c (u c) i) / dx v - (/ dx v * inner (fun i => F c v i * (u c (step v 1 i) - u c i)) + 0 * inner (fun _ => 0))); [field; apply Hdx|].
        f_equal. rewrite <- inner_lin. apply inner_ext_in. intros i _. unfold face, D. rewrite (comp_ne nd c Hc). field. apply Hdx.
      - intros i Hi. unfold face. rewrite (comp_ne nd c Hc), (H0 i Hi), (step_step c v).
        rewrite (H0 (step c (-1) i)) by (rewrite coordh by exact Hc; exact Hi). field.
      - intros i Hi. unfold face. rewrite (comp_ne nd c Hc), (H1 i Hi), (step_step c v).
        rewrite (H1 (step c (-1) i)) by (rewrite coordh by exact Hc; exact Hi). field.
    Qed.

    Hypothesis W0 : forall i, coord v i = 0%Z \/ coord v i = (n v - 1)%Z -> u v i = 0.
    Lemma term_vd d : (d < v)%nat -> term v d = - inner (fun i => t (comp nd v d) i * mid v (D d (u v)) i).
    Proof.
      intros Hd. rewrite term_hh by exact Hd. f_equal. unfold weighted, inner. apply (cells_col nd n). intros i.
      set (S := fun k => t (comp nd v d) (lift nd k i)). set (q := fun k => D d (u v) (lift nd k i)).
      transitivity (total 0 (n v) (fun k => weight (n v) k * (1 / 2 * (S k + S (k - 1)%Z) * q k))).
      - apply total_ext. intros k _. rewrite coord_lift. unfold S, q, face. destruct (Nat.eqb_spec v d); [lia|].
        rewrite step_lift. replace (k + -1)%Z with (k - 1)%Z by lia. reflexivity.
      - rewrite col_shift; [|exact Hz| |].
        + apply total_ext. intros k _. rewrite coord_lift. destruct (_ <? _)%Z; [|reflexivity]. unfold S, q, mid. rewrite step_lift. reflexivity.
        + unfold q, D. rewrite !W0 by (rewrite ?coordh by exact Hd; rewrite coord_lift; auto). field. apply Hdx.
        + unfold q, D. rewrite !W0 by (rewrite ?coordh by exact Hd; rewrite coord_lift; auto). field. apply Hdx.
    Qed.
    Lemma term_vv : term v v = - inner (fun i => t (comp nd v v) i * D v (u v) i).
    Proof.
      unfold term. set (T := t (comp nd v v)).
      set (F' := fun i => if (coord v i =? -1)%Z then - T (step v 1 i) else if (coord v i =? n v - 1)%Z then - T (step v (-1) i) else T i).
      transitivity (/ dx v * weighted nd n (fun i => u v i * (F' i - F' (step v (-1) i))) + 0 * weighted nd n (fun _ => 0)).
      { rewrite <- wt_lin. apply wt_ext_in. intros i Hi. unfold face. rewrite Nat.eqb_refl. fold T.
        destruct (Z.eq_dec (coord v i) 0) as [E|E]; [rewrite W0 by auto; field; apply Hdx|].
        destruct (Z.eq_dec (coord v i) (n v - 1)) as [E1|E1]; [rewrite W0 by auto; field; apply Hdx|].
        unfold F'. rewrite coordv. destruct (Z.eqb_spec (coord v i) (-1)); [lia|]. destruct (Z.eqb_spec (coord v i) (n v - 1)); [lia|].
        destruct (Z.eqb_spec (coord v i + -1) (-1)); [lia|]. destruct (Z.eqb_spec (coord v i + -1) (n v - 1)); [lia|]. field. apply Hdx. }
      rewrite (parts_v nd n Hn (fun _ => 0) (u v) F' Hz).
      - fold (inner (fun i => F' i * (u v (step v 1 i) - u v i))).
        rewrite (gr_ext nd n (fun i => 0 * u v i) (fun i => 0 * 0)) by (intros; ring). rewrite gr_scal.
        transitivity (- (/ dx v * inner (fun i => F' i * (u v (step v 1 i) - u v i)) + 0 * inner (fun _ => 0))); [ring|].
        f_equal. rewrite <- inner_lin. apply inner_ext_in. intros i Hi. unfold F', D.
        destruct (Z.eqb_spec (coord v i) (-1)); [lia|]. destruct (Z.eqb_spec (coord v i) (n v - 1)); [lia|]. field. apply Hdx.
      - intros i Hi. unfold F'. rewrite coordv, Hi. change (0 + -1 =? -1)%Z with true. cbn iota.
        destruct (Z.eqb_spec 0 (-1)); [lia|]. destruct (Z.eqb_spec 0 (n v - 1)); [lia|].
        rewrite step_add. change (1 + -1)%Z with 0%Z. rewrite step_0. ring.
      - intros i Hi. unfold F'. rewrite coordv, Hi.
        destruct (Z.eqb_spec (n v - 2 + 1) (-1)); [lia|]. destruct (Z.eqb_spec (n v - 2 + 1) (n v - 1)); [|lia].
        destruct (Z.eqb_spec (n v - 2) (-1)); [lia|]. destruct (Z.eqb_spec (n v - 2) (n v - 1)); [lia|].
        rewrite step_add. change (-1 + 1)%Z with 0%Z. rewrite step_0. reflexivity.
    Qed.
  End Terms.
End Energy.

Section Total.
  Variables (nd : ndims) (n : nat -> Z) (dx : nat -> R) (G : idx -> R) (cd : R) (cl : closure).
  Notation v := (upw nd).
  Notation hp := (hperiodic nd n).
  Hypothesis Hn : forall d, (0 < n d)%Z.
  Hypothesis Hz : (2 <= n v)%Z.
  Hypothesis Dx : forall d, 0 < dx d.
  Hypothesis Hcl : visc_ok cl.
  Hypothesis Hcd : 0 <= cd.
  Variables (u rhs : fields).
  Hypothesis Pu : forall e, hp (u e).
  Hypothesis W0 : forall i, coord v i = 0%Z \/ coord v i = (n v - 1)%Z -> u v i = 0.
  Notation drag := (calc_drag_cmpct nd false G cd u).

  Lemma Dxn d : dx d <> 0. Proof. specialize (Dx d). lra. Qed.
  Definition gdiv : field := fill_div nd (n v) (calc_vip_div_cmpct dx false G nd u).
  Definition gstrain : fields := fill_tnsr nd dx (n v) (u v) gdiv drag (calc_deform_cmpct dx nd u gdiv).
  Definition gtau : fields := fill_tnsr nd dx (n v) (u v) gdiv drag (multiply_sgs_visc dx false G nd compact cl gstrain).
  Lemma rhs_gtau : ground_rhs nd dx false G (n v) cd cl u rhs = calc_stress_rhs_cmpct dx false G nd rhs gtau 2.
  Proof. reflexivity. Qed.
  Lemma gdiv0 i : gdiv i = 0.
  Proof.
    unfold gdiv, fill_div. destruct i as [[x y] z]. assert (E : forall j, calc_vip_div_cmpct dx false G nd u j = 0) by (intros [[? ?] ?]; reflexivity).
    rewrite !E. destruct (_ =? _)%Z; [ring|]. destruct (_ =? _)%Z; ring.
  Qed.
  Lemma hp_any : hp (fun _ => 1). Proof. intros d i _. reflexivity. Qed.
  Lemma hp_gdiv : hp gdiv.
  Proof. intros d i Hd. rewrite !gdiv0. reflexivity. Qed.
  Lemma drag_G0 : drag = calc_drag_cmpct nd false (fun _ => 1) cd u.
  Proof. reflexivity. Qed.
  Lemma hp_b c : hp (drag c).
  Proof. rewrite drag_G0. apply hp_drag; [apply hp_any|exact Pu]. Qed.
  Lemma visc_G t c : multiply_sgs_visc dx false G nd compact cl t c = multiply_sgs_visc dx false (fun _ => 1) nd compact cl t c.
  Proof. reflexivity. Qed.
  Lemma hp_gtau e : hp (gtau e).
  Proof.
    unfold gtau. apply hp_fill; [apply Pu|apply hp_gdiv|apply hp_b|].
    intros c. rewrite visc_G. apply hp_visc; [apply hp_any|]. unfold gstrain. apply hp_fill; [apply Pu|apply hp_gdiv|apply hp_b|].
    intros e'. apply (hp_deform nd n dx (fun _ => 1) hp_any); [exact Pu|apply hp_gdiv].
  Qed.

  Definition flat (e : nat) (i : idx) : Prop := (offdiag nd e = None /\ e <> v) \/ (0 <= coord v i < n v - 1)%Z.
  Lemma fill_flat w dv bv t e i : flat e i -> fill_tnsr nd dx (n v) w dv bv t e i = t e i.
  Proof.
    intros [[H H1]|H]; unfold fill_tnsr; change (vax nd) with v; rewrite lev_coord.
    - rewrite H. destruct (Nat.eqb_spec e v); [contradiction|reflexivity].
    - destruct (Z.eqb_spec (coord v i) (-1)); [lia|]. destruct (Z.eqb_spec (coord v i) (n v - 1)); [lia|].
      destruct (offdiag nd e); [reflexivity|]. destruct (Nat.eqb e v); reflexivity.
  Qed.
  Definition estrain (e : nat) (i : idx) : R :=
    match nd, e with
    | two, 0%nat => 2 * D dx 0 (u 0%nat) i
    | two, 1%nat => 2 * D dx 1 (u 1%nat) i
    | two, _ => mid 0 (D dx 1 (u 0%nat)) i + mid 1 (D dx 0 (u 1%nat)) i
    | three, 0%nat => 2 * D dx 0 (u 0%nat) i
    | three, 1%nat => 2 * D dx 1 (u 1%nat) i
    | three, 2%nat => 2 * D dx 2 (u 2%nat) i
    | three, 3%nat => mid 0 (D dx 1 (u 0%nat)) i + mid 1 (D dx 0 (u 1%nat)) i
    | three, 4%nat => mid 0 (D dx 2 (u 0%nat)) i + mid 2 (D dx 0 (u 2%nat)) i
    | three, _ => mid 1 (D dx 2 (u 1%nat)) i + mid 2 (D dx 1 (u 2%nat)) i
    end.
  Lemma estrain_eq e i : calc_deform_cmpct dx nd u gdiv e i = estrain e i.
  Proof.
    unfold estrain. destruct i as [[x y] z]. pose proof (Dxn 0). pose proof (Dxn 1). pose proof (Dxn 2).
    destruct nd eqn:E; rewrite <- E in *; unfold calc_deform_cmpct; rewrite E; destruct e as [|[|[|[|[|e]]]]];
      cbn [calc_deform_cmpct2 calc_deform_cmpct3]; rewrite ?gdiv0; unfold D, mid; cbn [step fst snd]; field; auto.
  Qed.
  Lemma gtau_pos e i : (e < ntau nd)%nat -> flat e i -> 0 <= gtau e i * estrain e i.
  Proof.
    intros He Hf. unfold gtau. rewrite fill_flat by exact Hf.
    destruct (visc_factor dx false G nd compact cl gstrain e i) as (k & Hk & E); auto.
    rewrite E. unfold gstrain. rewrite fill_flat by exact Hf. rewrite estrain_eq.
    replace (estrain e i * k * estrain e i) with (estrain e i * (estrain e i * k)) by ring. apply mul_sq. exact Hk.
  Qed.

  Lemma rhs_all c i : (c < ndn nd)%nat -> ground_rhs nd dx false G (n v) cd cl u rhs c i - rhs c i =
    2 * axes (ndn nd) (fun d => (face nd gtau c d i - face nd gtau c d (step d (-1) i)) / dx d).
  Proof.
    intros Hc. rewrite rhs_gtau. generalize gtau. intros t. pose proof (Dxn 0). pose proof (Dxn 1). pose proof (Dxn 2).
    destruct i as [[x y] z]. unfold face, comp. destruct nd; cbn [ndn] in *.
    - assert (C : c = 0%nat \/ c = 1%nat) by (clear - Hc; lia). destruct C; subst c;
      cbn [Nat.eqb axes step fst snd calc_stress_rhs_cmpct calc_stress_rhs_cmpct2 Gop]; unfold Z.sub; cbn [Z.opp]; field; auto.
    - assert (C : c = 0%nat \/ c = 1%nat \/ c = 2%nat) by (clear - Hc; lia). destruct C as [|[|]]; subst c;
      cbn [Nat.eqb Nat.add axes step fst snd calc_stress_rhs_cmpct calc_stress_rhs_cmpct3 Gop]; unfold Z.sub; cbn [Z.opp]; field; auto.
  Qed.
  Notation tm := (term nd n dx gtau u).
  Lemma power_terms : weighted nd n (fun i => axes (ndn nd) (fun c => u c i * (ground_rhs nd dx false G (n v) cd cl u rhs c i - rhs c i))) =
    2 * axes (ndn nd) (fun c => axes (ndn nd) (tm c)).
  Proof.
    rewrite (wt_ext nd n _ (fun i => axes (ndn nd) (fun c => u c i * (2 * axes (ndn nd) (fun d => (face nd gtau c d i - face nd gtau c d (step d (-1) i)) / dx d))))).
    2:{ intros i. pose proof rhs_all as E. destruct nd; cbn [ndn axes] in *; rewrite !E by (clear; lia); reflexivity. }
    unfold term. destruct nd; cbn [ndn axes]; unfold weighted; rewrite ?Rplus_0_l, <- ?cells_add, <- cells_scal;
      apply cells_ext; intros i; ring.
  Qed.

  Lemma gtau_ft c i : (c < v)%nat -> coord v i = 0%Z -> gtau (comp nd c v) (step v (-1) i) = 2 * drag c i - gtau (comp nd c v) i.
  Proof. intros. unfold gtau. apply (ft_0 nd n dx (fun _ => 1)); try assumption; [exact Dxn|intros; lra]. Qed.
  Lemma gtau_fl c i : (c < v)%nat -> coord v i = (n v - 2)%Z -> gtau (comp nd c v) (step v 1 i) = - gtau (comp nd c v) i.
  Proof. intros. unfold gtau. apply (ft_1 nd n dx (fun _ => 1)); try assumption; [exact Dxn|intros; lra]. Qed.
  Lemma wt_pos2 e f : (e < ntau nd)%nat -> offdiag nd e = None -> e <> v -> (forall i, estrain e i = f i) -> 0 <= weighted nd n (fun i => gtau e i * f i).
  Proof. intros He H1 H2 E. apply wt_ge0. intros i. rewrite <- E. apply gtau_pos; [exact He|left; auto]. Qed.
  Lemma in_pos2 e f : (e < ntau nd)%nat -> (forall i, estrain e i = f i) -> 0 <= inner nd n (fun i => gtau e i * f i).
  Proof. intros He E. apply inner_ge0. intros i Hi. rewrite <- E. apply gtau_pos; [exact He|right; lia]. Qed.
  Lemma wt_add f g : weighted nd n (fun i => f i + g i) = weighted nd n f + weighted nd n g.
  Proof. transitivity (1 * weighted nd n f + 1 * weighted nd n g); [|ring]. rewrite <- wt_lin. apply wt_ext. intros; ring. Qed.
  Lemma in_add f g : inner nd n (fun i => f i + g i) = inner nd n f + inner nd n g.
  Proof. transitivity (1 * inner nd n f + 1 * inner nd n g); [|ring]. rewrite <- inner_lin. apply inner_ext_in. intros; ring. Qed.

  Lemma energy_ground :
    weighted nd n (fun i => axes (ndn nd) (fun c => u c i * (ground_rhs nd dx false G (n v) cd cl u rhs c i - rhs c i))) <= 
    - (2 * ground nd n (fun i => axes v (fun c => drag c i * mid c (u c) i)) / dx v).
  Proof.
    rewrite power_terms.
    pose proof (term_diag nd n dx Hn Dxn gtau hp_gtau u Pu) as TD.
    pose proof (term_off nd n dx Hn Dxn gtau hp_gtau u Pu) as TO.
    assert (TV : forall c, (c < v)%nat -> tm c v = - ground nd n (fun i => drag c i * mid c (u c) i) / dx v - inner nd n (fun i => gtau (comp nd c v) i * mid c (D dx v (u c)) i)).
    { intros c Hc. apply (term_cv nd n dx Hn Hz Dxn gtau hp_gtau u Pu c (drag c) Hc (hp_b c)); intros i Hi; [apply gtau_ft|apply gtau_fl]; assumption. }
    pose proof (term_vd nd n dx Hn Hz Dxn gtau hp_gtau u Pu W0) as TW.
    pose proof (term_vv nd n dx Hn Hz Dxn gtau u W0) as TVV.
    assert (WP : forall e f, (e < ntau nd)%nat -> offdiag nd e = None -> e <> v -> (forall i, estrain e i = f i) -> 0 <= weighted nd n (fun i => gtau e i * f i)) by exact wt_pos2.
    assert (IP : forall e f, (e < ntau nd)%nat -> (forall i, estrain e i = f i) -> 0 <= inner nd n (fun i => gtau e i * f i)) by exact in_pos2.
    pose proof (Dx v) as Dv.
    destruct (Nat.eq_dec v 1) as [V1|V1].
    - assert (E2 : nd = two) by (clear - V1; destruct nd; [reflexivity|discriminate]).
      assert (G1 : ground nd n (fun i => axes v (fun c => drag c i * mid c (u c) i)) = ground nd n (fun i => drag 0%nat i * mid 0 (u 0%nat) i)).
      { apply gr_ext. intros i. rewrite V1. cbn [axes]. ring. }
      rewrite G1. replace (ndn nd) with 2%nat by (rewrite E2; reflexivity). cbn [axes].
      rewrite V1 in *. rewrite (TD 0%nat) by lia. rewrite (TV 0%nat) by lia. rewrite (TW 0%nat) by lia. rewrite TVV.
      assert (C0 : comp nd 0 0 = 0%nat /\ comp nd 0 1 = 2%nat /\ comp nd 1 0 = 2%nat /\ comp nd 1 1 = 1%nat) by (rewrite E2; repeat split; reflexivity).
      destruct C0 as (-> & -> & -> & ->).
      pose proof (WP 0%nat (fun i => 2 * D dx 0 (u 0%nat) i) ltac:(rewrite E2; cbn; lia) ltac:(rewrite E2; reflexivity) ltac:(lia)
         ltac:(intros i; unfold estrain; rewrite E2; reflexivity)) as P0.
      pose proof (IP 1%nat (fun i => 2 * D dx 1 (u 1%nat) i) ltac:(rewrite E2; cbn; lia) ltac:(intros i; unfold estrain; rewrite E2; reflexivity)) as P1.
      pose proof (IP 2%nat (fun i => mid 0 (D dx 1 (u 0%nat)) i + mid 1 (D dx 0 (u 1%nat)) i) ltac:(rewrite E2; cbn; lia) ltac:(intros i; unfold estrain; rewrite E2; reflexivity)) as P2.
      rewrite (wt_ext nd n _ (fun i => gtau 0%nat i * D dx 0 (u 0%nat) i + gtau 0%nat i * D dx 0 (u 0%nat) i)), wt_add in P0 by (intros; ring).
      rewrite (inner_ext_in nd n _ (fun i => gtau 1%nat i * D dx 1 (u 1%nat) i + gtau 1%nat i * D dx 1 (u 1%nat) i)), in_add in P1 by (intros; ring).
      rewrite (inner_ext_in nd n _ (fun i => gtau 2%nat i * mid 0 (D dx 1 (u 0%nat)) i + gtau 2%nat i * mid 1 (D dx 0 (u 1%nat)) i)), in_add in P2 by (intros; ring).
      unfold Rdiv in *. lra.
    - assert (E3 : nd = three) by (clear - V1; destruct nd; [exfalso; apply V1; reflexivity|reflexivity]).
      assert (V2 : v = 2%nat) by (rewrite E3; reflexivity).
      assert (G1 : ground nd n (fun i => axes v (fun c => drag c i * mid c (u c) i)) =
         ground nd n (fun i => drag 0%nat i * mid 0 (u 0%nat) i) + ground nd n (fun i => drag 1%nat i * mid 1 (u 1%nat) i)).
      { rewrite <- gr_add. apply gr_ext. intros i. rewrite V2. cbn [axes]. ring. }
      rewrite G1. replace (ndn nd) with 3%nat by (rewrite E3; reflexivity). cbn [axes].
      rewrite V2 in *. rewrite !TD by lia. rewrite !TV by lia. rewrite !TW by lia. rewrite TVV. rewrite (TO 0%nat 1%nat), (TO 1%nat 0%nat) by lia.
      assert (C0 : comp nd 0 0 = 0%nat /\ comp nd 0 1 = 3%nat /\ comp nd 1 0 = 3%nat /\ comp nd 1 1 = 1%nat /\ comp nd 0 2 = 4%nat /\ comp nd 2 0 = 4%nat /\
         comp nd 1 2 = 5%nat /\ comp nd 2 1 = 5%nat /\ comp nd 2 2 = 2%nat) by (rewrite E3; repeat split; reflexivity).
      destruct C0 as (-> & -> & -> & -> & -> & -> & -> & -> & ->).
      pose proof (WP 0%nat (fun i => 2 * D dx 0 (u 0%nat) i) ltac:(rewrite E3; cbn; lia) ltac:(rewrite E3; reflexivity) ltac:(lia)
         ltac:(intros i; unfold estrain; rewrite E3; reflexivity)) as P0.
      pose proof (WP 1%nat (fun i => 2 * D dx 1 (u 1%nat) i) ltac:(rewrite E3; cbn; lia) ltac:(rewrite E3; reflexivity) ltac:(lia)
         ltac:(intros i; unfold estrain; rewrite E3; reflexivity)) as P1.
      pose proof (WP 3%nat (fun i => mid 0 (D dx 1 (u 0%nat)) i + mid 1 (D dx 0 (u 1%nat)) i) ltac:(rewrite E3; cbn; lia) ltac:(rewrite E3; reflexivity) ltac:(lia)
         ltac:(intros i; unfold estrain; rewrite E3; reflexivity)) as P3.
      pose proof (IP 2%nat (fun i => 2 * D dx 2 (u 2%nat) i) ltac:(rewrite E3; cbn; lia) ltac:(intros i; unfold estrain; rewrite E3; reflexivity)) as P2.
      pose proof (IP 4%nat (fun i => mid 0 (D dx 2 (u 0%nat)) i + mid 2 (D dx 0 (u 2%nat)) i) ltac:(rewrite E3; cbn; lia) ltac:(intros i; unfold estrain; rewrite E3; reflexivity)) as P4.
      pose proof (IP 5%nat (fun i => mid 1 (D dx 2 (u 1%nat)) i + mid 2 (D dx 1 (u 2%nat)) i) ltac:(rewrite E3; cbn; lia) ltac:(intros i; unfold estrain; rewrite E3; reflexivity)) as P5.
      rewrite (wt_ext nd n _ (fun i => gtau 0%nat i * D dx 0 (u 0%nat) i + gtau 0%nat i * D dx 0 (u 0%nat) i)), wt_add in P0 by (intros; ring).
      rewrite (wt_ext nd n _ (fun i => gtau 1%nat i * D dx 1 (u 1%nat) i + gtau 1%nat i * D dx 1 (u 1%nat) i)), wt_add in P1 by (intros; ring).
      rewrite (wt_ext nd n _ (fun i => gtau 3%nat i * mid 0 (D dx 1 (u 0%nat)) i + gtau 3%nat i * mid 1 (D dx 0 (u 1%nat)) i)), wt_add in P3 by (intros; ring).
      rewrite (inner_ext_in nd n _ (fun i => gtau 2%nat i * D dx 2 (u 2%nat) i + gtau 2%nat i * D dx 2 (u 2%nat) i)), in_add in P2 by (intros; ring).
      rewrite (inner_ext_in nd n _ (fun i => gtau 4%nat i * mid 0 (D dx 2 (u 0%nat)) i + gtau 4%nat i * mid 2 (D dx 0 (u 2%nat)) i)), in_add in P4 by (intros; ring).
      rewrite (inner_ext_in nd n _ (fun i => gtau 5%nat i * mid 1 (D dx 2 (u 1%nat)) i + gtau 5%nat i * mid 2 (D dx 1 (u 2%nat)) i)), in_add in P5 by (intros; ring).
      unfold Rdiv in *. lra.
  Qed.
End Total.

Lemma drag_energy nd n dx G cd cl :
  (forall d, (0 < n d)%Z) -> (2 <= n (upw nd))%Z -> (forall d, 0 < dx d) -> visc_ok cl -> 0 <= cd ->
  forall u rhs, (forall e, hperiodic nd n (u e)) ->
  (forall i, coord (upw nd) i = 0%Z \/ coord (upw nd) i = (n (upw nd) - 1)%Z -> u (upw nd) i = 0) ->
  let loss := 2 * ground nd n (fun i => axes (upw nd) (fun c => drag_law nd (fun _ => 1) cd u c i * mid c (u c) i)) / dx (upw nd) in
  weighted nd n (fun i => axes (ndn nd) (fun c => u c i * (ground_rhs nd dx false G (n (upw nd)) cd cl u rhs c i - rhs c i))) <= - loss /\ 0 <= loss.
Proof.
  intros Hn Hz Dx Hcl Hcd u rhs Pu W0 loss.
  assert (E : loss = 2 * ground nd n (fun i => axes (upw nd) (fun c => calc_drag_cmpct nd false G cd u c i * mid c (u c) i)) / dx (upw nd)).
  { unfold loss. do 2 f_equal. apply gr_ext. intros i. pose proof (drag_eq nd false G cd u) as Q.
    destruct nd; cbn [upw axes] in *; rewrite !Q by lia; reflexivity. }
  rewrite E. split.
  - apply energy_ground; assumption.
  - apply pos_div; [|apply Dx].
    pose proof (gr_ge0 nd n _ (fun i => drag_work_pos nd false (fun _ => 1) cd u i Hcd (fun _ => Rle_0_1))) as W. 
    change (calc_drag_cmpct nd false (fun _ : idx => 1) cd u) with (calc_drag_cmpct nd false G cd u) in W. lra.
Qed.
