(** Proofs on heating above a ground: extremes, values outside of the domain, offsets, superposition, flow in a plane. *)
From Coq Require Import ZArith Reals Lra Lia Bool.
From Verif Require Import Stencil SpecReal SpecStress ModelStress ModelHeat SpecHeat SpecGround.
Local Open Scope R_scope.

Ltac lvl := match goal with |- context [(?a =? ?b)%Z] => destruct (Z.eqb_spec a b) end.
Lemma lev_coord nd i : lev nd i = coord (upw nd) i.
Proof. destruct i as [[x y] z], nd; reflexivity. Qed.
Lemma lev_ax nd d k i : lev nd (ax d k i) = (lev nd i + if Nat.eqb (Nat.min d 2) (vax nd) then k else 0)%Z.
Proof. destruct i as [[x y] z], nd, d as [|[|d]]; cbn; rewrite ?Nat.min_0_r; cbn; lia. Qed.
Lemma ax_ax d a b i : ax d a (ax d b i) = ax d (a + b) i.
Proof. destruct i as [[x y] z], d as [|[|d]]; cbn [ax]; rewrite <- Z.add_assoc, (Z.add_comm b a); reflexivity. Qed.
Lemma ax_0 d i : ax d 0 i = i.
Proof. destruct i as [[x y] z], d as [|[|d]]; cbn [ax]; rewrite Z.add_0_r; reflexivity. Qed.

Section Inside.
  Variables (nd : ndims) (dx : nat -> R) (nug : bool) (G G' : idx -> R) (nz : Z) (h pr : R) (km km' : nat -> idx -> R) (T T' : idx -> R).
  Hypothesis Hz : (2 <= nz)%Z.
  Hypothesis HG : same_inside nd nz G G'.
  Hypothesis HK : forall d, same_inside nd nz (km d) (km' d).
  Hypothesis HT : same_inside nd nz T T'.
  Notation F d := (heat_flux dx nug G pr km T d).
  Notation F' d := (heat_flux dx nug G' pr km' T' d).
  Lemma ins f g i : same_inside nd nz f g -> (0 <= lev nd i < nz)%Z -> f i = g i.
  Proof. intros H Hi. apply H. rewrite <- lev_coord. exact Hi. Qed.
  Lemma gv_in i : (0 <= lev nd i < nz)%Z -> Gv nug G i = Gv nug G' i.
  Proof. intros. unfold Gv. destruct nug; [apply ins; assumption|reflexivity]. Qed.
  Lemma flux_in d i : (0 <= lev nd i < nz)%Z -> (0 <= lev nd (ax d 1 i) < nz)%Z -> F d i = F' d i.
  Proof.
    intros A B. unfold heat_flux, grad_tht. rewrite (ins _ _ _ HT A), (ins _ _ _ HT B), (ins _ _ _ (HK d) A), (ins _ _ _ (HK d) B), (gv_in _ A), (gv_in _ B). reflexivity.
  Qed.
  Lemma filled_in d i : (d <= 2)%nat -> (-1 <= lev nd i < nz)%Z -> (d <> vax nd -> (0 <= lev nd i)%Z) ->
    filled nd dx nug G nz h pr km T d i = filled nd dx nug G' nz h pr km' T' d i.
  Proof.
    intros Hd Hi Hh. unfold filled. destruct (Nat.eqb_spec d (vax nd)) as [->|N].
    - assert (LV : forall k, lev nd (ax (vax nd) k i) = (lev nd i + k)%Z) by (intros; rewrite lev_ax; destruct nd; reflexivity).
      lvl; [|lvl].
      + f_equal; [|apply flux_in; rewrite ?ax_ax, !LV; lia]. f_equal. unfold hflux_srfc. destruct nug; [|reflexivity].
        f_equal. apply ins; [assumption|rewrite LV; lia].
      + f_equal. apply flux_in; rewrite ?ax_ax, LV; lia.
      + apply flux_in; rewrite ?LV; lia.
    - apply flux_in; [specialize (Hh N); lia|]. rewrite lev_ax. replace (Nat.min d 2) with d by lia. destruct (Nat.eqb_spec d (vax nd)); [congruence|]. specialize (Hh N); lia.
  Qed.
  Lemma warm_inside : same_inside nd nz (hflux_frc nd dx nug G nz h pr km T) (hflux_frc nd dx nug G' nz h pr km' T').
  Proof.
    intros i Hi. rewrite <- lev_coord in Hi.
    assert (E : forall d, (d <= vax nd)%nat -> filled nd dx nug G nz h pr km T d i = filled nd dx nug G' nz h pr km' T' d i /\
      filled nd dx nug G nz h pr km T d (ax d (-1) i) = filled nd dx nug G' nz h pr km' T' d (ax d (-1) i)).
    { intros d Hd. assert (d <= 2)%nat by (destruct nd; cbn in Hd; lia). split; apply filled_in; try assumption; try lia; rewrite lev_ax; replace (Nat.min d 2) with d by lia.
      - destruct (Nat.eqb d (vax nd)); lia.
      - intros N. destruct (Nat.eqb_spec d (vax nd)); [congruence|lia]. }
    unfold hflux_frc. rewrite (gv_in _ Hi). destruct nd; cbn [vax] in E.
    - destruct (E 0%nat ltac:(lia)) as [-> ->], (E 1%nat ltac:(lia)) as [-> ->]. reflexivity.
    - destruct (E 0%nat ltac:(lia)) as [-> ->], (E 1%nat ltac:(lia)) as [-> ->], (E 2%nat ltac:(lia)) as [-> ->]. reflexivity.
  Qed.
End Inside.

Section Warm.
  Variables (nd : ndims) (dx : nat -> R) (nug : bool) (G : idx -> R) (nz : Z) (pr : R) (km : nat -> idx -> R).
  (** superposition: temperatures and surface fluxes *)
  Lemma warm_sum h h' a b T T' i :
    hflux_frc nd dx nug G nz (a * h + b * h') pr km (fun j => a * T j + b * T' j) i =
    a * hflux_frc nd dx nug G nz h pr km T i + b * hflux_frc nd dx nug G nz h' pr km T' i.
  Proof.
    assert (FX : forall d j, heat_flux dx nug G pr km (fun j => a * T j + b * T' j) d j = a * heat_flux dx nug G pr km T d j + b * heat_flux dx nug G pr km T' d j).
    { intros. unfold heat_flux, grad_tht, Rdiv. ring. }
    assert (FL : forall d j, filled nd dx nug G nz (a * h + b * h') pr km (fun j => a * T j + b * T' j) d j =
      a * filled nd dx nug G nz h pr km T d j + b * filled nd dx nug G nz h' pr km T' d j).
    { intros. unfold filled, hflux_srfc. rewrite !FX. destruct (Nat.eqb d (vax nd)); [|ring]. lvl; [destruct nug; ring|]. lvl; ring. }
    unfold hflux_frc. destruct nd; rewrite !FL; unfold Rdiv; ring.
  Qed.
  Lemma warm_const h c T i : hflux_frc nd dx nug G nz h pr km (fun j => T j + c) i = hflux_frc nd dx nug G nz h pr km T i.
  Proof.
    assert (FX : forall d j, heat_flux dx nug G pr km (fun j => T j + c) d j = heat_flux dx nug G pr km T d j).
    { intros. unfold heat_flux, grad_tht. replace (T (ax d 1 j) + c - (T j + c)) with (T (ax d 1 j) - T j) by ring. reflexivity. }
    assert (FL : forall d j, filled nd dx nug G nz h pr km (fun j => T j + c) d j = filled nd dx nug G nz h pr km T d j).
    { intros. unfold filled. rewrite !FX. reflexivity. }
    unfold hflux_frc. destruct nd; rewrite !FL; reflexivity.
  Qed.
  Hypothesis Hz : (2 <= nz)%Z.
  Hypothesis Hd : forall d, 0 < dx d.
  Hypothesis HG : forall i, 0 < G i.
  Hypothesis Hp : 0 < pr.
  Hypothesis HK : forall d i, 0 <= km d i.
  Lemma gv_pos i : 0 < Gv nug G i. Proof. unfold Gv. destruct nug; [apply HG|lra]. Qed.
  Lemma coef_pos d i : 0 <= 1 / pr * (1 / 2) * (km d (ax d 1 i) + km d i) * (1 / 2) * (Gv nug G (ax d 1 i) + Gv nug G i).
  Proof.
    assert (0 < 1 / pr) by (apply Rdiv_lt_0_compat; lra). pose proof (HK d i). pose proof (HK d (ax d 1 i)). pose proof (gv_pos i). pose proof (gv_pos (ax d 1 i)).
    apply Rmult_le_pos; [|lra]. apply Rmult_le_pos; [|lra]. apply Rmult_le_pos; lra.
  Qed.
  Lemma flux_out T d i : T (ax d 1 i) <= T i -> heat_flux dx nug G pr km T d i <= 0.
  Proof.
    intros H. unfold heat_flux. assert (0 <= - grad_tht dx T d i).
    { unfold grad_tht. replace (- ((T (ax d 1 i) - T i) / dx d)) with ((T i - T (ax d 1 i)) / dx d) by (field; specialize (Hd d); lra).
      apply Rmult_le_pos; [lra|]. apply Rlt_le, Rinv_0_lt_compat, Hd. }
    pose proof (Rmult_le_pos _ _ H0 (coef_pos d i)). lra.
  Qed.
  Lemma flux_in_pos T d i : T (ax d (-1) i) <= T i -> 0 <= heat_flux dx nug G pr km T d (ax d (-1) i).
  Proof.
    intros H. unfold heat_flux. apply Rmult_le_pos; [|apply coef_pos]. unfold grad_tht. rewrite ax_ax. cbn [Z.add Z.opp Z.pos_sub]. rewrite ax_0.
    apply Rmult_le_pos; [lra|]. apply Rlt_le, Rinv_0_lt_compat, Hd.
  Qed.
  Lemma diff_out T i d : (d <= vax nd)%nat -> (0 <= lev nd i < nz)%Z -> (forall j, (0 <= lev nd j < nz)%Z -> T j <= T i) ->
    (filled nd dx nug G nz 0 pr km T d i - filled nd dx nug G nz 0 pr km T d (ax d (-1) i)) / dx d <= 0.
  Proof.
    intros Hdv Hi HT. assert (d <= 2)%nat by (destruct nd; cbn in Hdv; lia).
    assert (N : filled nd dx nug G nz 0 pr km T d i - filled nd dx nug G nz 0 pr km T d (ax d (-1) i) <= 0).
    { unfold filled. destruct (Nat.eqb_spec d (vax nd)) as [->|N].
      - assert (LV : forall k, lev nd (ax (vax nd) k i) = (lev nd i + k)%Z) by (intros; rewrite lev_ax; destruct nd; reflexivity).
        rewrite LV. rewrite !ax_ax. change (-1 + 1)%Z with 0%Z. rewrite ax_0.
        assert (S0 : hflux_srfc nug G 0 i = 0) by (unfold hflux_srfc; destruct nug; ring). rewrite S0.
        destruct (Z.eqb_spec (lev nd i) (-1)); [lia|].
        destruct (Z.eqb_spec (lev nd i + -1) (-1)).
        + destruct (Z.eqb_spec (lev nd i) (nz - 1)); [lia|]. pose proof (flux_out T (vax nd) i ltac:(apply HT; rewrite LV; lia)). lra.
        + destruct (Z.eqb_spec (lev nd i + -1) (nz - 1)); [lia|]. pose proof (flux_in_pos T (vax nd) i ltac:(apply HT; rewrite LV; lia)).
          destruct (Z.eqb_spec (lev nd i) (nz - 1)); [lra|]. pose proof (flux_out T (vax nd) i ltac:(apply HT; rewrite LV; lia)). lra.
      - assert (LH : forall k, lev nd (ax d k i) = lev nd i).
        { intros. rewrite lev_ax. replace (Nat.min d 2) with d by lia. destruct (Nat.eqb_spec d (vax nd)); [congruence|lia]. }
        pose proof (flux_out T d i ltac:(apply HT; rewrite LH; lia)). pose proof (flux_in_pos T d i ltac:(apply HT; rewrite LH; lia)). lra. }
    pose proof (Rinv_0_lt_compat _ (Hd d)). unfold Rdiv.
    match goal with |- ?a * ?b <= 0 => pose proof (Rmult_le_pos (- a) b ltac:(lra) ltac:(lra)) end. lra.
  Qed.
  Lemma hottest T i : (0 <= coord (upw nd) i < nz)%Z -> (forall j, (0 <= coord (upw nd) j < nz)%Z -> T j <= T i) ->
    hflux_frc nd dx nug G nz 0 pr km T i <= 0.
  Proof.
    intros Hi HT. rewrite <- lev_coord in Hi. assert (HT' : forall j, (0 <= lev nd j < nz)%Z -> T j <= T i) by (intros j Hj; apply HT; rewrite <- lev_coord; exact Hj).
    pose proof (Rinv_0_lt_compat _ (gv_pos i)) as GI. pose proof (fun d H => diff_out T i d H Hi HT') as D. unfold hflux_frc. destruct nd; cbn [vax] in D.
    - pose proof (D 0%nat ltac:(lia)). pose proof (D 1%nat ltac:(lia)).
      match goal with |- ?a / _ <= 0 => pose proof (Rmult_le_pos (- a) (/ Gv nug G i) ltac:(lra) ltac:(lra)) end. unfold Rdiv at 1. lra.
    - pose proof (D 0%nat ltac:(lia)). pose proof (D 1%nat ltac:(lia)). pose proof (D 2%nat ltac:(lia)).
      match goal with |- ?a / _ <= 0 => pose proof (Rmult_le_pos (- a) (/ Gv nug G i) ltac:(lra) ltac:(lra)) end. unfold Rdiv at 1. lra.
  Qed.
End Warm.
Lemma coldest nd dx nug G nz pr km : (2 <= nz)%Z -> (forall d, 0 < dx d) -> (forall i, 0 < G i) -> 0 < pr -> (forall d i, 0 <= km d i) ->
  forall T i, (0 <= coord (upw nd) i < nz)%Z -> (forall j, (0 <= coord (upw nd) j < nz)%Z -> T i <= T j) -> 0 <= hflux_frc nd dx nug G nz 0 pr km T i.
Proof.
  intros Hz Hd HG Hp HK T i Hi HT.
  pose proof (warm_sum nd dx nug G nz pr km 0 0 (-1) 0 T T i) as L. replace (-1 * 0 + 0 * 0) with 0 in L by ring.
  pose proof (hottest nd dx nug G nz pr km Hz Hd HG Hp HK (fun j => -1 * T j + 0 * T j) i Hi) as H.
  assert (M : forall j, (0 <= coord (upw nd) j < nz)%Z -> -1 * T j + 0 * T j <= -1 * T i + 0 * T i) by (intros j Hj; specialize (HT j Hj); lra).
  specialize (H M). lra.
Qed.

(** a column with warm ground: 1, 0, 0; something else stored outside *)
Definition warm_col (i : idx) : R := if (coord 1 i =? 0)%Z then 1 else 0.
Definition warm_rubbish (i : idx) : R := if ((0 <=? coord 1 i) && (coord 1 i <? 3))%Z then warm_col i else 1000.
Lemma warm_case : (forall j, (0 <= coord 1 j < 3)%Z -> warm_col j <= warm_col (0, 0, 0)%Z) /\ (forall j, (0 <= coord 1 j < 3)%Z -> warm_col (0, 1, 0)%Z <= warm_col j) /\
  hflux_frc two (fun _ => 1) false (fun _ => 1) 3 0 1 (fun _ _ => 1) warm_col (0, 0, 0)%Z = -2 /\
  hflux_frc two (fun _ => 1) false (fun _ => 1) 3 0 1 (fun _ _ => 1) warm_col (0, 1, 0)%Z = 1.
Proof.
  repeat split; try (intros j _; unfold warm_col; cbn; destruct (_ =? _)%Z; lra);
    unfold hflux_frc, filled, heat_flux, grad_tht, warm_col, hflux_srfc, Gv; cbn; field.
Qed.
Lemma rubbish_case : same_inside two 3 warm_col warm_rubbish /\ warm_rubbish (0, 3, 0)%Z = 1000 /\
  hflux_frc two (fun _ => 1) false (fun _ => 1) 3 0 1 (fun _ _ => 1) warm_rubbish (0, 0, 0)%Z = -2.
Proof.
  assert (S : same_inside two 3 warm_col warm_rubbish).
  { intros i H. unfold warm_rubbish. cbn [upw] in H. destruct (Z.leb_spec 0 (coord 1 i)); [|lia]. destruct (Z.ltb_spec (coord 1 i) 3); [reflexivity|lia]. }
  split; [exact S|split; [reflexivity|]]. rewrite <- (proj1 (proj2 (proj2 warm_case))). symmetry.
  apply (warm_inside two (fun _ => 1) false (fun _ => 1) (fun _ => 1) 3 0 1 (fun _ _ => 1) (fun _ _ => 1) warm_col warm_rubbish); [lia|intros j _; reflexivity|intros d j _; reflexivity|exact S|cbn; lia].
Qed.
Lemma sum_case : hflux_frc two (fun _ => 1) false (fun _ => 1) 3 0 1 (fun _ _ => 1) (fun j => warm_col j + 300) (0, 0, 0)%Z = -2.
Proof. rewrite warm_const. apply warm_case. Qed.
