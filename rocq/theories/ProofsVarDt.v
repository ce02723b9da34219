From Coq Require Import ZArith List Bool Reals Lra Lia ZifyBool ZifyNat.
From Verif Require Import ModelIndex ProofsIndex Stencil ProofsStencil ModelReduce ProofsReduce ModelVarDt SpecVarDt.
Import ListNotations.
Local Open Scope Z_scope.

Lemma dim_eqb_spec a b : dim_eqb a b = true <-> a = b.
Proof. destruct a, b; cbn; split; congruence. Qed.
Lemma dim_dec (a b : dim) : {a = b} + {a <> b}.
Proof. decide equality. Qed.

Lemma maxl_max xs : xs <> [] -> In (maxl xs) xs /\ forall x, In x xs -> (x <= maxl xs)%R.
Proof.
  destruct xs as [|x0 xs]; [congruence|]. intros _. cbn [maxl].
  destruct (fold_max xs x0) as (A & B & C). split.
  - destruct A as [A|A]; [left; auto|right; auto].
  - intros x [<-|H]; auto.
Qed.

Lemma prev_below d (x : idx) : prev d x = below d x.
Proof. destruct x as [[a b] c]; destruct d; unfold prev, iadd, below; cbn [comp fst snd]; repeat (apply f_equal2); lia. Qed.

Section P.
  Variables (dims : list dim) (dd : dim) (lo hi : dim -> Z) (n : nat) (src : dim -> idx -> idx)
    (sg : dim -> idx -> R) (G : field) (wg : bool).
  Hypothesis Hdd : In dd dims.
  Hypothesis Hdims : forall d, In d dims -> lo d < hi d.
  Hypothesis Hother : forall d, ~ In d dims -> lo d = 0 /\ hi d = 0.
  Hypothesis Hn : (0 < n)%nat.
  Hypothesis Hspan : Z.of_nat n <= hi dd - lo dd + 1.
  Hypothesis HG : wg = true -> forall x, is_cell dims lo hi x -> (0 < G x)%R.
  Hypothesis HF : halo_rule dims lo hi src sg.
  Notation part := (part dd lo hi n).
  Notation fil := (fill src sg).
  Notation cour := (courant dims dd lo hi n G wg).
  Notation cat := (courant_at dims G wg).

  Lemma le_dims d : lo d <= hi d.
  Proof. destruct (in_dec dim_dec d dims) as [H|H]; [specialize (Hdims d H); lia|destruct (Hother d H); lia]. Qed.

  Lemma cells_in r x : In x (cells r) <-> forall d, in_rng (comp d x) (r d).
  Proof.
    unfold cells. rewrite in_flat_map. split.
    - intros (a & Ha & H). apply in_flat_map in H. destruct H as (b & Hb & H). apply in_map_iff in H.
      destruct H as (c & <- & Hc). rewrite zs_in in *. intros []; cbn; auto.
    - intros H. destruct x as [[a b] c]. exists a. pose proof (H DX). pose proof (H DY). pose proof (H DZ). cbn in *.
      split; [apply zs_in; auto|]. apply in_flat_map. exists b. split; [apply zs_in; auto|].
      apply in_map_iff. exists c. split; auto. apply zs_in; auto.
  Qed.

  Lemma part_inside t d i : (t < n)%nat -> in_rng i (part t d) -> lo d <= i <= hi d.
  Proof.
    intros Ht. unfold ModelVarDt.part. destruct (dim_eqb d dd) eqn:E.
    - apply dim_eqb_spec in E. subst d. intros H. apply slab_inside in H; [exact H|lia|cbn; lia|lia].
    - intros H. exact H.
  Qed.
  Lemma part_cover x : is_cell dims lo hi x -> exists t, (t < n)%nat /\ forall d, in_rng (comp d x) (part t d).
  Proof.
    intros [Hc Ho].
    destruct (slab_cover (lo dd, hi dd) (Z.of_nat n) (comp dd x)) as (k & Hk & Hi); [lia|exact (Hc dd Hdd)|].
    exists (Z.to_nat k). split; [lia|]. intros d. unfold ModelVarDt.part. destruct (dim_eqb d dd) eqn:E.
    - apply dim_eqb_spec in E. subst d. rewrite Z2Nat.id by lia. exact Hi.
    - unfold in_rng. cbn. destruct (in_dec dim_dec d dims) as [H|H]; [exact (Hc d H)|].
      destruct (Hother d H) as [-> ->]. rewrite (Ho d H). lia.
  Qed.
  Lemma part_cell t x : (t < n)%nat -> (forall d, in_rng (comp d x) (part t d)) -> is_cell dims lo hi x.
  Proof.
    intros Ht H. split; intros d Hd; pose proof (part_inside t d _ Ht (H d)); auto.
    destruct (Hother d Hd). lia.
  Qed.
  Lemma part_nonempty t : (t < n)%nat -> cells (part t) <> [].
  Proof.
    intros Ht E.
    assert (I : In (first (part t DX), first (part t DY), first (part t DZ)) (cells (part t))).
    { apply cells_in. assert (F : forall d, first (part t d) <= last (part t d)).
      { intros d. unfold ModelVarDt.part. destruct (dim_eqb d dd) eqn:Ed.
        - apply dim_eqb_spec in Ed. subst d. pose proof (le_dims dd).
          apply (proj2 (slab_nonempty_iff (lo dd, hi dd) (Z.of_nat n) ltac:(lia) ltac:(cbn; lia))); [|lia].
          unfold rlen. cbn. lia.
        - apply (le_dims d). }
      intros []; unfold in_rng; cbn [comp fst snd]; match goal with |- context [part t ?d] => specialize (F d) end; lia. }
    rewrite E in I. exact I.
  Qed.

  Lemma cour_max gc : (exists x, is_cell dims lo hi x /\ cat gc x = cour gc) /\
    forall x, is_cell dims lo hi x -> (cat gc x <= cour gc)%R.
  Proof.
    unfold courant. set (L := map _ (seq 0 n)).
    assert (NE : L <> []) by (unfold L; destruct n; [lia|discriminate]).
    destruct (maxl_max L NE) as [A B]. split.
    - unfold L in A at 2. apply in_map_iff in A. destruct A as (t & E & Ht). apply in_seq in Ht.
      assert (NE2 : map (cat gc) (cells (part t)) <> []).
      { intros H. apply map_eq_nil in H. revert H. apply part_nonempty. lia. }
      destruct (maxl_max _ NE2) as [A2 _]. apply in_map_iff in A2. destruct A2 as (x & E2 & Hx).
      exists x. split; [|congruence]. pose proof (proj1 (cells_in _ _) Hx) as Hx2. eapply part_cell; [|exact Hx2]. lia.
    - intros x Hx. destruct (part_cover x Hx) as (t & Ht & H).
      assert (NE2 : map (cat gc) (cells (part t)) <> []).
      { intros H0. apply map_eq_nil in H0. revert H0. apply part_nonempty. lia. }
      destruct (maxl_max _ NE2) as [_ B2]. eapply Rle_trans; [apply B2|apply B].
      + apply in_map. apply cells_in. exact H.
      + unfold L. apply in_map_iff. exists t. split; auto. apply in_seq. lia.
  Qed.

  (** each inner face is scaled by exactly one thread *)
  Lemma scaled_once d x : In d dims -> is_inner_face dims lo hi d x ->
    exists t, (t < n)%nat /\ scaled_by dims dd lo hi n t d x = true /\
      forall u, (u < n)%nat -> scaled_by dims dd lo hi n u d x = true -> u = t.
  Proof.
    intros Hd (H1 & H2 & H3).
    set (p := if dim_eqb dd d then comp d x + 1 else comp dd x).
    assert (Hp : in_rng p (lo dd, hi dd)).
    { unfold p, in_rng. cbn. destruct (dim_eqb dd d) eqn:E.
      - apply dim_eqb_spec in E. subst d. lia.
      - apply H1; auto. intros ->. destruct d; discriminate. }
    assert (Hsc : forall t, (t < n)%nat -> scaled_by dims dd lo hi n t d x = true <-> in_rng p (slab (lo dd, hi dd) (Z.of_nat t) (Z.of_nat n))).
    { intros t Ht. unfold scaled_by. rewrite forallb_forall. split.
      - intros H. specialize (H dd Hdd). unfold ModelVarDt.part in H.
        replace (dim_eqb dd dd) with true in H by (destruct dd; reflexivity).
        unfold p, in_rng, in_rngb in *. destruct (dim_eqb dd d) eqn:E.
        + apply dim_eqb_spec in E. subst d. unfold rng_exth, minus_h, plus_h, first, last in *. cbn [fst snd] in *. lia.
        + unfold first, last in *. lia.
      - intros H e He. unfold in_rngb. unfold p, in_rng in H. destruct (dim_eqb e d) eqn:Ed.
        + apply dim_eqb_spec in Ed. subst e. unfold rng_exth, minus_h, plus_h, ModelVarDt.part.
          destruct (dim_eqb d dd) eqn:E.
          * apply dim_eqb_spec in E. subst d. replace (dim_eqb dd dd) with true in H by (destruct dd; reflexivity).
            unfold first, last in *. cbn [fst snd] in *. lia.
          * unfold first, last. cbn [fst snd]. lia.
        + unfold ModelVarDt.part. destruct (dim_eqb e dd) eqn:E.
          * apply dim_eqb_spec in E. subst e. rewrite Ed in H. unfold first, last in *. lia.
          * unfold first, last. cbn [fst snd]. assert (e <> d) by (intros ->; destruct d; discriminate).
            specialize (H1 e He H0). lia. }
    destruct (slab_cover (lo dd, hi dd) (Z.of_nat n) p) as (k & Hk & Hi); [lia|exact Hp|].
    exists (Z.to_nat k). split; [lia|]. split.
    - apply Hsc; [lia|]. rewrite Z2Nat.id by lia. exact Hi.
    - intros u Hu Hsu. apply Hsc in Hsu; auto.
      pose proof (le_dims dd).
      pose proof (slab_disjoint (lo dd, hi dd) (Z.of_nat n) p (Z.of_nat u) k ltac:(lia) ltac:(cbn; lia) ltac:(lia) ltac:(lia) Hsu Hi).
      lia.
  Qed.

  Lemma scale_fold (sel : nat -> idx -> bool) (s : R) (x : idx) : forall ts (g : field), NoDup ts ->
    (forall t, In t ts -> sel t x = false) ->
    fold_left (fun (g : field) t => fun x => if sel t x then (g x * s)%R else g x) ts g x = g x.
  Proof.
    induction ts as [|t ts IH]; intros g ND H; [reflexivity|]. cbn [fold_left].
    rewrite IH; [rewrite H by (cbn; auto); reflexivity|inversion ND; auto|intros; apply H; cbn; auto].
  Qed.
  Lemma scale_fold1 (sel : nat -> idx -> bool) (s : R) (x : idx) t : forall ts (g : field), NoDup ts -> In t ts -> sel t x = true ->
    (forall u, In u ts -> sel u x = true -> u = t) ->
    fold_left (fun (g : field) t => fun x => if sel t x then (g x * s)%R else g x) ts g x = (g x * s)%R.
  Proof.
    induction ts as [|u ts IH]; intros g ND Hin Ht Hu; [destruct Hin|]. cbn [fold_left]. inversion ND as [|? ? N1 N2]; subst.
    destruct (sel u x) eqn:E.
    - assert (u = t) by (apply Hu; cbn; auto). subst u. rewrite scale_fold; auto.
      + rewrite E. reflexivity.
      + intros v Hv. destruct (sel v x) eqn:Ev; auto. assert (v = t) by (apply Hu; cbn; auto). subst v. contradiction.
    - destruct Hin as [->|Hin]; [congruence|]. rewrite IH; auto.
      + rewrite E. reflexivity.
      + intros; apply Hu; cbn; auto.
  Qed.

  Lemma scale_inner s d g x : In d dims -> is_inner_face dims lo hi d x ->
    scale_faces dims dd lo hi n s d g x = (g x * s)%R.
  Proof.
    intros Hd Hx. destruct (scaled_once d x Hd Hx) as (t & Ht & A & B). unfold scale_faces.
    apply (scale_fold1 (fun t x => scaled_by dims dd lo hi n t d x) s x t); auto.
    - apply seq_NoDup.
    - apply in_seq. lia.
    - intros u Hu. apply in_seq in Hu. apply B. lia.
  Qed.

  Lemma refilled s d g x : In d dims -> is_face dims lo hi d x ->
    fil d (scale_faces dims dd lo hi n s d (fil d g)) x = (fil d g x * s)%R.
  Proof.
    intros Hd Hx. destruct (HF d Hd) as [F1 F2]. pose proof (F2 x Hx) as Hi. destruct (F1 _ Hi) as [E1 E2].
    unfold fill at 1. rewrite scale_inner by auto. unfold fill. rewrite E1, E2. ring.
  Qed.

  Lemma face_of_cell d x : In d dims -> is_cell dims lo hi x -> is_face dims lo hi d x /\ is_face dims lo hi d (below d x).
  Proof.
    intros Hd [Hc Ho]. pose proof (Hc d Hd). split; (split; [|split]).
    - intros e He _. auto.
    - auto.
    - lia.
    - intros e He Hne. specialize (Hc e He). destruct d, e; cbn in *; congruence || lia.
    - intros e He. specialize (Ho e He). destruct (dim_dec e d) as [->|Hne]; [contradiction|]. destruct d, e; cbn in *; congruence || lia.
    - destruct d; cbn in *; lia.
  Qed.
  Definition Gq : field := if wg then G else fun _ => 1%R.
  Lemma local_is gc x : local_courant dims Gq gc x = cat gc x.
  Proof.
    unfold local_courant, courant_at, Gq.
    assert (E : fold_right Rplus 0%R (map (fun d => Rabs ((gc d x + gc d (below d x)) / 2)) dims)
      = (1 / 2 * fold_right (fun d a => Rabs (gc d x + gc d (prev d x)) + a) 0 dims)%R).
    { clear. induction dims as [|d l IH]; cbn [map fold_right]; [lra|]. rewrite IH, prev_below.
      unfold Rdiv at 1. rewrite Rabs_mult, (Rabs_right (/ 2)) by lra. lra. }
    rewrite E. destruct wg; [reflexivity|]. field.
  Qed.

  Lemma cat_scale gc gc' s x : (0 <= s)%R -> is_cell dims lo hi x ->
    (forall d y, In d dims -> is_face dims lo hi d y -> gc' d y = (gc d y * s)%R) -> cat gc' x = (cat gc x * s)%R.
  Proof.
    intros Hs Hx H. unfold courant_at.
    assert (E : fold_right (fun d a => Rabs (gc' d x + gc' d (prev d x)) + a)%R 0%R dims
      = (fold_right (fun d a => Rabs (gc d x + gc d (prev d x)) + a) 0 dims * s)%R).
    { assert (S : forall d, In d dims -> Rabs (gc' d x + gc' d (prev d x)) = (Rabs (gc d x + gc d (prev d x)) * s)%R).
      { intros d Hd. destruct (face_of_cell d x Hd Hx). rewrite prev_below, !H by auto.
        rewrite <- Rmult_plus_distr_r, Rabs_mult, (Rabs_right s) by lra. reflexivity. }
      revert S. clear. induction dims as [|d l IH]; cbn [fold_right]; intros S; [lra|].
      rewrite IH by (intros; apply S; cbn; auto). rewrite S by (cbn; auto). ring. }
    rewrite E. destruct wg; unfold Rdiv; ring.
  Qed.

  Lemma cat_nonneg gc x : is_cell dims lo hi x -> (0 <= cat gc x)%R.
  Proof.
    intros Hx. unfold courant_at.
    assert (0 <= fold_right (fun d a => Rabs (gc d x + gc d (prev d x)) + a)%R 0%R dims)%R.
    { clear. induction dims as [|d l IH]; cbn [fold_right]; [lra|]. pose proof (Rabs_pos (gc d x + gc d (prev d x))). lra. }
    destruct wg eqn:E; [|lra]. apply Rmult_le_pos; [lra|]. left. apply Rinv_0_lt_compat. auto.
  Qed.

  Lemma adjust_moving mc dt gc : (0 < mc)%R -> (0 < dt)%R ->
    (exists x, is_cell dims lo hi x /\ local_courant dims Gq (fun d => fil d (gc d)) x <> 0%R) ->
    let '(dt', gc') := adjust dims dd lo hi n src sg G wg mc dt gc in
    largest_courant dims lo hi Gq gc' mc /\ (0 < dt')%R /\
    forall d x, In d dims -> is_face dims lo hi d x -> (gc' d x / dt' = fil d (gc d) x / dt)%R.
  Proof.
    intros Hmc Hdt (x & Hx & Hne). unfold adjust. set (gc1 := fun d => fil d (gc d)).
    destruct (cour_max gc1) as [(y & Hy & Ey) U].
    assert (Pos : (0 < cour gc1)%R).
    { rewrite local_is in Hne. pose proof (cat_nonneg gc1 x Hx). specialize (U x Hx). fold gc1 in Hne. lra. }
    destruct (Rlt_dec 0 (cour gc1)) as [_|N]; [|lra].
    set (s := (dt * (mc / cour gc1) / dt)%R).
    assert (Hs : s = (mc / cour gc1)%R) by (unfold s; field; lra).
    assert (Sp : (0 < s)%R) by (rewrite Hs; apply Rdiv_lt_0_compat; auto).
    assert (Hsc : forall d y, In d dims -> is_face dims lo hi d y ->
       fil d (scale_faces dims dd lo hi n s d (gc1 d)) y = (gc1 d y * s)%R) by (intros; apply refilled; auto).
    split; [split|split].
    - exists y. split; auto. rewrite local_is, (cat_scale gc1 _ s y) by (auto; lra). rewrite Ey, Hs. field. lra.
    - intros z Hz. rewrite local_is, (cat_scale gc1 _ s z) by (auto; lra).
      replace mc with (cour gc1 * s)%R at 1 by (rewrite Hs; field; lra).
      apply Rmult_le_compat_r; [lra|auto].
    - apply Rmult_lt_0_compat; auto. apply Rdiv_lt_0_compat; auto.
    - intros d z Hd Hz. rewrite Hsc by auto. rewrite Hs. change (fil d (gc d) z) with (gc1 d z). field. repeat split; lra.
  Qed.

  Lemma adjust_still mc dt gc :
    (forall x, is_cell dims lo hi x -> local_courant dims Gq (fun d => fil d (gc d)) x = 0%R) ->
    let '(dt', gc') := adjust dims dd lo hi n src sg G wg mc dt gc in
    dt' = dt /\ forall d x, gc' d x = fil d (gc d) x.
  Proof.
    intros H. unfold adjust. set (gc1 := fun d => fil d (gc d)).
    destruct (cour_max gc1) as [(y & Hy & Ey) _].
    specialize (H y Hy). rewrite local_is in H. fold gc1 in H. rewrite Ey in H.
    destruct (Rlt_dec 0 (cour gc1)); [lra|]. split; auto.
  Qed.
End P.

(** *** 1D with a G factor that is ignored *)
Definition one_d : dim -> Z := fun d => match d with DX => 4 | _ => 0 end.
Definition zero_d : dim -> Z := fun _ => 0.
Definition no_sign : dim -> idx -> R := fun _ _ => 1%R.

Lemma cyclic_halo_rule dims lo hi : (forall d, In d dims -> lo d < hi d) ->
  halo_rule dims lo hi (cyclic_src lo hi) no_sign.
Proof.
  intros Hd d Hdd. split.
  - intros x (H1 & H2 & H3). split; [|reflexivity]. unfold cyclic_src. cbv zeta.
    replace (comp d x <? lo d) with false by lia. replace (hi d - 1 <? comp d x) with false by lia.
    destruct x as [[a b] c], d; reflexivity.
  - intros x (H1 & H2 & H3). unfold cyclic_src. cbv zeta. specialize (Hd d Hdd).
    assert (S : forall v e, comp e (set_comp d x v) = if dim_eqb e d then v else comp e x).
    { intros v e. destruct d, e; reflexivity. }
    split; [|split].
    + intros e He Hne. rewrite S. destruct (dim_eqb e d) eqn:E; [apply dim_eqb_spec in E; contradiction|auto].
    + intros e He. rewrite S. destruct (dim_eqb e d) eqn:E; [apply dim_eqb_spec in E; subst; contradiction|auto].
    + rewrite S. replace (dim_eqb d d) with true by (destruct d; reflexivity).
      destruct (comp d x <? lo d) eqn:A; [lia|]. destruct (hi d - 1 <? comp d x) eqn:B; lia.
Qed.

Lemma one_d_g : 
  let '(dt', gc') := adjust [DX] DX zero_d one_d 2 (cyclic_src zero_d one_d) no_sign (fun _ => 2%R) false (1 / 2) 1 (fun _ _ => (1 / 4)%R) in
  ~ largest_courant [DX] zero_d one_d (fun _ => 2%R) gc' (1 / 2).
Proof.
  assert (Hd : forall d, In d [DX] -> zero_d d < one_d d) by (intros d [<-|[]]; unfold zero_d, one_d; lia).
  assert (Ho : forall d, ~ In d [DX] -> zero_d d = 0 /\ one_d d = 0) by (intros [] H; cbn in *; tauto).
  assert (Cell : is_cell [DX] zero_d one_d (0, 0, 0)).
  { split; [intros d [<-|[]]; unfold zero_d, one_d; cbn; lia|]. intros [] H; cbn in *; tauto. }
  pose proof (adjust_moving [DX] DX zero_d one_d 2 (cyclic_src zero_d one_d) no_sign (fun _ => 2%R) false
    (or_introl eq_refl) Hd Ho ltac:(lia) ltac:(unfold zero_d, one_d; lia) ltac:(discriminate)
    (cyclic_halo_rule _ _ _ Hd) (1 / 2) 1 (fun _ _ => (1 / 4)%R) ltac:(lra) ltac:(lra)) as A.
  destruct adjust as [dt' gc']. destruct A as [(_ & U) _].
  - exists (0, 0, 0). split; [exact Cell|]. unfold local_courant, Gq, fill, no_sign. cbn [map fold_right].
    rewrite Rabs_right by lra. lra.
  - intros [(x & Hx & E) _]. specialize (U x Hx). unfold local_courant, Gq in *. cbn [map fold_right] in *.
    revert U E. generalize (Rabs ((gc' DX x + gc' DX (below DX x)) / 2)). intros. lra.
Qed.

Definition two_d : dim -> Z := fun d => match d with DX => 4 | DY => 7 | _ => 0 end.
Lemma two_d_ok : halo_rule [DX; DY] (fun _ => 0) two_d (cyclic_src (fun _ => 0) two_d) no_sign /\
  In DX [DX; DY] /\ Z.of_nat 2 <= two_d DX - 0 + 1 /\ is_cell [DX; DY] (fun _ => 0) two_d (0, 3, 0) /\
  local_courant [DX; DY] (fun _ => 1%R) (fun d _ => match d with DX => 1 | _ => -1 end)%R (0, 3, 0) = 2%R.
Proof.
  split; [|split; [|split; [|split]]].
  - apply cyclic_halo_rule. intros d [<-|[<-|[]]]; unfold two_d; lia.
  - cbn; auto.
  - discriminate.
  - split; [intros d [<-|[<-|[]]]; cbn; lia|]. intros [] H; cbn in *; tauto.
  - unfold local_courant. cbn [map fold_right]. rewrite Rabs_right, Rabs_left by lra. lra.
Qed.
