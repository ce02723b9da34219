From Coq Require Import ZArith List Bool Lia Reals Lra ZifyNat FinFun.
From Verif Require Import SpecIndex ModelIndex ProofsIndex Lang ProofsLang SpecThreads Arith ModelReduce SpecReduce.
Import ListNotations.
Local Open Scope Z_scope.

Lemma zs_in r c : In c (zs r) <-> in_rng c r.
Proof.
  unfold zs, in_rng, rlen. rewrite in_map_iff. split.
  - intros (k & <- & H). apply in_seq in H. lia.
  - intros H. exists (Z.to_nat (c - first r)). split; [lia|]. apply in_seq. lia.
Qed.

Lemma zs_nodup r : NoDup (zs r).
Proof.
  unfold zs. apply FinFun.Injective_map_NoDup; [|apply seq_NoDup]. intros a b. lia.
Qed.

Section R.
  Variables (span : rng) (rest : list (Z * Z)) (n : nat).
  Hypothesis Hn : (0 < n)%nat.
  Hypothesis Hspan : Z.of_nat n <= rlen span.

  Lemma own_cover c : in_rng c span -> exists t, (t < n)%nat /\ In c (own span n t).
  Proof.
    intros H. destruct (slab_cover span (Z.of_nat n) c) as (k & Hk & Hi); [lia|exact H|].
    exists (Z.to_nat k). split; [lia|]. unfold own. apply zs_in. rewrite Z2Nat.id by lia. exact Hi.
  Qed.
  Lemma own_inside c t : (t < n)%nat -> In c (own span n t) -> in_rng c span.
  Proof.
    unfold own. rewrite zs_in. intros Ht H. eapply slab_inside; [| | |exact H]; unfold rlen in *; lia.
  Qed.
  Lemma own_unique c t t' : (t < n)%nat -> (t' < n)%nat -> In c (own span n t) -> In c (own span n t') -> t = t'.
  Proof.
    unfold own. rewrite !zs_in. intros Ht Ht' H H'.
    pose proof (slab_disjoint span (Z.of_nat n) c (Z.of_nat t) (Z.of_nat t')) as E.
    unfold rlen in *. assert (Z.of_nat t = Z.of_nat t') by (apply E; auto; lia). lia.
  Qed.
  Lemma own_nonempty t : (t < n)%nat -> own span n t <> [].
  Proof.
    intros Ht. pose proof (slab_nonempty_iff span (Z.of_nat n) ltac:(lia) ltac:(unfold rlen in *; lia)) as [_ H].
    specialize (H ltac:(unfold rlen in *; lia) (Z.of_nat t) ltac:(lia)).
    intros E. assert (I : In (first (slab span (Z.of_nat t) (Z.of_nat n))) (own span n t)).
    { unfold own. apply zs_in. unfold in_rng. lia. }
    rewrite E in I. destruct I.
  Qed.

  (** *** Data-race freedom *)
  Definition tmp (l : rloc) : bool := match l with SumTmp _ | XtmTmp _ => true | _ => false end.
  Definition fld (l : rloc) : bool := match l with Fld _ _ => true | _ => false end.

  Lemma single_ok (s : stmt rloc) :
    (forall t t' l l', (t < n)%nat -> (t' < n)%nat -> In l (s_el s t) -> In l' (leaves (s_rhs s l)) -> In l' (s_el s t') -> False) ->
    (forall t, (t < n)%nat -> NoDup (s_el s t)) ->
    phase_ok n [s].
  Proof.
    intros H1 H2. constructor.
    - intros k j sk sj t t' l l' Ht Ht' Hk Hj Hl Hl' Hl''.
      destruct k as [|[|]]; cbn in Hk; try discriminate. destruct j as [|[|]]; cbn in Hj; try discriminate.
      injection Hk as <-. injection Hj as <-. exfalso. eapply H1; [exact Ht|exact Ht'|..]; eauto.
    - intros k j sk sj t t' l Ht Ht' Hk Hj Hl Hl' Hne.
      destruct k as [|[|]]; cbn in Hk; try discriminate. destruct j as [|[|]]; cbn in Hj; try discriminate. reflexivity.
    - intros s0 t [<-|[]] Ht. auto.
  Qed.

  Lemma sum_leaves {A} (xs : list (expr A)) e0 l : In l (leaves (fold_left (Bin Add) xs e0)) ->
    In l (leaves e0) \/ exists x, In x xs /\ In l (leaves x).
  Proof.
    revert e0. induction xs as [|x xs IH]; cbn; intros e0 H; [auto|].
    apply IH in H. cbn in H. rewrite in_app_iff in H. destruct H as [[H|H]|(y & Hy & H)]; eauto.
  Qed.
  Lemma ext_leaves {A} o (xs : list (expr A)) e0 l : In l (leaves (fold_left (Bin o) xs e0)) ->
    In l (leaves e0) \/ exists x, In x xs /\ In l (leaves x).
  Proof.
    revert e0. induction xs as [|x xs IH]; cbn; intros e0 H; [auto|].
    apply IH in H. cbn in H. rewrite in_app_iff in H. destruct H as [[H|H]|(y & Hy & H)]; eauto.
  Qed.
  Lemma kahan_leaves {A} (xs : list (expr A)) : forall s l,
    In l (leaves (fst (fold_left kahan_step xs s))) ->
    In l (leaves (fst s)) \/ In l (leaves (snd s)) \/ exists x, In x xs /\ In l (leaves x).
  Proof.
    induction xs as [|x xs IH]; cbn; intros [sm c] l H; [auto|].
    apply IH in H. cbn in H. cbn. repeat rewrite in_app_iff in H.
    destruct H as [H|[H|(y & Hy & H)]]; [| |right; right; eauto];
      repeat match goal with H : _ \/ _ |- _ => destruct H as [H|H] end; auto; right; right; exists x; auto.
  Qed.
  Lemma red_leaves {A} khn (xs : list (expr A)) l : In l (leaves (red_e khn xs)) ->
    exists x, In x xs /\ In l (leaves x).
  Proof.
    unfold red_e. destruct khn; intros H.
    - apply kahan_leaves in H. cbn in H. destruct H as [[]|[[]|H]]; auto.
    - apply sum_leaves in H. cbn in H. destruct H as [[]|H]; auto.
  Qed.
  Lemma exte_leaves {A} o (xs : list (expr A)) l : In l (leaves (ext_e o xs)) ->
    exists x, In x xs /\ In l (leaves x).
  Proof.
    unfold ext_e. destruct xs as [|x xs]; cbn; [intros []|]. intros H.
    apply ext_leaves in H. destruct H as [H|(y & Hy & H)]; eauto.
  Qed.

  Lemma slices_ok khn elt : (forall x l, In l (leaves (elt x)) -> fld l = true) ->
    phase_ok n [slices span rest n khn elt].
  Proof.
    intros He. apply single_ok; cbn [slices s_el s_rhs].
    - intros t t' l l' _ _ Hl Hl' Hl''. apply in_map_iff in Hl, Hl''.
      destruct Hl as (c & <- & _), Hl'' as (c' & <- & _). cbn in Hl'.
      apply red_leaves in Hl'. destruct Hl' as (x & Hx & Hl'). apply in_map_iff in Hx.
      destruct Hx as (k & <- & _). apply He in Hl'. discriminate.
    - intros t _. apply FinFun.Injective_map_NoDup; [intros a b E; injection E; auto|]. apply zs_nodup.
  Qed.
  Lemma collect_ok khn j : phase_ok n [collect span khn j].
  Proof.
    apply single_ok; cbn [collect s_el s_rhs].
    - intros t t' l l' _ _ Hl Hl' [E|[]]. apply red_leaves in Hl'. destruct Hl' as (x & Hx & Hl').
      apply in_map_iff in Hx. destruct Hx as (k & <- & _). cbn in Hl'. destruct Hl' as [<-|[]]. discriminate.
    - intros. repeat constructor. auto.
  Qed.
  Lemma local_ok o a : phase_ok n [local_ext span rest n o a].
  Proof.
    apply single_ok; cbn [local_ext s_el s_rhs].
    - intros t t' l l' _ _ [<-|[]] Hl' [E|[]]. apply exte_leaves in Hl'. destruct Hl' as (x & Hx & Hl').
      apply in_flat_map in Hx. destruct Hx as (k & _ & Hx). apply in_map_iff in Hx. destruct Hx as (? & <- & _).
      cbn in Hl'. destruct Hl' as [<-|[]]. discriminate.
    - intros. repeat constructor. auto.
  Qed.
  Lemma global_ok o j : phase_ok n [global_ext n o j].
  Proof.
    apply single_ok; cbn [global_ext s_el s_rhs].
    - intros t t' l l' _ _ Hl Hl' [E|[]]. apply exte_leaves in Hl'. destruct Hl' as (x & Hx & Hl').
      apply in_map_iff in Hx. destruct Hx as (k & <- & _). cbn in Hl'. destruct Hl' as [<-|[]]. discriminate.
    - intros. repeat constructor. auto.
  Qed.
  Lemma empty_ok : phase_ok (L := rloc) n [].
  Proof.
    constructor.
    - intros [|] *; discriminate.
    - intros [|] *; discriminate.
    - intros s t [].
  Qed.

  Lemma calls_ok qs : forall j, prog_ok n (calls span rest n j qs).
  Proof.
    induction qs as [|q qs IH]; intros j ph H.
    - cbn in H. destruct H as [<-|[]]. apply empty_ok.
    - cbn [calls] in H. specialize (IH (S j)). unfold prog_ok in IH.
      destruct q; cbn in H; destruct H as [<-|[<-|H]];
        auto using slices_ok, collect_ok, local_ok, global_ok.
      + apply slices_ok. cbn. intros x l [<-|[]]. reflexivity.
      + apply slices_ok. cbn. intros x l [<-|[<-|[]]]; reflexivity.
  Qed.

  (** *** Values *)
  Variable ar : arith.

  Lemma ev_sum {A} (env : A -> car ar) xs : forall e0,
    ev ar env (fold_left (Bin Add) xs e0) = fold_left (abin ar Add) (map (ev ar env) xs) (ev ar env e0).
  Proof. induction xs; cbn; intros; auto. rewrite IHxs. reflexivity. Qed.
  Lemma ev_fold {A} o (env : A -> car ar) xs : forall e0,
    ev ar env (fold_left (Bin o) xs e0) = fold_left (abin ar o) (map (ev ar env) xs) (ev ar env e0).
  Proof. induction xs; cbn; intros; auto. rewrite IHxs. reflexivity. Qed.
  Lemma ev_kahan {A} (env : A -> car ar) xs : forall s,
    ev ar env (fst (fold_left kahan_step xs s)) = compensated ar (ev ar env (fst s)) (ev ar env (snd s)) (map (ev ar env) xs).
  Proof. induction xs as [|x xs IH]; cbn; intros [sm c]; auto. rewrite IH. reflexivity. Qed.
  Lemma ev_red {A} khn (env : A -> car ar) xs :
    ev ar env (red_e khn xs) = reduce ar khn (map (ev ar env) xs).
  Proof.
    unfold red_e, reduce. destruct khn.
    - unfold kahan_e. rewrite ev_kahan. reflexivity.
    - unfold sum_e. rewrite ev_sum. reflexivity.
  Qed.

  Lemma domb_spec (s : stmt rloc) l : domb rloc_dec n s l = true <-> exists t, (t < n)%nat /\ In l (s_el s t).
  Proof.
    unfold domb. rewrite existsb_exists. split.
    - intros (t & Ht & H). apply in_seq in Ht. destruct (in_dec rloc_dec l (s_el s t)); [|discriminate].
      exists t. split; [lia|auto].
    - intros (t & Ht & H). exists t. split; [apply in_seq; lia|].
      destruct (in_dec rloc_dec l (s_el s t)); auto.
  Qed.
  Lemma run_in s m l t : (t < n)%nat -> In l (s_el s t) -> run_stmt rloc_dec ar n s m l = ev ar m (s_rhs s l).
  Proof.
    intros Ht H. unfold run_stmt. destruct (domb rloc_dec n s l) eqn:E; auto.
    assert (domb rloc_dec n s l = true) by (apply domb_spec; eauto). congruence.
  Qed.
  Lemma run_out s m l : (forall t, (t < n)%nat -> ~ In l (s_el s t)) -> run_stmt rloc_dec ar n s m l = m l.
  Proof.
    intros H. unfold run_stmt. destruct (domb rloc_dec n s l) eqn:E; auto.
    apply domb_spec in E. destruct E as (t & Ht & E). destruct (H t Ht E).
  Qed.

  Notation run p m := (run_prog rloc_dec ar n p m).
  Notation P := (calls span rest n).

  (** what the [j]-th call must return *)
  Definition expected (q : request) (m : rloc -> car ar) : car ar :=
    match q with
    | Sum khn a => two_step ar khn (zs span) rest (fun x => m (Fld a x))
    | SumProd khn a b => two_step ar khn (zs span) rest (fun x => abin ar Mul (m (Fld a x)) (m (Fld b x)))
    | MinOf a => ev ar m (ext_e Lang.Min (map (fun t => ext_e Lang.Min (flat_map (fun c => map (fun k => Leaf (Fld a (c, k))) rest) (own span n t))) (seq 0 n)))
    | MaxOf a => ev ar m (ext_e Lang.Max (map (fun t => ext_e Lang.Max (flat_map (fun c => map (fun k => Leaf (Fld a (c, k))) rest) (own span n t))) (seq 0 n)))
    end.

  Lemma collect_val khn j elt t m : (t < n)%nat ->
    let m' := run_stmt rloc_dec ar n (collect span khn j) (run_stmt rloc_dec ar n (slices span rest n khn elt) m) in
    m' (Res j t) = reduce ar khn (map (fun c => reduce ar khn (map (fun k => ev ar m (elt (c, k))) rest)) (zs span)).
  Proof.
    intros Ht. cbv zeta. rewrite (run_in _ _ _ t Ht) by (cbn; auto). cbn [collect s_rhs].
    rewrite ev_red. f_equal. rewrite map_map. apply map_ext_in. intros c Hc. apply zs_in in Hc.
    destruct (own_cover c Hc) as (u & Hu & Hi). cbn [ev].
    rewrite (run_in _ _ _ u Hu) by (cbn; apply in_map; auto). cbn [slices s_rhs].
    rewrite ev_red, map_map. reflexivity.
  Qed.

  Lemma ext_val o j a t m : (t < n)%nat ->
    let m' := run_stmt rloc_dec ar n (global_ext n o j) (run_stmt rloc_dec ar n (local_ext span rest n o a) m) in
    m' (Res j t) = ev ar m (ext_e o (map (fun t => ext_e o (flat_map (fun c => map (fun k => Leaf (Fld a (c, k))) rest) (own span n t))) (seq 0 n))).
  Proof.
    intros Ht. cbv zeta. rewrite (run_in _ _ _ t Ht) by (cbn; auto). cbn [global_ext s_rhs].
    assert (E : forall l, (forall x, In x l -> (x < n)%nat) ->
      map (ev ar (run_stmt rloc_dec ar n (local_ext span rest n o a) m)) (map (fun t => Leaf (XtmTmp t)) l)
      = map (ev ar m) (map (fun t => ext_e o (flat_map (fun c => map (fun k => Leaf (Fld a (c, k))) rest) (own span n t))) l)).
    { induction l as [|x l IH]; intros Hl; cbn [map]; [reflexivity|]. rewrite IH by (intros; apply Hl; cbn; auto).
      f_equal. cbn [ev]. rewrite (run_in _ _ _ x) by first [apply Hl; cbn; auto; fail | cbn; auto; fail]. reflexivity. }
    specialize (E (seq 0 n)). assert (Hs : forall x, In x (seq 0 n) -> (x < n)%nat) by (intros x Hx; apply in_seq in Hx; lia).
    specialize (E Hs).
    destruct (seq 0 n) as [|x l]; [reflexivity|]. cbn [map ext_e] in *. rewrite !ev_fold.
    injection E as E1 E2. rewrite E2. f_equal. exact E1.
  Qed.

  (** results of other calls and the fields survive a call *)
  Lemma call_frame j q m l : (match l with Fld _ _ => True | Res i _ => i <> j | _ => False end) ->
    run (call span rest n j q) m l = m l.
  Proof.
    intros H. destruct q; cbn [call run_prog fold_left run_instr];
      rewrite !run_out; auto; intros t Ht Hi; cbn in Hi;
      try (apply in_map_iff in Hi; destruct Hi as (? & <- & _)); try destruct Hi as [<-|[]]; auto.
  Qed.
  Lemma call_val j q m t : (t < n)%nat -> run (call span rest n j q) m (Res j t) = expected q m.
  Proof.
    intros Ht. destruct q; cbn [call run_prog fold_left run_instr expected]; rewrite ?collect_val, ?ext_val by auto; reflexivity.
  Qed.
  Lemma run_app p q m : run (p ++ q) m = run q (run p m).
  Proof. unfold run_prog. apply fold_left_app. Qed.
  Lemma calls_frame qs : forall j m l, (match l with Fld _ _ => True | Res i _ => (i < j)%nat | _ => False end) ->
    run (P j qs) m l = m l.
  Proof.
    induction qs as [|q qs IH]; intros j m l H; [reflexivity|]. cbn [calls]. rewrite run_app, IH.
    - apply call_frame. destruct l; auto. lia.
    - destruct l; auto.
  Qed.
  Lemma expected_ext q m m' : (forall a x, m (Fld a x) = m' (Fld a x)) -> expected q m = expected q m'.
  Proof.
    intros H. destruct q; cbn [expected]; unfold two_step.
    - f_equal. apply map_ext. intros. f_equal. apply map_ext. auto.
    - f_equal. apply map_ext. intros. f_equal. apply map_ext. intros. rewrite !H. reflexivity.
    - apply ev_ext. intros l Hl. apply exte_leaves in Hl. destruct Hl as (x & Hx & Hl).
      apply in_map_iff in Hx. destruct Hx as (u & <- & _). apply exte_leaves in Hl. destruct Hl as (y & Hy & Hl).
      apply in_flat_map in Hy. destruct Hy as (c & _ & Hy). apply in_map_iff in Hy. destruct Hy as (k & <- & _).
      cbn in Hl. destruct Hl as [<-|[]]. auto.
    - apply ev_ext. intros l Hl. apply exte_leaves in Hl. destruct Hl as (x & Hx & Hl).
      apply in_map_iff in Hx. destruct Hx as (u & <- & _). apply exte_leaves in Hl. destruct Hl as (y & Hy & Hl).
      apply in_flat_map in Hy. destruct Hy as (c & _ & Hy). apply in_map_iff in Hy. destruct Hy as (k & <- & _).
      cbn in Hl. destruct Hl as [<-|[]]. auto.
  Qed.
  Lemma calls_val qs : forall j0 m i q t, (t < n)%nat -> nth_error qs i = Some q ->
    run (P j0 qs) m (Res (j0 + i) t) = expected q m.
  Proof.
    induction qs as [|q0 qs IH]; intros j0 m i q t Ht H; [destruct i; discriminate|].
    cbn [calls]. rewrite run_app. destruct i as [|i]; cbn in H.
    - injection H as ->. rewrite Nat.add_0_r, calls_frame by lia. apply call_val; auto.
    - replace (j0 + S i)%nat with (S j0 + i)%nat by lia. rewrite (IH _ _ _ q) by auto.
      apply expected_ext. intros. apply call_frame. exact I.
  Qed.

  Lemma calls_end qs m m' i q t : can_end rloc_dec ar n (P 0 qs) m m' ->
    nth_error qs i = Some q -> (t < n)%nat -> m' (Res i t) = expected q m.
  Proof.
    intros (c & St & F) H Ht. rewrite (interleaving_deterministic _ _ _ _ _ _ _ Hn (calls_ok qs 0) St F).
    apply (calls_val qs 0%nat); auto.
  Qed.

  Lemma calls_finish qs m : (exists m', can_end rloc_dec ar n (P 0 qs) m m') /\ never_stuck rloc_dec ar n (P 0 qs) m.
  Proof.
    split.
    - destruct (interleaving_completes rloc_dec ar n (P 0 qs) m Hn (calls_ok qs 0)) as ([m' c] & St & F).
      exists m', c. auto.
    - intros c St. eapply interleaving_progress; eauto. apply calls_ok.
  Qed.
End R.

(** *** Extrema over the reals *)
Section Ext.
  Variables (eps tiny : R).
  Notation AR := (arithR eps tiny).
  Local Open Scope R_scope.

  Lemma fold_max (xs : list R) : forall x0 : R,
    let v := fold_left Rmax xs x0 in
    (v = x0 \/ In v xs) /\ x0 <= v /\ forall x, In x xs -> x <= v.
  Proof.
    induction xs as [|x xs IH]; cbn; intros x0.
    - repeat split; [auto|lra|intros _ []].
    - destruct (IH (Rmax x0 x)) as (A & B & C). pose proof (Rmax_l x0 x). pose proof (Rmax_r x0 x).
      repeat split.
      + destruct A as [A|A]; auto. cbv zeta in A. rewrite A. assert (E : Rmax x0 x = x0 \/ Rmax x0 x = x) by (unfold Rmax; destruct (Rle_dec x0 x); auto). destruct E as [->| ->]; auto.
      + lra.
      + intros y [<-|Hy]; [lra|auto].
  Qed.
  Lemma fold_min (xs : list R) : forall x0 : R,
    let v := fold_left Rmin xs x0 in
    (v = x0 \/ In v xs) /\ v <= x0 /\ forall x, In x xs -> v <= x.
  Proof.
    induction xs as [|x xs IH]; cbn; intros x0.
    - repeat split; [auto|lra|intros _ []].
    - destruct (IH (Rmin x0 x)) as (A & B & C). pose proof (Rmin_l x0 x). pose proof (Rmin_r x0 x).
      repeat split.
      + destruct A as [A|A]; auto. cbv zeta in A. rewrite A. assert (E : Rmin x0 x = x0 \/ Rmin x0 x = x) by (unfold Rmin; destruct (Rle_dec x0 x); auto). destruct E as [->| ->]; auto.
      + lra.
      + intros y [<-|Hy]; [lra|auto].
  Qed.

  Lemma ext_max {A} (env : A -> R) (xs : list (expr A)) : xs <> [] ->
    let v := ev AR env (ext_e Lang.Max xs) in
    (exists x, In x xs /\ v = ev AR env x) /\ forall x, In x xs -> ev AR env x <= v.
  Proof.
    destruct xs as [|x0 xs]; [congruence|]. intros _. cbn [ext_e]. cbv zeta. rewrite ev_fold.
    change (abin AR Lang.Max) with Rmax.
    destruct (fold_max (map (ev AR env) xs) (ev AR env x0)) as (A1 & B & C). split.
    - destruct A1 as [A1|A1]; [exists x0; cbn; auto|]. apply in_map_iff in A1. destruct A1 as (x & E & Hx).
      exists x. cbn. split; auto.
    - intros x [<-|Hx]; auto. apply C. apply in_map. auto.
  Qed.
  Lemma ext_min {A} (env : A -> R) (xs : list (expr A)) : xs <> [] ->
    let v := ev AR env (ext_e Lang.Min xs) in
    (exists x, In x xs /\ v = ev AR env x) /\ forall x, In x xs -> v <= ev AR env x.
  Proof.
    destruct xs as [|x0 xs]; [congruence|]. intros _. cbn [ext_e]. cbv zeta. rewrite ev_fold.
    change (abin AR Lang.Min) with Rmin.
    destruct (fold_min (map (ev AR env) xs) (ev AR env x0)) as (A1 & B & C). split.
    - destruct A1 as [A1|A1]; [exists x0; cbn; auto|]. apply in_map_iff in A1. destruct A1 as (x & E & Hx).
      exists x. cbn. split; auto.
    - intros x [<-|Hx]; auto. apply C. apply in_map. auto.
  Qed.

  Variables (span : rng) (rest : list (Z * Z)) (n : nat).
  Hypothesis Hn : (0 < n)%nat.
  Hypothesis Hspan : (Z.of_nat n <= rlen span)%Z.
  Hypothesis Hrest : rest <> [].
  Definition in_dom (x : gcell) : Prop := in_rng (fst x) span /\ In (snd x) rest.

  Lemma section_nonempty a t : (t < n)%nat -> 
    flat_map (fun c => map (fun k => Leaf (Fld a (c, k))) rest) (own span n t) <> [].
  Proof.
    intros Ht. pose proof (own_nonempty span n Hn Hspan t Ht). destruct (own span n t); [congruence|].
    cbn. destruct rest; cbn; congruence.
  Qed.

  Lemma expected_max a (m : rloc -> R) :
    is_max (expected span rest n AR (MaxOf a) m) in_dom (fun x => m (Fld a x)).
  Proof.
    cbn [expected]. 
    pose proof (ext_max m (map (fun t => ext_e Lang.Max (flat_map (fun c => map (fun k => Leaf (Fld a (c, k))) rest) (own span n t))) (seq 0 n))) as M.
    cbv zeta in M. destruct M as ((x & Hx & E) & U).
    { destruct n; [lia|]. discriminate. }
    split.
    - apply in_map_iff in Hx. destruct Hx as (t & <- & Ht). apply in_seq in Ht.
      destruct (ext_max m _ (section_nonempty a t ltac:(lia))) as ((y & Hy & E') & _).
      apply in_flat_map in Hy. destruct Hy as (c & Hc & Hy). apply in_map_iff in Hy. destruct Hy as (k & <- & Hk).
      exists (c, k). split.
      + split; cbn; auto. eapply own_inside; [exact Hn|exact Hspan| |exact Hc]. lia.
      + etransitivity; [exact E|]. etransitivity; [exact E'|reflexivity].
    - intros [c k] [Hc Hk]. cbn in Hc, Hk. destruct (own_cover span n Hn c Hc) as (t & Ht & Ho).
      destruct (ext_max m _ (section_nonempty a t Ht)) as (_ & U').
      specialize (U' (Leaf (Fld a (c, k)))). specialize (U (ext_e Lang.Max (flat_map (fun c => map (fun k => Leaf (Fld a (c, k))) rest) (own span n t)))).
      cbn [ev] in U'. eapply Rle_trans; [apply U'|apply U].
      + apply in_flat_map. exists c. split; auto. apply in_map_iff. eauto.
      + apply in_map_iff. exists t. split; auto. apply in_seq. lia.
  Qed.
  Lemma expected_min a (m : rloc -> R) :
    is_min (expected span rest n AR (MinOf a) m) in_dom (fun x => m (Fld a x)).
  Proof.
    cbn [expected]. 
    pose proof (ext_min m (map (fun t => ext_e Lang.Min (flat_map (fun c => map (fun k => Leaf (Fld a (c, k))) rest) (own span n t))) (seq 0 n))) as M.
    cbv zeta in M. destruct M as ((x & Hx & E) & U).
    { destruct n; [lia|]. discriminate. }
    split.
    - apply in_map_iff in Hx. destruct Hx as (t & <- & Ht). apply in_seq in Ht.
      destruct (ext_min m _ (section_nonempty a t ltac:(lia))) as ((y & Hy & E') & _).
      apply in_flat_map in Hy. destruct Hy as (c & Hc & Hy). apply in_map_iff in Hy. destruct Hy as (k & <- & Hk).
      exists (c, k). split.
      + split; cbn; auto. eapply own_inside; [exact Hn|exact Hspan| |exact Hc]. lia.
      + etransitivity; [exact E|]. etransitivity; [exact E'|reflexivity].
    - intros [c k] [Hc Hk]. cbn in Hc, Hk. destruct (own_cover span n Hn c Hc) as (t & Ht & Ho).
      destruct (ext_min m _ (section_nonempty a t Ht)) as (_ & U').
      specialize (U' (Leaf (Fld a (c, k)))). specialize (U (ext_e Lang.Min (flat_map (fun c => map (fun k => Leaf (Fld a (c, k))) rest) (own span n t)))).
      cbn [ev] in U'. eapply Rle_trans; [apply U|apply U'].
      + apply in_map_iff. exists t. split; auto. apply in_seq. lia.
      + apply in_flat_map. exists c. split; auto. apply in_map_iff. eauto.
  Qed.

  (** exact arithmetic: both kinds of summation give the exact total *)
  Lemma plain_exact (xs : list R) : forall s : R, fold_left (abin AR Add) xs s = s + exact_sum xs.
  Proof.
    change (abin AR Add) with Rplus. change (car AR) with R. unfold exact_sum.
    induction xs; cbn [fold_left fold_right]; intros; [lra|]. rewrite IHxs. lra.
  Qed.
  Lemma comp_exact xs : forall s : R, compensated AR s 0 xs = s + exact_sum xs.
  Proof.
    induction xs as [|x xs IH]; intros s; cbn [compensated exact_sum fold_right]; [lra|].
    match goal with |- compensated _ ?a ?b _ = _ => replace b with 0 by (cbn; lra) end.
    rewrite IH. cbn. unfold exact_sum. lra.
  Qed.
  Lemma reduce_exact khn xs : reduce AR khn xs = exact_sum xs.
  Proof.
    unfold reduce. destruct khn.
    - replace (acst AR (CQ 0 1)) with 0 by (cbn; lra). rewrite comp_exact. lra.
    - unfold plain_sum. rewrite plain_exact. cbn. lra.
  Qed.
  Lemma exact_app a b : exact_sum (a ++ b) = exact_sum a + exact_sum b.
  Proof. unfold exact_sum. induction a; cbn; [lra|]. rewrite IHa. lra. Qed.
  Lemma two_step_exact khn cs f :
    two_step AR khn cs rest f = exact_sum (flat_map (fun c => map (fun k => f (c, k)) rest) cs).
  Proof.
    unfold two_step. rewrite reduce_exact. induction cs as [|c cs IH]; cbn [map flat_map]; [reflexivity|].
    rewrite exact_app, <- IH, reduce_exact. reflexivity.
  Qed.
End Ext.

(** ** Statements used by the property file *)
Lemma sums_correct ar lo hi rest n qs m m' i t : (0 < n)%nat -> Z.of_nat n <= hi - lo + 1 ->
  can_end rloc_dec ar n (calls (lo, hi) rest n 0 qs) m m' -> (t < n)%nat ->
  (forall khn a, nth_error qs i = Some (Sum khn a) ->
     m' (Res i t) = two_step ar khn (indices lo hi) rest (fun x => m (Fld a x))) /\
  (forall khn a b, nth_error qs i = Some (SumProd khn a b) ->
     m' (Res i t) = two_step ar khn (indices lo hi) rest (fun x => abin ar Mul (m (Fld a x)) (m (Fld b x)))).
Proof.
  intros Hn Hs E Ht. split; intros; erewrite (calls_end (lo, hi) rest n Hn ar); eauto; reflexivity.
Qed.

Lemma extrema_correct eps tiny lo hi rest n qs m m' i t : (0 < n)%nat -> Z.of_nat n <= hi - lo + 1 -> rest <> [] ->
  can_end rloc_dec (arithR eps tiny) n (calls (lo, hi) rest n 0 qs) m m' -> (t < n)%nat ->
  (forall a, nth_error qs i = Some (MinOf a) -> is_min (m' (Res i t)) (in_cells lo hi rest) (fun x => m (Fld a x))) /\
  (forall a, nth_error qs i = Some (MaxOf a) -> is_max (m' (Res i t)) (in_cells lo hi rest) (fun x => m (Fld a x))).
Proof.
  intros Hn Hs Hr E Ht. split; intros a H; rewrite (calls_end (lo, hi) rest n Hn (arithR eps tiny) _ _ _ _ _ _ E H Ht).
  - apply (expected_min eps tiny (lo, hi) rest n Hn); auto.
  - apply (expected_max eps tiny (lo, hi) rest n Hn); auto.
Qed.

Lemma sums_agree ar lo hi rest n1 n2 qs m m1 m2 i t1 t2 : (0 < n1)%nat -> (0 < n2)%nat ->
  Z.of_nat n1 <= hi - lo + 1 -> Z.of_nat n2 <= hi - lo + 1 ->
  can_end rloc_dec ar n1 (calls (lo, hi) rest n1 0 qs) m m1 ->
  can_end rloc_dec ar n2 (calls (lo, hi) rest n2 0 qs) m m2 -> (t1 < n1)%nat -> (t2 < n2)%nat ->
  (forall khn a, nth_error qs i = Some (Sum khn a) -> m1 (Res i t1) = m2 (Res i t2)) /\
  (forall khn a b, nth_error qs i = Some (SumProd khn a b) -> m1 (Res i t1) = m2 (Res i t2)).
Proof.
  intros H1 H2 L1 L2 E1 E2 T1 T2.
  destruct (sums_correct ar lo hi rest n1 qs m m1 i t1 H1 L1 E1 T1) as [A1 B1].
  destruct (sums_correct ar lo hi rest n2 qs m m2 i t2 H2 L2 E2 T2) as [A2 B2].
  split; intros khn a; [intros Q|intros b Q].
  - rewrite (A1 _ _ Q), (A2 _ _ Q). reflexivity.
  - rewrite (B1 _ _ _ Q), (B2 _ _ _ Q). reflexivity.
Qed.

Lemma reductions_finish ar lo hi rest n qs m : (0 < n)%nat -> Z.of_nat n <= hi - lo + 1 ->
  (exists m', can_end rloc_dec ar n (calls (lo, hi) rest n 0 qs) m m') /\
  never_stuck rloc_dec ar n (calls (lo, hi) rest n 0 qs) m.
Proof. intros Hn _. apply calls_finish; auto. Qed.

Lemma reductions_race_free lo hi rest n qs : (0 < n)%nat -> Z.of_nat n <= hi - lo + 1 ->
  forall ph, In ph (phases (calls (lo, hi) rest n 0 qs)) -> ~ race n ph.
Proof.
  intros Hn Hs ph Hp (k & j & sk & sj & t & t' & l & Ht & Ht' & Hne & Hk & Hj & Hl & Hr).
  revert Hp. generalize 0%nat. induction qs as [|q qs IH]; intros j0 Hp.
  - cbn in Hp. destruct Hp as [<-|[]]. destruct k; discriminate.
  - cbn [calls] in Hp. 
    assert (Single : forall s, ph = [s] -> sk = s /\ sj = s).
    { intros s ->. destruct k as [|[|]]; cbn in Hk; try discriminate. destruct j as [|[|]]; cbn in Hj; try discriminate.
      injection Hk as <-. injection Hj as <-. auto. }
    assert (F : forall s, ph = [s] -> phase_ok n [s] ->
       (forall u u' x, (u < n)%nat -> (u' < n)%nat -> In x (s_el s u) -> In x (s_el s u') -> u = u') -> False).
    { intros s Es Ok Un. destruct (Single s Es) as [-> ->].
      destruct Hr as [Hr|(l2 & Hl2 & Hr)].
      - apply Hne. eapply Un; eauto.
      - destruct (ok_reads _ _ Ok 0 0 s s t' t l2 l Ht' Ht eq_refl eq_refl Hl2 Hr Hl) as [[E _]|[E _]]; [congruence|lia]. }
    destruct q; cbn in Hp; destruct Hp as [<-|[<-|Hp]]; try (eapply IH; exact Hp).
    all: eapply F; [reflexivity| |].
    all: try (apply collect_ok || apply global_ok || apply local_ok || apply slices_ok).
    all: cbn [slices collect local_ext global_ext s_el].
    all: try (intros u u' x _ _ [<-|[]] [E|[]]; injection E; auto; fail).
    all: try (intros x y; cbn; intros Hy; repeat destruct Hy as [<-|Hy]; try reflexivity; destruct Hy; fail).
    all: intros u u' x Hu Hu' A B; apply in_map_iff in A, B; destruct A as (c & <- & A), B as (c' & E & B);
      injection E as ->; eapply own_unique; [exact Hn| |exact Hu|exact Hu'|exact A|exact B]; unfold rlen; cbn; lia.
Qed.

(** *** Example data *)
Definition ex_span : rng := (0, 4).
Definition ex_rest : list (Z * Z) := [(0, 0); (1, 0); (2, 0)].
Definition ex_calls : list request := [Sum true 0; MaxOf 1; SumProd false 0 1; MinOf 0].
Lemma ex_expected : 
  two_step (arithR 0 0) false (indices 0 4) ex_rest (fun x => IZR (fst x)) = 30%R.
Proof. rewrite two_step_exact. change (indices 0 4) with [0; 1; 2; 3; 4]. unfold exact_sum. cbn. lra. Qed.
