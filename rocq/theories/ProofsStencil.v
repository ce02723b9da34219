(** Correctness of the static checks on stencil programs and equality of the
    threaded and the one-thread execution. *)

From Coq Require Import ZArith List Bool Lia ZifyBool FinFun.
From Verif Require Import ModelIndex Lang ProofsLang Stencil.
Import ListNotations.
Local Open Scope Z_scope.

(** ** Boolean equalities *)
Lemma dim_eqb_eq a b : dim_eqb a b = true <-> a = b.
Proof. destruct a, b; cbn; split; congruence. Qed.
Lemma dim_eqb_refl a : dim_eqb a a = true.
Proof. destruct a; auto. Qed.

Lemma arr_eqb_eq a b : arr_eqb a b = true <-> a = b.
Proof.
  destruct a, b; cbn; rewrite ?andb_true_iff, ?dim_eqb_eq, ?eqb_true_iff, ?Z.eqb_eq;
    split; intros; try congruence; try (destruct H; congruence);
    inversion H; auto.
Qed.

Lemma garr_eqb_eq a b : garr_eqb a b = true <-> a = b.
Proof.
  destruct a as [n a], b as [m b]. unfold garr_eqb. cbn.
  rewrite andb_true_iff, Nat.eqb_eq, arr_eqb_eq. split; [intros [? ?]|intros E; inversion E]; subst; auto.
Qed.

Lemma idx_ext (a b : idx) : (forall d, comp d a = comp d b) -> a = b.
Proof.
  destruct a as [[a1 a2] a3], b as [[b1 b2] b3]. intros H.
  pose proof (H DX). pose proof (H DY). pose proof (H DZ). cbn in *. congruence.
Qed.

Lemma idx_eqb_eq a b : idx_eqb a b = true <-> a = b.
Proof.
  unfold idx_eqb. rewrite !andb_true_iff, !Z.eqb_eq. split.
  - intros [[? ?] ?]. apply idx_ext. intros []; auto.
  - intros ->; auto.
Qed.

Lemma comp_iadd d a b : comp d (iadd a b) = comp d a + comp d b.
Proof. destruct d; reflexivity. Qed.

Lemma iadd_0_r a : iadd a izero = a.
Proof. apply idx_ext. intros d. rewrite comp_iadd. destruct d; cbn; lia. Qed.
Lemma iadd_assoc a b c : iadd a (iadd b c) = iadd (iadd a b) c.
Proof. apply idx_ext. intros d. rewrite !comp_iadd. lia. Qed.
Lemma iadd_comm a b : iadd a b = iadd b a.
Proof. apply idx_ext. intros d. rewrite !comp_iadd. lia. Qed.

(** ** Enumerations *)
Lemma in_zseq x r : In x (zseq r) <-> in_rng x r.
Proof.
  unfold zseq, in_rng. rewrite in_map_iff. split.
  - intros (k & E & H). apply in_seq in H. lia.
  - intros H. exists (Z.to_nat (x - first r)). split; [lia|]. apply in_seq. lia.
Qed.

Lemma nodup_zseq r : NoDup (zseq r).
Proof.
  unfold zseq. apply FinFun.Injective_map_NoDup; [|apply seq_NoDup].
  intros a b H. lia.
Qed.

Lemma nodup_list_prod {A B} (la : list A) (lb : list B) :
  NoDup la -> NoDup lb -> NoDup (list_prod la lb).
Proof.
  induction 1 as [|a la Ha Hla IH]; cbn; intros Hb; [constructor|].
  apply nodup_app; auto.
  - apply FinFun.Injective_map_NoDup; auto. intros x y E. congruence.
  - intros [x y] H1 H2. apply in_map_iff in H1. destruct H1 as (z & E & _).
    inversion E; subst. apply in_prod_iff in H2. tauto.
Qed.

Lemma in_box_list i rx ry rz :
  In i (box_list rx ry rz) <-> in_rng (comp DX i) rx /\ in_rng (comp DY i) ry /\ in_rng (comp DZ i) rz.
Proof.
  destruct i as [[x y] z]. unfold box_list, idx. rewrite !in_prod_iff, !in_zseq. cbn. tauto.
Qed.

Lemma nodup_box_list rx ry rz : NoDup (box_list rx ry rz).
Proof. repeat apply nodup_list_prod; apply nodup_zseq. Qed.

Lemma in_el g s t l :
  In l (s_el (stmt_of g s) t) <->
  fst l = d_arr s /\ forall d, in_rng (comp d (snd l)) (drng g s t d).
Proof.
  destruct l as [a i]. cbn [stmt_of s_el fst snd]. rewrite in_map_iff. split.
  - intros (j & E & H). inversion E; subst. split; auto.
    apply in_box_list in H. intros []; tauto.
  - intros [-> H]. exists i. split; auto. apply in_box_list. auto.
Qed.

Lemma nodup_el g s t : NoDup (s_el (stmt_of g s) t).
Proof.
  cbn. apply FinFun.Injective_map_NoDup; [|apply nodup_box_list]. intros x y E; congruence.
Qed.

(** ** Slabs are ordered *)
Section Cut.
  Variable c : cut.
  Hypothesis OK : cut_ok c.

  Lemma cut_order t t' : (t < t')%nat -> (t' < c_n c)%nat -> last (c_sub c t) < first (c_sub c t').
  Proof.
    intros H Ht'. induction t' as [|t' IH]; [lia|].
    pose proof (cut_next c OK t' Ht') as N.
    destruct (Nat.eq_dec t t') as [->|NE]; [lia|].
    assert (Ht : (t' < c_n c)%nat) by lia. specialize (IH ltac:(lia) Ht).
    pose proof (cut_nonempty c OK t' Ht). lia.
  Qed.

  Lemma cut_lo t : (t < c_n c)%nat -> c_lo c <= first (c_sub c t).
  Proof.
    intros Ht. unfold c_lo. destruct t as [|t]; [lia|].
    pose proof (cut_order 0 (S t) ltac:(lia) Ht). pose proof (cut_nonempty c OK 0 ltac:(lia)). lia.
  Qed.

  Lemma cut_lo_S t : (0 < t < c_n c)%nat -> c_lo c + 1 <= first (c_sub c t).
  Proof.
    intros Ht. unfold c_lo.
    pose proof (cut_order 0 t ltac:(lia) ltac:(lia)). pose proof (cut_nonempty c OK 0 ltac:(lia)). lia.
  Qed.

  Lemma cut_hi t : (t < c_n c)%nat -> last (c_sub c t) <= c_hi c.
  Proof.
    intros Ht. unfold c_hi. destruct (Nat.eq_dec t (c_n c - 1)) as [->|NE]; [lia|].
    pose proof (cut_order t (c_n c - 1) ltac:(lia) ltac:(lia)).
    pose proof (cut_nonempty c OK (c_n c - 1) ltac:(lia)). lia.
  Qed.

  Lemma cut_hi_S t : (t < c_n c - 1)%nat -> last (c_sub c t) + 1 <= c_hi c.
  Proof.
    intros Ht. unfold c_hi.
    pose proof (cut_order t (c_n c - 1) ltac:(lia) ltac:(lia)).
    pose proof (cut_nonempty c OK (c_n c - 1) ltac:(lia)). lia.
  Qed.

  Lemma cut_lo_hi : c_lo c <= c_hi c.
  Proof.
    pose proof (cut_pos c OK). pose proof (cut_lo 0 ltac:(lia)).
    pose proof (cut_hi 0 ltac:(lia)). pose proof (cut_nonempty c OK 0 ltac:(lia)). lia.
  Qed.

  Lemma apart_sound r1 o r2 t t' x :
    apart r1 o r2 = true -> (t < c_n c)%nat -> (t' < c_n c)%nat ->
    in_rng x (trng c r1 t) -> in_rng (x + o) (trng c r2 t') -> t = t'.
  Proof.
    intros A Ht Ht' H1 H2. unfold in_rng in *.
    destruct r1 as [f1 a1 b1 l1|a1 b1|a1 b1], r2 as [f2 a2 b2 l2|a2 b2|a2 b2]; cbn in A; try discriminate;
      cbn in H1, H2.
    - destruct (Nat.lt_trichotomy t t') as [L|[E|L]]; auto; exfalso.
      + pose proof (cut_order _ _ L Ht').
        destruct (Nat.eqb_spec t (c_n c - 1)); [lia|]. destruct (Nat.eqb_spec t' 0); [lia|].
        apply andb_true_iff in A. lia.
      + pose proof (cut_order _ _ L Ht).
        destruct (Nat.eqb_spec t' (c_n c - 1)); [lia|]. destruct (Nat.eqb_spec t 0); [lia|].
        apply andb_true_iff in A. lia.
    - destruct (Nat.eqb_spec t 0), (Nat.eqb_spec t' 0); cbn in *; lia.
    - destruct (Nat.eqb_spec t (c_n c - 1)), (Nat.eqb_spec t' (c_n c - 1)); cbn in *; lia.
  Qed.

  Lemma contained_sound r1 o r2 t x :
    contained true r1 o r2 = true -> (t < c_n c)%nat ->
    in_rng x (trng c r1 t) -> in_rng (x + o) (trng c r2 t).
  Proof.
    intros A Ht H1. unfold in_rng in *.
    destruct r1 as [f1 a1 b1 l1|a1 b1|a1 b1], r2 as [f2 a2 b2 l2|a2 b2|a2 b2]; cbn in A; try discriminate;
      cbn in *.
    rewrite !andb_true_iff in A. destruct (Nat.eqb_spec t 0), (Nat.eqb_spec t (c_n c - 1)); lia.
  Qed.

  (** union of the threads' ranges *)
  Definition grng (lo hi : Z) (r : rdesc) : rng :=
    match r with
    | Slab eF _ _ eL => (lo - eF, hi + eL)
    | AtFirst a b => (lo + a, lo + b)
    | AtLast a b => (hi + a, hi + b)
    end.

  Lemma trng_union r x : slab_okb true r = true ->
    (exists t, (t < c_n c)%nat /\ in_rng x (trng c r t)) <-> in_rng x (grng (c_lo c) (c_hi c) r).
  Proof.
    intros Hs. unfold in_rng. pose proof (cut_pos c OK) as Hn.
    destruct r as [f a b l|a b|a b]; cbn in Hs; cbn [trng grng].
    - split.
      + intros (t & Ht & H). cbn in *.
        pose proof (cut_lo t Ht). pose proof (cut_hi t Ht).
        destruct (Nat.eqb_spec t 0), (Nat.eqb_spec t (c_n c - 1)); subst.
        * lia.
        * pose proof (cut_hi_S 0 ltac:(lia)). lia.
        * pose proof (cut_lo_S (c_n c - 1) ltac:(lia)). lia.
        * pose proof (cut_lo_S t ltac:(lia)). pose proof (cut_hi_S t ltac:(lia)). lia.
      + cbn. intros H.
        set (lower := fun t => first (c_sub c t) - (if Nat.eqb t 0 then f else a)).
        assert (G : forall k, (k < c_n c)%nat ->
                  exists t, (t <= k)%nat /\ lower t <= x /\ (t = k \/ x < lower (S t))).
        { induction k as [|k IH]; intros Hk.
          - exists 0%nat. unfold lower. cbn. unfold c_lo in *. split; [lia|]. split; [lia|auto].
          - destruct IH as (t & Htk & Hlow & Hor); [lia|].
            destruct Hor as [->|Hor].
            + destruct (Z_le_gt_dec (lower (S k)) x) as [L|L].
              * exists (S k). auto.
              * exists k. repeat split; auto; try lia.
            + exists t. repeat split; auto; lia. }
        destruct (G (c_n c - 1)%nat ltac:(lia)) as (t & Ht & Hlow & Hor).
        exists t. split; [lia|]. cbn. unfold lower in *. cbn [Nat.eqb] in Hor. split; [auto|].
        destruct (Nat.eqb_spec t (c_n c - 1)) as [->|NE].
        * unfold c_hi in H. lia.
        * destruct Hor as [?|Hor]; [lia|].
          pose proof (cut_next c OK t ltac:(lia)). lia.
    - split.
      + intros (t & Ht & H). destruct (Nat.eqb t 0); cbn in *; lia.
      + intros H. exists 0%nat. cbn in *. split; [lia|lia].
    - split.
      + intros (t & Ht & H). destruct (Nat.eqb t (c_n c - 1)); cbn in *; lia.
      + intros H. exists (c_n c - 1)%nat. rewrite Nat.eqb_refl. cbn in *. split; [lia|lia].
  Qed.
End Cut.

Lemma whole_ok lo hi : lo <= hi -> cut_ok (whole lo hi).
Proof. intros H. constructor; cbn; intros; try lia. Qed.

(** A geometry is fine when the cut is and the grid is not empty. *)
Record geom_ok (g : geom) : Prop := {
  geom_cut : cut_ok (g_cut g);
  geom_grid : forall d, first (g_grid g d) <= last (g_grid g d)
}.

Lemma cut_of_ok g d : geom_ok g -> cut_ok (cut_of g d).
Proof.
  intros [H1 H2]. unfold cut_of. destruct dim_eqb; auto. apply whole_ok; auto.
Qed.

Lemma cut_of_dd g : cut_of g (g_dd g) = g_cut g.
Proof. unfold cut_of. rewrite dim_eqb_refl. auto. Qed.
Lemma thr_dd g t : thr g (g_dd g) t = t.
Proof. unfold thr. rewrite dim_eqb_refl. auto. Qed.

Lemma thr_lt g d t : (t < g_n g)%nat -> (thr g d t < c_n (cut_of g d))%nat.
Proof.
  intros Ht. unfold thr, cut_of. destruct (dim_eqb d (g_dd g)); cbn; auto.
Qed.

(** ** Phases *)
Section Geom.
  Variable g : geom.
  Hypothesis OK : geom_ok g.
  Notation dd := (g_dd g).

  Lemma apart_threads s1 o s2 t t' i :
    apart (d_r s1 dd) (comp dd o) (d_r s2 dd) = true -> (t < g_n g)%nat -> (t' < g_n g)%nat ->
    (forall d, in_rng (comp d i) (drng g s1 t d)) ->
    (forall d, in_rng (comp d (iadd i o)) (drng g s2 t' d)) -> t = t'.
  Proof.
    intros A Ht Ht' H1 H2. specialize (H1 dd). specialize (H2 dd).
    unfold drng in *. rewrite cut_of_dd, thr_dd in *. rewrite comp_iadd in H2.
    eapply apart_sound; eauto. apply (geom_cut _ OK).
  Qed.

  Lemma containedd_sound s1 o s2 t i :
    containedd dd s1 o s2 = true -> (t < g_n g)%nat ->
    (forall d, in_rng (comp d i) (drng g s1 t d)) ->
    (forall d, in_rng (comp d (iadd i o)) (drng g s2 t d)).
  Proof.
    intros C Ht H1 d. unfold containedd in C. rewrite forallb_forall in C.
    assert (Hd : In d [DX; DY; DZ]) by (destruct d; cbn; auto).
    specialize (C d Hd). specialize (H1 d). rewrite comp_iadd. unfold drng in *.
    destruct (dim_eqb d dd) eqn:E.
    - eapply contained_sound; eauto using thr_lt.
    - unfold cut_of, thr in *. rewrite E in *.
      destruct (d_r s1 d) as [f1 a1 b1 l1| |], (d_r s2 d) as [f2 a2 b2 l2| |]; cbn in C; try discriminate.
      unfold in_rng in *. cbn in *. lia.
  Qed.

  Lemma nth_number {A} (l : list A) k0 k a :
    nth_error l k = Some a -> In ((k0 + k)%nat, a) (number k0 l).
  Proof.
    revert k0 k. induction l as [|b l IH]; intros k0 [|k] H; cbn in *; try discriminate.
    - inversion H; subst. left. f_equal. lia.
    - right. replace (k0 + S k)%nat with (S k0 + k)%nat by lia. auto.
  Qed.

  Lemma nth_error_map_inv {A B} (f : A -> B) l k b :
    nth_error (map f l) k = Some b -> exists a, nth_error l k = Some a /\ b = f a.
  Proof.
    rewrite nth_error_map. destruct (nth_error l k); cbn; intros E; inversion E; eauto.
  Qed.

  Lemma phase_check_sound ph :
    phase_check dd ph = true -> phase_ok (g_n g) (map (stmt_of g) ph).
  Proof.
    intros C. unfold phase_check in C. rewrite forallb_forall in C.
    assert (CC : forall k j sk sj, nth_error ph k = Some sk -> nth_error ph j = Some sj ->
              write_check dd k j sk sj = true /\
              forall ao, In ao (leaves (d_exp sk)) -> read_check dd k j sk sj ao = true).
    { intros k j sk sj Hk Hj.
      specialize (C _ (nth_number ph 0 k sk Hk)). cbn in C. rewrite forallb_forall in C.
      specialize (C _ (nth_number ph 0 j sj Hj)). cbn in C. apply andb_true_iff in C.
      destruct C as [C1 C2]. rewrite forallb_forall in C2. auto. }
    constructor.
    - intros k j sk' sj' t t' l l' Ht Ht' Hk Hj Hl Hl' Hl''.
      apply nth_error_map_inv in Hk. destruct Hk as (sk & Hk & ->).
      apply nth_error_map_inv in Hj. destruct Hj as (sj & Hj & ->).
      destruct (CC _ _ _ _ Hk Hj) as [_ CR].
      cbn [stmt_of s_rhs] in Hl'. rewrite leaves_emap in Hl'. apply in_map_iff in Hl'.
      destruct Hl' as (ao & <- & Hao). specialize (CR ao Hao). unfold read_check in CR.
      apply in_el in Hl. destruct Hl as [El Hl]. apply in_el in Hl''. destruct Hl'' as [El' Hl''].
      cbn [sh fst snd] in *.
      assert (garr_eqb (fst ao) (d_arr sj) = true) as EQ by (apply garr_eqb_eq; auto).
      rewrite EQ in CR. cbn [negb orb] in CR. apply orb_true_iff in CR. destruct CR as [CR|CR].
      + apply andb_true_iff in CR. destruct CR as [A Z]. left.
        assert (t = t') by (eapply apart_threads; eauto). subst t'. split; auto.
        intros ->. rewrite Nat.eqb_refl in Z. cbn in Z. apply idx_eqb_eq in Z.
        destruct l as [a i]. unfold sh. cbn [fst snd] in *. rewrite Z, iadd_0_r.
        assert (sj = sk) by congruence. subst. congruence.
      + apply andb_true_iff in CR. destruct CR as [L CT]. right. split; [apply Nat.ltb_lt; auto|].
        apply in_el. cbn. split; [auto|]. eapply containedd_sound; eauto.
    - intros k j sk' sj' t t' l Ht Ht' Hk Hj Hl Hl' NE.
      apply nth_error_map_inv in Hk. destruct Hk as (sk & Hk & ->).
      apply nth_error_map_inv in Hj. destruct Hj as (sj & Hj & ->).
      destruct (CC _ _ _ _ Hk Hj) as [CW _]. unfold write_check in CW.
      apply in_el in Hl. destruct Hl as [El Hl]. apply in_el in Hl'. destruct Hl' as [El' Hl'].
      rewrite !orb_true_iff in CW. destruct CW as [[CW|CW]|CW].
      + exfalso. apply negb_true_iff in CW. assert (garr_eqb (d_arr sk) (d_arr sj) = true); [|congruence].
        apply garr_eqb_eq. congruence.
      + apply Nat.eqb_eq; auto.
      + exfalso. apply NE. eapply (apart_threads sk izero sj); eauto.
        * destruct (g_dd g); cbn; auto.
        * intros d. rewrite iadd_0_r. auto.
    - intros s t H Ht. apply in_map_iff in H. destruct H as (d & <- & _). apply nodup_el.
  Qed.

  Lemma race_check_sound ph :
    race_check dd ph = true -> ~ race (g_n g) (map (stmt_of g) ph).
  Proof.
    intros C (k & j & sk' & sj' & t & t' & l & Ht & Ht' & NE & Hk & Hj & Hl & Hor).
    unfold race_check in C. rewrite forallb_forall in C.
    apply nth_error_map_inv in Hk. destruct Hk as (sk & Hk & ->).
    apply nth_error_map_inv in Hj. destruct Hj as (sj & Hj & ->).
    apply nth_error_In in Hk, Hj.
    apply in_el in Hl. destruct Hl as [El Hl].
    destruct Hor as [Hl'|(l2 & Hl2 & Hlv)].
    - apply in_el in Hl'. destruct Hl' as [El' Hl'].
      specialize (C _ Hk). rewrite forallb_forall in C. specialize (C _ Hj).
      apply andb_true_iff in C. destruct C as [C _]. apply orb_true_iff in C. destruct C as [C|C].
      + apply negb_true_iff in C. assert (garr_eqb (d_arr sk) (d_arr sj) = true); [|congruence].
        apply garr_eqb_eq. congruence.
      + apply NE. eapply (apart_threads sk izero sj); eauto.
        * destruct (g_dd g); cbn; auto.
        * intros d. rewrite iadd_0_r. auto.
    - apply in_el in Hl2. destruct Hl2 as [El2 Hl2].
      cbn [stmt_of s_rhs] in Hlv. rewrite leaves_emap in Hlv. apply in_map_iff in Hlv.
      destruct Hlv as (ao & E & Hao).
      specialize (C _ Hj). rewrite forallb_forall in C. specialize (C _ Hk).
      apply andb_true_iff in C. destruct C as [_ C]. rewrite forallb_forall in C. specialize (C _ Hao).
      apply orb_true_iff in C. destruct C as [C|C].
      + apply negb_true_iff in C. assert (garr_eqb (fst ao) (d_arr sk) = true); [|congruence].
        apply garr_eqb_eq. rewrite <- El, <- E. reflexivity.
      + apply NE. symmetry. eapply apart_threads; eauto.
        rewrite <- E in Hl. exact Hl.
  Qed.

  Lemma phases_prog_of p : phases (prog_of g p) = map (map (stmt_of g)) (dphases p).
  Proof.
    induction p as [|[s|] p IH]; cbn in *; auto.
    - unfold prog_of in *. rewrite IH. destruct (dphases p); reflexivity.
    - unfold prog_of in IH. rewrite IH. reflexivity.
  Qed.

  (** ** Union of the threads *)
  Definition lo_of (d : dim) : Z := c_lo (cut_of g d).
  Definition hi_of (d : dim) : Z := c_hi (cut_of g d).

  Definition in_gbox (s : desc) (i : idx) : Prop :=
    forall d, in_rng (comp d i) (grng (lo_of d) (hi_of d) (d_r s d)).

  Definition slab_ok (s : desc) : Prop := slab_okb true (d_r s dd) = true.

  Lemma grng_whole lo hi r : trng (whole lo hi) r 0 = grng lo hi r.
  Proof. destruct r; reflexivity. Qed.

  Lemma el_union s l : slab_ok s ->
    (exists t, (t < g_n g)%nat /\ In l (s_el (stmt_of g s) t)) <->
    fst l = d_arr s /\ in_gbox s (snd l).
  Proof.
    intros Hs. split.
    - intros (t & Ht & H). apply in_el in H. destruct H as [E H]. split; auto.
      intros d. specialize (H d). unfold drng in H. unfold lo_of, hi_of.
      destruct (dim_eqb d dd) eqn:Ed.
      + apply dim_eqb_eq in Ed. subst d. apply trng_union; [apply cut_of_ok; auto|auto|].
        exists (thr g dd t). split; auto. apply thr_lt; auto.
      + unfold cut_of, thr in *. rewrite Ed in *. rewrite grng_whole in H. exact H.
    - intros [E H]. pose proof (H dd) as Hd. unfold lo_of, hi_of in Hd.
      apply trng_union in Hd; [|apply cut_of_ok; auto|exact Hs].
      destruct Hd as (t & Ht & Hd). rewrite cut_of_dd in *.
      exists t. split; auto. apply in_el. split; auto.
      intros d. unfold drng. destruct (dim_eqb d (g_dd g)) eqn:Ed.
      + apply dim_eqb_eq in Ed. subst d. rewrite cut_of_dd, thr_dd. auto.
      + specialize (H d). unfold lo_of, hi_of, cut_of, thr in *. rewrite Ed in *.
        rewrite grng_whole. exact H.
  Qed.

  Variable ar : arith.

  Lemma run_in s (m : loc -> car ar) a i : slab_ok s ->
    a = d_arr s -> in_gbox s i ->
    run_stmt loc_eq_dec ar (g_n g) (stmt_of g s) m (a, i) = ev ar (fun ao => m (sh i ao)) (d_exp s).
  Proof.
    intros Hs -> H.
    destruct (proj2 (el_union s (d_arr s, i) Hs) (conj eq_refl H)) as (t & Ht & Hin).
    erewrite run_stmt_in by eauto. cbn [stmt_of s_rhs snd]. rewrite ev_emap. reflexivity.
  Qed.

  Lemma run_out s (m : loc -> car ar) a i : slab_ok s ->
    (a = d_arr s -> ~ in_gbox s i) ->
    run_stmt loc_eq_dec ar (g_n g) (stmt_of g s) m (a, i) = m (a, i).
  Proof.
    intros Hs H. apply run_stmt_out. intros t Ht Hin.
    destruct (proj1 (el_union s (a, i) Hs)) as [E Hb]; eauto. apply (H E Hb).
  Qed.

  Definition in_gboxb (s : desc) (i : idx) : bool :=
    forallb (fun d => in_rngb (comp d i) (grng (lo_of d) (hi_of d) (d_r s d))) [DX; DY; DZ].

  Lemma in_rngb_true x r : in_rngb x r = true <-> in_rng x r.
  Proof. unfold in_rngb, in_rng. lia. Qed.

  Lemma in_gboxb_true s i : in_gboxb s i = true <-> in_gbox s i.
  Proof.
    unfold in_gboxb, in_gbox. rewrite forallb_forall. setoid_rewrite in_rngb_true. split.
    - intros H d. apply H. destruct d; cbn; auto.
    - auto.
  Qed.
End Geom.

(** ** Threaded execution = execution by one thread *)
Lemma serial_ok g : geom_ok g -> geom_ok (serial g).
Proof.
  intros [H1 H2]. constructor; cbn; auto. apply whole_ok. apply cut_lo_hi; auto.
Qed.

Lemma serial_lo g d : lo_of (serial g) d = lo_of g d.
Proof. unfold lo_of, cut_of, serial; cbn. destruct dim_eqb; reflexivity. Qed.
Lemma serial_hi g d : hi_of (serial g) d = hi_of g d.
Proof. unfold hi_of, cut_of, serial; cbn. destruct dim_eqb; reflexivity. Qed.

Lemma in_gbox_serial g s i : in_gbox (serial g) s i <-> in_gbox g s i.
Proof.
  unfold in_gbox. setoid_rewrite serial_lo. setoid_rewrite serial_hi. tauto.
Qed.

Definition slabs_ok (g : geom) (p : list dinstr) : Prop :=
  forall s, In (DDo s) p -> slab_ok g s.

Lemma run_serial g ar p : geom_ok g -> slabs_ok g p ->
  forall m m' l, (forall l, m l = m' l) ->
    run_prog loc_eq_dec ar (g_n g) (prog_of g p) m l =
    run_prog loc_eq_dec ar 1 (prog_of (serial g) p) m' l.
Proof.
  intros OK. induction p as [|i p IH]; intros Hs m m' l E; cbn; auto.
  apply IH; [intros s H; apply Hs; right; auto|].
  destruct i as [s|]; cbn [instr_of run_instr]; auto.
  intros [a j]. assert (Ss : slab_ok g s) by (apply Hs; left; auto).
  assert (Ss' : slab_ok (serial g) s) by exact Ss.
  pose proof (serial_ok g OK) as OK'.
  change 1%nat with (g_n (serial g)).
  destruct (garr_eq_dec a (d_arr s)) as [Ea|Ea].
  - destruct (in_gboxb g s j) eqn:B.
    + apply in_gboxb_true in B. rewrite (run_in g OK ar s m a j Ss Ea B).
      rewrite (run_in (serial g) OK' ar s m' a j Ss' Ea (proj2 (in_gbox_serial g s j) B)).
      apply ev_ext. intros; apply E.
    + assert (NB : ~ in_gbox g s j) by (rewrite <- in_gboxb_true; congruence).
      rewrite (run_out g OK ar s m a j Ss (fun _ => NB)).
      rewrite (run_out (serial g) OK' ar s m' a j Ss'); auto.
      intros _ Hb. apply NB. apply in_gbox_serial; auto.
  - rewrite (run_out g OK ar s m a j Ss (fun H => False_ind _ (Ea H))).
    rewrite (run_out (serial g) OK' ar s m' a j Ss' (fun H => False_ind _ (Ea H))). apply E.
Qed.

(** phases that pass the check or are well-formed for another reason *)
Definition dprog_ok (g : geom) (p : list dinstr) : Prop :=
  forall ph, In ph (dphases p) -> phase_ok (g_n g) (map (stmt_of g) ph).

Lemma prog_ok_of g p : dprog_ok g p -> prog_ok (g_n g) (prog_of g p).
Proof.
  intros H ph Hin. rewrite phases_prog_of in Hin. apply in_map_iff in Hin.
  destruct Hin as (q & <- & Hq). auto.
Qed.

Theorem threads_equal_serial g ar p m m' c' :
  geom_ok g -> dprog_ok g p -> slabs_ok g p ->
  steps loc_eq_dec ar (g_n g) (m, code ar (prog_of g p)) (m', c') ->
  finished ar (g_n g) (m', c') ->
  forall l, m' l = run_prog loc_eq_dec ar 1 (prog_of (serial g) p) m l.
Proof.
  intros OK P Hs St F l.
  rewrite (interleaving_deterministic loc_eq_dec ar (g_n g) (prog_of g p) m m' c'); auto.
  - apply run_serial; auto.
  - apply (cut_pos _ (geom_cut _ OK)).
  - apply prog_ok_of; auto.
Qed.

(** ** Programs as sequences *)
Lemma dphases_nonempty p : dphases p <> [].
Proof. destruct p as [|[s|] p]; cbn; try discriminate. destruct (dphases p); discriminate. Qed.

Lemma dphases_app p q : dphases (p ++ DBar :: q) = dphases p ++ dphases q.
Proof.
  induction p as [|[s|] p IH]; cbn [app dphases]; auto.
  - rewrite IH. pose proof (dphases_nonempty p) as NE. destruct (dphases p); [congruence|]. reflexivity.
  - rewrite IH. reflexivity.
Qed.

Lemma dprog_ok_bar g p q : dprog_ok g p -> dprog_ok g q -> dprog_ok g (p ++ DBar :: q).
Proof.
  intros Hp Hq ph H. rewrite dphases_app in H. apply in_app_iff in H. destruct H; auto.
Qed.
