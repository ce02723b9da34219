(** 3D halo fills between two barriers.  Fills along the cut dimension are
    done by the outer threads and read rows of other threads; the other fills
    stay inside the rows of a thread.  What the former read may be changing,
    but then the same thread assigns the element again. *)
From Coq Require Import ZArith List Bool Lia ZifyBool.
From Verif Require Import SpecIndex ModelIndex ProofsIndex ModelRun Lang ProofsLang ProofsDirty Stencil ProofsStencil
  FormCommon Form3D Solver1D Solver3D Macro ProofsMacro ProofsThread1D ProofsGeom3D.
Import ListNotations.
Local Open Scope Z_scope.

(** the arrays some far corners of which are left undetermined *)
Definition dirty_arr (a : arr) : bool := match a with Cor _ DX => true | _ => false end.

(** one fill: dimension, array, left edge?, cell-like?, ranges along the two other dimensions *)
Record fil := { fi_d : dim; fi_a : arr; fi_l : bool; fi_c : bool; fi_1 : rdesc; fi_2 : rdesc }.

Section Fill.
  Variables (r : run3) (n : nat).
  Hypothesis RK : run3_ok r.
  Hypothesis Hn : (0 < n)%nat.
  Hypothesis Hs : Z.of_nat n <= s3_hi r DY - s3_lo r DY + 1.
  Notation g := (geom3 r n).
  Let OK : geom_ok g := geom3_ok r n RK Hn Hs.
  Notation h := (s3_halo r).
  Notation per := (s3_per r).
  Notation lo := (s3_lo r).
  Notation hi := (s3_hi r).

  Definition dirt (l : loc) : Prop :=
    fst (fst l) = O /\ dirty_arr (snd (fst l)) = true /\ (comp DY (snd l) < lo DY - 1 \/ hi DY + 1 < comp DY (snd l)).

  Definition fi_rd (x : fil) : rdesc :=
    if fi_l x then AtFirst (- h) (-1) else if fi_c x then AtLast 1 h else AtLast 0 (h - 1).
  Definition fi_off (x : fil) : Z := if fi_l x then per (fi_d x) else - per (fi_d x).
  Definition td (x : fil) : tdesc :=
    at3d (fi_d x) (fi_a x) (fi_rd x) (fi_1 x) (fi_2 x) (Leaf (fi_a x, x3 (fi_d x) (fi_off x) 0 0)).
  Definition cz (x : fil) : Z := if fi_c x then 1 else 0.
  (* range along the cut dimension of a fill along another one *)
  Definition fi_y (x : fil) : rdesc := match fi_d x with DX => fi_1 x | _ => fi_2 x end.

  Variable e : nat.
  Notation el x t := (s_el (stmt_of g (inst e (td x))) t).

  Lemma td_arr x : d_arr (inst e (td x)) = tag e (fi_a x).
  Proof. unfold td. destruct (fi_d x); reflexivity. Qed.
  Lemma td_exp x : d_exp (inst e (td x)) = Leaf (tag e (fi_a x), x3 (fi_d x) (fi_off x) 0 0).
  Proof. unfold td. destruct (fi_d x); reflexivity. Qed.
  Lemma td_rd x : d_r (inst e (td x)) (fi_d x) = fi_rd x.
  Proof. rewrite d_r_inst. unfold td. destruct (fi_d x); reflexivity. Qed.
  Lemma td_y x : fi_d x <> DY -> d_r (inst e (td x)) DY = fi_y x.
  Proof. intros H. rewrite d_r_inst. unfold td, fi_y. destruct (fi_d x); try reflexivity. congruence. Qed.

  Notation c := (cut1 (lo DY) (hi DY) n).
  Let CK : cut_ok c := cut1_ok (lo DY) (hi DY) n Hn Hs.
  Lemma clo : c_lo c = lo DY. Proof. apply cut1_lo; auto. Qed.
  Lemma chi : c_hi c = hi DY. Proof. apply cut1_hi; auto. Qed.
  Lemma cn : c_n c = n. Proof. reflexivity. Qed.

  Lemma drng_y s t : drng g s t DY = trng c (d_r s DY) t.
  Proof. reflexivity. Qed.
  Lemma drng_o s t d : d <> DY -> drng g s t d = grng (lo d) (hi d) (d_r s d).
  Proof.
    intros H. unfold drng, cut_of, thr. change (g_dd g) with DY.
    destruct d; try congruence; cbn [dim_eqb g_grid geom3 first last fst snd]; apply grng_whole.
  Qed.

  Definition zone (t : nat) (y : Z) : Prop :=
    (t <> O -> first (c_sub c t) <= y) /\ (t <> (n - 1)%nat -> y <= last (c_sub c t)).
  Lemma zone_unique t t' y : (t < n)%nat -> (t' < n)%nat -> zone t y -> zone t' y -> t = t'.
  Proof.
    intros Ht Ht' [A B] [A' B'].
    destruct (Nat.lt_trichotomy t t') as [L|[E|L]]; auto; exfalso.
    - pose proof (cut_order c CK t t' L Ht'). specialize (A' ltac:(lia)). specialize (B ltac:(lia)). lia.
    - pose proof (cut_order c CK t' t L Ht). specialize (A ltac:(lia)). specialize (B' ltac:(lia)). lia.
  Qed.

  Definition rows_y (x : fil) : Prop := fi_d x = DY \/ exists p q, fi_y x = Slab p 0 0 q.

  (** where a fill writes *)
  Lemma el_own x t l : (t < n)%nat -> In l (el x t) ->
    fst l = tag e (fi_a x) /\
    (let d := fi_d x in
     if fi_l x then lo d - h <= comp d (snd l) <= lo d - 1 else hi d + cz x <= comp d (snd l) <= hi d + cz x + h - 1) /\
    (fi_d x = DY -> t = if fi_l x then O else (n - 1)%nat).
  Proof.
    intros Ht H. apply in_el in H. rewrite td_arr in H. destruct H as [E H]. split; [exact E|].
    specialize (H (fi_d x)). unfold in_rng in H.
    destruct (dim_eqb (fi_d x) DY) eqn:Ed.
    - apply dim_eqb_eq in Ed. cbv zeta. pose proof (td_rd x) as T. rewrite Ed in *. rewrite drng_y, T in H.
      unfold fi_rd, cz in *. destruct (fi_l x); [|destruct (fi_c x)]; cbn [trng] in H; rewrite ?clo, ?chi, ?cn in H.
      + destruct (Nat.eqb_spec t 0) as [->|NE]; unfold first, last in H; cbn [fst snd] in H; [split; [lia|auto]|lia].
      + destruct (Nat.eqb_spec t (n - 1)) as [->|NE]; unfold first, last in H; cbn [fst snd] in H; [split; [lia|auto]|lia].
      + destruct (Nat.eqb_spec t (n - 1)) as [->|NE]; unfold first, last in H; cbn [fst snd] in H; [split; [lia|auto]|lia].
    - assert (NE : fi_d x <> DY) by (intros E'; rewrite E' in Ed; discriminate).
      split; [|congruence]. rewrite drng_o, td_rd in H by auto. cbv zeta. unfold fi_rd, cz in *.
      destruct (fi_l x); [|destruct (fi_c x)]; cbn [grng] in H; unfold first, last in H; cbn [fst snd] in H; lia.
  Qed.
  Lemma el_zone x t l : (t < n)%nat -> rows_y x -> In l (el x t) -> zone t (comp DY (snd l)).
  Proof.
    intros Ht R H. destruct R as [Ed|(p & q & Ey)].
    - destruct (el_own x t l Ht H) as (_ & O & T). specialize (T Ed). cbv zeta in O. rewrite Ed in O.
      pose proof (halo_pos (s3_o r)) as Hh. change (halo (s3_o r)) with h in Hh.
      destruct (fi_l x); subst t; split; intros NE; try congruence.
      + pose proof (cut_nonempty c CK 0 Hn). pose proof clo as E. unfold c_lo in E. lia.
      + pose proof (cut_nonempty c CK (n - 1) ltac:(cbn; lia)). pose proof chi as E. unfold c_hi in E. rewrite cn in E.
        unfold cz in O. destruct (fi_c x); lia.
    - destruct (dim_eqb (fi_d x) DY) eqn:Ed.
      + (* a fill along the cut dimension anyway *)
        apply dim_eqb_eq in Ed.
        destruct (el_own x t l Ht H) as (_ & O & T). specialize (T Ed). cbv zeta in O. rewrite Ed in O.
        pose proof (halo_pos (s3_o r)) as Hh. change (halo (s3_o r)) with h in Hh.
        destruct (fi_l x); subst t; split; intros NE; try congruence.
        * pose proof (cut_nonempty c CK 0 Hn). pose proof clo as E. unfold c_lo in E. lia.
        * pose proof (cut_nonempty c CK (n - 1) ltac:(cbn; lia)). pose proof chi as E. unfold c_hi in E. rewrite cn in E.
          unfold cz in O. destruct (fi_c x); lia.
      + assert (NE : fi_d x <> DY) by (intros E'; rewrite E' in Ed; discriminate).
        apply in_el in H. destruct H as [_ H]. specialize (H DY). rewrite drng_y, td_y, Ey in H by auto.
        cbn [trng] in H. unfold in_rng in H. unfold first, last in H |- *. cbn [fst snd] in H. rewrite cn in H.
        unfold zone, first, last. destruct (Nat.eqb_spec t 0), (Nat.eqb_spec t (n - 1)); split; intros; lia.
  Qed.

  Lemma leaf_of x l l' : In l' (leaves (s_rhs (stmt_of g (inst e (td x))) l)) ->
    l' = (tag e (fi_a x), iadd (snd l) (x3 (fi_d x) (fi_off x) 0 0)).
  Proof.
    cbn [stmt_of s_rhs]. rewrite td_exp. cbn [emap leaves]. intros [<-|[]]. reflexivity.
  Qed.
  Lemma comp_off d k i : comp d (iadd i (x3 d k 0 0)) = comp d i + k.
  Proof. destruct d, i as [[? ?] ?]; reflexivity. Qed.
  Lemma comp_off_ne d d' k i : d <> d' -> comp d' (iadd i (x3 d k 0 0)) = comp d' i.
  Proof. intros H. destruct d, d', i as [[? ?] ?]; try congruence; unfold iadd, x3; cbn [comp fst snd]; lia. Qed.

  (** what a fill reads lies inside the grid along its own dimension *)
  Lemma read_in x t l : (t < n)%nat -> In l (el x t) ->
    lo (fi_d x) <= comp (fi_d x) (iadd (snd l) (x3 (fi_d x) (fi_off x) 0 0)) <= hi (fi_d x) + cz x - 1.
  Proof.
    intros Ht H. destruct (el_own x t l Ht H) as (_ & O & _). cbv zeta in O. rewrite comp_off. unfold fi_off.
    pose proof (ok3_grid r RK (fi_d x)) as G. change (halo (s3_o r)) with h in G.
    assert (E : per (fi_d x) = hi (fi_d x) - lo (fi_d x)) by reflexivity. rewrite E.
    unfold cz in *. destruct (fi_l x), (fi_c x); lia.
  Qed.

  (** compatible fills, [x] before [y] *)
  Definition compat (x y : fil) : Prop :=
    fi_a x = fi_a y ->
    (fi_d x = fi_d y /\ fi_c x = fi_c y) \/
    (fi_d x = DY /\ fi_d y <> DY /\ exists p q, fi_y y = Slab p 0 0 q /\
       ((h <= p /\ h <= q) \/ (dirty_arr (fi_a y) = true /\ p = 1 /\ q = 1))).
  Definition low (x : fil) : Prop :=
    rows_y x /\ (fi_d x <> DY -> dirty_arr (fi_a x) = true -> exists p q, fi_y x = Slab p 0 0 q /\ p <= 1 /\ q <= 1).

  Variable fs : list fil.
  Hypothesis LOW : Forall low fs.
  Hypothesis PAIRS : ForallOrdPairs compat fs.
  Notation ph := (map (stmt_of g) (map (inst e) (map td fs))).

  Lemma pairs k j x y : nth_error fs k = Some x -> nth_error fs j = Some y -> (k < j)%nat -> compat x y.
  Proof.
    clear LOW. revert k j. induction PAIRS as [|a l H P0 IH]; intros k j Hk Hj L; [destruct k; discriminate|].
    destruct k as [|k].
    - cbn in Hk. inversion Hk; subst. destruct j as [|j]; [lia|]. cbn in Hj. rewrite Forall_forall in H.
      apply H. eapply nth_error_In; eauto.
    - destruct j as [|j]; [lia|]. cbn in Hk, Hj. apply (IH P0 k j); auto. lia.
  Qed.
  Lemma nth_ph k s : nth_error ph k = Some s -> exists x, nth_error fs k = Some x /\ s = stmt_of g (inst e (td x)) /\ low x.
  Proof.
    rewrite !nth_error_map. destruct (nth_error fs k) as [x|] eqn:E; [|discriminate]. intros H. inversion H.
    exists x. split; auto. split; auto. rewrite Forall_forall in LOW. apply LOW. eapply nth_error_In; eauto.
  Qed.
  Lemma ph_nth k x : nth_error fs k = Some x -> nth_error ph k = Some (stmt_of g (inst e (td x))).
  Proof. intros H. rewrite !nth_error_map, H. reflexivity. Qed.

  (* same array: same dimension and kind, or one of them along the cut dimension *)
  Lemma same_arr k j x y : nth_error fs k = Some x -> nth_error fs j = Some y -> fi_a x = fi_a y ->
    (fi_d x = fi_d y /\ fi_c x = fi_c y) \/
    ((k < j)%nat /\ fi_d x = DY /\ fi_d y <> DY /\ exists p q, fi_y y = Slab p 0 0 q /\
       ((h <= p /\ h <= q) \/ (dirty_arr (fi_a y) = true /\ p = 1 /\ q = 1))) \/
    ((j < k)%nat /\ fi_d y = DY /\ fi_d x <> DY).
  Proof.
    intros Hk Hj A. destruct (Nat.lt_trichotomy k j) as [L|[->|L]].
    - destruct (pairs k j x y Hk Hj L A) as [B|(B1 & B2 & B3)]; [left; auto|right; left; auto].
    - rewrite Hk in Hj. inversion Hj; subst. auto.
    - destruct (pairs j k y x Hj Hk L (eq_sym A)) as [[B B']|(B1 & B2 & B3)]; [left; auto|right; right; auto].
  Qed.

  Definition fine_el (k : nat) (l : loc) : Prop :=
    forall x j y t', nth_error fs k = Some x -> fi_d x = DY -> nth_error fs j = Some y -> fi_d y <> DY ->
      (t' < n)%nat -> ~ In (tag e (fi_a x), iadd (snd l) (x3 DY (fi_off x) 0 0)) (el y t').

  Lemma fills_okD : phase_okD n ph dirt dirt fine_el.
  Proof.
    pose proof (halo_pos (s3_o r)) as Hh. change (halo (s3_o r)) with h in Hh.
    constructor.
    - intros k j sk sj t t' l l' Ht Ht' Hk Hj Gk Hl Hl' Hl''.
      destruct (nth_ph k sk Hk) as (x & Hx & -> & Lx). destruct (nth_ph j sj Hj) as (y & Hy & -> & Ly).
      pose proof (leaf_of x l l' Hl') as E'.
      assert (A : fi_a x = fi_a y).
      { destruct (el_own y t' l' Ht' Hl'') as (A & _). rewrite E' in A. cbn [fst] in A. apply (tag_inj e). exact A. }
      pose proof (read_in x t l Ht Hl) as RI. destruct (el_own y t' l' Ht' Hl'') as (_ & O & _). cbv zeta in O.
      rewrite E' in O. cbn [snd] in O.
      destruct (same_arr k j x y Hx Hy A) as [[D C]|[(L & D & D' & _)|(L & D & D')]].
      + exfalso. rewrite <- D in O. unfold cz in *. rewrite <- C in O. destruct (fi_l y), (fi_c x); lia.
      + exfalso. apply (Gk x j y t' Hx D Hy D' Ht'). rewrite E', D in Hl''. exact Hl''.
      + assert (Z1 : zone t (comp DY (snd l))) by (eapply el_zone; eauto; apply Lx).
        assert (Z2 : zone t' (comp DY (snd l'))) by (eapply el_zone; eauto; apply Ly).
        rewrite E' in Z2. cbn [snd] in Z2. rewrite comp_off_ne in Z2 by auto.
        split; [left; split; [apply (zone_unique t' t _ Ht' Ht Z2 Z1)|lia]|].
        intros _ x0 j0 z u Hx0 D0 Hz Dz Hu Hin. assert (x0 = y) by congruence. subst x0.
        assert (Az : fi_a x = fi_a z).
        { destruct (el_own z u _ Hu Hin) as (B & _). cbn [fst] in B. apply tag_inj in B. congruence. }
        destruct (el_own z u _ Hu Hin) as (_ & Oz & _). cbv zeta in Oz. cbn [snd] in Oz.
        destruct (same_arr k j0 x z Hx Hz Az) as [[Dx Cx]|[(_ & Dx & _)|(_ & Dx & _)]]; try congruence.
        rewrite <- Dx in Oz. rewrite comp_off_ne in Oz by auto. rewrite E' in Oz. cbn [snd] in Oz.
        unfold cz in *. rewrite <- Cx in Oz. destruct (fi_l z), (fi_c x); lia.
    - intros k sk t l l' Ht Hk Gk Hl Hl'. left. destruct (nth_ph k sk Hk) as (x & Hx & -> & Lx).
      pose proof (leaf_of x l l' Hl') as E'. intros (T0 & DA & Y). rewrite E' in T0, DA, Y. cbn [fst snd] in *.
      destruct (dim_eqb (fi_d x) DY) eqn:Ed.
      + apply dim_eqb_eq in Ed. pose proof (read_in x t l Ht Hl) as RI. rewrite Ed in RI, Y. unfold cz in RI.
        destruct (fi_c x); lia.
      + assert (NE : fi_d x <> DY) by (intros E; rewrite E in Ed; discriminate).
        rewrite comp_off_ne in Y by auto. destruct Lx as [_ Lx].
        assert (DA' : dirty_arr (fi_a x) = true) by (destruct (fi_a x); exact DA).
        destruct (Lx NE DA') as (p & q & Ey & Hp & Hq). apply in_el in Hl. destruct Hl as [_ Hl]. specialize (Hl DY).
        rewrite drng_y, td_y, Ey in Hl by auto. cbn [trng] in Hl. unfold in_rng in Hl. unfold first, last in Hl. cbn [fst snd] in Hl.
        pose proof (cut_lo c CK t Ht) as C1. pose proof (cut_hi c CK t Ht) as C2. rewrite clo in C1. rewrite chi in C2.
        unfold first, last in C1, C2. destruct (Nat.eqb t 0), (Nat.eqb t (c_n c - 1)); lia.
    - intros k j sk sj t t' l Ht Ht' Hk Hj Hl Hl' NE. exfalso. apply NE.
      destruct (nth_ph k sk Hk) as (x & Hx & -> & Lx). destruct (nth_ph j sj Hj) as (y & Hy & -> & Ly).
      apply (zone_unique t t' (comp DY (snd l))); auto; eapply el_zone; eauto; [apply Lx|apply Ly].
    - intros s t Hin _. apply in_map_iff in Hin. destruct Hin as (d & <- & _). apply nodup_el.
    - intros k sk t l Ht Hk Hl ND Hmax x0 j y t' Hx0 Dx Hy Dy Ht' Hin.
      destruct (nth_ph k sk Hk) as (x & Hx & -> & Lx). assert (x0 = x) by congruence. subst x0.
      assert (A : fi_a x = fi_a y).
      { destruct (el_own y t' _ Ht' Hin) as (B & _). cbn [fst] in B. apply tag_inj in B. congruence. }
      destruct (same_arr k j x y Hx Hy A) as [[D _]|[(L & _ & _ & p & q & Ey & Hpq)|(_ & D & _)]]; [congruence| |congruence].
      assert (j <= k)%nat; [|lia].
      apply (Hmax j (stmt_of g (inst e (td y))) (ph_nth j y Hy)).
      destruct (el_own x t l Ht Hl) as (E & O & T). specialize (T Dx). cbv zeta in O. rewrite Dx in O.
      apply in_el in Hin. destruct Hin as [_ Hin]. apply in_el. rewrite td_arr. split; [congruence|].
      intros d. destruct (dim_eqb d DY) eqn:Ed.
      + apply dim_eqb_eq in Ed. subst d. clear Hin. rewrite drng_y, td_y, Ey by auto. cbn [trng]. unfold in_rng.
        unfold first at 1, last at 2. cbn [fst snd].
        assert (Y : lo DY - p <= comp DY (snd l) <= hi DY + q).
        { destruct Hpq as [Hpq|(DA & -> & ->)].
          - unfold cz in O. destruct (fi_l x), (fi_c x); lia.
          - assert (TA : fst l = (0%nat, fi_a x)) by (rewrite E; rewrite <- A in DA; clear -DA; destruct (fi_a x); cbn in DA |- *; congruence).
            destruct (Z_lt_dec (comp DY (snd l)) (lo DY - 1)) as [B|B];
              [|destruct (Z_lt_dec (hi DY + 1) (comp DY (snd l))) as [B'|B']; [|lia]];
              exfalso; apply ND; unfold dirt; rewrite TA; cbn [fst snd]; rewrite A; auto. }
        assert (P0 : 0 <= p /\ 0 <= q) by lia.
        rewrite cn. destruct (fi_l x); subst t.
        * pose proof (cut_nonempty c CK 0 Hn) as NN. pose proof clo as E0. unfold c_lo in E0. rewrite Nat.eqb_refl.
          unfold first, last in *. destruct (Nat.eqb 0 (n - 1)); lia.
        * pose proof (cut_nonempty c CK (n - 1) ltac:(cbn; lia)) as NN. pose proof chi as E0. unfold c_hi in E0. rewrite cn in E0.
          rewrite Nat.eqb_refl. unfold first, last in *. unfold cz in O. destruct (Nat.eqb (n - 1) 0), (fi_c x); lia.
      + assert (NE : d <> DY) by (intros E'; rewrite E' in Ed; discriminate).
        specialize (Hin d). cbn [snd] in Hin. rewrite comp_off_ne in Hin by auto. rewrite drng_o in Hin |- * by auto. exact Hin.
    - auto.
  Qed.
End Fill.
