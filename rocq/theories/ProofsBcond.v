From Coq Require Import ZArith List Bool Reals Lra Lia ZifyBool ZifyNat.
From Verif Require Import ModelIndex ModelBcond SpecBcond.
Import ListNotations.
Local Open Scope Z_scope.

Ltac ranges := unfold left_edge, rght_edge, left_halo_sclr, rght_halo_sclr, left_intr_sclr, rght_intr_sclr,
  left_halo_vctr, rght_halo_vctr, left_intr_vctr, rght_intr_vctr, rng_ext, rng_exth, rng_shift, rlen, count_of, minus_h, plus_h,
  ModelIndex.first, ModelIndex.last in *; cbn [fst snd] in *.

(** ** Loops *)
Lemma upd_eq : forall V (a : Z -> V) i v, upd a i v i = v.
Proof. intros. unfold upd. now rewrite Z.eqb_refl. Qed.
Lemma upd_ne : forall V (a : Z -> V) i v j, j <> i -> upd a i v j = a j.
Proof. intros. unfold upd. destruct (Z.eqb_spec j i); [contradiction|reflexivity]. Qed.

(** a loop that reads outside of the range it writes *)
Lemma for_loop_spec : forall V (f : (Z -> V) -> Z -> V) c i n dn a,
  (forall b m, (exists k, 0 <= k < Z.of_nat c /\ m = n + k * dn) ->
     (forall j, ~ (i <= j < i + Z.of_nat c) -> b j = a j) -> f b m = f a m) ->
  forall j, for_loop f c i n dn a j =
    if (i <=? j) && (j <? i + Z.of_nat c) then f a (n + (j - i) * dn) else a j.
Proof.
  induction c; intros i n dn a H j; cbn [for_loop].
  - destruct (Z.leb_spec i j), (Z.ltb_spec j (i + Z.of_nat 0)); cbn; auto; lia.
  - rewrite IHc.
    + assert (Hf : forall m, (exists k, 0 <= k < Z.of_nat (S c) /\ m = n + k * dn) -> f (upd a i (f a n)) m = f a m).
      { intros m Hm. apply H; auto. intros j' Hj'. apply upd_ne. lia. }
      destruct (Z.leb_spec (i + 1) j), (Z.ltb_spec j (i + 1 + Z.of_nat c)); cbn [andb].
      * replace ((i <=? j) && (j <? i + Z.of_nat (S c))) with true by (symmetry; apply andb_true_iff; lia).
        rewrite Hf. { f_equal. lia. } exists (j - i). split; lia.
      * replace ((i <=? j) && (j <? i + Z.of_nat (S c))) with false by (symmetry; apply andb_false_iff; lia).
        apply upd_ne. lia.
      * destruct (Z.eq_dec j i) as [->|N].
        -- rewrite upd_eq. replace ((i <=? i) && (i <? i + Z.of_nat (S c))) with true by (symmetry; apply andb_true_iff; lia).
           f_equal. lia.
        -- rewrite upd_ne by assumption. replace ((i <=? j) && (j <? i + Z.of_nat (S c))) with false; [reflexivity|].
           symmetry; apply andb_false_iff; lia.
      * lia.
    + intros b m (k & Hk & ->) Hb. transitivity (f a (n + dn + k * dn)).
      * apply H. { exists (k + 1). split; lia. }
        intros j' Hj'. rewrite Hb by lia. apply upd_ne. lia.
      * symmetry. apply H. { exists (k + 1). split; lia. } intros j' Hj'. apply upd_ne. lia.
Qed.

(** ** Rigid walls *)
Section Rigid.
  Variables (halo : Z) (i : rng).
  Hypothesis Hh : 1 <= halo.
  Hypothesis Hi : halo <= last i - first i.

  Ltac loop := match goal with |- for_loop _ _ _ _ _ ?a ?j = _ => rewrite for_loop_spec end;
    [| intros b m (k & Hk & ->) Hb; ranges; rewrite ?Hb by lia; reflexivity].
  Lemma left_sclr : forall a j, rigid_left_sclr halo i a j =
    if (first i - halo <=? j) && (j <? first i) then a (2 * first i - j) else a j.
  Proof.
    intros. unfold rigid_left_sclr. loop. ranges.
    replace (fst i - halo + Z.of_nat (Z.to_nat (fst i - halo + halo - 1 - (fst i - halo) + 1))) with (fst i) by lia.
    destruct ((fst i - halo <=? j) && (j <? fst i)); [|reflexivity]. f_equal. lia.
  Qed.
  Lemma rght_sclr : forall a j, rigid_rght_sclr halo i a j =
    if (last i <? j) && (j <=? last i + halo) then a (2 * last i - j) else a j.
  Proof.
    intros. unfold rigid_rght_sclr. loop. ranges.
    replace ((snd i + halo - (halo - 1) <=? j) && _) with ((snd i <? j) && (j <=? snd i + halo)) by lia.
    destruct ((snd i <? j) && (j <=? snd i + halo)); [|reflexivity]. f_equal. lia.
  Qed.
  Lemma left_pres : forall a j, rigid_left_pres halo i a j =
    if (first i - halo <=? j) && (j <? first i) then (2 * a (first i) - a (2 * first i - j)%Z)%R else a j.
  Proof.
    intros. unfold rigid_left_pres. loop. ranges.
    replace (fst i - halo + Z.of_nat (Z.to_nat (fst i - halo + halo - 1 - (fst i - halo) + 1))) with (fst i) by lia.
    destruct ((fst i - halo <=? j) && (j <? fst i)); [|reflexivity]. do 2 f_equal. lia.
  Qed.
  Lemma rght_pres : forall a j, rigid_rght_pres halo i a j =
    if (last i <? j) && (j <=? last i + halo) then (2 * a (last i) - a (2 * last i - j)%Z)%R else a j.
  Proof.
    intros. unfold rigid_rght_pres. loop. ranges.
    replace ((snd i + halo - (halo - 1) <=? j) && _) with ((snd i <? j) && (j <=? snd i + halo)) by lia.
    destruct ((snd i <? j) && (j <=? snd i + halo)); [|reflexivity]. do 2 f_equal. lia.
  Qed.
  Lemma left_vctr : forall ad v j, rigid_left_vctr halo i ad v j =
    if (first i - halo <=? j) && (j <? first i - if ad then 1 else 0) then (- v (2 * first i - 1 - j)%Z)%R else v j.
  Proof.
    intros. unfold rigid_left_vctr. rewrite for_loop_spec.
    - ranges. replace ((fst i - 1 - (halo - 1) <=? j) && _)
        with ((fst i - halo <=? j) && (j <? fst i - if ad then 1 else 0)) by (destruct ad; lia).
      destruct ((fst i - halo <=? j) && _); [|reflexivity]. do 2 f_equal. lia.
    - intros b m (k & Hk & ->) Hb. ranges. rewrite Hb by (destruct ad; lia). reflexivity.
  Qed.
  Lemma rght_vctr : forall ad v j, rigid_rght_vctr halo i ad v j =
    if (last i + (if ad then 1 else 0) <=? j) && (j <? last i + halo)
    then (- v (2 * last i - 1 - j + if ad then 1 else 0)%Z)%R else v j.
  Proof.
    intros. unfold rigid_rght_vctr. rewrite for_loop_spec.
    - ranges. replace ((snd i + (halo - 1) - (halo - 1) + (if ad then 1 else 0) <=? j) && _)
        with ((snd i + (if ad then 1 else 0) <=? j) && (j <? snd i + halo)) by (destruct ad; lia).
      destruct ((snd i + (if ad then 1 else 0) <=? j) && _); [|reflexivity]. do 2 f_equal. destruct ad; lia.
    - intros b m (k & Hk & ->) Hb. ranges. rewrite Hb by (destruct ad; lia). reflexivity.
  Qed.

  Lemma rigid_scalar_mirrored : forall a n, 1 <= n <= halo ->
    let a' := rigid_rght_sclr halo i (rigid_left_sclr halo i a) in
    a' (first i - n) = a (first i + n) /\ a' (last i + n) = a (last i - n) /\
    forall j, in_rng j i -> a' j = a j.
  Proof.
    intros a n Hn a'. unfold a'. assert (Hl := Hi). unfold ModelIndex.first, ModelIndex.last in Hl.
    repeat split; intros; rewrite rght_sclr; ranges; unfold in_rng, ModelIndex.first, ModelIndex.last in *.
    - replace ((snd i <? fst i - n) && _) with false by lia. rewrite left_sclr. ranges.
      replace ((fst i - halo <=? fst i - n) && _) with true by lia. f_equal. lia.
    - replace ((snd i <? snd i + n) && _) with true by lia. rewrite left_sclr. ranges.
      replace ((fst i - halo <=? _) && _) with false by lia. f_equal. lia.
    - replace ((snd i <? j) && _) with false by lia. rewrite left_sclr. ranges.
      replace ((fst i - halo <=? j) && _) with false by lia. reflexivity.
  Qed.
  Lemma rigid_velocity : forall v n, 1 <= n <= halo ->
    let v' := rigid_rght_vctr halo i false (rigid_left_vctr halo i false v) in
    (v' (first i - n)%Z + v' (first i + n - 1)%Z = 0 /\ v' (last i + n - 1)%Z + v' (last i - n)%Z = 0)%R /\
    forall j, first i <= j < last i -> v' j = v j.
  Proof.
    intros v n Hn v'. unfold v'. assert (Hl := Hi). unfold ModelIndex.first, ModelIndex.last in Hl.
    assert (I : forall j, first i <= j < last i -> rigid_rght_vctr halo i false (rigid_left_vctr halo i false v) j = v j).
    { intros j Hj. rewrite rght_vctr. ranges.
      replace ((snd i + 0 <=? j) && _) with false by lia. rewrite left_vctr. ranges. replace ((fst i - halo <=? j) && _) with false by lia. reflexivity. }
    repeat split; [..|exact I].
    - rewrite (I (first i + n - 1)) by (ranges; lia). rewrite rght_vctr. ranges.
      replace ((snd i + 0 <=? fst i - n) && _) with false by lia. rewrite left_vctr. ranges. replace ((fst i - halo <=? fst i - n) && _) with true by lia.
      replace (2 * fst i - 1 - (fst i - n)) with (fst i + n - 1) by lia. lra.
    - rewrite (I (last i - n)) by (ranges; lia). rewrite rght_vctr. ranges.
      replace ((snd i + 0 <=? snd i + n - 1) && _) with true by lia. rewrite left_vctr. ranges.
      replace ((fst i - halo <=? _) && _) with false by lia.
      replace (2 * snd i - 1 - (snd i + n - 1) + 0) with (snd i - n) by lia. lra.
  Qed.
  Lemma rigid_mirror_sclr : forall a j, first i - halo <= j <= last i + halo ->
    rigid_rght_sclr halo i (mirror_cells i a) j = mirror_cells i (rigid_left_sclr halo i a) j.
  Proof.
    intros. unfold mirror_cells. rewrite rght_sclr, left_sclr. ranges.
    replace ((fst i - halo <=? fst i + snd i - j) && _) with ((snd i <? j) && (j <=? snd i + halo)) by lia.
    destruct ((snd i <? j) && _); f_equal; lia.
  Qed.
  Lemma rigid_mirror_pres : forall a j, first i - halo <= j <= last i + halo ->
    rigid_rght_pres halo i (mirror_cells i a) j = mirror_cells i (rigid_left_pres halo i a) j.
  Proof.
    intros. unfold mirror_cells. rewrite rght_pres, left_pres. ranges.
    replace ((fst i - halo <=? fst i + snd i - j) && _) with ((snd i <? j) && (j <=? snd i + halo)) by lia.
    destruct ((snd i <? j) && _); [|reflexivity].
    replace (fst i + snd i - snd i) with (fst i) by lia.
    replace (fst i + snd i - (2 * snd i - j)) with (2 * fst i - (fst i + snd i - j)) by lia. reflexivity.
  Qed.
  Lemma rigid_mirror_vctr : forall v j, first i - halo <= j < last i + halo ->
    rigid_rght_vctr halo i false (mirror_faces i v) j = mirror_faces i (rigid_left_vctr halo i false v) j.
  Proof.
    intros. unfold mirror_faces. rewrite rght_vctr, left_vctr. ranges.
    replace ((fst i - halo <=? fst i + snd i - 1 - j) && _) with ((snd i + 0 <=? j) && (j <? snd i + halo)) by lia.
    destruct ((snd i + 0 <=? j) && _); f_equal; f_equal; f_equal; lia.
  Qed.
  Lemma rigid_mirror_flux : forall v j,
    rigid_rght_flux halo i (mirror_faces i v) j = mirror_faces i (rigid_left_flux halo i v) j.
  Proof.
    intros. unfold mirror_faces, rigid_left_flux, rigid_rght_flux, upd. ranges.
    replace (fst i + snd i - 1 - j =? fst i - 1 - (halo - 1) + halo - 1) with (j =? snd i + (halo - 1) - (halo - 1)) by lia.
    destruct (j =? snd i + (halo - 1) - (halo - 1)); [|reflexivity]. do 3 f_equal. lia.
  Qed.
End Rigid.

Lemma rigid_ad_not_mirror : exists halo i v j,
  1 <= halo /\ halo <= last i - first i /\ first i - halo <= j < last i + halo /\
  rigid_rght_vctr halo i true (mirror_faces i v) j <> mirror_faces i (rigid_left_vctr halo i true v) j /\
  (* the right wall: the velocities next but one to it should be opposite *)
  (rigid_rght_vctr halo i true v (last i + 1)%Z + rigid_rght_vctr halo i true v (last i - 2)%Z)%R <> 0%R /\
  (rigid_left_vctr halo i true v (first i - 2)%Z + rigid_left_vctr halo i true v (first i + 1)%Z)%R = 0%R.
Proof.
  exists 2, (0, 10), (fun j => IZR j), 11. split; [lia|]. split; [cbn; lia|]. split; [cbn; lia|].
  rewrite !rght_vctr, !left_vctr by (cbn; lia). unfold mirror_faces. rewrite !left_vctr by (cbn; lia). cbn.
  repeat split; lra.
Qed.

(** mass between walls *)
Lemma sum_from_S : forall f from k, sum_from f from (S k) = (sum_from f from k + f (from + Z.of_nat k)%Z)%R.
Proof.
  intros. unfold sum_from. rewrite seq_S. cbn [plus]. rewrite fold_right_app. cbn [fold_right].
  generalize (seq 0 k). induction l; cbn; [lra|]. rewrite IHl. lra.
Qed.
Lemma sum_from_tele : forall (f : Z -> R) from k, sum_from (fun j => (f (j - 1)%Z - f j)%R) from k = (f (from - 1)%Z - f (from + Z.of_nat k - 1)%Z)%R.
Proof.
  induction k; [cbn; rewrite Z.add_0_r; lra|]. rewrite sum_from_S, IHk.
  replace (from + Z.of_nat (S k) - 1) with (from + Z.of_nat k) by lia. lra.
Qed.
Lemma sum_from_plus : forall (f g : Z -> R) from k, sum_from (fun j => (f j + g j)%R) from k = (sum_from f from k + sum_from g from k)%R.
Proof. induction k; [cbn; lra|]. rewrite !sum_from_S, IHk. lra. Qed.
Lemma sum_from_ext : forall (f g : Z -> R) from k, (forall j, from <= j < from + Z.of_nat k -> f j = g j) -> sum_from f from k = sum_from g from k.
Proof. induction k; intros; [reflexivity|]. rewrite !sum_from_S. rewrite IHk by (intros; apply H; lia). rewrite H by lia. reflexivity. Qed.
Lemma rigid_mass : forall halo i (m f : Z -> R), 1 <= halo -> first i < last i ->
  let f' := rigid_rght_flux halo i (rigid_left_flux halo i f) in
  walled_mass i (fun j => (m j - (f' j - f' (j - 1)%Z))%R) = walled_mass i m.
Proof.
  intros halo [fi la] m f Hh Hi f'. unfold ModelIndex.first, ModelIndex.last in Hi. cbn [fst snd] in Hi. unfold walled_mass.
  assert (Fl : f' (fi - 1) = (- f' fi)%R /\ f' la = (- f' (la - 1)%Z)%R).
  { unfold f', rigid_rght_flux, rigid_left_flux. ranges.
    replace (la + (halo - 1) - (halo - 1)) with la by lia. replace (fi - 1 - (halo - 1) + halo - 1) with (fi - 1) by lia.
    split.
    - rewrite (upd_ne _ _ la _ (fi - 1)) by lia. rewrite upd_eq. f_equal.
      destruct (Z.eq_dec fi la); [lia|]. rewrite (upd_ne _ _ la _ fi) by lia. rewrite upd_ne by lia. reflexivity.
    - rewrite upd_eq. f_equal. rewrite (upd_ne _ _ la _ (la - 1)) by lia. reflexivity. }
  clearbody f'. ranges. destruct Fl as [F1 F2].
  rewrite (sum_from_ext (fun j => (m j - (f' j - f' (j - 1)%Z))%R) (fun j => (m j + (f' (j - 1)%Z - f' j))%R)) by (intros; lra).
  rewrite sum_from_plus, sum_from_tele.
  replace (fi + 1 + Z.of_nat (Z.to_nat (la - fi - 1)) - 1) with (la - 1) by lia.
  replace (fi + 1 - 1) with fi by lia. rewrite F1, F2. lra.
Qed.

(** ** Poles *)
Section Polar.
  Variables (V : Type) (halo : Z) (i : rng) (nlon : Z).
  Hypothesis Hh : 1 <= halo.
  Notation nb := (polar_neighbours nlon).
  Lemma for_lon_spec : forall dst src c jj (a : arr2 V), dst <> src ->
    forall r j, for_lon V nlon dst src c jj a r j =
      if (r =? dst) && (jj <=? j) && (j <? jj + Z.of_nat c) then a src (nb j) else a r j.
  Proof.
    induction c; intros jj a N r j; cbn [for_lon].
    - replace ((r =? dst) && (jj <=? j) && (j <? jj + Z.of_nat 0)) with false by lia. reflexivity.
    - rewrite IHc by assumption. unfold upd2.
      replace (src =? dst) with false by lia. cbn [andb].
      destruct (Z.eqb_spec r dst) as [->|]; cbn [andb]; [|reflexivity].
      destruct (Z.eqb_spec j jj) as [->|].
      + replace ((jj + 1 <=? jj) && _) with false by lia. replace ((jj <=? jj) && _) with true by lia. reflexivity.
      + replace ((jj + 1 <=? j) && (j <? jj + 1 + Z.of_nat c)) with ((jj <=? j) && (j <? jj + Z.of_nat (S c))) by lia. reflexivity.
  Qed.
  (** rows are written once each, and not read *)
  Lemma for_rows_spec : forall (dst src : Z -> Z) (j : rng) (a : arr2 V),
    (forall k k', 0 <= k < halo -> 0 <= k' < halo -> dst k <> src k') ->
    (forall k k', 0 <= k < halo -> 0 <= k' < halo -> dst k = dst k' -> k = k') ->
    (forall k q, 0 <= k < halo -> first j <= q <= last j -> for_rows V halo nlon dst src j a (dst k) q = a (src k) (nb q)) /\
    (forall r q, (forall k, 0 <= k < halo -> dst k <> r) -> for_rows V halo nlon dst src j a r q = a r q).
  Proof.
    intros dst src j a N U. unfold for_rows.
    assert (G : forall m, Z.of_nat m <= halo ->
      let a' := fold_left (fun a k => for_lon V nlon (dst (Z.of_nat k)) (src (Z.of_nat k)) (count_of (first j) (last j)) (first j) a) (seq 0 m) a in
      (forall k q, 0 <= k < Z.of_nat m -> first j <= q <= last j -> a' (dst k) q = a (src k) (nb q)) /\
      (forall r q, (forall k, 0 <= k < Z.of_nat m -> dst k <> r) -> a' r q = a r q)).
    { induction m; intros Hm a'.
      - split; intros; [lia|reflexivity].
      - destruct (IHm ltac:(lia)) as [I1 I2]. unfold a'. rewrite seq_S, fold_left_app. cbn [plus fold_left].
        set (b := fold_left _ (seq 0 m) a) in *. split.
        + intros k q Hk Hq. rewrite for_lon_spec by (apply N; lia).
          unfold count_of. destruct (Z.eqb_spec (dst k) (dst (Z.of_nat m))) as [Ek|Nk].
          * assert (k = Z.of_nat m) as -> by (apply U; auto; lia).
            replace (true && (first j <=? q) && (q <? first j + Z.of_nat (Z.to_nat (last j - first j + 1)))) with true by lia.
            apply I2. intros. apply N; lia.
          * cbn [andb]. apply I1; auto. assert (k <> Z.of_nat m) by (intros ->; auto). lia.
        + intros r q Hr. rewrite for_lon_spec by (apply N; lia).
          replace (r =? dst (Z.of_nat m)) with false by (specialize (Hr (Z.of_nat m)); lia). cbn [andb].
          apply I2. intros. apply Hr. lia. }
    destruct (G (Z.to_nat halo) ltac:(lia)) as [G1 G2]. rewrite Z2Nat.id in G1, G2 by lia. split; auto.
  Qed.
  Hypothesis Hi : halo <= last i - first i + 1.
  Lemma polar_left : forall (a : arr2 V) j k q, 0 <= k < halo -> first j <= q <= last j ->
    polar_left_sclr V halo i nlon j a (first i - 1 - k) q = a (first i + k) (nb q).
  Proof.
    intros a j k q Hk Hq. unfold polar_left_sclr.
    pose proof (for_rows_spec (fun k => last (left_halo_sclr halo i) - k) (fun k => left_edge i + k) j a) as S.
    destruct S as [S _]; [intros; ranges; lia|intros; lia|]. specialize (S k q Hk Hq). cbv beta in S.
    replace (last (left_halo_sclr halo i) - k) with (first i - 1 - k) in S by (ranges; lia). exact S.
  Qed.
  Lemma polar_rght : forall (a : arr2 V) j k q, 0 <= k < halo -> first j <= q <= last j ->
    polar_rght_sclr V halo i nlon j a (last i + 1 + k) q = a (last i - k) (nb q).
  Proof.
    intros a j k q Hk Hq. unfold polar_rght_sclr.
    pose proof (for_rows_spec (fun k => first (rght_halo_sclr halo i) + k) (fun k => rght_edge i - k) j a) as S.
    destruct S as [S _]; [intros; ranges; lia|intros; lia|]. specialize (S k q Hk Hq). cbv beta in S.
    replace (first (rght_halo_sclr halo i) + k) with (last i + 1 + k) in S by (ranges; lia). exact S.
  Qed.
  Lemma polar_left_n : forall (a : arr2 V) j k q, 0 <= k < halo -> first j <= q <= last j ->
    polar_left_nrml V halo i nlon j a (first i - 1 - k) q = a (first i + k) (nb q).
  Proof.
    intros a j k q Hk Hq. unfold polar_left_nrml.
    pose proof (for_rows_spec (fun k => first (left_halo_sclr halo i) + k) (fun k => last (left_intr_vctr halo i) - k) j a) as S.
    destruct S as [S _]; [intros; ranges; lia|intros; lia|]. specialize (S (halo - 1 - k) q ltac:(lia) Hq). cbv beta in S.
    replace (first (left_halo_sclr halo i) + (halo - 1 - k)) with (first i - 1 - k) in S by (ranges; lia).
    replace (last (left_intr_vctr halo i) - (halo - 1 - k)) with (first i + k) in S by (ranges; lia). exact S.
  Qed.
End Polar.
Section PolarR.
  Variables (V : Type) (halo : Z) (i : rng) (nlon : Z).
  Hypothesis Hh : 1 <= halo.
  Hypothesis Hi : halo <= last i - first i.
  Lemma polar_rght_n : forall (a : arr2 V) j k q, 0 <= k < halo -> first j <= q <= last j ->
    polar_rght_nrml V halo i nlon j a (last i + 1 + k) q = a (last i - 1 - k) (polar_neighbours nlon q).
  Proof.
    intros a j k q Hk Hq. unfold polar_rght_nrml.
    pose proof (for_rows_spec V halo nlon Hh (fun k => first (rght_halo_sclr halo i) + k) (fun k => last (rght_intr_vctr halo i) - k) j a) as S.
    destruct S as [S _]; [intros; ranges; lia|intros; lia|]. specialize (S k q Hk Hq). cbv beta in S.
    replace (first (rght_halo_sclr halo i) + k) with (last i + 1 + k) in S by (ranges; lia).
    replace (last (rght_intr_vctr halo i) - k) with (last i - 1 - k) in S by (ranges; lia). exact S.
  Qed.
End PolarR.

Lemma periodic_mul : forall V n (g : Z -> V) k j, periodic n g -> g (j + k * (n - 1)) = g j.
Proof.
  intros V n g k j P. revert j.
  assert (Pos : forall m j, g (j + Z.of_nat m * (n - 1)) = g j).
  { induction m; intros; [f_equal; lia|]. replace (j + Z.of_nat (S m) * (n - 1)) with ((j + Z.of_nat m * (n - 1)) + (n - 1)) by lia.
    rewrite P. apply IHm. }
  intros j. destruct (Z.le_ge_cases 0 k).
  - rewrite <- (Z2Nat.id k) by assumption. apply Pos.
  - rewrite <- (Pos (Z.to_nat (- k)) (j + k * (n - 1))). f_equal. rewrite Z2Nat.id by lia. lia.
Qed.
Lemma polar_antipode : forall V p (g : Z -> V) j, 1 <= p -> - p <= j -> periodic (2 * p + 1) g ->
  g (polar_neighbours (2 * p + 1) j) = g (j + p) /\ 0 <= polar_neighbours (2 * p + 1) j < 2 * p.
Proof.
  intros V p g j Hp Hj P. unfold polar_neighbours, pole.
  replace (Z.quot (2 * p + 1 - 1) 2) with p.
  2:{ replace (2 * p + 1 - 1) with (p * 2) by lia. rewrite Z.quot_mul by lia. reflexivity. }
  rewrite Z.rem_mod_nonneg by lia.
  pose proof (Z.mod_pos_bound (j + p) (2 * p) ltac:(lia)). split; [|lia].
  rewrite (Z.mod_eq (j + p) (2 * p)) by lia.
  rewrite <- (periodic_mul V (2 * p + 1) g (- ((j + p) / (2 * p))) (j + p) P). f_equal. lia.
Qed.
Lemma polar_involution : forall p j, 1 <= p -> 0 <= j < 2 * p ->
  polar_neighbours (2 * p + 1) (polar_neighbours (2 * p + 1) j) = j.
Proof.
  intros p j Hp Hj. unfold polar_neighbours, pole.
  replace (Z.quot (2 * p + 1 - 1) 2) with p.
  2:{ replace (2 * p + 1 - 1) with (p * 2) by lia. rewrite Z.quot_mul by lia. reflexivity. }
  rewrite (Z.rem_mod_nonneg (j + p)) by lia.
  pose proof (Z.mod_pos_bound (j + p) (2 * p) ltac:(lia)).
  rewrite Z.rem_mod_nonneg by lia. rewrite Z.add_mod_idemp_l by lia.
  replace (j + p + p) with (j + 1 * (2 * p)) by lia. rewrite Z.mod_add by lia. apply Z.mod_small. lia.
Qed.
