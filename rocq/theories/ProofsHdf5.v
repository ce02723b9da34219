(** Proofs about stored arrays. *)
From Coq Require Import ZArith List Bool Lia.
From Verif Require Import ModelIndex ModelHdf5 SpecIndex SpecHdf5 ProofsIndex.
Import ListNotations.
Local Open Scope Z_scope.

Definition nneg (ext : list Z) : Prop := Forall (fun n => 0 <= n) ext.
Lemma volume_nn ext : nneg ext -> 0 <= volume ext.
Proof. induction 1; cbn [volume fold_right]; [lia|]. unfold volume in IHForall. nia. Qed.
Lemma fm_length {A B : Type} (f : A -> list B) l n : (forall x, In x l -> length (f x) = n) -> length (flat_map f l) = (length l * n)%nat.
Proof. induction l as [|x l IH]; intros H; [reflexivity|]. cbn [flat_map length]. rewrite app_length, IH by (intros; apply H; right; auto). rewrite (H x) by (left; auto). lia. Qed.
Lemma length_elements {V} lb ext (f : list Z -> V) : nneg ext -> Z.of_nat (length (elements lb ext f)) = volume ext.
Proof.
  revert lb f. induction ext as [|n ext IH]; intros lb f H; [reflexivity|]. inversion H; subst. cbn [elements volume fold_right].
  rewrite (fm_length _ _ (Z.to_nat (volume ext))).
  - rewrite seq_length. pose proof (volume_nn ext H3). unfold volume in *. nia.
  - intros i _. pose proof (IH (tl lb) (fun r => f (hd 0 lb + Z.of_nat i :: r)) H3). lia.
Qed.
Lemma fm_nth {A B : Type} (f : A -> list B) l n i k x : (forall x, In x l -> length (f x) = n) -> nth_error l i = Some x -> (k < n)%nat ->
  nth_error (flat_map f l) (i * n + k) = nth_error (f x) k.
Proof.
  revert i. induction l as [|y l IH]; intros i H E K; [destruct i; discriminate|]. cbn [flat_map]. destruct i as [|i].
  - cbn in E. injection E as ->. rewrite nth_error_app1; [reflexivity|]. rewrite (H x) by (left; auto). lia.
  - rewrite nth_error_app2; rewrite (H y) by (left; auto); [|lia]. replace (S i * n + k - n)%nat with (i * n + k)%nat by lia. apply IH; auto. intros; apply H; right; auto.
Qed.
Lemma seq_nth_error n i : (i < n)%nat -> nth_error (seq 0 n) i = Some i.
Proof. intros H. rewrite (nth_error_nth' _ 0%nat) by (rewrite seq_length; exact H). rewrite seq_nth by exact H. reflexivity. Qed.
Lemma within_nneg ext c : within ext c -> nneg ext.
Proof. induction 1; constructor; [lia|auto]. Qed.
Lemma flat_bound ext c : within ext c -> 0 <= flat ext c < volume ext.
Proof.
  induction 1 as [|n i ext c H Hs IH]; [cbn; lia|]. cbn [flat volume fold_right]. unfold volume in *. nia.
Qed.
Lemma nth_elements {V} ext c : within ext c -> forall lb (f : list Z -> V), length lb = length ext ->
  nth_error (elements lb ext f) (Z.to_nat (flat ext c)) = Some (f (zip Z.add lb c)).
Proof.
  induction 1 as [|n i ext c Hi Hs IH]; intros lb f L.
  - destruct lb; [reflexivity|discriminate].
  - destruct lb as [|b lb]; [discriminate|]. cbn [length] in L. injection L as L. cbn [elements flat hd tl].
    pose proof (flat_bound ext c Hs) as B. pose proof (within_nneg ext c Hs) as NN.
    replace (Z.to_nat (i * volume ext + flat ext c)) with (Z.to_nat i * Z.to_nat (volume ext) + Z.to_nat (flat ext c))%nat by nia.
    rewrite (fm_nth _ _ (Z.to_nat (volume ext)) (Z.to_nat i) (Z.to_nat (flat ext c)) (Z.to_nat i)).
    + rewrite IH by auto. cbn [zip]. rewrite Z2Nat.id by lia. reflexivity.
    + intros x _. pose proof (length_elements lb ext (fun r => f (b + Z.of_nat x :: r)) NN). lia.
    + apply seq_nth_error. lia.
    + lia.
Qed.
Lemma elements_in {V} ext : forall lb (f : list Z -> V) v, length lb = length ext -> In v (elements lb ext f) -> exists c, within ext c /\ v = f (zip Z.add lb c).
Proof.
  induction ext as [|n ext IH]; intros lb f v L H.
  - destruct lb; [|discriminate]. exists []. split; [constructor|]. destruct H as [<-|[]]. reflexivity.
  - destruct lb as [|b lb]; [discriminate|]. cbn [length] in L. injection L as L. cbn [elements hd tl] in H. apply in_flat_map in H as (i & Hi & H).
    apply in_seq in Hi. destruct (IH lb _ v L H) as (c & W & ->). exists (Z.of_nat i :: c). split; [constructor; [lia|exact W]|reflexivity].
Qed.

(** ** selections *)
Definition sel (off cnt idx : list Z) : Prop := in_selb off cnt idx = true.
Lemma sel_spec off : forall cnt idx, sel off cnt idx <-> (length off = length cnt /\ length idx = length cnt /\ within cnt (zip Z.sub idx off)).
Proof.
  induction off as [|o off IH]; intros [|c cnt] [|i idx]; unfold sel; cbn [in_selb length zip]; split; intros H; try discriminate; try tauto; try (destruct H as (A & B & C); discriminate).
  - repeat split. constructor.
  - apply andb_true_iff in H as [H1 H2]. apply andb_true_iff in H1 as [H0 H1]. apply Z.leb_le in H0. apply Z.ltb_lt in H1.
    apply (IH cnt idx) in H2 as (A & B & C). repeat split; [lia|lia|]. constructor; [lia|exact C].
  - destruct H as (A & B & C). inversion C; subst. rewrite !andb_true_iff. repeat split; [apply Z.leb_le; lia|apply Z.ltb_lt; lia|].
    apply IH. repeat split; auto; lia.
Qed.
Lemma zip_within moff : forall cnt ext c, sel_okb moff cnt ext = true -> within cnt c -> within ext (zip Z.add moff c).
Proof.
  induction moff as [|o moff IH]; intros [|k cnt] [|n ext] c H W; cbn [sel_okb] in H; try discriminate; inversion W; subst; cbn [zip]; [constructor|].
  apply andb_true_iff in H as [J1 J2]. apply andb_true_iff in J1 as [J0 J1]. apply andb_true_iff in J0 as [J3 J4].
  apply Z.leb_le in J1, J3, J4. constructor; [lia|]. eapply IH; eauto.
Qed.
Lemma zip_zeros c : forall ext, length c = length ext -> zip Z.add (zeros ext) c = c.
Proof. induction c as [|i c IH]; intros [|n ext] L; try discriminate; [reflexivity|]. cbn [length] in L. cbn [zeros map zip]. f_equal. apply IH. lia. Qed.
Lemma within_length ext c : within ext c -> length c = length ext.
Proof. induction 1; cbn [length]; auto. Qed.
Lemma sel_ok_len moff : forall cnt ext, sel_okb moff cnt ext = true -> length moff = length cnt /\ length ext = length cnt.
Proof.
  induction moff as [|o moff IH]; intros [|k cnt] [|n ext] H; cbn [sel_okb] in H; try discriminate; [auto|].
  apply andb_true_iff in H as [_ H]. apply IH in H as [A B]. cbn [length]. lia.
Qed.
Lemma write_ok {V} lb mext moff cnt foff fext (arr : list Z -> V) (file : dataset V) :
  length lb = length mext -> nneg mext -> sel_okb moff cnt mext = true -> sel_okb foff cnt fext = true ->
  exists f, h5_write (elements lb mext arr) mext moff cnt foff fext file = Some f /\
    forall idx, f idx = if in_selb foff cnt idx then Some (arr (zip Z.add lb (zip Z.add moff (zip Z.sub idx foff)))) else file idx.
Proof.
  intros L NN S1 S2. unfold h5_write. rewrite S1, S2. cbn [andb].
  assert (F : forallb (fun c => flat mext (zip Z.add moff c) <? Z.of_nat (length (elements lb mext arr))) (elements (zeros cnt) cnt (fun c => c)) = true).
  { apply forallb_forall. intros c Hc. apply elements_in in Hc as (c' & W & ->); [|unfold zeros; apply map_length].
    rewrite zip_zeros by (apply within_length; auto). apply Z.ltb_lt. rewrite length_elements by auto. apply flat_bound. eapply zip_within; eauto. }
  rewrite F. eexists. split; [reflexivity|]. intros idx. cbn beta. destruct (in_selb foff cnt idx) eqn:E; [|reflexivity].
  apply (sel_spec foff cnt idx) in E as (A & B & C). apply nth_elements; auto. eapply zip_within; eauto.
Qed.

(** ** all processes *)
Lemma write_all_ok {V} (w : Z -> dataset V -> option (dataset V)) (part : Z -> list Z -> bool) (g : list Z -> V) :
  forall ranks, (forall r, In r ranks -> forall file, exists f, w r file = Some f /\ forall idx, f idx = if part r idx then Some (g idx) else file idx) ->
  forall file, exists f, write_all w ranks file = Some f /\ forall idx, f idx = if existsb (fun r => part r idx) ranks then Some (g idx) else file idx.
Proof.
  induction ranks as [|r rs IH]; intros H file; [exists file; split; auto|].
  destruct (H r (or_introl eq_refl) file) as (f & E & F). destruct (IH (fun s Hs => H s (or_intror Hs)) f) as (f' & E' & F').
  exists f'. split; [cbn [write_all]; rewrite E; exact E'|]. intros idx. rewrite F'. cbn [existsb].
  rewrite F. destruct (part r idx), (existsb (fun r0 => part r0 idx) rs); reflexivity.
Qed.

Section Proc.
  Variables (N h P : Z) (rest : list Z).
  Hypothesis HN : 0 <= N.
  Hypothesis HP : 0 < P.
  Hypothesis Hh : 0 <= h.
  Hypothesis Hr : nneg rest.
  Notation own := (own N P).
  Lemma own_len r : 0 <= r < P -> 0 <= rlen (own r).
  Proof.
    intros H. unfold ModelHdf5.own, slab, rlen, first, last, dd_max. cbn [fst snd].
    pose proof (dd_min_mono (N - 1 - 0 + 1) r (r + 1) P). lia.
  Qed.
  Lemma own_first r : 0 <= r < P -> 0 <= first (own r).
  Proof.
    intros H. unfold ModelHdf5.own, slab, first. cbn [fst]. pose proof (dd_min_mono (N - 1 - 0 + 1) 0 r P). pose proof (dd_min_0 (N - 1 - 0 + 1) P HP). unfold rlen, first, last. cbn [fst snd]. lia.
  Qed.
  Lemma own_next r : first (own (r + 1)) = first (own r) + rlen (own r).
  Proof. unfold ModelHdf5.own, slab, rlen, first, last, dd_max. cbn [fst snd]. lia. Qed.
  Lemma own_0 : first (own 0) = 0.
  Proof. unfold ModelHdf5.own, slab, first. cbn [fst]. rewrite dd_min_0 by lia. reflexivity. Qed.
  Lemma own_end r : 0 <= r < P -> first (own r) + rlen (own r) <= N /\ (r = P - 1 -> first (own r) + rlen (own r) = N).
  Proof.
    intros H. rewrite <- own_next. unfold ModelHdf5.own, slab, first. cbn [fst]. unfold rlen, first, last. cbn [fst snd].
    pose proof (dd_min_mono (N - 1 - 0 + 1) (r + 1) P P). pose proof (dd_min_full (N - 1 - 0 + 1) P). split; [lia|intros ->; replace (P - 1 + 1) with P by lia; lia].
  Qed.
  Lemma own_one : P = 1 -> first (own 0) = 0 /\ rlen (own 0) = N.
  Proof. intros E. pose proof own_0. destruct (own_end 0) as [_ B]; [lia|]. specialize (B ltac:(lia)). lia. Qed.
  Lemma own_covers i : 0 <= i < N -> exists r, 0 <= r < P /\ first (own r) <= i < first (own r) + rlen (own r).
  Proof.
    intros H. destruct (slab_cover (0, N - 1) P i) as (r & A & B); [lia|unfold in_range, in_rng in *; cbn; lia|].
    exists r. split; [exact A|]. unfold in_range, in_rng in B. unfold rlen, ModelHdf5.own. unfold first, last in *. lia.
  Qed.

  Lemma nneg_map k : 0 <= k -> nneg (map (fun n => n + k) rest).
  Proof. intros K. unfold nneg in *. apply Forall_map. eapply Forall_impl; [|exact Hr]. cbn. intros; lia. Qed.
  Lemma sel_zero l : nneg l -> sel_okb (zeros l) l l = true.
  Proof. induction 1; [reflexivity|]. cbn [zeros map sel_okb]. change (map (fun _ : Z => 0) l) with (zeros l). rewrite IHForall. rewrite !andb_true_iff. repeat split; apply Z.leb_le; lia. Qed.
  Lemma zeros_len l : length (zeros l) = length l.
  Proof. apply map_length. Qed.
  Lemma sub_zeros (k : list Z) : forall c, length c = length k -> zip Z.sub c (zeros k) = c.
  Proof. induction k as [|n k IH]; intros [|i c] L; try discriminate; [reflexivity|]. cbn [length] in L. cbn [zeros map zip]. rewrite Z.sub_0_r. f_equal. apply IH. lia. Qed.
  Lemma zeros_zeros {A} (f : A -> Z) (k : list A) : zeros (map f k) = map (fun _ => 0) k.
  Proof. unfold zeros. rewrite map_map. reflexivity. Qed.
  (** parts along the first dimension *)
  Lemma sel_first o c k ext idx : nneg ext -> length k = length ext -> (forall x, In x k -> x = 0) -> within (o + c :: ext) idx \/ True ->
    in_selb (o :: k) (c :: ext) idx = match idx with i :: rest' => (o <=? i) && (i <? o + c) && in_selb k ext rest' | [] => false end.
  Proof. intros _ _ _ _. destruct idx; reflexivity. Qed.
  Lemma sel_zeros ext idx : in_selb (zeros ext) ext idx = true <-> within ext idx.
  Proof.
    split.
    - intros H. apply (sel_spec (zeros ext) ext idx) in H as (A & B & C). rewrite sub_zeros in C by auto. exact C.
    - intros H. apply (sel_spec (zeros ext) ext idx). repeat split; [apply zeros_len|apply within_length; auto|]. rewrite sub_zeros by (apply within_length; auto). exact H.
  Qed.
  Section Cover.
    Variables (off cnt : Z -> Z) (E : Z) (ext k : list Z).
    Hypothesis Kz : k = zeros ext.
    Hypothesis Cov : forall i, 0 <= i < E -> exists r, 0 <= r < P /\ off r <= i < off r + cnt r.
    Lemma covered ranks idx : each_process P ranks -> within (E :: ext) idx -> existsb (fun r => in_selb (off r :: k) (cnt r :: ext) idx) ranks = true.
    Proof.
      intros EP W. inversion W; subst. destruct (Cov y) as (r & R & B); [lia|]. apply existsb_exists. exists r. split; [apply EP; exact R|].
      cbn [in_selb]. rewrite !andb_true_iff. repeat split; [apply Z.leb_le; lia|apply Z.ltb_lt; lia|]. apply sel_zeros. auto.
    Qed.
  End Cover.

  (** *** fields *)
  Lemma record_dsc_writes {V} (g : list Z -> V) (arr : list Z -> V) r file : 0 <= r < P ->
    (forall idx, in_selb (first (own r) :: zeros rest) (rlen (own r) :: rest) idx = true -> arr idx = g idx) ->
    exists f, record_dsc N P rest r arr file = Some f /\
    forall idx, f idx = if in_selb (first (own r) :: zeros rest) (rlen (own r) :: rest) idx then Some (g idx) else file idx.
  Proof.
    intros R A. unfold record_dsc.
    assert (S0 : shape N P rest r = rlen (own r) :: rest /\ offst N P rest r = first (own r) :: zeros rest).
    { unfold shape, offst, multi. destruct (Z.ltb_spec 1 P); [auto|]. destruct own_one as [B C]; [lia|]. assert (r = 0) by lia. subst r. rewrite B, C. auto. }
    destruct S0 as [-> ->]. pose proof (own_len r R). pose proof (own_first r R). destruct (own_end r R) as [OE _].
    assert (NN : nneg (rlen (own r) :: rest)) by (constructor; auto).
    destruct (write_ok (first (own r) :: zeros rest) (rlen (own r) :: rest) (zeros (rlen (own r) :: rest)) (rlen (own r) :: rest) (first (own r) :: zeros rest) (ext_f N rest) arr file) as (f & E & F).
    - cbn [length]. rewrite zeros_len. reflexivity.
    - exact NN.
    - apply sel_zero; auto.
    - unfold ext_f. cbn [sel_okb]. rewrite sel_zero by auto. rewrite !andb_true_iff. repeat split; apply Z.leb_le; lia.
    - exists f. split; [exact E|]. intros idx. rewrite F. destruct (in_selb _ _ idx) eqn:SE; [|reflexivity]. f_equal. rewrite <- (A idx SE). f_equal.
      apply (sel_spec (first (own r) :: zeros rest) (rlen (own r) :: rest) idx) in SE as (_ & L & _). destruct idx as [|i idx]; [discriminate|].
      cbn [length] in L. injection L as L. cbn [zip zeros map]. change (map (fun _ : Z => 0) rest) with (zeros rest). rewrite sub_zeros by auto. rewrite (zip_zeros idx) by auto. rewrite (zip_zeros idx) by auto. f_equal. lia.
  Qed.
  Lemma fields_stored {V} (g : list Z -> V) (arr : Z -> list Z -> V) ranks file : each_process P ranks ->
    (forall r i idx, 0 <= r < P -> in_range i (own r) -> within rest idx -> arr r (i :: idx) = g (i :: idx)) ->
    exists f, write_all (fun r => record_dsc N P rest r (arr r)) ranks file = Some f /\ holds (N :: rest) g f.
  Proof.
    intros EP A.
    destruct (write_all_ok (fun r => record_dsc N P rest r (arr r)) (fun r => in_selb (first (own r) :: zeros rest) (rlen (own r) :: rest)) g ranks) with (file := file) as (f & E & F).
    - intros r Hin fl. apply EP in Hin. apply record_dsc_writes; auto. intros [|i idx] S; [discriminate|]. cbn [in_selb] in S.
      apply andb_true_iff in S as [S1 S2]. apply andb_true_iff in S1 as [S0 S1]. apply Z.leb_le in S0. apply Z.ltb_lt in S1. apply sel_zeros in S2.
      apply A; auto. unfold in_range, rlen in *. unfold first, last in *. lia.
    - exists f. split; [exact E|]. intros idx W. rewrite F. rewrite (covered (fun r => first (own r)) (fun r => rlen (own r)) N rest (zeros rest)); auto. apply own_covers.
  Qed.

  (** *** coordinates *)
  Definition ccnt (r : Z) : Z := if multi P then rlen (own r) + (if r =? P - 1 then 1 else 0) else N + 1.
  Lemma ccover i : 0 <= i < N + 1 -> exists r, 0 <= r < P /\ first (own r) <= i < first (own r) + ccnt r.
  Proof.
    intros H. unfold ccnt, multi. destruct (Z.ltb_spec 1 P).
    - destruct (Z.eq_dec i N) as [->|NE].
      + exists (P - 1). split; [lia|]. rewrite Z.eqb_refl. destruct (own_end (P - 1)) as [_ B]; [lia|]. specialize (B eq_refl). pose proof (own_len (P - 1)). lia.
      + destruct (own_covers i) as (r & R & B); [lia|]. exists r. split; [exact R|]. destruct (r =? P - 1); lia.
    - exists 0. destruct own_one as [B C]; [lia|]. lia.
  Qed.
  Lemma record_coord_writes {V} (mul : Z -> V) d r file : 0 <= r < P -> (d <= length rest)%nat ->
    exists f, record_coord N P rest mul d r file = Some f /\
    forall idx, f idx = if in_selb (first (own r) :: zeros (map (fun n => n + 1) rest)) (ccnt r :: map (fun n => n + 1) rest) idx then Some (mul (nth d idx 0)) else file idx.
  Proof.
    intros R D. unfold record_coord. set (rest1 := map (fun n => n + 1) rest).
    assert (Z0 : zeros rest = zeros rest1) by (unfold rest1; rewrite zeros_zeros; reflexivity).
    assert (S0 : cshape N P rest r = ccnt r :: rest1 /\ offst N P rest r = first (own r) :: zeros rest1).
    { unfold cshape, offst, ccnt, multi. rewrite Z0. destruct (Z.ltb_spec 1 P); [auto|]. destruct own_one as [B C]; [lia|]. assert (r = 0) by lia. subst r. rewrite B. auto. }
    destruct S0 as [-> ->]. pose proof (own_len r R) as OL. pose proof (own_first r R). destruct (own_end r R) as [OE OE1].
    assert (CB : 0 <= ccnt r /\ first (own r) + ccnt r <= N + 1).
    { unfold ccnt, multi. destruct (Z.ltb_spec 1 P); [destruct (Z.eqb_spec r (P - 1)); lia|]. destruct own_one as [B C]; [lia|]. assert (r = 0) by lia. subst r. lia. }
    assert (NN : nneg (ccnt r :: rest1)) by (constructor; [lia|apply nneg_map; lia]).
    assert (NN1 : nneg rest1) by (inversion NN; auto).
    destruct (write_ok (first (own r) :: zeros rest1) (ccnt r :: rest1) (zeros (ccnt r :: rest1)) (ccnt r :: rest1) (first (own r) :: zeros rest1) (ext_c N rest) (fun idx => mul (nth d idx 0)) file) as (f & E & F).
    - cbn [length]. rewrite zeros_len. reflexivity.
    - exact NN.
    - apply sel_zero; auto.
    - unfold ext_c. cbn [sel_okb]. fold rest1. rewrite sel_zero by auto. rewrite !andb_true_iff. repeat split; apply Z.leb_le; lia.
    - exists f. split; [exact E|]. intros idx. rewrite F. destruct (in_selb _ _ idx) eqn:SE; [|reflexivity]. f_equal. f_equal. f_equal.
      apply (sel_spec (first (own r) :: zeros rest1) (ccnt r :: rest1) idx) in SE as (_ & L & _). destruct idx as [|i idx]; [discriminate|].
      cbn [length] in L. injection L as L. cbn [zip zeros map]. change (map (fun _ : Z => 0) rest1) with (zeros rest1). rewrite sub_zeros by auto. rewrite (zip_zeros idx) by auto. rewrite (zip_zeros idx) by auto. f_equal. lia.
  Qed.
  Lemma coords_stored {V} (mul : Z -> V) d ranks file : each_process P ranks -> (d <= length rest)%nat ->
    exists f, write_all (record_coord N P rest mul d) ranks file = Some f /\ holds (ext_c N rest) (fun idx => mul (nth d idx 0)) f.
  Proof.
    intros EP D. set (rest1 := map (fun n => n + 1) rest).
    destruct (write_all_ok (record_coord N P rest mul d) (fun r => in_selb (first (own r) :: zeros rest1) (ccnt r :: rest1)) (fun idx => mul (nth d idx 0)) ranks) with (file := file) as (f & E & F).
    - intros r Hin fl. apply EP in Hin. apply record_coord_writes; auto.
    - exists f. split; [exact E|]. intros idx W. rewrite F. rewrite (covered (fun r => first (own r)) ccnt (N + 1) rest1 (zeros rest1)); auto. apply ccover.
  Qed.

  (** *** arrays with halos *)
  Definition hoff (r : Z) : Z := if multi P then if r =? 0 then 0 else first (own r) + h else 0.
  Definition hcnt (r : Z) : Z := if multi P then if is_end P r then rlen (own r) + h else rlen (own r) else N + 2 * h.
  Definition hmem (r : Z) : Z := if multi P && (0 <? r) then h else 0.
  Lemma hcover i : 0 <= i < N + 2 * h -> exists r, 0 <= r < P /\ hoff r <= i < hoff r + hcnt r.
  Proof.
    intros H. unfold hoff, hcnt, multi, is_end. destruct (Z.ltb_spec 1 P); [|exists 0; lia]. pose proof own_0 as O0. pose proof (own_len 0 ltac:(lia)) as L0.
    destruct (Z.ltb_spec i h); [exists 0; split; [lia|]; cbn; lia|].
    destruct (Z.ltb_spec (i - h) N).
    - destruct (own_covers (i - h)) as (r & R & B); [lia|]. exists r. split; [exact R|]. destruct (Z.eqb_spec r 0) as [->|]; cbn [orb]; [lia|]. destruct (r =? P - 1); lia.
    - exists (P - 1). split; [lia|]. destruct (Z.eqb_spec (P - 1) 0); [lia|]. rewrite Z.eqb_refl. cbn [orb]. destruct (own_end (P - 1)) as [_ B]; [lia|]. specialize (B eq_refl). pose proof (own_len (P - 1)). lia.
  Qed.
  Lemma hbounds r : 0 <= r < P -> 0 <= hoff r /\ 0 <= hcnt r /\ hoff r + hcnt r <= N + 2 * h /\ 0 <= hmem r /\ hmem r + hcnt r <= rlen (own r) + 2 * h /\ first (own r) - h + hmem r = hoff r - h.
  Proof.
    intros R. unfold hoff, hcnt, hmem, multi, is_end. pose proof (own_len r R). pose proof (own_first r R). destruct (own_end r R) as [OE OE1]. pose proof own_0.
    destruct (Z.ltb_spec 1 P); cbn [andb].
    - destruct (Z.eqb_spec r 0) as [->|]; cbn [orb].
      + change (0 <? 0) with false. cbn [andb]. cbv iota. lia.
      + destruct (Z.ltb_spec 0 r); [|lia]. destruct (Z.eqb_spec r (P - 1)); lia.
    - destruct own_one as [B C]; [lia|]. assert (r = 0) by lia. subst r. lia.
  Qed.
  Lemma zip_shift (k : list Z) : forall c, length c = length k -> zip Z.add (map (fun _ => - h) k) c = map (fun i => i - h) c.
  Proof. induction k as [|n k IH]; intros [|i c] L; try discriminate; [reflexivity|]. cbn [length] in L. cbn [map zip]. f_equal; [lia|apply IH; lia]. Qed.
  Lemma shift_within (k : list Z) : forall idx, within (map (fun n => n + 2 * h) k) idx -> Forall2 (fun n j => - h <= j < n + h) k (map (fun i => i - h) idx).
  Proof.
    induction k as [|n k IH]; intros idx W; inversion W; subst; cbn [map].
    - constructor.
    - constructor; [destruct h; lia|apply IH; exact H3].
  Qed.
  Lemma record_halo_writes {V} (g : list Z -> V) (arr : list Z -> V) r file : 0 <= r < P -> length rest <> 2%nat ->
    (forall i idx, first (own r) - h <= i <= last (own r) + h -> Forall2 (fun n j => - h <= j < n + h) rest idx -> arr (i :: idx) = g (i :: idx)) ->
    exists f, record_halo N h P rest r arr file = Some f /\
    forall idx, f idx = if in_selb (hoff r :: zeros (map (fun n => n + 2 * h) rest)) (hcnt r :: map (fun n => n + 2 * h) rest) idx then Some (shifted h g idx) else file idx.
  Proof.
    intros R D A. unfold record_halo. destruct (Nat.eqb_spec (length rest) 2); [contradiction|]. set (rest1 := map (fun n => n + 2 * h) rest).
    assert (Z0 : zeros rest = zeros rest1) by (unfold rest1; rewrite zeros_zeros; reflexivity).
    change (shape_h N h P rest r) with (hcnt r :: rest1). change (shape_mem_h N h P rest r) with (rlen (own r) + 2 * h :: rest1).
    change (offst_h N h P rest r) with (hoff r :: zeros rest). change (offst_mem_h h P rest r) with (hmem r :: zeros rest). rewrite !Z0.
    destruct (hbounds r R) as (B1 & B2 & B3 & B4 & B5 & B6). pose proof (own_len r R).
    assert (NN1 : nneg rest1) by (apply nneg_map; lia).
    destruct (write_ok (first (own r) - h :: map (fun _ => - h) rest) (rlen (own r) + 2 * h :: rest1) (hmem r :: zeros rest1) (hcnt r :: rest1) (hoff r :: zeros rest1) (ext_h N h rest) arr file) as (f & E & F).
    - cbn [length]. unfold rest1. rewrite !map_length. reflexivity.
    - constructor; [lia|auto].
    - cbn [sel_okb]. rewrite sel_zero by auto. rewrite !andb_true_iff. repeat split; apply Z.leb_le; lia.
    - unfold ext_h. cbn [sel_okb]. fold rest1. rewrite sel_zero by auto. rewrite !andb_true_iff. repeat split; apply Z.leb_le; lia.
    - exists f. split; [exact E|]. intros idx. rewrite F. destruct (in_selb _ _ idx) eqn:SE; [|reflexivity]. f_equal.
      apply (sel_spec (hoff r :: zeros rest1) (hcnt r :: rest1) idx) in SE as (_ & L & W). destruct idx as [|i idx]; [discriminate|].
      cbn [length] in L. injection L as L. cbn [zip] in W |- *. inversion W as [|? ? ? ? W1 W2]; subst. rewrite sub_zeros in W2 by auto. rewrite sub_zeros by auto. rewrite zip_zeros by auto.
      assert (L2 : length idx = length rest) by (rewrite L; unfold rest1; apply map_length).
      rewrite zip_shift by auto. unfold shifted. cbn [map]. replace (first (own r) - h + (hmem r + (i - hoff r))) with (i - h) by lia.
      apply A.
      + unfold rlen in *. lia.
      + apply shift_within; exact W2.
  Qed.
  Lemma halos_stored {V} (g : list Z -> V) (arr : Z -> list Z -> V) ranks file : each_process P ranks -> length rest <> 2%nat ->
    (forall r i idx, 0 <= r < P -> first (own r) - h <= i <= last (own r) + h -> Forall2 (fun n j => - h <= j < n + h) rest idx -> arr r (i :: idx) = g (i :: idx)) ->
    exists f, write_all (fun r => record_halo N h P rest r (arr r)) ranks file = Some f /\ holds (ext_h N h rest) (shifted h g) f.
  Proof.
    intros EP D A. set (rest1 := map (fun n => n + 2 * h) rest).
    destruct (write_all_ok (fun r => record_halo N h P rest r (arr r)) (fun r => in_selb (hoff r :: zeros rest1) (hcnt r :: rest1)) (shifted h g) ranks) with (file := file) as (f & E & F).
    - intros r Hin fl. apply EP in Hin. apply record_halo_writes; auto.
    - exists f. split; [exact E|]. intros idx W. rewrite F. rewrite (covered hoff hcnt (N + 2 * h) rest1 (zeros rest1)); auto. apply hcover.
  Qed.
End Proc.
