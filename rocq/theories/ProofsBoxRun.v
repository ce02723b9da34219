(** Runs in closed boxes as halves of runs in channels twice as long. *)
From Coq Require Import ZArith List Bool Lia ZifyBool Reals Lra.
From Verif Require Import ModelIndex ModelRun Lang ProofsLang Stencil ProofsStencil FormCommon Form2D Solver1D Solver2D Macro ProofsMacro
  Proofs1D ProofsThread1D ProofsThread2D ProofsOne2D Arith SpecReal SpecThreads SpecFields2 SpecRun2 SpecNum2 SpecBcond ProofsBcond SpecChannel2 SpecWalls2
  Fun1D ProofsFun1D FunN ProofsFunN ProofsFun2D ProofsNumN ProofsSymN ProofsReal2D ProofsNat2D ProofsSymRun2D
  ProofsValid ProofsValid2D ProofsValidC2D ProofsRef2D ProofsRefC2D ProofsExchC2D Lattice ProofsLattice ProofsCyclic2D ProofsStale2D ProofsChannel2D
  ProofsChannelRun ProofsValidI2D ProofsRefI2D ProofsImgPt ProofsImages2D SpecImages2 ProofsImagesRun
  ProofsImgPtX ProofsValidB2D ProofsExchB2D ProofsKeepB2D ProofsRefB2D SpecImagesBox.
Import ListNotations.
Local Open Scope Z_scope.

Lemma image_plain o nit : image_passes o nit -> plain_passes o nit.
Proof. unfold image_passes, plain_passes. intuition. Qed.
Lemma image_stale_b o nit : image_passes o nit -> no_stale_b o nit = true.
Proof.
  intros I. pose proof (image_no_stale o nit (image_plain o nit I) I) as H. unfold no_stale_im, no_stale_ch in H. unfold no_stale_b.
  apply andb_prop in H. destruct H as [H _]. apply andb_prop in H. destruct H as [-> _]. cbn [andb].
  destruct I as [H|(-> & -> & _)].
  - rewrite (proj2 (Nat.leb_le nit 2) H), !orb_true_r. reflexivity.
  - cbn. rewrite orb_true_r. reflexivity.
Qed.

Section Box.
  Variables eps tiny : R.
  Notation AR := (arithR eps tiny).
  Variable r : run2.
  Hypothesis RK : run2_ok r.
  Notation mem := (loc -> R).
  Notation lo := (s_lo r).
  Notation hi := (s_hi r).
  Notation ne := (n_eqns (s_cfg r)).
  Notation o := (s_o r).
  Notation w := (wrap2 (s_lo (long r)) (s_hi (long r)) DX).
  Notation N := (hi DX - lo DX).

  Lemma long_ok : run2_ok (long r).
  Proof.
    destruct RK as [A B C]. destruct (ok_lo_hi r RK). constructor; auto. cbn [long s_o s_hi s_lo]. intros d Hd. pose proof (C d Hd).
    destruct d; lia.
  Qed.
  (** the image of given data *)
  Definition image_along (m : mem) : mem := fun l =>
    match parx (snd (fst l)) with
    | Some true => if comp DX (snd l) <? hi DX then m l else (- m (fst l, ((2 * hi DX - 1 - comp DX (snd l))%Z, comp DY (snd l), comp DZ (snd l))))%R
    | _ => m (fst l, (imaged (hi DX) (comp DX (snd l)), comp DY (snd l), comp DZ (snd l)))
    end.
  Lemma image_along_ok (m : mem) : with_image_along Ropp lo hi ne (nug o) m (image_along m).
  Proof.
    split; [|split; [|split; [|split]]]; try reflexivity.
    - intros i j Hi Hj. unfold face2, image_along. cbn [fst snd parx comp]. destruct (Z.ltb_spec i (hi DX)); [reflexivity|lia].
    - intros i j Hi Hj. unfold face2, image_along. cbn [fst snd parx comp]. destruct (Z.ltb_spec i (hi DX)); [lia|reflexivity].
  Qed.
  Lemma imx_in i : lo DX <= i <= 2 * hi DX - lo DX -> lo DX <= imaged (hi DX) i <= hi DX.
  Proof. destruct (ok_lo_hi r RK). unfold imaged. destruct (Z.leb_spec i (hi DX)); lia. Qed.
  Lemma image_channel (m m2 : mem) : with_image_along Ropp lo hi ne (nug o) m m2 ->
    channel_data2 (s_lo (long r)) (s_hi (long r)) (n_eqns (s_cfg (long r))) (nug (s_o (long r))) m2.
  Proof.
    intros (W1 & W2 & W3 & W4 & W5). cbn [long s_lo s_hi s_cfg s_o]. destruct (ok_lo_hi r RK) as [LX LY].
    assert (IT : imaged (hi DX) (2 * hi DX - lo DX) = lo DX) by (unfold imaged; destruct (Z.leb_spec (2 * hi DX - lo DX) (hi DX)); lia).
    assert (IL : imaged (hi DX) (lo DX) = lo DX) by (unfold imaged; destruct (Z.leb_spec (lo DX) (hi DX)); lia).
    split; [|split].
    - intros e j He Hj. rewrite !W1 by (auto; lia). rewrite IT, IL. reflexivity.
    - intros j Hj. rewrite !W2 by (auto; lia). rewrite IT, IL. reflexivity.
    - intros NU j Hj. rewrite !W5 by (auto; lia). rewrite IT, IL. reflexivity.
  Qed.
  Lemma images_same (m m2 m3 : mem) : with_image_along Ropp lo hi ne (nug o) m m2 -> with_image_along Ropp lo hi ne (nug o) m m3 ->
    same_data2 (s_lo (long r)) (s_hi (long r)) (n_eqns (s_cfg (long r))) (nug (s_o (long r))) m2 m3.
  Proof.
    intros (W1 & W2 & W3 & W4 & W5) (V1 & V2 & V3 & V4 & V5). cbn [long s_lo s_hi s_cfg s_o]. split; [|split; [|split]].
    - intros. rewrite W1, V1 by auto. reflexivity.
    - intros i j Hi Hj. destruct (Z_lt_le_dec i (hi DX)); [rewrite W3, V3 by lia|rewrite W4, V4 by lia]; reflexivity.
    - intros. rewrite W2, V2 by auto. reflexivity.
    - intros. rewrite W5, V5 by auto. reflexivity.
  Qed.
  Lemma same_trans lo' hi' k g (a b c : mem) : same_data2 lo' hi' k g a b -> same_data2 lo' hi' k g b c -> same_data2 lo' hi' k g a c.
  Proof.
    intros (A1 & A2 & A3 & A4) (B1 & B2 & B3 & B4). split; [|split; [|split]]; intros.
    - rewrite A1, B1; auto.
    - rewrite A2, B2; auto.
    - rewrite A3, B3; auto.
    - rewrite A4, B4; auto.
  Qed.
  Lemma images_box (m m2 : mem) : with_image_along Ropp lo hi ne (nug o) m m2 -> same_data2 lo hi ne (nug o) m m2.
  Proof.
    intros (W1 & W2 & W3 & W4 & W5). destruct (ok_lo_hi r RK) as [LX LY].
    assert (I : forall i, i <= hi DX -> imaged (hi DX) i = i) by (intros i Hi; unfold imaged; destruct (Z.leb_spec i (hi DX)); lia).
    split; [|split; [|split]]; intros.
    - rewrite W1, I by (auto; lia). reflexivity.
    - rewrite W3 by lia. reflexivity.
    - rewrite W2, I by (auto; lia). reflexivity.
    - rewrite W5, I by (auto; lia). reflexivity.
  Qed.
  Lemma same_long (m f : mem) : same_data2 (s_lo (long r)) (s_hi (long r)) (n_eqns (s_cfg (long r))) (nug (s_o (long r))) m f -> same_data2 lo hi ne (nug o) m f.
  Proof. cbn [long s_lo s_hi s_cfg s_o]. destruct (ok_lo_hi r RK) as [LX LY]. intros (A1 & A2 & A3 & A4). split; [|split; [|split]]; intros; auto; [apply A1|apply A2|apply A3|apply A4]; auto; lia. Qed.

  (** *** Data extended by images at all walls *)
  Definition boxext (m : mem) : mem := imext (long r) (image_along m).
  Lemma boxext_along m : periodic AR (s_per (long r) DX, 0, 0) (boxext m).
  Proof. apply imext_along, long_ok. Qed.
  Lemma wx_val x : w x = lo DX + (x - lo DX) mod (2 * N).
  Proof. unfold wrap2. cbn [long s_lo s_hi]. f_equal. f_equal. lia. Qed.
  Lemma tx_neg x s : s = 2 * lo DX \/ s = 2 * hi DX ->
    (s - x - lo DX) mod (2 * N) = if (x - lo DX) mod (2 * N) =? 0 then 0 else 2 * N - (x - lo DX) mod (2 * N).
  Proof.
    destruct (ok_lo_hi r RK) as [LX LY]. intros Hs.
    assert (E : (s - x - lo DX) mod (2 * N) = (lo DX - x) mod (2 * N)).
    { destruct Hs as [-> | ->]; [f_equal; lia|]. replace (2 * hi DX - x - lo DX) with (lo DX - x + 1 * (2 * N)) by lia. apply Z.mod_add. lia. }
    rewrite E. clear E Hs. pose proof (Z.mod_pos_bound (x - lo DX) (2 * N) ltac:(lia)) as B.
    pose proof (Z.div_mod (x - lo DX) (2 * N) ltac:(lia)) as D.
    set (q := (x - lo DX) / (2 * N)) in *. set (t := (x - lo DX) mod (2 * N)) in *. clearbody q t.
    destruct (Z.eqb_spec t 0); symmetry.
    - apply (Z.mod_unique_pos _ _ (- q)); nia.
    - apply (Z.mod_unique_pos _ _ (- q - 1)); nia.
  Qed.
  Lemma tx_negf x s : s = 2 * lo DX \/ s = 2 * hi DX -> (s - x - 1 - lo DX) mod (2 * N) = 2 * N - 1 - (x - lo DX) mod (2 * N).
  Proof.
    destruct (ok_lo_hi r RK) as [LX LY]. intros Hs.
    assert (E : (s - x - 1 - lo DX) mod (2 * N) = (lo DX - x - 1) mod (2 * N)).
    { destruct Hs as [-> | ->]; [f_equal; lia|]. replace (2 * hi DX - x - 1 - lo DX) with (lo DX - x - 1 + 1 * (2 * N)) by lia. apply Z.mod_add. lia. }
    rewrite E. clear E Hs. pose proof (Z.mod_pos_bound (x - lo DX) (2 * N) ltac:(lia)) as B.
    pose proof (Z.div_mod (x - lo DX) (2 * N) ltac:(lia)) as D.
    set (q := (x - lo DX) / (2 * N)) in *. set (t := (x - lo DX) mod (2 * N)) in *. clearbody q t.
    symmetry. apply (Z.mod_unique_pos _ _ (- q - 1)); nia.
  Qed.
  Lemma along_even m a x y z s : parx (snd a) = Some false -> s = 2 * lo DX \/ s = 2 * hi DX ->
    image_along m (a, (w x, y, z)) = image_along m (a, (w (s - x), y, z)).
  Proof.
    intros Pa Hs. destruct (ok_lo_hi r RK) as [LX LY]. unfold image_along. cbn [fst snd comp]. rewrite Pa. do 2 f_equal. do 2 f_equal.
    rewrite !wx_val, (tx_neg x s Hs). pose proof (Z.mod_pos_bound (x - lo DX) (2 * N) ltac:(lia)) as B.
    set (t := (x - lo DX) mod (2 * N)) in *. unfold imaged. destruct (Z.eqb_spec t 0) as [->|]; [reflexivity|].
    destruct (Z.leb_spec (lo DX + t) (hi DX)), (Z.leb_spec (lo DX + (2 * N - t)) (hi DX)); lia.
  Qed.
  Lemma along_odd m a x y z s : parx (snd a) = Some true -> s = 2 * lo DX \/ s = 2 * hi DX ->
    image_along m (a, (w x, y, z)) = (- image_along m (a, (w (s - x - 1)%Z, y, z)))%R.
  Proof.
    intros Pa Hs. destruct (ok_lo_hi r RK) as [LX LY]. unfold image_along. cbn [fst snd comp]. rewrite Pa.
    rewrite !wx_val, (tx_negf x s Hs). pose proof (Z.mod_pos_bound (x - lo DX) (2 * N) ltac:(lia)) as B.
    set (t := (x - lo DX) mod (2 * N)) in *.
    destruct (Z.ltb_spec (lo DX + t) (hi DX)), (Z.ltb_spec (lo DX + (2 * N - 1 - t)) (hi DX)); try lia.
    - rewrite Ropp_involutive. repeat (f_equal; try lia).
    - repeat (f_equal; try lia).
  Qed.
  Lemma boxext_symSx m s e : s = 2 * lo DX \/ s = 2 * hi DX -> symSx s (viewN AR e (boxext m)).
  Proof.
    intros Hs a. unfold symAx. assert (T : snd (tag e a) = a) by (destruct a; reflexivity).
    destruct (parx a) as [[]|] eqn:Pa; auto; intros [[x y] z]; unfold viewN, boxext, imext, mh, pv, un, iadd; cbn [fst snd comp]; rewrite T;
      rewrite ?Z.add_0_r.
    - assert (Py : par a = Some false \/ par a = None) by (destruct a; cbn in Pa |- *; try discriminate; auto; destruct d; try discriminate; auto).
      replace (s - x + -1) with (s - x - 1) by lia.
      assert (K : forall y', image_along m (tag e a, (w x, y', z)) = (- image_along m (tag e a, (w (s - x - 1)%Z, y', z)))%R) by (intros; apply along_odd; auto; rewrite T; auto).
      destruct Py as [-> | ->]; [|apply K]. destruct (tm (long r) y <=? _); apply K.
    - assert (K : forall y', image_along m (tag e a, (w x, y', z)) = image_along m (tag e a, (w (s - x), y', z))) by (intros; apply along_even; auto; rewrite T; auto).
      destruct (par a) as [[]|]; [|destruct (tm (long r) y <=? _); apply K|apply K]. destruct (tm (long r) y <? _); [apply K|f_equal; apply K].
  Qed.
  Lemma boxext_symB m : symB r eps tiny (boxext m).
  Proof.
    split.
    - pose proof (imext_sym eps tiny (long r) long_ok (image_along m)) as H. exact H.
    - intros e. split; apply boxext_symSx; auto.
  Qed.
  Lemma boxext_same_long m m2 : with_image_along Ropp lo hi ne (nug o) m m2 ->
    same_data2 (s_lo (long r)) (s_hi (long r)) (n_eqns (s_cfg (long r))) (nug (s_o (long r))) m2 (boxext m).
  Proof.
    intros W. eapply same_trans; [apply (images_same m m2 (image_along m) W), image_along_ok|].
    apply imext_same; [apply long_ok|]. apply (image_channel m), image_along_ok.
  Qed.
  Lemma boxext_same m : same_data2 lo hi ne (nug o) m (boxext m).
  Proof. eapply same_trans; [apply (images_box m (image_along m)), image_along_ok|]. apply same_long, (boxext_same_long m), image_along_ok. Qed.

  Lemma box_agree n nt (m m' : mem) : walled_end2 AR r n nt m m' -> image_passes o (s_nit r) -> (0 < ne)%nat ->
    symB r eps tiny (lat_progs AR (run_macro2 r nt) (boxext m)) /\
    forall e i j, (e < ne)%nat -> lo DX <= i <= hi DX -> lo DY <= j <= hi DY ->
      cell2 m' e (newest2 r nt) i j = cell2 (lat_progs AR (run_macro2 r nt) (boxext m)) e (newest2 r nt) i j.
  Proof.
    intros [_ BL BR Hn Hs T E] IP Z0. apply image_stale_b in IP.
    destruct (bb_run_agree2 r n RK Hn Hs IP eps tiny (fun d _ => BL d) (fun d _ => BR d) nt m (boxext m) Z0
        (inv0_same2 r AR n m (boxext m) Hn Hs (boxext_same m)) (boxext_symB m)) as [A S].
    split; [exact S|]. intros e i j He Hi Hj. unfold cell2. rewrite (can_end_run2 r RK n Hn Hs AR nt m m' T E).
    apply (inv_cell2 r AR n _ _ (newest2 r nt) e i j Hn Hs); auto.
  Qed.

  Theorem box_images n n2 nt (m m' m2 m2' : mem) : walled_end2 AR r n nt m m' -> image_passes o (s_nit r) -> with_image_along Ropp lo hi ne (nug o) m m2 ->
    channel_end2 AR (long r) n2 nt m2 m2' ->
    forall e i j, (e < ne)%nat -> lo DX <= i <= 2 * hi DX - lo DX -> lo DY <= j <= hi DY ->
      cell2 m2' e (newest2 r nt) i j = cell2 m' e (newest2 r nt) (imaged (hi DX) i) j.
  Proof.
    intros B IP WI C e i j He Hi Hj.
    destruct (box_agree n nt m m' B IP ltac:(lia)) as [S A]. rewrite A by (auto; apply imx_in; auto).
    pose proof (imref_agree eps tiny (long r) long_ok n2 nt m2 m2' (boxext m) C IP (boxext_same_long m m2 WI) (boxext_along m) e i j He Hi Hj) as Q.
    change (newest2 (long r) nt) with (newest2 r nt) in Q. change (run_macro2 (long r) nt) with (run_macro2 r nt) in Q.
    destruct (imref_lat eps tiny (long r) (run_macro2 r nt) (keeps_run eps tiny (long r) long_ok (ch_bly _ _ _ _ _ _ C) (ch_bry _ _ _ _ _ _ C) nt) (boxext m)
      (imext_sym eps tiny (long r) long_ok (image_along m))) as [L _].
    rewrite Q. unfold cell2 at 1. rewrite L. clear -S. unfold cell2, imaged. destruct (Z.leb_spec i (hi DX)); [reflexivity|].
    destruct S as [_ S]. destruct (S e) as [_ S2].
    pose proof (of_scalx (2 * hi DX) (Psi (newest2 r nt)) _ eq_refl S2 (i, j, 0)) as W. exact W.
  Qed.
  Theorem box_images_exist n nt (m m' m2 : mem) : walled_end2 AR r n nt m m' -> image_passes o (s_nit r) -> with_image_along Ropp lo hi ne (nug o) m m2 ->
    exists m2', channel_end2 AR (long r) 1 nt m2 m2'.
  Proof.
    intros B IP W. destruct (ok_lo_hi r RK) as [LX LY].
    destruct (can_end_exec2 (long r) nt AR m2 long_ok) as (m2' & E & _).
    exists m2'. constructor; auto; try reflexivity.
    - apply long_ok.
    - cbn [long s_lo s_hi]. lia.
    - left. reflexivity.
    - apply image_plain, IP.
    - apply (image_channel m), W.
  Qed.
End Box.
