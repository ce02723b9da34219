(** Runs in channels as halves of runs on cyclic grids twice as wide. *)
From Coq Require Import ZArith List Bool Lia ZifyBool Reals Lra.
From Verif Require Import ModelIndex ModelRun Lang ProofsLang Stencil ProofsStencil FormCommon Form2D Solver1D Solver2D Macro ProofsMacro
  Proofs1D ProofsThread1D ProofsThread2D ProofsOne2D Arith SpecReal SpecThreads SpecFields2 SpecRun2 SpecNum2 SpecBcond ProofsBcond SpecChannel2
  FunN ProofsFunN ProofsFun2D ProofsNumN ProofsSymN ProofsReal2D ProofsNat2D ProofsSymRun2D
  ProofsValid ProofsValid2D ProofsValidC2D ProofsRef2D ProofsRefC2D ProofsExchC2D Lattice ProofsLattice ProofsCyclic2D ProofsStale2D ProofsChannel2D
  ProofsChannelRun ProofsValidI2D ProofsRefI2D ProofsImgPt ProofsImages2D SpecImages2.
Import ListNotations.
Local Open Scope Z_scope.

Lemma image_no_stale o nit : plain_passes o nit -> image_passes o nit -> no_stale_im o nit = true.
Proof.
  intros P. apply plain_no_stale in P. unfold no_stale_im. rewrite P. cbn [andb]. clear P.
  intros [H|(H1 & H2 & H3)].
  - rewrite (proj2 (Nat.leb_le nit 2) H), !orb_true_r. reflexivity.
  - rewrite H1, H2. cbn. rewrite orb_true_r. reflexivity.
Qed.

Section Img.
  Variables eps tiny : R.
  Notation AR := (arithR eps tiny).
  Variable r : run2.
  Hypothesis RK : run2_ok r.
  Notation mem := (loc -> R).
  Notation lo := (s_lo r).
  Notation hi := (s_hi r).
  Notation ne := (n_eqns (s_cfg r)).
  Notation o := (s_o r).
  Notation w := (wrap2 lo hi DX).
  Notation along := (periodic AR (s_per r DX, 0, 0)).

  Lemma imref_agree n nt (m m' f : mem) : channel_end2 AR r n nt m m' -> image_passes o (s_nit r) -> same_data2 lo hi ne (nug o) m f -> along f ->
    forall e i j, (e < ne)%nat -> lo DX <= i <= hi DX -> lo DY <= j <= hi DY ->
      cell2 m' e (newest2 r nt) i j = cell2 (imref eps tiny r (run_macro2 r nt) f) e (newest2 r nt) i j.
  Proof.
    intros [_ B1 B2 B3 B4 Hn Hs T NS CD E] IP SD P e i j He Hi Hj. pose proof (image_no_stale _ _ NS IP) as NI. clear NS IP.
    unfold cell2. rewrite (can_end_run2 r RK n Hn Hs AR nt m m' T E).
    apply (inv_cell2 r AR n _ _ (newest2 r nt) e i j Hn Hs); auto.
    refine (proj1 (im_run_agree2 r n RK Hn Hs NI AR (fun e s => lat_do AR e s) (imx AR r) along _ _ _ _ _ nt m f _ _ P)).
    - intros. apply lat_ref2.
    - intros. apply lat_do_periodic. auto.
    - intros. apply imx_periodic. auto.
    - intros. eapply img_vx2; eauto.
    - intros. apply imx_frame. auto.
    - lia.
    - apply inv0_same2; auto.
  Qed.

  (** *** Data extended by images *)
  Notation N := (hi DY - lo DY).
  Definition tm (y : Z) : Z := (y - lo DY) mod (2 * N).
  Definition imext (m : mem) : mem := fun l =>
    let t := tm (comp DY (snd l)) in
    let at_ y := m (fst l, (w (comp DX (snd l)), lo DY + y, comp DZ (snd l))) in
    match par (snd (fst l)) with
    | None => at_ t
    | Some false => if t <=? N then at_ t else at_ (2 * N - t)
    | Some true => if t <? N then at_ t else (- at_ (2 * N - 1 - t)%Z)%R
    end.

  Lemma tm_in y : 0 <= tm y < 2 * N.
  Proof. destruct (ok_lo_hi r RK) as [LX LY]. unfold tm. apply Z.mod_pos_bound. lia. Qed.
  Lemma tm_id y : lo DY <= y < 2 * hi DY - lo DY -> tm y = y - lo DY.
  Proof. intros H. unfold tm. apply Z.mod_small. lia. Qed.
  Lemma tm_top : tm (2 * hi DY - lo DY) = 0.
  Proof. destruct (ok_lo_hi r RK) as [LX LY]. unfold tm. replace (2 * hi DY - lo DY - lo DY) with (2 * N) by lia. apply Z.mod_same. lia. Qed.
  Lemma tm_per y : tm (y + 2 * N) = tm y.
  Proof. destruct (ok_lo_hi r RK) as [LX LY]. unfold tm. replace (y + 2 * N - lo DY) with (y - lo DY + 1 * (2 * N)) by lia. apply Z.mod_add. lia. Qed.
  Lemma tm_neg y s : s = 2 * lo DY \/ s = 2 * hi DY -> tm (s - y) = if tm y =? 0 then 0 else 2 * N - tm y.
  Proof.
    destruct (ok_lo_hi r RK) as [LX LY]. intros Hs.
    assert (E : tm (s - y) = tm (2 * lo DY - y)).
    { destruct Hs as [-> | ->]; [reflexivity|]. rewrite <- (tm_per (2 * lo DY - y)). f_equal. lia. }
    rewrite E. clear E Hs. pose proof (tm_in y) as B. unfold tm in *.
    pose proof (Z.div_mod (y - lo DY) (2 * N) ltac:(lia)) as D.
    set (q := (y - lo DY) / (2 * N)) in *. set (t := (y - lo DY) mod (2 * N)) in *. clearbody q t.
    destruct (Z.eqb_spec t 0); symmetry.
    - apply (Z.mod_unique_pos _ _ (- q)); nia.
    - apply (Z.mod_unique_pos _ _ (- q - 1)); nia.
  Qed.
  Lemma tm_negf y s : s = 2 * lo DY \/ s = 2 * hi DY -> tm (s - y - 1) = 2 * N - 1 - tm y.
  Proof.
    destruct (ok_lo_hi r RK) as [LX LY]. intros Hs.
    assert (E : tm (s - y - 1) = tm (2 * lo DY - y - 1)).
    { destruct Hs as [-> | ->]; [reflexivity|]. rewrite <- (tm_per (2 * lo DY - y - 1)). f_equal. lia. }
    rewrite E. clear E Hs. pose proof (tm_in y) as B. unfold tm in *.
    pose proof (Z.div_mod (y - lo DY) (2 * N) ltac:(lia)) as D.
    set (q := (y - lo DY) / (2 * N)) in *. set (t := (y - lo DY) mod (2 * N)) in *. clearbody q t.
    symmetry. apply (Z.mod_unique_pos _ _ (- q - 1)); nia.
  Qed.

  Lemma imext_along (m : mem) : along (imext m).
  Proof.
    destruct (ok_lo_hi r RK) as [LX LY].
    intros a [[x y] z]. unfold imext, iadd. cbn [fst snd comp]. rewrite !Z.add_0_r. unfold s_per. rewrite cw_per; auto.
  Qed.
  Lemma imext_across (m : mem) : periodic AR (0, s_per (wide r) DY, 0) (imext m).
  Proof.
    intros a [[x y] z]. unfold imext, iadd. cbn [fst snd comp]. rewrite !Z.add_0_r.
    replace (y + s_per (wide r) DY) with (y + 2 * N) by (unfold s_per, wide; cbn [s_hi s_lo]; lia). rewrite tm_per. reflexivity.
  Qed.
  Lemma imext_symS (m : mem) s e : s = 2 * lo DY \/ s = 2 * hi DY -> symS s (viewN AR e (imext m)).
  Proof.
    intros Hs a. unfold symA. assert (T : snd (tag e a) = a) by (destruct a; reflexivity).
    destruct (par a) as [[]|] eqn:Pa; auto; intros [[x y] z]; unfold viewN, imext, mh, pv, un, iadd; cbn [fst snd comp]; rewrite T, Pa;
      rewrite ?Z.add_0_r; pose proof (tm_in y) as B.
    - replace (s - y + -1) with (s - y - 1) by lia. rewrite (tm_negf y s Hs).
      destruct (Z.ltb_spec (tm y) N), (Z.ltb_spec (2 * N - 1 - tm y) N); try lia.
      + rewrite Ropp_involutive. repeat (f_equal; try lia).
      + repeat (f_equal; try lia).
    - rewrite (tm_neg y s Hs). destruct (Z.eqb_spec (tm y) 0) as [Q|Q].
      + rewrite Q. reflexivity.
      + destruct (Z.leb_spec (tm y) N), (Z.leb_spec (2 * N - tm y) N); try lia; repeat (f_equal; try lia).
  Qed.
  Lemma imext_sym (m : mem) : symM eps tiny r (imext m).
  Proof. intros e. split; apply imext_symS; auto. Qed.

  (** values on the channel *)
  Lemma ie_even (m : mem) a i j z : par (snd a) = Some false -> lo DY <= j <= hi DY -> imext m (a, (i, j, z)) = m (a, (w i, j, z)).
  Proof.
    intros Pa Hj. unfold imext. cbn [fst snd comp]. rewrite Pa. rewrite tm_id by (destruct (ok_lo_hi r RK); lia).
    destruct (Z.leb_spec (j - lo DY) N); [|lia]. repeat (f_equal; try lia).
  Qed.
  Lemma ie_even2 (m : mem) a i j z : par (snd a) = Some false -> lo DY <= j <= 2 * hi DY - lo DY ->
    imext m (a, (i, j, z)) = m (a, (w i, imaged (hi DY) j, z)).
  Proof.
    intros Pa Hj. unfold imaged. destruct (Z.leb_spec j (hi DY)); [apply ie_even; auto; lia|].
    unfold imext. cbn [fst snd comp]. rewrite Pa. destruct (Z.eq_dec j (2 * hi DY - lo DY)) as [->|NJ].
    - rewrite tm_top. destruct (ok_lo_hi r RK) as [LX LY]. destruct (Z.leb_spec 0 N); [|lia]. repeat (f_equal; try lia).
    - rewrite tm_id by lia. destruct (Z.leb_spec (j - lo DY) N); [lia|]. repeat (f_equal; try lia).
  Qed.
  Lemma ie_odd (m : mem) a i j z : par (snd a) = Some true -> lo DY <= j < hi DY -> imext m (a, (i, j, z)) = m (a, (w i, j, z)).
  Proof.
    intros Pa Hj. unfold imext. cbn [fst snd comp]. rewrite Pa. rewrite tm_id by lia.
    destruct (Z.ltb_spec (j - lo DY) N); [|lia]. repeat (f_equal; try lia).
  Qed.
  Lemma ie_odd2 (m : mem) a i j z : par (snd a) = Some true -> hi DY <= j < 2 * hi DY - lo DY ->
    imext m (a, (i, j, z)) = (- m (a, (w i, (2 * hi DY - 1 - j)%Z, z)))%R.
  Proof.
    intros Pa Hj. unfold imext. cbn [fst snd comp]. rewrite Pa. rewrite tm_id by (destruct (ok_lo_hi r RK); lia).
    destruct (Z.ltb_spec (j - lo DY) N); [lia|]. repeat (f_equal; try lia).
  Qed.

  Lemma imext_same (m : mem) : channel_data2 lo hi ne (nug o) m -> same_data2 lo hi ne (nug o) m (imext m).
  Proof.
    intros (C & F & G). destruct (ok_lo_hi r RK) as [LX LY]. split; [|split; [|split]].
    - intros e i j He Hi Hj. unfold cell2 at 2. rewrite ie_even by auto. change (cell2 m e false i j = cell2 m e false (w i) j).
      destruct (cw_or lo hi i Hi) as [->|Wi]; [rewrite cw_hi by auto; apply C; auto|rewrite Wi; reflexivity].
    - intros i j Hi Hj. unfold face2 at 2. rewrite ie_even by auto. rewrite cw_id by lia. reflexivity.
    - intros i j Hi Hj. unfold face2 at 2. rewrite ie_odd by auto. change (face2 m DY i j = face2 m DY (w i) j).
      destruct (cw_or lo hi i Hi) as [->|Wi]; [rewrite cw_hi by auto; apply F; auto|rewrite Wi; reflexivity].
    - intros NU i j Hi Hj. unfold gfac2 at 2. rewrite ie_even by auto. change (gfac2 m i j = gfac2 m (w i) j).
      destruct (cw_or lo hi i Hi) as [->|Wi]; [rewrite cw_hi by auto; apply G; auto|rewrite Wi; reflexivity].
  Qed.
  Lemma im_in j : lo DY <= j <= 2 * hi DY - lo DY -> lo DY <= imaged (hi DY) j <= hi DY.
  Proof. destruct (ok_lo_hi r RK). unfold imaged. destruct (Z.leb_spec j (hi DY)); lia. Qed.
  Lemma imext_wide (m m2 : mem) : channel_data2 lo hi ne (nug o) m -> with_image Ropp lo hi ne (nug o) m m2 ->
    same_data2 (s_lo (wide r)) (s_hi (wide r)) (n_eqns (s_cfg (wide r))) (nug (s_o (wide r))) m2 (imext m).
  Proof.
    intros (C & F & G) (W1 & W2 & W3 & W4 & W5). cbn [wide s_lo s_hi s_cfg s_o]. destruct (ok_lo_hi r RK) as [LX LY]. split; [|split; [|split]].
    - intros e i j He Hi Hj. rewrite W1 by auto. unfold cell2 at 2. rewrite ie_even2 by auto.
      set (k := imaged (hi DY) j). assert (Hk : lo DY <= k <= hi DY) by (apply im_in; auto). change (cell2 m e false i k = cell2 m e false (w i) k).
      destruct (cw_or lo hi i Hi) as [->|Wi]; [rewrite cw_hi by auto; apply C; auto|rewrite Wi; reflexivity].
    - intros i j Hi Hj. rewrite W2 by auto. unfold face2 at 2. rewrite ie_even2 by auto. rewrite cw_id by lia. reflexivity.
    - intros i j Hi Hj. unfold face2 at 2. destruct (Z_lt_le_dec j (hi DY)) as [J|J].
      + rewrite W3, ie_odd by (auto; lia). change (face2 m DY i j = face2 m DY (w i) j).
        destruct (cw_or lo hi i Hi) as [->|Wi]; [rewrite cw_hi by auto; apply F; auto; lia|rewrite Wi; reflexivity].
      + rewrite W4, ie_odd2 by (auto; lia). f_equal. set (k := 2 * hi DY - 1 - j). change (face2 m DY i k = face2 m DY (w i) k).
        destruct (cw_or lo hi i Hi) as [->|Wi]; [rewrite cw_hi by auto; apply F; auto; unfold k; lia|rewrite Wi; reflexivity].
    - intros NU i j Hi Hj. rewrite W5 by auto. unfold gfac2 at 2. rewrite ie_even2 by auto.
      set (k := imaged (hi DY) j). assert (Hk : lo DY <= k <= hi DY) by (apply im_in; auto). change (gfac2 m i k = gfac2 m (w i) k).
      destruct (cw_or lo hi i Hi) as [->|Wi]; [rewrite cw_hi by auto; apply G; auto|rewrite Wi; reflexivity].
  Qed.

  Lemma wide_macro nt : run_macro2 (wide r) nt = run_macro2 r nt.
  Proof. reflexivity. Qed.
  Lemma wide_newest nt : newest2 (wide r) nt = newest2 r nt.
  Proof. reflexivity. Qed.
  Lemma wide_ok : run2_ok (wide r).
  Proof.
    destruct RK as [A B C]. destruct (ok_lo_hi r RK). constructor; auto. cbn [wide s_o s_hi s_lo]. intros d Hd. pose proof (C d Hd).
    destruct d; lia.
  Qed.
  Lemma plain_fresh : plain_passes o (s_nit r) -> no_stale2 o (s_nit r) = true.
  Proof. intros H. apply plain_no_stale in H. unfold no_stale_ch in H. apply andb_prop in H. apply H. Qed.

  Theorem images n n2 nt (m m' m2 m2' : mem) : channel_end2 AR r n nt m m' -> image_passes o (s_nit r) -> with_image Ropp lo hi ne (nug o) m m2 ->
    cyclic_end2 AR (wide r) n2 nt m2 m2' ->
    forall e i j, (e < ne)%nat -> lo DX <= i <= hi DX -> lo DY <= j <= 2 * hi DY - lo DY ->
      cell2 m2' e (newest2 r nt) i j = cell2 m' e (newest2 r nt) i (imaged (hi DY) j).
  Proof.
    intros C IP WI [K BL BR Hn2 Hs2 T2 NS2 CD2 E2] e i j He Hi Hj. pose proof (ch_data _ _ _ _ _ _ C) as D.
    pose proof (imref_agree n nt m m' (imext m) C IP (imext_same m D) (imext_along m)) as A.
    destruct (imref_lat eps tiny r (run_macro2 r nt) (keeps_run eps tiny r RK (ch_bly _ _ _ _ _ _ C) (ch_bry _ _ _ _ _ _ C) nt) (imext m) (imext_sym m)) as [L SY].
    pose proof (cyclic_lattice2 (wide r) K BL BR AR n2 nt m2 m2' (imext m) Hn2 Hs2 T2 NS2 (imext_wide m m2 D WI)
      (conj (imext_along m) (imext_across m)) E2 e i j He Hi Hj) as Q.
    rewrite wide_macro, wide_newest in Q. etransitivity; [exact Q|].
    rewrite A by (auto; apply im_in; auto). unfold cell2 at 2. rewrite L. clear -SY Hj. unfold cell2, imaged.
    destruct (Z.leb_spec j (hi DY)); [reflexivity|]. destruct (SY e) as [_ S2].
    pose proof (of_scal (2 * hi DY) (Psi (newest2 r nt)) _ eq_refl S2 (i, j, 0)) as W. exact W.
  Qed.

  Lemma image_cyclic (m m2 : mem) : channel_data2 lo hi ne (nug o) m -> with_image Ropp lo hi ne (nug o) m m2 ->
    cyclic_data2 (s_lo (wide r)) (s_hi (wide r)) (n_eqns (s_cfg (wide r))) (nug (s_o (wide r))) m2.
  Proof.
    intros (C & F & G) (W1 & W2 & W3 & W4 & W5). cbn [wide s_lo s_hi s_cfg s_o]. destruct (ok_lo_hi r RK) as [LX LY].
    assert (IT : imaged (hi DY) (2 * hi DY - lo DY) = lo DY) by (unfold imaged; destruct (Z.leb_spec (2 * hi DY - lo DY) (hi DY)); lia).
    assert (IL : imaged (hi DY) (lo DY) = lo DY) by (unfold imaged; destruct (Z.leb_spec (lo DY) (hi DY)); lia).
    split; [|split; [|split]].
    - intros e He. split; intros k Hk; rewrite !W1 by (auto; lia); [apply C; auto; apply im_in; auto|rewrite IT, IL; reflexivity].
    - intros i Hi. rewrite !W2 by (auto; lia). rewrite IT, IL. reflexivity.
    - intros j Hj. destruct (Z_lt_le_dec j (hi DY)) as [J|J]; [rewrite !W3 by lia; apply F; lia|].
      rewrite !W4 by lia. f_equal. apply F. lia.
    - intros NU. split; intros k Hk; rewrite !W5 by (auto; lia); [apply G; auto; apply im_in; auto|rewrite IT, IL; reflexivity].
  Qed.
  Theorem images_exist n nt (m m' m2 : mem) : channel_end2 AR r n nt m m' -> with_image Ropp lo hi ne (nug o) m m2 ->
    exists m2', cyclic_end2 AR (wide r) n nt m2 m2'.
  Proof.
    intros C W. destruct (finish2 (wide r) wide_ok n (ch_n _ _ _ _ _ _ C) (ch_rows _ _ _ _ _ _ C) AR nt m2 (ch_settled _ _ _ _ _ _ C)) as [[m2' E] _].
    exists m2'. constructor; auto; try reflexivity; try apply C.
    - apply wide_ok.
    - apply plain_fresh. apply C.
    - apply (image_cyclic m); auto. apply C.
  Qed.
  (** the image of given data *)
  Definition image_of (m : mem) : mem := fun l =>
    match par (snd (fst l)) with
    | Some true => if comp DY (snd l) <? hi DY then m l else (- m (fst l, (comp DX (snd l), (2 * hi DY - 1 - comp DY (snd l))%Z, comp DZ (snd l))))%R
    | _ => m (fst l, (comp DX (snd l), imaged (hi DY) (comp DY (snd l)), comp DZ (snd l)))
    end.
  Lemma image_of_ok (m : mem) : with_image Ropp lo hi ne (nug o) m (image_of m).
  Proof.
    split; [|split; [|split; [|split]]]; try reflexivity.
    - intros i j Hi Hj. unfold face2, image_of. cbn [fst snd par comp]. destruct (Z.ltb_spec j (hi DY)); [reflexivity|lia].
    - intros i j Hi Hj. unfold face2, image_of. cbn [fst snd par comp]. destruct (Z.ltb_spec j (hi DY)); [lia|reflexivity].
  Qed.
End Img.
