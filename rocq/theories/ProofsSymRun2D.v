(** Mirror images and transposition for whole runs of the 2D solver. *)
From Coq Require Import ZArith List Bool Lia ZifyBool Reals Lra FunctionalExtensionality.
From Verif Require Import ModelRun Lang ProofsLang Stencil FormCommon Form2D Solver1D Solver2D Fun1D FunN Arith SpecReal
  SpecThreads SpecFields2 SpecNum2 SpecRun2 SpecSym2 ProofsThread2D ProofsOne2D ProofsValid2D ProofsCyclic2D
  ProofsReal1D ProofsAnti1D ProofsNum1D ProofsSign1D ProofsSym1D
  ProofsFunN ProofsPerN ProofsNumN ProofsSymN ProofsReal2D ProofsAnti2D ProofsNum2D ProofsMirror2D ProofsFun2D ProofsResults2D.
Import ListNotations.
Local Open Scope R_scope.
Notation ds2 := [DX; DY].
Ltac two_dims Hd := destruct Hd as [<-|[<-|[]]].
Ltac ixs := apply f_equal2; [apply f_equal2|]; lia.

Section Axes.
  Variables eps tiny : R.
  Notation AR := (arithR eps tiny).
  Variables (o : fl) (sp : sptl) (tp : tmprl).
  Notation F := (forms2 o sp tp).
  Variables X X' : fixedN AR.

  (** *** Mirror image along [dd] *)
  Section Mir.
    Variable dd : dim.
    Hypothesis Hdd : In dd ds2.
    Variable S : Z.
    Definition mh (x : idx) : idx :=
      match dd with DX => ((S - fst (fst x))%Z, snd (fst x), snd x) | _ => (fst (fst x), (S - snd (fst x))%Z, snd x) end.
    Definition mneg (d : dim) : bool := dim_eqb d dd.
    Definition mhf (d : dim) (x : idx) : idx := if mneg d then pv d (mh x) else mh x.
    Notation crel := (crel mh).
    Notation frel := (frel ds2 (fun d => d) mneg mhf).
    Hypothesis HC : frel (nC AR X) (nC AR X').
    Hypothesis HG : nug o = true -> crel (nG AR X) (nG AR X').
    Hypothesis HN : frel (nN AR X) (nN AR X').
    Hypothesis HT : frel (nT AR X) (nT AR X').
    Lemma lc_along x (f : idx -> R) i j : f (mh (iadd x (x2 dd i j))) = lc dd (pv dd (mh x)) f (1 - i) j.
    Proof.
      destruct x as [[a b] k]. unfold lc, mh, pv, un, iadd, x2. two_dims Hdd; cbn [fst snd]; apply (f_equal f); ixs.
    Qed.
    Lemma lc_along_f x (f : idx -> R) i j : f (pv dd (mh (iadd x (x2 dd i j)))) = lc dd (pv dd (mh x)) f (- i) j.
    Proof.
      destruct x as [[a b] k]. unfold lc, mh, pv, un, iadd, x2. two_dims Hdd; cbn [fst snd]; apply (f_equal f); ixs.
    Qed.
    Lemma lc_across x d (f : idx -> R) i j : In d ds2 -> d <> dd -> f (mh (iadd x (x2 d i j))) = lc d (mh x) f i (- j).
    Proof.
      intros Hd N. destruct x as [[a b] k]. unfold lc, mh, pv, un, iadd, x2.
      two_dims Hdd; two_dims Hd; try congruence; cbn [fst snd]; apply (f_equal f); ixs.
    Qed.
    Lemma lc_across_f x d (f : idx -> R) i j : In d ds2 -> d <> dd -> f (pv dd (mh (iadd x (x2 d i j)))) = lc d (mh x) f i (- 1 - j).
    Proof.
      intros Hd N. destruct x as [[a b] k]. unfold lc, mh, pv, un, iadd, x2.
      two_dims Hdd; two_dims Hd; try congruence; cbn [fst snd]; apply (f_equal f); ixs.
    Qed.
    Lemma mneg_dd : mneg dd = true. Proof. unfold mneg. destruct dd; reflexivity. Qed.
    Lemma mneg_other d : d <> dd -> mneg d = false. Proof. unfold mneg. intros N. destruct d, dd; try reflexivity; congruence. Qed.
    Lemma od_in d : In d ds2 -> In (od d) ds2. Proof. intros Hd. two_dims Hd; cbn; auto. Qed.
    Lemma frel_dd c c' x : frel c c' -> c' dd x = - c dd (pv dd (mh x)).
    Proof. intros H. rewrite H by auto. unfold sg, mhf. rewrite mneg_dd. reflexivity. Qed.
    Lemma frel_other c c' d x : frel c c' -> In d ds2 -> d <> dd -> c' d x = c d (mh x).
    Proof. intros H Hd N. rewrite H by auto. unfold sg, mhf. rewrite mneg_other by auto. reflexivity. Qed.
    Lemma od_dd d : In d ds2 -> d <> dd -> od d = dd.
    Proof. intros Hd N. two_dims Hdd; two_dims Hd; try congruence; reflexivity. Qed.
    Lemma od_not : od dd <> dd. Proof. two_dims Hdd; discriminate. Qed.
    Lemma dd_dec d : d = dd \/ d <> dd. Proof. destruct d, dd; auto; right; discriminate. Qed.

    Lemma mir_anti (psi psin psi' psin' : idx -> R) c c' : crel psi psi' -> crel psin psin' -> frel c c' ->
      frel (corrN AR F X psi psin c) (corrN AR F X' psi' psin' c').
    Proof.
      intros Hp Hn Hc d x Hd. rewrite !corr2. destruct (dd_dec d) as [->|N].
      - unfold sg, mhf. rewrite mneg_dd. apply anti_along; unfold lc at 1.
        + intros Ng i j. rewrite (HG Ng). apply lc_along.
        + intros i j. rewrite Hp. apply lc_along.
        + intros i j. rewrite Hn. apply lc_along.
        + intros i j. rewrite (frel_dd c c' _ Hc). f_equal. apply lc_along_f.
        + intros i j. rewrite (frel_other c c') by (auto using od_in, od_not). apply lc_along.
        + intros i j. rewrite (frel_dd (nN AR X) _ _ HN). f_equal. apply lc_along_f.
        + intros i j. rewrite (frel_other (nN AR X) (nN AR X')) by (auto using od_in, od_not). apply lc_along.
        + intros i j. rewrite (frel_dd (nT AR X) _ _ HT). f_equal. apply lc_along_f.
      - unfold sg, mhf. rewrite mneg_other by auto. rewrite !(od_dd d Hd N). apply anti_across; unfold lc at 1.
        + intros Ng i j. rewrite (HG Ng). apply lc_across; auto.
        + intros i j. rewrite Hp. apply lc_across; auto.
        + intros i j. rewrite Hn. apply lc_across; auto.
        + intros i j. rewrite (frel_other c c') by auto. apply lc_across; auto.
        + intros i j. rewrite (frel_dd c c' _ Hc). f_equal. apply lc_across_f; auto.
        + intros i j. rewrite (frel_other (nN AR X) (nN AR X')) by auto. apply lc_across; auto.
        + intros i j. rewrite (frel_dd (nN AR X) _ _ HN). f_equal. apply lc_across_f; auto.
        + intros i j. rewrite (frel_other (nT AR X) (nT AR X')) by auto. apply lc_across; auto.
    Qed.
    Lemma mir_steps nit freq ex nt ts (psi psi' : idx -> R) : crel psi psi' ->
      crel (stepsN AR o F X nit freq ex nt ts psi) (stepsN AR o F X' nit freq ex nt ts psi').
    Proof.
      apply (y_steps eps tiny o o F F ds2 (closed2 eps tiny o sp tp) (closed2 eps tiny o sp tp) eq_refl eq_refl eq_refl eq_refl mh (fun d => d) mneg mhf); auto.
      - intros d Hd. eauto.
      - intros d [[a b] k] Hd. unfold mneg, mh, nx, pv, iadd, uv, un.
        two_dims Hdd; two_dims Hd; cbn [fst snd dim_eqb]; ixs.
      - intros d [[a b] k] Hd. unfold mneg, mh, nx, pv, iadd, uv, un.
        two_dims Hdd; two_dims Hd; cbn [fst snd dim_eqb]; ixs.
      - apply mir_anti.
    Qed.
  End Mir.

  (** *** Transposition *)
  Section Tr.
    Definition th (x : idx) : idx := (snd (fst x), fst (fst x), snd x).
    Notation crel := (crel th).
    Notation frel := (frel ds2 swap_axis (fun _ => false) (fun _ => th)).
    Hypothesis HC : frel (nC AR X) (nC AR X').
    Hypothesis HG : nug o = true -> crel (nG AR X) (nG AR X').
    Hypothesis HN : frel (nN AR X) (nN AR X').
    Hypothesis HT : frel (nT AR X) (nT AR X').
    Lemma lc_tr x d (f : idx -> R) i j : In d ds2 -> f (th (iadd x (x2 d i j))) = lc (swap_axis d) (th x) f i j.
    Proof.
      intros Hd. destruct x as [[a b] k]. unfold lc, th, iadd, x2, swap_axis.
      two_dims Hd; cbn [fst snd]; apply (f_equal f); ixs.
    Qed.
    Lemma tr_anti (psi psin psi' psin' : idx -> R) c c' : crel psi psi' -> crel psin psin' -> frel c c' ->
      frel (corrN AR F X psi psin c) (corrN AR F X' psi' psin' c').
    Proof.
      intros Hp Hn Hc d x Hd. rewrite !corr2. unfold sg.
      assert (Ho : In (od d) ds2) by (two_dims Hd; cbn; auto).
      assert (Eo : od (swap_axis d) = swap_axis (od d)) by (two_dims Hd; reflexivity). rewrite Eo.
      apply A2_ext; unfold lc at 1; [intros Ng|..]; intros i j; rewrite ?(HG Ng), ?Hp, ?Hn, ?Hc, ?HN, ?HT by auto; unfold sg;
        apply lc_tr; auto.
    Qed.
    Lemma tr_steps nit freq ex nt ts (psi psi' : idx -> R) : crel psi psi' ->
      crel (stepsN AR o F X nit freq ex nt ts psi) (stepsN AR o F X' nit freq ex nt ts psi').
    Proof.
      apply (y_steps eps tiny o o F F ds2 (closed2 eps tiny o sp tp) (closed2 eps tiny o sp tp) eq_refl eq_refl eq_refl eq_refl th swap_axis (fun _ => false) (fun _ => th)); auto.
      - intros f. cbn. ring.
      - intros d Hd. two_dims Hd; cbn; auto.
      - intros d Hd. exists (swap_axis d). two_dims Hd; cbn; auto.
      - intros d [[a b] k] Hd. unfold th, nx, iadd, uv, swap_axis. two_dims Hd; cbn [fst snd]; ixs.
      - intros d [[a b] k] Hd. unfold th, pv, iadd, un, swap_axis. two_dims Hd; cbn [fst snd]; ixs.
      - apply tr_anti.
    Qed.
  End Tr.
End Axes.

Section Runs.
  Variables eps tiny : R.
  Notation AR := (arithR eps tiny).

  Section W.
    Variables lo hi : dim -> Z.
    Notation w := (wrap2 lo hi).
    Lemma wrap_mir_face d k : (lo d < hi d)%Z -> w d (lo d + hi d - 1 - k) = (lo d + hi d - 1 - w d k)%Z.
    Proof.
      intros H. unfold wrap2. set (N := (hi d - lo d)%Z). assert (HN : (0 < N)%Z) by (unfold N; lia).
      pose proof (Z.mod_pos_bound (k - lo d) N HN). pose proof (Z.div_mod (k - lo d) N ltac:(lia)) as E.
      replace (lo d + hi d - 1 - k - lo d)%Z with (N - 1 - (k - lo d) mod N + (- ((k - lo d) / N)) * N)%Z by (unfold N in *; nia).
      rewrite Z.mod_add, Z.mod_small by lia. unfold N. lia.
    Qed.
    Lemma wrap_mir_cell d k : (lo d < hi d)%Z ->
      w d (lo d + hi d - k) = (lo d + hi d - w d k)%Z \/ (w d (lo d + hi d - k) = lo d /\ (lo d + hi d - w d k)%Z = hi d).
    Proof.
      intros H. unfold wrap2. set (N := (hi d - lo d)%Z). assert (HN : (0 < N)%Z) by (unfold N; lia).
      pose proof (Z.mod_pos_bound (k - lo d) N HN). pose proof (Z.div_mod (k - lo d) N ltac:(lia)) as E.
      replace (lo d + hi d - k - lo d)%Z with (N - (k - lo d) mod N + (- ((k - lo d) / N)) * N)%Z by (unfold N in *; nia).
      rewrite Z.mod_add by lia. destruct (Z.eq_dec ((k - lo d) mod N) 0) as [Z0|NZ].
      - right. rewrite Z0, Z.sub_0_r, Z.mod_same by lia. unfold N. lia.
      - left. rewrite Z.mod_small by lia. unfold N. lia.
    Qed.
  End W.

  Theorem mirror2 r d n1 n2 nt m1 m2 m1' m2' : In d ds2 ->
    cyclic_end2 AR r n1 nt m1 m1' -> cyclic_end2 AR r n2 nt m2 m2' ->
    mirrored2 Ropp (s_lo r) (s_hi r) (n_eqns (s_cfg r)) (nug (s_o r)) d m1 m2 ->
    forall e, (e < n_eqns (s_cfg r))%nat -> forall i j, on_grid (s_lo r) (s_hi r) i j ->
    cell2 m2' e (newest2 r nt) i j =
    let ij := opposite d (s_lo r d + s_hi r d) (i, j) in cell2 m1' e (newest2 r nt) (fst ij) (snd ij).
  Proof.
    intros Hd E1 E2 (M1 & M2 & M3 & M4) e He i j Hij. cbv zeta.
    set (ij := opposite d (s_lo r d + s_hi r d) (i, j)).
    assert (Hij' : on_grid (s_lo r) (s_hi r) (fst ij) (snd ij)).
    { unfold ij, on_grid in *. two_dims Hd; cbn [opposite fst snd]; lia. }
    refine (eq_trans (run2_fun eps tiny r n2 nt m2 m2' E2 e He i j Hij) _).
    refine (eq_trans _ (eq_sym (run2_fun eps tiny r n1 nt m1 m1' E1 e He _ _ Hij'))).
    assert (LX := lohiX eps tiny r n1 nt m1 m1' E1). assert (LY := lohiY eps tiny r n1 nt m1 m1' E1).
    destruct (ce_data _ _ _ _ _ _ E1) as (D1 & D2 & D3 & D4).
    assert (WX : forall k, (s_lo r DX <= wrap2 (s_lo r) (s_hi r) DX k < s_hi r DX)%Z)
      by (intros; apply (w_in r (ce_bl _ _ _ _ _ _ E1) (ce_br _ _ _ _ _ _ E1)); auto).
    assert (WY : forall k, (s_lo r DY <= wrap2 (s_lo r) (s_hi r) DY k < s_hi r DY)%Z)
      by (intros; apply (w_in r (ce_bl _ _ _ _ _ _ E1) (ce_br _ _ _ _ _ _ E1)); auto).
    (* fields at cells, given how they behave on the grid *)
    assert (CX : forall f : Z -> Z -> R, (forall q, (s_lo r DY <= q <= s_hi r DY)%Z -> f (s_hi r DX) q = f (s_lo r DX) q) ->
      forall a b, f (s_lo r DX + s_hi r DX - wrap2 (s_lo r) (s_hi r) DX a)%Z (wrap2 (s_lo r) (s_hi r) DY b)
                = f (wrap2 (s_lo r) (s_hi r) DX (s_lo r DX + s_hi r DX - a)) (wrap2 (s_lo r) (s_hi r) DY b)).
    { intros f Hf a b. destruct (wrap_mir_cell (s_lo r) (s_hi r) DX a LX) as [->|[-> ->]]; auto. apply Hf. specialize (WY b). lia. }
    assert (CY : forall f : Z -> Z -> R, (forall q, (s_lo r DX <= q <= s_hi r DX)%Z -> f q (s_hi r DY) = f q (s_lo r DY)) ->
      forall a b, f (wrap2 (s_lo r) (s_hi r) DX a) (s_lo r DY + s_hi r DY - wrap2 (s_lo r) (s_hi r) DY b)%Z
                = f (wrap2 (s_lo r) (s_hi r) DX a) (wrap2 (s_lo r) (s_hi r) DY (s_lo r DY + s_hi r DY - b))).
    { intros f Hf a b. destruct (wrap_mir_cell (s_lo r) (s_hi r) DY b LY) as [->|[-> ->]]; auto. apply Hf. specialize (WX a). lia. }
    assert (FX : forall f : Z -> Z -> R, (forall q, (s_lo r DY <= q < s_hi r DY)%Z -> f (s_hi r DX) q = f (s_lo r DX) q) ->
      forall a b, f (s_lo r DX + s_hi r DX - wrap2 (s_lo r) (s_hi r) DX a)%Z (wrap2 (s_lo r) (s_hi r) DY b)
                = f (wrap2 (s_lo r) (s_hi r) DX (s_lo r DX + s_hi r DX - a)) (wrap2 (s_lo r) (s_hi r) DY b)).
    { intros f Hf a b. destruct (wrap_mir_cell (s_lo r) (s_hi r) DX a LX) as [->|[-> ->]]; auto. }
    assert (FY : forall f : Z -> Z -> R, (forall q, (s_lo r DX <= q < s_hi r DX)%Z -> f q (s_hi r DY) = f q (s_lo r DY)) ->
      forall a b, f (wrap2 (s_lo r) (s_hi r) DX a) (s_lo r DY + s_hi r DY - wrap2 (s_lo r) (s_hi r) DY b)%Z
                = f (wrap2 (s_lo r) (s_hi r) DX a) (wrap2 (s_lo r) (s_hi r) DY (s_lo r DY + s_hi r DY - b))).
    { intros f Hf a b. destruct (wrap_mir_cell (s_lo r) (s_hi r) DY b LY) as [->|[-> ->]]; auto. }
    assert (IN : (i, j, 0%Z) = (i, j, 0%Z)) by reflexivity.
    replace (fst ij, snd ij, 0%Z) with (mh d (s_lo r d + s_hi r d) (i, j, 0%Z)) by (unfold ij; two_dims Hd; reflexivity).
    clear ij Hij' IN Hij.
    refine (mir_steps eps tiny (s_o r) (s_sp r) (s_tp r) (cycX2 r AR m1) (cycX2 r AR m2) d Hd (s_lo r d + s_hi r d) _ _ _ _
      (s_nit r) (s_freq r) (s_scale r e) nt 0%Z _ _ _ (i, j, 0%Z)).
    - intros d' [[a b] k] Hd'. cbn [nC cycX2]. unfold wx, mhf, sg, mneg. cbn [comp fst snd].
      two_dims Hd; two_dims Hd'; cbn [dim_eqb mh pv iadd un fst snd comp].
      + change (face2 m2 DX (wrap2 (s_lo r) (s_hi r) DX a) (wrap2 (s_lo r) (s_hi r) DY b) =
          - face2 m1 DX (wrap2 (s_lo r) (s_hi r) DX (s_lo r DX + s_hi r DX - a + -1)) (wrap2 (s_lo r) (s_hi r) DY (b + 0))).
        specialize (WX a). specialize (WY b). rewrite M2 by lia. cbn [opposite fst snd]. rewrite <- wrap_mir_face by auto.
        replace (s_lo r DX + s_hi r DX - a + -1)%Z with (s_lo r DX + s_hi r DX - 1 - a)%Z by lia. rewrite Z.add_0_r. reflexivity.
      + specialize (WX a) as WXa. specialize (WY b) as WYb.
        change (face2 m2 DY (wrap2 (s_lo r) (s_hi r) DX a) (wrap2 (s_lo r) (s_hi r) DY b) =
          face2 m1 DY (wrap2 (s_lo r) (s_hi r) DX (s_lo r DX + s_hi r DX - a)) (wrap2 (s_lo r) (s_hi r) DY b)).
        rewrite M3 by lia. cbn [opposite fst snd]. apply (FX (face2 m1 DY)). auto.
      + specialize (WX a) as WXa. specialize (WY b) as WYb.
        change (face2 m2 DX (wrap2 (s_lo r) (s_hi r) DX a) (wrap2 (s_lo r) (s_hi r) DY b) =
          face2 m1 DX (wrap2 (s_lo r) (s_hi r) DX a) (wrap2 (s_lo r) (s_hi r) DY (s_lo r DY + s_hi r DY - b))).
        rewrite M2 by lia. cbn [opposite fst snd]. apply (FY (face2 m1 DX)). auto.
      + change (face2 m2 DY (wrap2 (s_lo r) (s_hi r) DX a) (wrap2 (s_lo r) (s_hi r) DY b) =
          - face2 m1 DY (wrap2 (s_lo r) (s_hi r) DX (a + 0)) (wrap2 (s_lo r) (s_hi r) DY (s_lo r DY + s_hi r DY - b + -1))).
        specialize (WX a). specialize (WY b). rewrite M3 by lia. cbn [opposite fst snd]. rewrite <- wrap_mir_face by auto.
        replace (s_lo r DY + s_hi r DY - b + -1)%Z with (s_lo r DY + s_hi r DY - 1 - b)%Z by lia. rewrite Z.add_0_r. reflexivity.
    - intros Ng [[a b] k]. destruct (D4 Ng) as [G1 G2]. specialize (WX a) as WXa. specialize (WY b) as WYb. cbn [nG cycX2]. unfold wx. cbn [comp fst snd].
      two_dims Hd; cbn [mh fst snd].
      + change (gfac2 m2 (wrap2 (s_lo r) (s_hi r) DX a) (wrap2 (s_lo r) (s_hi r) DY b) =
          gfac2 m1 (wrap2 (s_lo r) (s_hi r) DX (s_lo r DX + s_hi r DX - a)) (wrap2 (s_lo r) (s_hi r) DY b)).
        rewrite (M4 Ng) by lia. cbn [opposite fst snd]. apply (CX (gfac2 m1)). auto.
      + change (gfac2 m2 (wrap2 (s_lo r) (s_hi r) DX a) (wrap2 (s_lo r) (s_hi r) DY b) =
          gfac2 m1 (wrap2 (s_lo r) (s_hi r) DX a) (wrap2 (s_lo r) (s_hi r) DY (s_lo r DY + s_hi r DY - b))).
        rewrite (M4 Ng) by lia. cbn [opposite fst snd]. apply (CY (gfac2 m1)). auto.
    - intros d' x _. cbn [nN cycX2]. unfold sg. destruct (mneg d d'); cbn; lra.
    - intros d' x _. cbn [nT cycX2]. unfold sg. destruct (mneg d d'); cbn; lra.
    - intros [[a b] k]. destruct (D1 e He) as [P1 P2]. specialize (WX a) as WXa. specialize (WY b) as WYb. unfold wx. cbn [comp fst snd].
      two_dims Hd; cbn [mh fst snd].
      + change (cell2 m2 e false (wrap2 (s_lo r) (s_hi r) DX a) (wrap2 (s_lo r) (s_hi r) DY b) =
          cell2 m1 e false (wrap2 (s_lo r) (s_hi r) DX (s_lo r DX + s_hi r DX - a)) (wrap2 (s_lo r) (s_hi r) DY b)).
        rewrite M1 by (auto; lia). cbn [opposite fst snd]. apply (CX (cell2 m1 e false)). auto.
      + change (cell2 m2 e false (wrap2 (s_lo r) (s_hi r) DX a) (wrap2 (s_lo r) (s_hi r) DY b) =
          cell2 m1 e false (wrap2 (s_lo r) (s_hi r) DX a) (wrap2 (s_lo r) (s_hi r) DY (s_lo r DY + s_hi r DY - b))).
        rewrite M1 by (auto; lia). cbn [opposite fst snd]. apply (CY (cell2 m1 e false)). auto.
  Qed.

  Theorem transpose2 r n1 n2 nt m1 m2 m1' m2' :
    cyclic_end2 AR r n1 nt m1 m1' -> cyclic_end2 AR (transpose_run r) n2 nt m2 m2' ->
    transposed2 (s_lo (transpose_run r)) (s_hi (transpose_run r)) (n_eqns (s_cfg r)) (nug (s_o r)) m1 m2 ->
    forall e, (e < n_eqns (s_cfg r))%nat -> forall i j, on_grid (s_lo r) (s_hi r) i j ->
    cell2 m2' e (newest2 (transpose_run r) nt) j i = cell2 m1' e (newest2 r nt) i j.
  Proof.
    intros E1 E2 (M1 & M2 & M3 & M4) e He i j Hij.
    assert (Hij' : on_grid (s_lo (transpose_run r)) (s_hi (transpose_run r)) j i) by (destruct Hij; split; assumption).
    refine (eq_trans (run2_fun eps tiny (transpose_run r) n2 nt m2 m2' E2 e He j i Hij') _).
    refine (eq_trans _ (eq_sym (run2_fun eps tiny r n1 nt m1 m1' E1 e He _ _ Hij))).
    assert (LX := lohiX eps tiny r n1 nt m1 m1' E1). assert (LY := lohiY eps tiny r n1 nt m1 m1' E1).
    assert (WX : forall k, (s_lo r DX <= wrap2 (s_lo r) (s_hi r) DX k < s_hi r DX)%Z)
      by (intros; apply (w_in r (ce_bl _ _ _ _ _ _ E1) (ce_br _ _ _ _ _ _ E1)); auto).
    assert (WY : forall k, (s_lo r DY <= wrap2 (s_lo r) (s_hi r) DY k < s_hi r DY)%Z)
      by (intros; apply (w_in r (ce_bl _ _ _ _ _ _ E1) (ce_br _ _ _ _ _ _ E1)); auto).
    cbn [transpose_run s_lo s_hi swap_axis] in M1, M2, M3, M4.
    refine (tr_steps eps tiny (s_o r) (s_sp r) (s_tp r) (cycX2 r AR m1) (cycX2 (transpose_run r) AR m2) _ _ _ _
      (s_nit r) (s_freq r) (s_scale r e) nt 0%Z _ _ _ (j, i, 0%Z)).
    - intros d [[a b] k] Hd. specialize (WX b). specialize (WY a). two_dims Hd.
      + exact (M2 (wrap2 (s_lo r) (s_hi r) DY a) (wrap2 (s_lo r) (s_hi r) DX b) WY ltac:(lia)).
      + exact (M3 (wrap2 (s_lo r) (s_hi r) DY a) (wrap2 (s_lo r) (s_hi r) DX b) ltac:(lia) WX).
    - intros Ng [[a b] k]. specialize (WX b). specialize (WY a).
      exact (M4 Ng (wrap2 (s_lo r) (s_hi r) DY a) (wrap2 (s_lo r) (s_hi r) DX b) ltac:(lia) ltac:(lia)).
    - intros d x _. reflexivity.
    - intros d x _. reflexivity.
    - intros [[a b] k]. specialize (WX b). specialize (WY a).
      exact (M1 e (wrap2 (s_lo r) (s_hi r) DY a) (wrap2 (s_lo r) (s_hi r) DX b) He ltac:(lia) ltac:(lia)).
  Qed.
End Runs.
