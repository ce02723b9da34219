(** Mirror images and permutations of the axes for whole runs of the 3D solver. *)
From Coq Require Import ZArith List Bool Lia ZifyBool Reals Lra.
From Verif Require Import ModelIndex ModelRun Lang ProofsLang Stencil ProofsStencil FormCommon Form3D Solver1D Solver3D Fun1D FunN Arith SpecReal
  SpecThreads SpecFields3 SpecNum3 SpecRun3 SpecSym3 ProofsGeom3D ProofsThread3D ProofsValid3D ProofsCyclic3D
  ProofsReal1D ProofsAnti1D ProofsNum1D ProofsSign1D ProofsSym1D
  ProofsFunN ProofsPerN ProofsNumN ProofsSymN ProofsReal3D ProofsAnti3D ProofsNum3D ProofsMirror3D ProofsFun3D ProofsResults3D.
Import ListNotations.
Local Open Scope R_scope.
Notation ds3 := [DX; DY; DZ].
Ltac three_dims Hd := destruct Hd as [<-|[<-|[<-|[]]]].
Ltac ixs3 := apply f_equal2; [apply f_equal2|]; lia.

Section Axes.
  Variables eps tiny : R.
  Notation AR := (arithR eps tiny).
  Variables (o : fl) (sp : sptl) (tp : tmprl).
  Notation F := (forms3 o sp tp).
  Variables X X' : fixedN AR.

  (** *** Mirror image along [dd] *)
  Section Mir.
    Variable dd : dim.
    Variable S : Z.
    Notation mh := (opposite3 dd S).
    Definition mneg (d : dim) : bool := dim_eqb d dd.
    Definition mhf (d : dim) (x : idx) : idx := if mneg d then pv d (mh x) else mh x.
    Notation crel := (crel mh).
    Notation frel := (frel ds3 (fun d => d) mneg mhf).
    Hypothesis HC : frel (nC AR X) (nC AR X').
    Hypothesis HG : nug o = true -> crel (nG AR X) (nG AR X').
    Hypothesis HN : frel (nN AR X) (nN AR X').
    Hypothesis HT : frel (nT AR X) (nT AR X').
    Ltac lcs := unfold lc3, opposite3, put, comp, pv, un, iadd, x3; cbn [fst snd dp dm];
      match goal with |- ?f _ = ?f _ => apply (f_equal f); ixs3 end.
    Lemma lc_along x (f : idx -> R) i j k : f (mh (iadd x (x3 dd i j k))) = lc3 dd (pv dd (mh x)) f (1 - i) j k.
    Proof. destruct x as [[a b] c]. destruct dd; lcs. Qed.
    Lemma lc_along_f x (f : idx -> R) i j k : f (pv dd (mh (iadd x (x3 dd i j k)))) = lc3 dd (pv dd (mh x)) f (- i) j k.
    Proof. destruct x as [[a b] c]. destruct dd; lcs. Qed.
    Lemma lc_y x d (f : idx -> R) i j k : dd = dp d -> f (mh (iadd x (x3 d i j k))) = lc3 d (mh x) f i (- j) k.
    Proof. intros E. destruct x as [[a b] c]. destruct d; cbn [dp] in E; rewrite E; lcs. Qed.
    Lemma lc_y_f x d (f : idx -> R) i j k : dd = dp d -> f (pv dd (mh (iadd x (x3 d i j k)))) = lc3 d (mh x) f i (- 1 - j) k.
    Proof. intros E. destruct x as [[a b] c]. destruct d; cbn [dp] in E; rewrite E; lcs. Qed.
    Lemma lc_z x d (f : idx -> R) i j k : dd = dm d -> f (mh (iadd x (x3 d i j k))) = lc3 d (mh x) f i j (- k).
    Proof. intros E. destruct x as [[a b] c]. destruct d; cbn [dm] in E; rewrite E; lcs. Qed.
    Lemma lc_z_f x d (f : idx -> R) i j k : dd = dm d -> f (pv dd (mh (iadd x (x3 d i j k)))) = lc3 d (mh x) f i j (- 1 - k).
    Proof. intros E. destruct x as [[a b] c]. destruct d; cbn [dm] in E; rewrite E; lcs. Qed.
    Lemma mneg_dd : mneg dd = true. Proof. unfold mneg. destruct dd; reflexivity. Qed.
    Lemma mneg_other d : d <> dd -> mneg d = false. Proof. unfold mneg. intros N. destruct d, dd; try reflexivity; congruence. Qed.
    Lemma frel_dd c c' x : frel c c' -> c' dd x = - c dd (pv dd (mh x)).
    Proof. intros H. rewrite H by apply in_ds. unfold sg, mhf. rewrite mneg_dd. reflexivity. Qed.
    Lemma frel_other c c' d x : frel c c' -> d <> dd -> c' d x = c d (mh x).
    Proof. intros H N. rewrite H by apply in_ds. unfold sg, mhf. rewrite mneg_other by auto. reflexivity. Qed.
    Lemma dd_cases d : d = dd \/ dd = dp d \/ dd = dm d. Proof. destruct d, dd; cbn; auto. Qed.
    Lemma dp_ne d : dp d <> d. Proof. destruct d; discriminate. Qed.
    Lemma dm_ne d : dm d <> d. Proof. destruct d; discriminate. Qed.
    Lemma dm_dp d : dm d <> dp d. Proof. destruct d; discriminate. Qed.

    Lemma mir_anti (psi psin psi' psin' : idx -> R) c c' : crel psi psi' -> crel psin psin' -> frel c c' ->
      frel (corrN AR F X psi psin c) (corrN AR F X' psi' psin' c').
    Proof.
      intros Hp Hn Hc d x Hd. rewrite !corr3. destruct (dd_cases d) as [->|[Ed|Ed]].
      - unfold sg, mhf. rewrite mneg_dd. pose proof (dp_ne dd). pose proof (dm_ne dd). apply anti_along; unfold lc3 at 1.
        + intros Ng i j k. rewrite (HG Ng). apply lc_along.
        + intros i j k. rewrite Hp. apply lc_along.
        + intros i j k. rewrite Hn. apply lc_along.
        + intros i j k. rewrite (frel_dd c c' _ Hc). f_equal. apply lc_along_f.
        + intros i j k. rewrite (frel_other c c') by auto. apply lc_along.
        + intros i j k. rewrite (frel_other c c') by auto. apply lc_along.
        + intros i j k. rewrite (frel_dd (nN AR X) _ _ HN). f_equal. apply lc_along_f.
        + intros i j k. rewrite (frel_other (nN AR X) (nN AR X')) by auto. apply lc_along.
        + intros i j k. rewrite (frel_other (nN AR X) (nN AR X')) by auto. apply lc_along.
        + intros i j k. rewrite (frel_dd (nT AR X) _ _ HT). f_equal. apply lc_along_f.
      - assert (N : d <> dd) by (rewrite Ed; apply not_eq_sym, dp_ne). assert (N2 : dm d <> dd) by (rewrite Ed; apply dm_dp).
        unfold sg, mhf. rewrite mneg_other by auto. apply anti_across; unfold lc3 at 1.
        + intros Ng i j k. rewrite (HG Ng). apply lc_y; auto.
        + intros i j k. rewrite Hp. apply lc_y; auto.
        + intros i j k. rewrite Hn. apply lc_y; auto.
        + intros i j k. rewrite (frel_other c c') by auto. apply lc_y; auto.
        + intros i j k. rewrite <- Ed, (frel_dd c c' _ Hc). f_equal. apply lc_y_f; auto.
        + intros i j k. rewrite (frel_other c c') by auto. apply lc_y; auto.
        + intros i j k. rewrite (frel_other (nN AR X) (nN AR X')) by auto. apply lc_y; auto.
        + intros i j k. rewrite <- Ed, (frel_dd (nN AR X) _ _ HN). f_equal. apply lc_y_f; auto.
        + intros i j k. rewrite (frel_other (nN AR X) (nN AR X')) by auto. apply lc_y; auto.
        + intros i j k. rewrite (frel_other (nT AR X) (nT AR X')) by auto. apply lc_y; auto.
      - assert (N : d <> dd) by (rewrite Ed; apply not_eq_sym, dm_ne). assert (N2 : dp d <> dd) by (rewrite Ed; apply not_eq_sym, dm_dp).
        unfold sg, mhf. rewrite mneg_other by auto.
        set (sw := fun (f : Z -> Z -> Z -> R) i j k => f i k j).
        (* exchange the axes across, on both sides *)
        refine (eq_trans (eq_sym (anti_swap o sp tp tiny (lc3 d x (nG AR X')) (lc3 d x psi') (lc3 d x psin') (lc3 d x (c' d)) (lc3 d x (c' (dp d))) (lc3 d x (c' (dm d)))
          (lc3 d x (nN AR X' d)) (lc3 d x (nN AR X' (dp d))) (lc3 d x (nN AR X' (dm d))) (lc3 d x (nT AR X' d))
          (sw (lc3 d x (nG AR X'))) (sw (lc3 d x psi')) (sw (lc3 d x psin')) (sw (lc3 d x (c' d))) (sw (lc3 d x (c' (dm d)))) (sw (lc3 d x (c' (dp d))))
          (sw (lc3 d x (nN AR X' d))) (sw (lc3 d x (nN AR X' (dm d)))) (sw (lc3 d x (nN AR X' (dp d)))) (sw (lc3 d x (nT AR X' d))) _ _ _ _ _ _ _ _ _ _)) _); try (intros; reflexivity).
        refine (eq_trans _ (anti_swap o sp tp tiny (lc3 d (mh x) (nG AR X)) (lc3 d (mh x) psi) (lc3 d (mh x) psin) (lc3 d (mh x) (c d)) (lc3 d (mh x) (c (dp d))) (lc3 d (mh x) (c (dm d)))
          (lc3 d (mh x) (nN AR X d)) (lc3 d (mh x) (nN AR X (dp d))) (lc3 d (mh x) (nN AR X (dm d))) (lc3 d (mh x) (nT AR X d))
          (sw (lc3 d (mh x) (nG AR X))) (sw (lc3 d (mh x) psi)) (sw (lc3 d (mh x) psin)) (sw (lc3 d (mh x) (c d))) (sw (lc3 d (mh x) (c (dm d)))) (sw (lc3 d (mh x) (c (dp d))))
          (sw (lc3 d (mh x) (nN AR X d))) (sw (lc3 d (mh x) (nN AR X (dm d)))) (sw (lc3 d (mh x) (nN AR X (dp d)))) (sw (lc3 d (mh x) (nT AR X d))) _ _ _ _ _ _ _ _ _ _)); try (intros; reflexivity).
        apply anti_across; unfold sw; unfold lc3 at 1.
        + intros Ng i j k. rewrite (HG Ng). apply lc_z; auto.
        + intros i j k. rewrite Hp. apply lc_z; auto.
        + intros i j k. rewrite Hn. apply lc_z; auto.
        + intros i j k. rewrite (frel_other c c') by auto. apply lc_z; auto.
        + intros i j k. rewrite <- Ed, (frel_dd c c' _ Hc). f_equal. apply lc_z_f; auto.
        + intros i j k. rewrite (frel_other c c') by auto. apply lc_z; auto.
        + intros i j k. rewrite (frel_other (nN AR X) (nN AR X')) by auto. apply lc_z; auto.
        + intros i j k. rewrite <- Ed, (frel_dd (nN AR X) _ _ HN). f_equal. apply lc_z_f; auto.
        + intros i j k. rewrite (frel_other (nN AR X) (nN AR X')) by auto. apply lc_z; auto.
        + intros i j k. rewrite (frel_other (nT AR X) (nT AR X')) by auto. apply lc_z; auto.
    Qed.
    Lemma mir_steps nit freq ex nt ts (psi psi' : idx -> R) : crel psi psi' ->
      crel (stepsN AR o F X nit freq ex nt ts psi) (stepsN AR o F X' nit freq ex nt ts psi').
    Proof.
      apply (y_steps eps tiny o o F F ds3 (closed3 eps tiny o sp tp) (closed3 eps tiny o sp tp) eq_refl eq_refl eq_refl eq_refl mh (fun d => d) mneg mhf); auto.
      - intros d Hd. eauto.
      - intros d [[a b] k] Hd. unfold mneg, opposite3, put, comp, nx, pv, iadd, uv, un. destruct dd, d; cbn [fst snd dim_eqb]; ixs3.
      - intros d [[a b] k] Hd. unfold mneg, opposite3, put, comp, nx, pv, iadd, uv, un. destruct dd, d; cbn [fst snd dim_eqb]; ixs3.
      - apply mir_anti.
    Qed.
  End Mir.

  (** *** Permutation of the axes: [q], with inverse [q'] *)
  Section Perm.
    Variables q q' : dim -> dim.
    Hypothesis Q1 : forall d, q (q' d) = d.
    Hypothesis Q2 : forall d, q' (q d) = d.
    Notation th := (permute3 q').
    Notation crel := (crel th).
    Notation frel := (frel ds3 q (fun _ => false) (fun _ => th)).
    Hypothesis HC : frel (nC AR X) (nC AR X').
    Hypothesis HG : nug o = true -> crel (nG AR X) (nG AR X').
    Hypothesis HN : frel (nN AR X) (nN AR X').
    Hypothesis HT : frel (nT AR X) (nT AR X').
    (** either orientation is kept, or the two axes across are exchanged *)
    Lemma q_cases : (forall d, q (dp d) = dp (q d) /\ q (dm d) = dm (q d)) \/ (forall d, q (dp d) = dm (q d) /\ q (dm d) = dp (q d)).
    Proof.
      pose proof (Q2 DX) as A. pose proof (Q2 DY) as B. pose proof (Q2 DZ) as C.
      destruct (q DX) eqn:E1, (q DY) eqn:E2, (q DZ) eqn:E3; try congruence; [left|right|right|left|left|right];
        intros []; cbn [dp dm]; rewrite ?E1, ?E2, ?E3; auto.
    Qed.
    Lemma comp_th d x : comp d (th x) = comp (q' d) x.
    Proof. destruct d; reflexivity. Qed.
    Lemma comp_lc d i j k d' : comp d' (x3 d i j k) = if dim_eqb d' d then i else if dim_eqb d' (dp d) then j else k.
    Proof. destruct d, d'; reflexivity. Qed.
    Lemma q_eqb d d' : dim_eqb (q' d) d' = dim_eqb d (q d').
    Proof.
      destruct (dim_eqb d (q d')) eqn:E.
      - apply dim_eqb_eq in E. subst. rewrite Q2. destruct d'; reflexivity.
      - destruct (dim_eqb (q' d) d') eqn:E'; auto. apply dim_eqb_eq in E'. subst. rewrite Q1 in E. destruct d; discriminate.
    Qed.
    Lemma th_even x d i j k : (forall d, q (dp d) = dp (q d) /\ q (dm d) = dm (q d)) -> th (iadd x (x3 d i j k)) = iadd (th x) (x3 (q d) i j k).
    Proof.
      intros E. apply idx_ext. intros d'. rewrite comp_th, !comp_iadd, comp_th, !comp_lc, !q_eqb. rewrite (proj1 (E d)). reflexivity.
    Qed.
    Lemma th_odd x d i j k : (forall d, q (dp d) = dm (q d) /\ q (dm d) = dp (q d)) -> th (iadd x (x3 d i j k)) = iadd (th x) (x3 (q d) i k j).
    Proof.
      intros E. apply idx_ext. intros d'. rewrite comp_th, !comp_iadd, comp_th, !comp_lc, !q_eqb. rewrite (proj1 (E d)).
      destruct (q d), d'; reflexivity.
    Qed.
    Lemma perm_anti (psi psin psi' psin' : idx -> R) c c' : crel psi psi' -> crel psin psin' -> frel c c' ->
      frel (corrN AR F X psi psin c) (corrN AR F X' psi' psin' c').
    Proof.
      intros Hp Hn Hc d x Hd. rewrite !corr3. unfold sg.
      assert (I : forall d, In d ds3) by apply in_ds.
      destruct q_cases as [E|E]; destruct (E d) as [E1 E2].
      - apply A3_ext; unfold lc3 at 1; [intros Ng|..]; intros i j k; rewrite ?(HG Ng), ?Hp, ?Hn, ?Hc, ?HN, ?HT by auto; unfold sg;
          rewrite (th_even _ _ _ _ _ E), ?E1, ?E2; reflexivity.
      - apply anti_swap; unfold lc3 at 1; [intros Ng|..]; intros i j k; rewrite ?(HG Ng), ?Hp, ?Hn, ?Hc, ?HN, ?HT by auto; unfold sg;
          rewrite (th_odd _ _ _ _ _ E), ?E1, ?E2; reflexivity.
    Qed.
    Lemma th_unit d x : th (nx d x) = nx (q d) (th x) /\ th (pv d x) = pv (q d) (th x).
    Proof.
      assert (U : forall d z, uv d = x3 d 1 0 0 /\ un d = x3 d (-1) 0 0 /\ z = z :> Z) by (intros []; split; try split; reflexivity).
      unfold nx, pv. rewrite (proj1 (U d 0%Z)), (proj1 (proj2 (U d 0%Z))), (proj1 (U (q d) 0%Z)), (proj1 (proj2 (U (q d) 0%Z))).
      destruct q_cases as [E|E]; [rewrite !(th_even _ _ _ _ _ E)|rewrite !(th_odd _ _ _ _ _ E)]; auto.
    Qed.
    Lemma perm_steps nit freq ex nt ts (psi psi' : idx -> R) : crel psi psi' ->
      crel (stepsN AR o F X nit freq ex nt ts psi) (stepsN AR o F X' nit freq ex nt ts psi').
    Proof.
      apply (y_steps eps tiny o o F F ds3 (closed3 eps tiny o sp tp) (closed3 eps tiny o sp tp) eq_refl eq_refl eq_refl eq_refl th q (fun _ => false) (fun _ => th)); auto.
      - intros f. pose proof (Q2 DX) as A. pose proof (Q2 DY) as B. pose proof (Q2 DZ) as C. cbn [dsum].
        destruct (q DX) eqn:E1, (q DY) eqn:E2, (q DZ) eqn:E3; try congruence; ring.
      - intros d Hd. apply in_ds.
      - intros d Hd. exists (q' d). split; [apply in_ds|apply Q1].
      - intros d x Hd. apply (proj1 (th_unit d x)).
      - intros d x Hd. apply (proj2 (th_unit d x)).
      - apply perm_anti.
    Qed.
  End Perm.
End Axes.

Section Runs.
  Variables eps tiny : R.
  Notation AR := (arithR eps tiny).

  Lemma comp_opp d s i c : comp c (opposite3 d s i) = if dim_eqb d c then (s - comp c i)%Z else comp c i.
  Proof. destruct i as [[x y] z]. destruct d, c; reflexivity. Qed.
  (** values on the grid are those of the cell or face they repeat *)
  Section Wrap.
    Variables (r : run3) (n nt : nat) (m m' : loc -> R).
    Hypothesis CE : cyclic_end3 AR r n nt m m'.
    Notation lo := (s3_lo r).
    Notation hi := (s3_hi r).
    Notation w := (wrap3 lo hi).
    Lemma on_cell e i : (e < n_eqns (s3_cfg r))%nat -> inside lo hi i -> cell3 m e false i = cell3 m e false (w i).
    Proof. intros He Hi. destruct (ext3_same r (c3_ok _ _ _ _ _ _ CE) AR m (c3_data _ _ _ _ _ _ CE)) as (A & _ & _). apply A; auto. Qed.
    Lemma on_face d i : inner lo hi d i -> face3 m d i = face3 m d (w i).
    Proof. intros Hi. destruct (ext3_same r (c3_ok _ _ _ _ _ _ CE) AR m (c3_data _ _ _ _ _ _ CE)) as (_ & A & _). apply A; auto. Qed.
    Lemma on_g i : nug (s3_o r) = true -> inside lo hi i -> gfac3 m i = gfac3 m (w i).
    Proof. intros N Hi. destruct (ext3_same r (c3_ok _ _ _ _ _ _ CE) AR m (c3_data _ _ _ _ _ _ CE)) as (_ & _ & A). apply A; auto. Qed.
    Lemma w_inner d i : inner lo hi d (w i).
    Proof. split; [apply (w_inside r (c3_ok _ _ _ _ _ _ CE))|]. apply (w_in3 r (c3_ok _ _ _ _ _ _ CE)). Qed.
    Lemma w_ins i : inside lo hi (w i).
    Proof. apply (w_inside r (c3_ok _ _ _ _ _ _ CE)). Qed.
    Lemma opp_inside d i : inside lo hi i -> inside lo hi (opposite3 d (lo d + hi d) i).
    Proof.
      intros H c. specialize (H c). rewrite comp_opp. destruct (dim_eqb d c) eqn:E; [|exact H]. apply dim_eqb_eq in E. subst. lia.
    Qed.
    Lemma opp_inner d c i : c <> d -> inner lo hi c i -> inner lo hi c (opposite3 d (lo d + hi d) i).
    Proof.
      intros N [H1 H2]. split; [apply opp_inside; auto|]. rewrite comp_opp. destruct (dim_eqb d c) eqn:E; [|exact H2]. apply dim_eqb_eq in E. congruence.
    Qed.
    Lemma mod_opp L H s k : (L < H)%Z -> ((s - (L + (k - L) mod (H - L)) - L) mod (H - L) = (s - k - L) mod (H - L))%Z.
    Proof.
      intros Hl. pose proof (Z.div_mod (k - L) (H - L) ltac:(lia)) as E.
      replace (s - (L + (k - L) mod (H - L)) - L)%Z with (s - k - L + (k - L) / (H - L) * (H - L))%Z by lia.
      rewrite Z.mod_add by lia. reflexivity.
    Qed.
    Lemma w_opp d s i : w (opposite3 d s (w i)) = w (opposite3 d s i).
    Proof.
      apply idx_ext. intros c. rewrite !(comp_w r), !comp_opp. pose proof (lo_hi3 r (c3_ok _ _ _ _ _ _ CE) c).
      destruct (dim_eqb d c); rewrite (comp_w r); [rewrite mod_opp by auto; reflexivity|]. f_equal.
      replace (lo c + (comp c i - lo c) mod (hi c - lo c) - lo c)%Z with ((comp c i - lo c) mod (hi c - lo c))%Z by lia.
      apply Z.mod_mod. lia.
    Qed.
    Lemma opp_face d i : w (opposite3 d (lo d + hi d - 1) i) = opposite3 d (lo d + hi d - 1) (w i).
    Proof.
      rewrite <- w_opp. apply idx_ext. intros c. apply (w_id3 r). rewrite comp_opp. pose proof (w_in3 r (c3_ok _ _ _ _ _ _ CE) i c).
      destruct (dim_eqb d c) eqn:E; auto. apply dim_eqb_eq in E. subst. lia.
    Qed.
  End Wrap.

  Theorem mirror3 r d n1 n2 nt m1 m2 m1' m2' :
    cyclic_end3 AR r n1 nt m1 m1' -> cyclic_end3 AR r n2 nt m2 m2' ->
    mirrored3 Ropp (s3_lo r) (s3_hi r) (n_eqns (s3_cfg r)) (nug (s3_o r)) d m1 m2 ->
    forall e, (e < n_eqns (s3_cfg r))%nat -> forall i, inside (s3_lo r) (s3_hi r) i ->
    cell3 m2' e (newest3 r nt) i = cell3 m1' e (newest3 r nt) (opposite3 d (s3_lo r d + s3_hi r d) i).
  Proof.
    intros E1 E2 (M1 & M2 & M3 & M4) e He i Hi.
    refine (eq_trans (run3_fun eps tiny r n2 nt m2 m2' E2 e He i Hi) _).
    refine (eq_trans _ (eq_sym (run3_fun eps tiny r n1 nt m1 m1' E1 e He _ (opp_inside r d i Hi)))).
    refine (mir_steps eps tiny (s3_o r) (s3_sp r) (s3_tp r) (cycX3 r AR m1) (cycX3 r AR m2) d (s3_lo r d + s3_hi r d) _ _ _ _
      (s3_nit r) (s3_freq r) (s3_scale r e) nt 0%Z _ _ _ i); clear i Hi.
    - intros c x _. cbn [nC cycX3]. unfold mhf, sg, mneg.
      change (face3 m2 c (wrap3 (s3_lo r) (s3_hi r) x) =
        if dim_eqb c d then - face3 m1 c (wrap3 (s3_lo r) (s3_hi r) (if dim_eqb c d then pv c (opposite3 d (s3_lo r d + s3_hi r d) x) else opposite3 d (s3_lo r d + s3_hi r d) x))
        else face3 m1 c (wrap3 (s3_lo r) (s3_hi r) (if dim_eqb c d then pv c (opposite3 d (s3_lo r d + s3_hi r d) x) else opposite3 d (s3_lo r d + s3_hi r d) x))).
      destruct (dim_eqb c d) eqn:E.
      + apply dim_eqb_eq in E. subst c. rewrite M2 by (eapply w_inner; eauto). rewrite <- (opp_face r n1 nt m1 m1' E1).
        assert (P : pv d (opposite3 d (s3_lo r d + s3_hi r d) x) = opposite3 d (s3_lo r d + s3_hi r d - 1) x).
        { destruct x as [[a b] k]. unfold pv, iadd, un, opposite3, put, comp. destruct d; cbn [fst snd]; ixs3. }
        rewrite P. reflexivity.
      + assert (N : c <> d) by (intros ->; destruct d; discriminate E).
        rewrite M3 by (auto; eapply w_inner; eauto).
        rewrite (on_face r n1 nt m1 m1' E1) by (apply opp_inner; auto; eapply w_inner; eauto).
        rewrite (w_opp r n1 nt m1 m1' E1). reflexivity.
    - intros Ng x. cbn [nG cycX3].
      change (gfac3 m2 (wrap3 (s3_lo r) (s3_hi r) x) = gfac3 m1 (wrap3 (s3_lo r) (s3_hi r) (opposite3 d (s3_lo r d + s3_hi r d) x))).
      rewrite (M4 Ng) by (eapply w_ins; eauto).
      rewrite (on_g r n1 nt m1 m1' E1) by (auto; apply opp_inside; auto; eapply w_ins; eauto).
      rewrite (w_opp r n1 nt m1 m1' E1). reflexivity.
    - intros d' x _. cbn [nN cycX3]. unfold sg. destruct (mneg d d'); cbn; lra.
    - intros d' x _. cbn [nT cycX3]. unfold sg. destruct (mneg d d'); cbn; lra.
    - intros x.
      change (cell3 m2 e false (wrap3 (s3_lo r) (s3_hi r) x) = cell3 m1 e false (wrap3 (s3_lo r) (s3_hi r) (opposite3 d (s3_lo r d + s3_hi r d) x))).
      rewrite (M1 e) by (auto; eapply w_ins; eauto).
      rewrite (on_cell r n1 nt m1 m1' E1) by (auto; apply opp_inside; auto; eapply w_ins; eauto).
      rewrite (w_opp r n1 nt m1 m1' E1). reflexivity.
  Qed.

  (** injective maps of the axes have inverses *)
  Lemma inverse q : (forall d d' : dim, q d = q d' -> d = d') -> exists q' : dim -> dim, (forall d, q (q' d) = d) /\ forall d, q' (q d) = d.
  Proof.
    intros I.
    assert (A := I DX DY). assert (B := I DX DZ). assert (C := I DY DZ).
    exists (fun d => if dim_eqb (q DX) d then DX else if dim_eqb (q DY) d then DY else DZ).
    destruct (q DX) eqn:E1, (q DY) eqn:E2, (q DZ) eqn:E3;
      try (discriminate (A eq_refl)); try (discriminate (B eq_refl)); try (discriminate (C eq_refl));
      (split; intros []; cbn [dim_eqb]; rewrite ?E1, ?E2, ?E3; reflexivity).
  Qed.
  Lemma comp_perm q d i : comp d (permute3 q i) = comp (q d) i.
  Proof. destruct d; reflexivity. Qed.

  Theorem permute_axes3 r q n1 n2 nt m1 m2 m1' m2' : (forall d d', q d = q d' -> d = d') ->
    cyclic_end3 AR r n1 nt m1 m1' -> cyclic_end3 AR (permute_run3 q r) n2 nt m2 m2' ->
    permuted3 (s3_lo r) (s3_hi r) (n_eqns (s3_cfg r)) (nug (s3_o r)) q m1 m2 ->
    forall e, (e < n_eqns (s3_cfg r))%nat -> forall i, inside (s3_lo r) (s3_hi r) i ->
    cell3 m2' e (newest3 (permute_run3 q r) nt) (permute3 q i) = cell3 m1' e (newest3 r nt) i.
  Proof.
    intros Inj E1 E2 (M1 & M2 & M4) e He i Hi. destruct (inverse q Inj) as (q' & Q1 & Q2).
    assert (Hi' : inside (s3_lo (permute_run3 q r)) (s3_hi (permute_run3 q r)) (permute3 q i)).
    { intros d. rewrite comp_perm. apply (Hi (q d)). }
    refine (eq_trans (run3_fun eps tiny (permute_run3 q r) n2 nt m2 m2' E2 e He _ Hi') _).
    refine (eq_trans _ (eq_sym (run3_fun eps tiny r n1 nt m1 m1' E1 e He _ Hi))).
    assert (EI : forall x, permute3 q' (permute3 q x) = x) by (intros x; apply idx_ext; intros d; rewrite !comp_perm, Q1; reflexivity).
    assert (EW : forall x, wrap3 (s3_lo (permute_run3 q r)) (s3_hi (permute_run3 q r)) x = permute3 q (wrap3 (s3_lo r) (s3_hi r) (permute3 q' x))).
    { intros x. apply idx_ext. intros d. rewrite comp_perm, !comp_w, comp_perm, Q2. reflexivity. }
    assert (EX : i = permute3 q' (permute3 q i)) by (symmetry; apply EI).
    set (y := permute3 q i) in *. clearbody y. subst i.
    refine (perm_steps eps tiny (s3_o r) (s3_sp r) (s3_tp r) (cycX3 r AR m1) (cycX3 (permute_run3 q r) AR m2) q q' Q1 Q2 _ _ _ _
      (s3_nit r) (s3_freq r) (s3_scale r e) nt 0%Z _ _ _ y).
    - intros d x _. unfold sg. cbn [nC cycX3]. rewrite EW. apply (M2 d). apply (w_inner r n1 nt m1 m1' E1).
    - intros Ng x. cbn [nG cycX3]. rewrite EW. apply (M4 Ng). apply (w_ins r n1 nt m1 m1' E1).
    - intros d x _. reflexivity.
    - intros d x _. reflexivity.
    - intros x. rewrite EW. apply (M1 e); auto. apply (w_ins r n1 nt m1 m1' E1).
  Qed.
End Runs.
