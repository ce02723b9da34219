(** 1D runs: independence of stale memory; cyclic runs are lattice runs. *)
From Coq Require Import ZArith List Bool Lia ZifyBool.
From Verif Require Import SpecIndex ModelIndex ProofsIndex ModelRun Lang ProofsLang Stencil ProofsStencil
  FormCommon Form1D Solver1D Macro ProofsMacro Foot1D Proofs1D ProofsThread1D ProofsValid ProofsValid1D
  ProofsExch1D ProofsRef1D Lattice ProofsLattice SpecThreads.
Import ListNotations.
Local Open Scope Z_scope.

Lemma iadd_x (i : idx) k : iadd i (x1 k) = (comp DX i + k, comp DY i, comp DZ i).
Proof. destruct i as [[a b] c]. unfold iadd, x1. cbn [comp fst snd]. rewrite !Z.add_0_r. reflexivity. Qed.

Section Inst.
  Variables (r : run1) (n : nat).
  Hypothesis RK : run_ok r.
  Hypothesis Hn : (0 < n)%nat.
  Hypothesis Hs : Z.of_nat n <= r_hi r - r_lo r + 1.
  Notation g := (geom1 (r_lo r) (r_hi r) n).
  Notation ex := (expand1 (r_halo r) (r_hi r - r_lo r) (r_bl r) (r_br r)).
  Notation o := (r_o r).
  Variable ar : arith.
  Notation mem := (loc -> car ar).
  Notation runp e p := (run_prog loc_eq_dec ar n (prog_of g (expand ex e p))).

  Lemma leb_bx x y E : ext3_leb (bx x y) izero E = true ->
    forall i, in_box g (bx x y) i -> in_box g E i.
  Proof. intros H i. apply in_box_sub. exact H. Qed.

  Lemma in_bx' x y i : in_box g (bx x y) i <->
    r_lo r - x <= comp DX i <= r_hi r + y /\ comp DY i = 0 /\ comp DZ i = 0.
  Proof. apply in_bx; auto. Qed.

  Lemma src_s_in i : in_box g (bx (r_halo r) (r_halo r)) i ->
    in_box g (bx 0 0) (reix (src_s (r_lo r) (r_hi r) (r_bl r) (r_br r)) i).
  Proof.
    rewrite !in_bx'. pose proof (halo_le r RK) as [H1 H2]. destruct i as [[x y] z].
    unfold reix, src_s. cbn [comp fst snd]. intros (X & Y & Z0).
    destruct (x <? r_lo r) eqn:C1; [destruct (r_bl r); lia|].
    destruct (r_hi r <? x) eqn:C2; [destruct (r_br r); lia|]. lia.
  Qed.
  Lemma src_v_in (ad : bool) i : in_box g (bx (r_halo r) (r_halo r - 1)) i ->
    in_box g (if ad then bx 1 0 else bx 0 (-1)) (reix (src_v (r_lo r) (r_hi r) (r_halo r) (r_bl r) (r_br r) ad) i).
  Proof.
    pose proof (halo_le r RK) as [H1 H2]. destruct i as [[x y] z].
    unfold reix, src_v.
    destruct ad; rewrite !in_bx'; cbn [comp fst snd]; intros (X & Y & Z0).
    - destruct (x <? r_lo r) eqn:C1.
      + destruct (r_bl r); [lia|]. destruct (x =? r_lo r - 1) eqn:C3; lia.
      + destruct (r_hi r - 1 <? x) eqn:C2; [|lia]. destruct (r_br r); [lia|].
        destruct (x =? r_hi r) eqn:C3; lia.
    - destruct (x <? r_lo r) eqn:C1; [destruct (r_bl r); lia|].
      destruct (r_hi r - 1 <? x) eqn:C2; [destruct (r_br r); lia|]. lia.
  Qed.

  Lemma xs_run e a ext (m : mem) b i :
    (b <> tag e a -> runp e [MXS a ext] m (b, i) = m (b, i)) /\
    (in_box g (bx (r_halo r) (r_halo r)) i ->
     runp e [MXS a ext] m (tag e a, i) = m (tag e a, reix (src_s (r_lo r) (r_hi r) (r_bl r) (r_br r)) i)).
  Proof.
    pose proof (halo_le r RK) as [H1 H2]. split.
    - apply xs_other; auto.
    - apply xs_here; auto.
  Qed.
  Lemma xv_run e v ad (m : mem) b i :
    (b <> tag e (v DX) -> runp e [MXVA v ad] m (b, i) = m (b, i)) /\
    (in_box g (bx (r_halo r) (r_halo r - 1)) i ->
     runp e [MXVA v ad] m (tag e (v DX), i) =
     m (tag e (v DX), reix (src_v (r_lo r) (r_hi r) (r_halo r) (r_bl r) (r_br r) ad) i)).
  Proof.
    pose proof (halo_le r RK) as [H1 H2]. split.
    - apply xv_other; auto.
    - apply xv_here; auto.
  Qed.

  Lemma vset_cases V a E b B : vset V a E b = Some B -> (b = a /\ B = E) \/ (b <> a /\ V b = Some B).
  Proof.
    unfold vset. destruct (arr_eqb b a) eqn:Eb.
    - intros H; inversion H. left. split; auto. apply arr_eqb_eq. auto.
    - intros H. right. split; auto. intros ->. rewrite (proj2 (arr_eqb_eq a a) eq_refl) in Eb. discriminate.
  Qed.
  Lemma tag_neq e a b : b <> a -> tag e b <> tag e a.
  Proof. intros H H'. apply H. eapply tag_inj; eauto. Qed.

  (** two memories *)
  Lemma two_vx e x V V' (m m' : mem) : is_exch x = true -> vx1 (r_halo r) x V = Some V' ->
    agree g ar e V m m' -> True -> agree g ar e V' (runp e [x] m) (runp e [x] m').
  Proof.
    intros Hx HV A _. destruct x as [s| |a ext|v ad|v ext|v]; try discriminate; cbn [vx1] in HV.
    - destruct (V a) as [B|] eqn:EB; [|discriminate]. destruct (ext3_leb _ _ _) eqn:L; [|discriminate].
      inversion HV; subst. intros b E i Hb Hi. apply vset_cases in Hb. destruct Hb as [[-> ->]|[NE Hb]].
      + rewrite !(proj2 (xs_run e a ext _ (tag e a) i) Hi). apply (A a B); auto. eapply leb_bx; eauto. apply src_s_in; auto.
      + rewrite !(proj1 (xs_run e a ext _ (tag e b) i) (tag_neq e a b NE)). apply (A b E); auto.
    - destruct (V (v DX)) as [B|] eqn:EB; [|discriminate]. destruct (ext3_leb _ _ _) eqn:L; [|discriminate].
      inversion HV; subst. intros b E i Hb Hi. apply vset_cases in Hb. destruct Hb as [[-> ->]|[NE Hb]].
      + rewrite !(proj2 (xv_run e v ad _ (tag e (v DX)) i) Hi). apply (A (v DX) B); auto.
        pose proof (src_v_in ad i Hi) as SI. eapply in_box_sub; [exact L|]. destruct ad; exact SI.
      + rewrite !(proj1 (xv_run e v ad _ (tag e b) i) (tag_neq e (v DX) b NE)). apply (A b E); auto.
  Qed.

  Lemma rruns_runs l (m : mem) :
    rruns ar (fun e s m => run_stmt loc_eq_dec ar n (stmt_of g (inst e s)) m) (fun e x m => runp e [x] m) l m =
    runs r n ar l m.
  Proof.
    revert m. induction l as [|[e p] l IH]; intros m; [reflexivity|]. cbn [rruns runs fold_left fst snd].
    etransitivity; [apply IH|]. unfold runs. f_equal.
    clear IH. revert m. induction p as [|i p IH]; intros m; [reflexivity|].
    change (i :: p) with ([i] ++ p). rewrite (runp_app r n ar e [i] p). cbn [ref_run app fold_left].
    etransitivity; [apply IH|]. f_equal. destruct i; reflexivity.
  Qed.

  Theorem stale_independent nt (m m' : mem) : no_stale o (r_nit r) = true -> (0 < n_eqns (r_cfg r))%nat ->
    inv0 r n ar m m' ->
    inv r n ar (fun _ => level_after r nt 0 false)
      (run_prog loc_eq_dec ar n (prog_of g (run_prog1 r nt)) m)
      (run_prog loc_eq_dec ar n (prog_of g (run_prog1 r nt)) m').
  Proof.
    intros NS NE A.
    destruct (run_agree r n RK Hn Hs NS ar
      (fun e s m => run_stmt loc_eq_dec ar n (stmt_of g (inst e s)) m) (fun e x m => runp e [x] m) (fun _ => True)
      ltac:(intros; apply (run_ref g (geom1_ok _ _ _ Hn Hs)); auto) ltac:(auto) ltac:(auto) two_vx
      ltac:(intros; apply runp_frame; auto) nt m m' NE A I) as [A' _].
    rewrite rruns_runs in A'. rewrite <- runs_expands, <- run_expands in A'. exact A'.
  Qed.

  (** the lattice *)
  Hypothesis CL : r_bl r = Cyclic.
  Hypothesis CR : r_br r = Cyclic.
  Notation per := (x1 (r_hi r - r_lo r)).

  Lemma lat_ref e s (f : mem) : ref_do g ar e s f (lat_do ar e s f).
  Proof.
    split.
    - intros E i HE Hi. unfold lat_do. cbn [fst snd]. rewrite (proj2 (garr_eqb_eq _ _) eq_refl).
      unfold inst. cbn [d_exp]. rewrite ev_emap. reflexivity.
    - intros a i Ha. unfold lat_do. cbn [fst]. destruct (garr_eqb a (tag e (t_arr s))) eqn:E; auto.
      apply garr_eqb_eq in E. congruence.
  Qed.

  Lemma per_src (f : mem) a i k x : periodic ar per f ->
    k = 1 \/ k = -1 \/ k = 0 -> x = comp DX i + k * (r_hi r - r_lo r) ->
    f (a, (x, comp DY i, comp DZ i)) = f (a, i).
  Proof.
    intros P Hk ->. destruct i as [[x y] z]. cbn [comp fst snd]. destruct Hk as [->|[->| ->]].
    - pose proof (P a (x, y, z)) as Q. rewrite iadd_x in Q. cbn [comp fst snd] in Q.
      rewrite Z.mul_1_l. exact Q.
    - pose proof (P a (x + -1 * (r_hi r - r_lo r), y, z)) as Q. rewrite iadd_x in Q. cbn [comp fst snd] in Q.
      replace (x + -1 * (r_hi r - r_lo r) + (r_hi r - r_lo r)) with x in Q by lia. symmetry. exact Q.
    - rewrite Z.mul_0_l, Z.add_0_r. reflexivity.
  Qed.

  Lemma lat_vx e x V V' (m f : mem) : is_exch x = true -> vx1 (r_halo r) x V = Some V' ->
    agree g ar e V m f -> periodic ar per f -> agree g ar e V' (runp e [x] m) f.
  Proof.
    intros Hx HV A P. pose proof (halo_le r RK) as [H1 H2].
    destruct x as [s| |a ext|v ad|v ext|v]; try discriminate; cbn [vx1] in HV.
    - destruct (V a) as [B|] eqn:EB; [|discriminate]. destruct (ext3_leb _ _ _) eqn:L; [|discriminate].
      inversion HV; subst. intros b E i Hb Hi. apply vset_cases in Hb. destruct Hb as [[-> ->]|[NE Hb]].
      + rewrite (proj2 (xs_run e a ext _ (tag e a) i) Hi).
        rewrite (A a B); auto; [|eapply leb_bx; eauto; apply src_s_in; auto].
        unfold reix, src_s. rewrite CL, CR. apply in_bx' in Hi. destruct Hi as (X & _ & _).
        destruct (comp DX i <? r_lo r) eqn:C1; [apply per_src with (k := 1); auto; lia|].
        destruct (r_hi r <? comp DX i) eqn:C2; [apply per_src with (k := -1); auto; lia|].
        apply per_src with (k := 0); auto; lia.
      + rewrite (proj1 (xs_run e a ext _ (tag e b) i) (tag_neq e a b NE)). apply (A b E); auto.
    - destruct (V (v DX)) as [B|] eqn:EB; [|discriminate]. destruct (ext3_leb _ _ _) eqn:L; [|discriminate].
      inversion HV; subst. intros b E i Hb Hi. apply vset_cases in Hb. destruct Hb as [[-> ->]|[NE Hb]].
      + rewrite (proj2 (xv_run e v ad _ (tag e (v DX)) i) Hi).
        pose proof (src_v_in ad i Hi) as SI. rewrite (A (v DX) B); auto;
          [|eapply in_box_sub; [exact L|]; destruct ad; exact SI].
        unfold reix, src_v. rewrite CL, CR. apply in_bx' in Hi. destruct Hi as (X & _ & _).
        destruct (comp DX i <? r_lo r) eqn:C1; [apply per_src with (k := 1); auto; lia|].
        destruct (r_hi r - 1 <? comp DX i) eqn:C2; [apply per_src with (k := -1); auto; lia|].
        apply per_src with (k := 0); auto; lia.
      + rewrite (proj1 (xv_run e v ad _ (tag e b) i) (tag_neq e (v DX) b NE)). apply (A b E); auto.
  Qed.

  Lemma rruns_lat l (f : mem) :
    rruns ar (fun e s => lat_do ar e s) (fun e x f => f) l f = lat_progs ar l f.
  Proof.
    revert f. induction l as [|[e p] l IH]; intros f; [reflexivity|]. cbn [rruns lat_progs fold_left fst snd].
    exact (IH (lat_prog ar e p f)).
  Qed.

  Theorem lattice_run nt (m f : mem) : no_stale o (r_nit r) = true -> (0 < n_eqns (r_cfg r))%nat ->
    inv0 r n ar m f -> periodic ar per f ->
    inv r n ar (fun _ => level_after r nt 0 false)
      (run_prog loc_eq_dec ar n (prog_of g (run_prog1 r nt)) m) (lat_progs ar (run_macro r nt) f).
  Proof.
    intros NS NE A P.
    destruct (run_agree r n RK Hn Hs NS ar (fun e s => lat_do ar e s) (fun e x f => f) (periodic ar per)
      ltac:(intros; apply lat_ref) ltac:(intros; apply lat_do_periodic; auto) ltac:(auto)
      lat_vx ltac:(auto) nt m f NE A P) as [A' _].
    rewrite rruns_lat in A'. exact A'.
  Qed.
End Inst.
