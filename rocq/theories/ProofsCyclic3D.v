(** 3D runs on a cyclic grid are runs on the infinite lattice. *)
From Coq Require Import ZArith List Bool Lia ZifyBool.
From Verif Require Import SpecIndex ModelIndex ProofsIndex ModelRun Lang ProofsLang Stencil ProofsStencil
  FormCommon Form3D Solver1D Solver3D Macro ProofsMacro Foot1D Proofs1D ProofsThread1D ProofsGeom3D
  ProofsValid ProofsValid1D Boxes ProofsBoxes Boxes3 ProofsBoxes3 ProofsValid2D ProofsValid3D ProofsExch3D ProofsRef3D ProofsOne3D
  ProofsFill3D ProofsThread3D Lattice ProofsLattice SpecThreads SpecFields3.
Import ListNotations.
Local Open Scope Z_scope.

(** time level that holds the result after [nt] steps *)
Definition newest3 (r : run3) (nt : nat) : bool := level_after3 r nt 0 false.

Definition periodic3 (ar : arith) (r : run3) (f : loc -> car ar) : Prop :=
  forall d, periodic ar (x3 d (s3_per r d) 0 0) f.

Section Inst.
  Variables (r : run3) (n : nat).
  Hypothesis RK : run3_ok r.
  Hypothesis Hn : (0 < n)%nat.
  Hypothesis Hs : Z.of_nat n <= s3_hi r DY - s3_lo r DY + 1.
  Notation g := (geom3 r n).
  Notation o := (s3_o r).
  Variable ar : arith.
  Notation mem := (loc -> car ar).

  Lemma lat_ref3 e s (f : mem) : ref_do g ar e s f (lat_do ar e s f).
  Proof.
    split.
    - intros E i HE Hi. unfold lat_do. cbn [fst snd]. rewrite (proj2 (garr_eqb_eq _ _) eq_refl).
      unfold inst. cbn [d_exp]. rewrite ev_emap. reflexivity.
    - intros a i Ha. unfold lat_do. cbn [fst]. destruct (garr_eqb a (tag e (t_arr s))) eqn:E; auto.
      apply garr_eqb_eq in E. congruence.
  Qed.

  Lemma rruns_lat3 l (f : mem) :
    rruns3 ar (fun e s => lat_do ar e s) (fun e x f => f) l f = lat_progs ar l f.
  Proof.
    revert f. induction l as [|[e p] l IH]; intros f; [reflexivity|]. cbn [rruns3 lat_progs fold_left fst snd].
    exact (IH (lat_prog ar e p f)).
  Qed.

  Theorem lattice_run3 nt (m f : mem) : no_stale3 o (s3_nit r) = true -> (0 < n_eqns (s3_cfg r))%nat ->
    inv0_3 r n ar m f -> periodic3 ar r f ->
    inv3 r n ar (fun _ => newest3 r nt)
      (run_prog loc_eq_dec ar n (program3 r n nt) m) (lat_progs ar (run_macro3 r nt) f).
  Proof.
    intros NS NE A P.
    destruct (run_agree3 r n RK Hn Hs NS ar (fun e s => lat_do ar e s) (fun e x f => f) (periodic3 ar r)
      ltac:(intros; apply lat_ref3) ltac:(intros e s f0 P0 d; apply lat_do_periodic; auto) ltac:(auto)
      ltac:(intros e x V V' m0 f0 Hx HV A0 P0; eapply lat_vx3; eauto) ltac:(auto) nt m f NE A P) as [A' _].
    rewrite rruns_lat3 in A'. exact A'.
  Qed.
End Inst.

Lemma comp_put d k i d' : comp d' (put d k i) = if dim_eqb d d' then k else comp d' i.
Proof. destruct i as [[x y] z], d, d'; reflexivity. Qed.

Section Vis.
  Variable r : run3.
  Hypothesis RK : run3_ok r.
  Variable ar : arith.
  Notation mem := (loc -> car ar).
  Notation lo := (s3_lo r).
  Notation hi := (s3_hi r).
  Notation ne := (n_eqns (s3_cfg r)).
  Notation o := (s3_o r).
  Notation w := (wrap3 lo hi).

  Lemma inv0_same3 n (m m' : mem) : (0 < n)%nat -> Z.of_nat n <= hi DY - lo DY + 1 ->
    same_data3 lo hi ne (nug o) m m' -> inv0_3 r n ar m m'.
  Proof.
    intros Hn Hs (C & F & G) e He a E i Ha Hi. apply in_eq_order3 in He.
    destruct a as [b|d|b d|d|d| | | | | |d|d|k|k]; cbn in Ha; try tauto.
    - destruct b; [destruct Ha|]. destruct Ha as [<-|[]]. apply (in_b3 r n Hn Hs) in Hi. apply C; auto. intros [| |]; lia.
    - destruct Ha as [<-|[]]. destruct d; apply (in_b3 r n Hn Hs) in Hi; apply F; (split; [intros [| |]; lia|lia]).
    - destruct (nug o) eqn:EN; [|destruct Ha]. destruct Ha as [<-|[]]. apply (in_b3 r n Hn Hs) in Hi. apply G; auto. intros [| |]; lia.
  Qed.

  Lemma inv_cell3 n (m m' : mem) b e i : (0 < n)%nat -> Z.of_nat n <= hi DY - lo DY + 1 ->
    inv3 r n ar (fun _ => b) m m' -> (e < ne)%nat -> inside lo hi i -> cell3 m e b i = cell3 m' e b i.
  Proof.
    intros Hn Hs I He Hi. apply (I e (proj2 (in_eq_order3 r e) He) (Psi b) (b3 0 0 0 0 0 0) i).
    - unfold vinv3. rewrite (proj2 (arr_eqb_eq _ _) eq_refl). left. reflexivity.
    - apply (in_b3 r n Hn Hs). pose proof (Hi DX). pose proof (Hi DY). pose proof (Hi DZ). lia.
  Qed.

  Theorem cyclic_lattice3 n nt (m m' f : mem) :
    (0 < n)%nat -> Z.of_nat n <= hi DY - lo DY + 1 -> settled3 r n -> no_stale3 o (s3_nit r) = true ->
    same_data3 lo hi ne (nug o) m f -> periodic3 ar r f ->
    can_end loc_eq_dec ar n (program3 r n nt) m m' ->
    forall e i, (e < ne)%nat -> inside lo hi i ->
      cell3 m' e (newest3 r nt) i = cell3 (lat_progs ar (run_macro3 r nt) f) e (newest3 r nt) i.
  Proof.
    intros Hn Hs T NS SD P E e i He Hi. unfold cell3.
    rewrite (can_end_run3 r n nt ar m m' RK Hn Hs T E) by (intros (_ & D & _); discriminate).
    apply (inv_cell3 n _ _ (newest3 r nt) e i); auto.
    apply lattice_run3; auto; [lia|]. apply inv0_same3; auto.
  Qed.

  (** *** Periodic extension *)
  Lemma lo_hi3 d : lo d < hi d.
  Proof. pose proof (ok3_grid r RK d). pose proof (halo_pos o). lia. Qed.
  Lemma comp_w d i : comp d (w i) = lo d + (comp d i - lo d) mod (hi d - lo d).
  Proof. destruct d; reflexivity. Qed.
  Lemma w_in3 i d : lo d <= comp d (w i) < hi d.
  Proof. rewrite comp_w. pose proof (lo_hi3 d). pose proof (Z.mod_pos_bound (comp d i - lo d) (hi d - lo d)). lia. Qed.
  Lemma w_inside i : inside lo hi (w i).
  Proof. intros d. pose proof (w_in3 i d). lia. Qed.
  Lemma w_id3 i d : lo d <= comp d i < hi d -> comp d (w i) = comp d i.
  Proof. intros H. rewrite comp_w, Z.mod_small; lia. Qed.
  Lemma w_hi3 i d : comp d i = hi d -> comp d (w i) = lo d.
  Proof. intros H. pose proof (lo_hi3 d). rewrite comp_w, H, Z.mod_same; lia. Qed.
  Lemma comp_x3 d k d' : comp d' (x3 d k 0 0) = if dim_eqb d d' then k else 0.
  Proof. destruct d, d'; reflexivity. Qed.
  Lemma w_per3 d i : w (iadd i (x3 d (hi d - lo d) 0 0)) = w i.
  Proof.
    apply idx_ext. intros d'. rewrite !comp_w, comp_iadd, comp_x3. destruct (dim_eqb d d') eqn:E.
    - apply dim_eqb_eq in E. subst d'. pose proof (lo_hi3 d).
      replace (comp d i + (hi d - lo d) - lo d) with (comp d i - lo d + 1 * (hi d - lo d)) by lia.
      rewrite Z.mod_add by lia. reflexivity.
    - rewrite Z.add_0_r. reflexivity.
  Qed.

  Definition ext3m (m : mem) : mem := fun l => m (fst l, w (snd l)).
  Lemma ext3_periodic (m : mem) : periodic3 ar r (ext3m m).
  Proof. intros d a i. unfold ext3m. cbn [fst snd]. unfold s3_per. rewrite w_per3. reflexivity. Qed.

  (** a field that repeats its first plane in its last one, restricted to the
      faces [c] (if any), has the same value at [i] and at [w i] *)
  Lemma wrap_val (P : idx -> Prop) (v : idx -> car ar) :
    (forall i, P i -> inside lo hi i) ->
    (forall d i, P i -> comp d i = hi d -> P (put d (lo d) i) /\ v i = v (put d (lo d) i)) ->
    forall i, P i -> v i = v (w i).
  Proof.
    intros HI HP i Hi.
    assert (ST : forall d i, P i -> exists j, P j /\ v i = v j /\ w i = w j /\ comp d j < hi d /\
               forall d', comp d' i < hi d' -> comp d' j < hi d').
    { intros d j Hj. destruct (Z.eq_dec (comp d j) (hi d)) as [E|E].
      - destruct (HP d j Hj E) as [P1 P2]. exists (put d (lo d) j). split; [auto|]. split; [auto|].
        pose proof (lo_hi3 d) as L. split; [|split].
        + apply idx_ext. intros d'. destruct (dim_eqb d d') eqn:Ed.
          * apply dim_eqb_eq in Ed. subst d'. rewrite w_hi3 by auto. rewrite w_id3; rewrite comp_put, (proj2 (dim_eqb_eq d d) eq_refl); lia.
          * rewrite !comp_w, comp_put, Ed. reflexivity.
        + rewrite comp_put, (proj2 (dim_eqb_eq d d) eq_refl). exact L.
        + intros d' H. rewrite comp_put. destruct (dim_eqb d d') eqn:Ed; auto. apply dim_eqb_eq in Ed. subst. exact L.
      - exists j. split; [auto|]. split; [auto|]. split; [auto|]. split; [|auto]. pose proof (HI j Hj d). lia. }
    destruct (ST DX i Hi) as (j & Pj & Vj & Wj & Lj & _).
    destruct (ST DY j Pj) as (k & Pk & Vk & Wk & Lk & Mk).
    destruct (ST DZ k Pk) as (l & Pl & Vl & Wl & Ll & Ml).
    rewrite Vj, Vk, Vl, Wj, Wk, Wl. f_equal. symmetry. apply idx_ext. intros d. apply w_id3.
    pose proof (HI l Pl d). destruct d; [pose proof (Ml DX (Mk DX Lj))|pose proof (Ml DY Lk)|]; lia.
  Qed.

  Lemma inside_put d i : inside lo hi i -> inside lo hi (put d (lo d) i).
  Proof.
    intros H d'. rewrite comp_put. destruct (dim_eqb d d') eqn:E; [|apply H]. apply dim_eqb_eq in E. subst.
    pose proof (lo_hi3 d'). lia.
  Qed.
  Lemma ext3_same (m : mem) : cyclic_data3 lo hi ne (nug o) m -> same_data3 lo hi ne (nug o) m (ext3m m).
  Proof.
    intros (C & F & G). split; [|split].
    - intros e i He Hi. apply (wrap_val (inside lo hi) (fun i => cell3 m e false i)); auto using inside_put.
    - intros c i Hi. apply (wrap_val (inner lo hi c) (fun i => face3 m c i)); auto.
      + intros j [H _]. exact H.
      + intros d j Hj E. split; auto. destruct Hj as [H1 H2]. split; [apply inside_put; auto|].
        rewrite comp_put. destruct (dim_eqb d c) eqn:Ed; auto. apply dim_eqb_eq in Ed. subst. lia.
    - intros N i Hi. apply (wrap_val (inside lo hi) (fun i => gfac3 m i)); auto using inside_put.
  Qed.

  Lemma per_mul3 v (f : mem) : periodic ar v f -> forall k a i,
    f (a, iadd i (k * comp DX v, k * comp DY v, k * comp DZ v)) = f (a, i).
  Proof.
    intros P k. apply (Z.peano_ind (fun k => forall a i, f (a, iadd i (k * comp DX v, k * comp DY v, k * comp DZ v)) = f (a, i))).
    - intros a [[x y] z]. unfold iadd. cbn [comp fst snd]. rewrite !Z.mul_0_l, !Z.add_0_r. reflexivity.
    - intros q IH a i. rewrite <- (IH a i).
      rewrite <- (P a (iadd i (q * comp DX v, q * comp DY v, q * comp DZ v))). f_equal. f_equal.
      destruct i as [[x y] z], v as [[u v] t]. unfold iadd. cbn [comp fst snd]. f_equal; [f_equal|]; lia.
    - intros q IH a i. rewrite <- (IH a i).
      rewrite <- (P a (iadd i (Z.pred q * comp DX v, Z.pred q * comp DY v, Z.pred q * comp DZ v))). f_equal. f_equal.
      destruct i as [[x y] z], v as [[u v] t]. unfold iadd. cbn [comp fst snd]. f_equal; [f_equal|]; lia.
  Qed.
  Lemma per_wrap3 (f : mem) a i : periodic3 ar r f -> f (a, w i) = f (a, i).
  Proof.
    intros P.
    pose proof (fun d => per_mul3 _ f (P d) ((comp d i - lo d) / (hi d - lo d)) a) as M.
    rewrite <- (M DX (w i)), <- (M DY (iadd (w i) _)), <- (M DZ (iadd (iadd (w i) _) _)). f_equal. f_equal.
    apply idx_ext. intros d. rewrite !comp_iadd, comp_w. unfold s3_per. cbn [x3 comp fst snd].
    pose proof (lo_hi3 d) as L. pose proof (Z.div_mod (comp d i - lo d) (hi d - lo d) ltac:(lia)) as E.
    destruct d; cbn [comp fst snd] in *; rewrite ?Z.mul_0_r; lia.
  Qed.

  Lemma lat_per3 nt (f : mem) : periodic3 ar r f -> periodic3 ar r (lat_progs ar (run_macro3 r nt) f).
  Proof. intros P d. apply lat_progs_periodic; auto. Qed.

  (** the duplicated edges stay consistent *)
  Theorem edge_consistent3 n nt (m m' : mem) :
    (0 < n)%nat -> Z.of_nat n <= hi DY - lo DY + 1 -> settled3 r n -> no_stale3 o (s3_nit r) = true ->
    cyclic_data3 lo hi ne (nug o) m ->
    can_end loc_eq_dec ar n (program3 r n nt) m m' ->
    forall e d i, (e < ne)%nat -> inside lo hi i -> comp d i = hi d ->
      cell3 m' e (newest3 r nt) i = cell3 m' e (newest3 r nt) (put d (lo d) i).
  Proof.
    intros Hn Hs T NS CD E e d i He Hi Hd.
    pose proof (cyclic_lattice3 n nt m m' (ext3m m) Hn Hs T NS (ext3_same m CD) (ext3_periodic m) E e) as L.
    pose proof (lat_per3 nt _ (ext3_periodic m)) as P. rewrite !L by auto using inside_put. unfold cell3.
    rewrite <- (per_wrap3 _ _ i P), <- (per_wrap3 _ _ (put d (lo d) i) P). f_equal. f_equal.
    apply idx_ext. intros d'. destruct (dim_eqb d d') eqn:Ed.
    - apply dim_eqb_eq in Ed. subst d'. rewrite w_hi3 by auto. pose proof (lo_hi3 d).
      rewrite w_id3; rewrite comp_put, (proj2 (dim_eqb_eq d d) eq_refl); lia.
    - rewrite !comp_w, comp_put, Ed. reflexivity.
  Qed.

  Theorem translation3 n n2 nt k (m m' m2 m2' : mem) :
    (0 < n)%nat -> Z.of_nat n <= hi DY - lo DY + 1 -> settled3 r n ->
    (0 < n2)%nat -> Z.of_nat n2 <= hi DY - lo DY + 1 -> settled3 r n2 ->
    no_stale3 o (s3_nit r) = true ->
    cyclic_data3 lo hi ne (nug o) m -> moved3 lo hi ne (nug o) k m m2 ->
    can_end loc_eq_dec ar n (program3 r n nt) m m' ->
    can_end loc_eq_dec ar n2 (program3 r n2 nt) m2 m2' ->
    forall e i, (e < ne)%nat -> inside lo hi i ->
      cell3 m2' e (newest3 r nt) i = cell3 m' e (newest3 r nt) (w (iadd i k)).
  Proof.
    intros Hn Hs T Hn2 Hs2 T2 NS CD (M1 & M2 & M3) E E2 e i He Hi.
    pose proof (ext3_periodic m) as P.
    rewrite (cyclic_lattice3 n nt m m' (ext3m m)) by auto using ext3_same, w_inside.
    unfold cell3 at 2. rewrite per_wrap3 by (apply lat_per3; exact P).
    rewrite (cyclic_lattice3 n2 nt m2 m2' (shift ar k (ext3m m))); auto.
    - unfold cell3. rewrite lat_progs_shift. reflexivity.
    - split; [|split].
      + intros e' i' He' Hi'. rewrite M1 by auto. reflexivity.
      + intros d i' Hi'. rewrite M2 by auto. reflexivity.
      + intros N i' Hi'. rewrite M3 by auto. reflexivity.
    - intros d a q. unfold shift. cbn [fst snd]. rewrite <- (P d a (iadd q k)).
      f_equal. f_equal. rewrite <- !iadd_assoc. f_equal. apply iadd_comm.
  Qed.
End Vis.

Lemma same_data3_sym {V} lo hi ne ng (m m' : loc -> V) : same_data3 lo hi ne ng m m' -> same_data3 lo hi ne ng m' m.
Proof. intros (A & B & C). repeat split; intros; symmetry; auto. Qed.
Lemma same_data3_trans {V} lo hi ne ng (m m' m2 : loc -> V) :
  same_data3 lo hi ne ng m m' -> same_data3 lo hi ne ng m' m2 -> same_data3 lo hi ne ng m m2.
Proof.
  intros (A & B & C) (A' & B' & C'). split; [|split]; intros; [rewrite A by auto|rewrite B by auto|rewrite C by auto]; auto.
Qed.

(** nothing but the user's data matters *)
Theorem no_stale_data3 r : run3_ok r -> forall ar n1 n2 nt (m1 m2 m1' m2' : loc -> car ar),
  (0 < n1)%nat -> Z.of_nat n1 <= s3_hi r DY - s3_lo r DY + 1 -> settled3 r n1 ->
  (0 < n2)%nat -> Z.of_nat n2 <= s3_hi r DY - s3_lo r DY + 1 -> settled3 r n2 ->
  no_stale3 (s3_o r) (s3_nit r) = true ->
  cyclic_data3 (s3_lo r) (s3_hi r) (n_eqns (s3_cfg r)) (nug (s3_o r)) m1 ->
  same_data3 (s3_lo r) (s3_hi r) (n_eqns (s3_cfg r)) (nug (s3_o r)) m1 m2 ->
  can_end loc_eq_dec ar n1 (program3 r n1 nt) m1 m1' ->
  can_end loc_eq_dec ar n2 (program3 r n2 nt) m2 m2' ->
  forall e i, (e < n_eqns (s3_cfg r))%nat -> inside (s3_lo r) (s3_hi r) i ->
    cell3 m1' e (newest3 r nt) i = cell3 m2' e (newest3 r nt) i.
Proof.
  intros RK ar n1 n2 nt m1 m2 m1' m2' H1 S1 T1 H2 S2 T2 NS CD SD E1 E2 e i He Hi.
  pose proof (ext3_same r RK ar m1 CD) as SE. pose proof (ext3_periodic r RK ar m1) as P.
  rewrite (cyclic_lattice3 r RK ar n1 nt m1 m1' (ext3m r ar m1)) by auto.
  rewrite (cyclic_lattice3 r RK ar n2 nt m2 m2' (ext3m r ar m1)); auto.
  eapply same_data3_trans; [apply same_data3_sym; exact SD|exact SE].
Qed.
