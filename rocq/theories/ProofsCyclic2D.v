(** 2D runs on a doubly cyclic grid are runs on the infinite lattice. *)
From Coq Require Import ZArith List Bool Lia ZifyBool.
From Verif Require Import SpecIndex ModelIndex ProofsIndex ModelRun Lang ProofsLang Stencil ProofsStencil
  FormCommon Form2D Solver1D Solver2D Macro ProofsMacro Foot1D Foot2D Proofs1D Proofs2D ProofsThread1D ProofsThread2D
  ProofsValid ProofsValid1D Boxes ProofsBoxes ProofsValid2D ProofsExch2D ProofsRef2D ProofsOne2D
  Lattice ProofsLattice SpecThreads SpecFields2.
Import ListNotations.
Local Open Scope Z_scope.

(** time level that holds the result after [nt] steps *)
Definition newest2 (r : run2) (nt : nat) : bool := level_after2 r nt 0 false.

Definition doubly_periodic (ar : arith) (r : run2) (f : loc -> car ar) : Prop :=
  periodic ar (s_per r DX, 0, 0) f /\ periodic ar (0, s_per r DY, 0) f.

Section Inst.
  Variables (r : run2) (n : nat).
  Hypothesis RK : run2_ok r.
  Hypothesis Hn : (0 < n)%nat.
  Hypothesis Hs : Z.of_nat n <= s_hi r DX - s_lo r DX + 1.
  Hypothesis CL : forall d, s_bl r d = Cyclic2.
  Hypothesis CR : forall d, s_br r d = Cyclic2.
  Notation g := (geom2 r n).
  Notation o := (s_o r).
  Variable ar : arith.
  Notation mem := (loc -> car ar).

  Lemma lat_ref2 e s (f : mem) : ref_do g ar e s f (lat_do ar e s f).
  Proof.
    split.
    - intros E i HE Hi. unfold lat_do. cbn [fst snd]. rewrite (proj2 (garr_eqb_eq _ _) eq_refl).
      unfold inst. cbn [d_exp]. rewrite ev_emap. reflexivity.
    - intros a i Ha. unfold lat_do. cbn [fst]. destruct (garr_eqb a (tag e (t_arr s))) eqn:E; auto.
      apply garr_eqb_eq in E. congruence.
  Qed.

  Lemma rruns_lat2 l (f : mem) :
    rruns2 ar (fun e s => lat_do ar e s) (fun e x f => f) l f = lat_progs ar l f.
  Proof.
    revert f. induction l as [|[e p] l IH]; intros f; [reflexivity|]. cbn [rruns2 lat_progs fold_left fst snd].
    exact (IH (lat_prog ar e p f)).
  Qed.

  Theorem lattice_run2 nt (m f : mem) : no_stale2 o (s_nit r) = true -> (0 < n_eqns (s_cfg r))%nat ->
    inv0_2 r n ar m f -> doubly_periodic ar r f ->
    inv2 r n ar (fun _ => newest2 r nt)
      (run_prog loc_eq_dec ar n (program2 r n nt) m) (lat_progs ar (run_macro2 r nt) f).
  Proof.
    intros NS NE A P.
    destruct (run_agree2 r n RK Hn Hs NS ar (fun e s => lat_do ar e s) (fun e x f => f) (doubly_periodic ar r)
      ltac:(intros; apply lat_ref2) ltac:(intros e s f0 [P1 P2]; split; apply lat_do_periodic; auto) ltac:(auto)
      ltac:(intros e x V V' m0 f0 Hx HV A0 [P1 P2]; eapply lat_vx2; eauto) ltac:(auto) nt m f NE A P) as [A' _].
    rewrite rruns_lat2 in A'. exact A'.
  Qed.
End Inst.

Section Vis.
  Variable r : run2.
  Hypothesis RK : run2_ok r.
  Hypothesis CL : forall d, s_bl r d = Cyclic2.
  Hypothesis CR : forall d, s_br r d = Cyclic2.
  Variable ar : arith.
  Notation mem := (loc -> car ar).
  Notation lo := (s_lo r).
  Notation hi := (s_hi r).
  Notation ne := (n_eqns (s_cfg r)).
  Notation o := (s_o r).
  Notation w := (wrap2 lo hi).

  Lemma inv0_same2 n (m m' : mem) : (0 < n)%nat -> Z.of_nat n <= hi DX - lo DX + 1 ->
    same_data2 lo hi ne (nug o) m m' -> inv0_2 r n ar m m'.
  Proof.
    intros Hn Hs (C & F1 & F2 & G) e He a E [[x y] z] Ha Hi. apply in_eq_order2 in He.
    assert (B : forall a b c d, In E [b2 a b c d] ->
       (lo DX - a <= x <= hi DX + b) /\ (lo DY - c <= y <= hi DY + d) /\ z = 0).
    { intros a0 b0 c0 d0 [<-|[]]. apply in_b2 in Hi; auto. }
    destruct a as [b|d|b d|d|d| | | | | |d|d|k|k]; cbn in Ha; try tauto.
    - destruct b; [destruct Ha|]. destruct (B _ _ _ _ Ha) as (X & Y & ->). apply C; auto; lia.
    - destruct d; [| |destruct Ha]; destruct (B _ _ _ _ Ha) as (X & Y & ->); [apply F1|apply F2]; lia.
    - destruct (nug o) eqn:EN; [|destruct Ha]. destruct (B _ _ _ _ Ha) as (X & Y & ->). apply G; auto; lia.
  Qed.

  Lemma inv_cell2 n (m m' : mem) b e i j : (0 < n)%nat -> Z.of_nat n <= hi DX - lo DX + 1 ->
    inv2 r n ar (fun _ => b) m m' -> (e < ne)%nat -> lo DX <= i <= hi DX -> lo DY <= j <= hi DY ->
    cell2 m e b i j = cell2 m' e b i j.
  Proof.
    intros Hn Hs I He Hi Hj. apply (I e (proj2 (in_eq_order2 r e) He) (Psi b) (b2 0 0 0 0) (i, j, 0)).
    - unfold vinv2. rewrite (proj2 (arr_eqb_eq _ _) eq_refl). left. reflexivity.
    - apply in_b2; auto. cbn [comp fst snd]. lia.
  Qed.

  Theorem cyclic_lattice2 n nt (m m' f : mem) :
    (0 < n)%nat -> Z.of_nat n <= hi DX - lo DX + 1 -> settled r n -> no_stale2 o (s_nit r) = true ->
    same_data2 lo hi ne (nug o) m f -> doubly_periodic ar r f ->
    can_end loc_eq_dec ar n (program2 r n nt) m m' ->
    forall e i j, (e < ne)%nat -> lo DX <= i <= hi DX -> lo DY <= j <= hi DY ->
      cell2 m' e (newest2 r nt) i j = cell2 (lat_progs ar (run_macro2 r nt) f) e (newest2 r nt) i j.
  Proof.
    intros Hn Hs T NS SD P E e i j He Hi Hj. unfold cell2. rewrite (can_end_run2 r RK n Hn Hs ar nt m m' T E).
    apply (inv_cell2 n _ _ (newest2 r nt) e i j Hn Hs); auto.
    apply lattice_run2; auto; [lia|]. apply inv0_same2; auto.
  Qed.

  (** *** Periodic extension *)
  Lemma lo_hi2 d : d = DX \/ d = DY -> lo d < hi d.
  Proof. intros H. pose proof (ok2_grid r RK d H). pose proof (halo_pos o). lia. Qed.
  Lemma w_in d k : lo d < hi d -> lo d <= w d k < hi d.
  Proof. intros H. unfold wrap2. pose proof (Z.mod_pos_bound (k - lo d) (hi d - lo d)). lia. Qed.
  Lemma w_id d k : lo d <= k < hi d -> w d k = k.
  Proof. intros H. unfold wrap2. rewrite Z.mod_small; lia. Qed.
  Lemma w_hi d : lo d < hi d -> w d (hi d) = lo d.
  Proof. intros H. unfold wrap2. rewrite Z.mod_same; lia. Qed.
  Lemma w_per d k : lo d < hi d -> w d (k + (hi d - lo d)) = w d k.
  Proof.
    intros H. unfold wrap2. replace (k + (hi d - lo d) - lo d) with (k - lo d + 1 * (hi d - lo d)) by lia.
    rewrite Z.mod_add by lia. reflexivity.
  Qed.
  Lemma w_or d i : lo d <= i <= hi d -> i = hi d \/ w d i = i.
  Proof. intros Hi. destruct (Z.eq_dec i (hi d)); [left; auto|right; apply w_id; lia]. Qed.

  Definition ext2 (m : mem) : mem := fun l => m (fst l, (w DX (comp DX (snd l)), w DY (comp DY (snd l)), 0)).
  Lemma ext2_periodic (m : mem) : doubly_periodic ar r (ext2 m).
  Proof.
    pose proof (lo_hi2 DX (or_introl eq_refl)) as LX. pose proof (lo_hi2 DY (or_intror eq_refl)) as LY.
    split; intros a [[x y] z]; unfold ext2, iadd; cbn [fst snd comp]; rewrite !Z.add_0_r; unfold s_per; rewrite w_per; auto.
  Qed.
  Lemma ext2_same (m : mem) : cyclic_data2 lo hi ne (nug o) m -> same_data2 lo hi ne (nug o) m (ext2 m).
  Proof.
    intros (C & F1 & F2 & G).
    pose proof (lo_hi2 DX (or_introl eq_refl)) as LX. pose proof (lo_hi2 DY (or_intror eq_refl)) as LY.
    split; [|split; [|split]].
    - intros e i j He Hi Hj. destruct (C e He) as [C1 C2]. unfold cell2, ext2. cbn [fst snd comp].
      change (cell2 m e false i j = cell2 m e false (w DX i) (w DY j)).
      destruct (w_or DX i Hi) as [->|Wi], (w_or DY j Hj) as [->|Wj]; rewrite ?w_hi, ?Wi, ?Wj by auto; auto.
      + rewrite C1 by lia. apply C2. lia.
    - intros i j Hi Hj. unfold face2, ext2. cbn [fst snd comp].
      change (face2 m DX i j = face2 m DX (w DX i) (w DY j)). rewrite (w_id DX i) by lia.
      destruct (w_or DY j Hj) as [->|Wj]; rewrite ?w_hi, ?Wj by auto; auto.
    - intros i j Hi Hj. unfold face2, ext2. cbn [fst snd comp].
      change (face2 m DY i j = face2 m DY (w DX i) (w DY j)). rewrite (w_id DY j) by lia.
      destruct (w_or DX i Hi) as [->|Wi]; rewrite ?w_hi, ?Wi by auto; auto.
    - intros N i j Hi Hj. destruct (G N) as [C1 C2]. unfold gfac2, ext2. cbn [fst snd comp].
      change (gfac2 m i j = gfac2 m (w DX i) (w DY j)).
      destruct (w_or DX i Hi) as [->|Wi], (w_or DY j Hj) as [->|Wj]; rewrite ?w_hi, ?Wi, ?Wj by auto; auto.
      + rewrite C1 by lia. apply C2. lia.
  Qed.

  Lemma per_mul v (f : mem) : periodic ar v f -> forall k a i,
    f (a, iadd i (k * comp DX v, k * comp DY v, k * comp DZ v)) = f (a, i).
  Proof.
    intros P k. apply (Z.peano_ind (fun k => forall a i, f (a, iadd i (k * comp DX v, k * comp DY v, k * comp DZ v)) = f (a, i))).
    - intros a [[x y] z]. unfold iadd. cbn [comp fst snd]. rewrite !Z.mul_0_l, !Z.add_0_r. reflexivity.
    - intros q IH a i. rewrite <- (IH a i).
      rewrite <- (P a (iadd i (q * comp DX v, q * comp DY v, q * comp DZ v))). f_equal. f_equal.
      destruct i as [[x y] z], v as [[u v] t]. unfold iadd. cbn [comp fst snd]. f_equal; [f_equal|]; lia.
    - intros q IH a i. rewrite <- (IH a i).
      rewrite <- (P a (iadd i (Z.pred q * comp DX v, Z.pred q * comp DY v, Z.pred q * comp DZ v))). f_equal. f_equal.
      destruct i as [[x y] z], v as [[u v] t]. unfold iadd. cbn [comp fst snd]. f_equal; [f_equal|]; lia.
  Qed.
  Lemma w_mod d i : lo d < hi d -> i = w d i + (i - lo d) / (hi d - lo d) * (hi d - lo d).
  Proof. intros H. unfold wrap2. pose proof (Z.div_mod (i - lo d) (hi d - lo d) ltac:(lia)). lia. Qed.
  Lemma per_wrap (f : mem) a i j : doubly_periodic ar r f -> f (a, (w DX i, w DY j, 0)) = f (a, (i, j, 0)).
  Proof.
    intros [PX PY].
    pose proof (lo_hi2 DX (or_introl eq_refl)) as LX. pose proof (lo_hi2 DY (or_intror eq_refl)) as LY.
    pose proof (w_mod DX i LX) as EI. pose proof (w_mod DY j LY) as EJ.
    etransitivity; [symmetry; exact (per_mul _ f PX ((i - lo DX) / (hi DX - lo DX)) a (w DX i, w DY j, 0))|].
    etransitivity; [symmetry; exact (per_mul _ f PY ((j - lo DY) / (hi DY - lo DY)) a _)|].
    unfold iadd, s_per. cbn [comp fst snd].
    f_equal. f_equal. f_equal; [f_equal|]; lia.
  Qed.

  Lemma lat_dper nt (f : mem) : doubly_periodic ar r f -> doubly_periodic ar r (lat_progs ar (run_macro2 r nt) f).
  Proof. intros [P1 P2]. split; apply lat_progs_periodic; auto. Qed.

  (** the duplicated edges stay consistent *)
  Theorem edge_consistent2 n nt (m m' : mem) :
    (0 < n)%nat -> Z.of_nat n <= hi DX - lo DX + 1 -> settled r n -> no_stale2 o (s_nit r) = true ->
    cyclic_data2 lo hi ne (nug o) m ->
    can_end loc_eq_dec ar n (program2 r n nt) m m' ->
    forall e, (e < ne)%nat ->
      (forall j, lo DY <= j <= hi DY -> cell2 m' e (newest2 r nt) (hi DX) j = cell2 m' e (newest2 r nt) (lo DX) j) /\
      (forall i, lo DX <= i <= hi DX -> cell2 m' e (newest2 r nt) i (hi DY) = cell2 m' e (newest2 r nt) i (lo DY)).
  Proof.
    intros Hn Hs T NS CD E e He.
    pose proof (lo_hi2 DX (or_introl eq_refl)) as LX. pose proof (lo_hi2 DY (or_intror eq_refl)) as LY.
    pose proof (cyclic_lattice2 n nt m m' (ext2 m) Hn Hs T NS (ext2_same m CD) (ext2_periodic m) E e) as L.
    pose proof (lat_dper nt _ (ext2_periodic m)) as P. unfold cell2 in *.
    split; intros k Hk; rewrite !L by (auto; lia).
    - rewrite <- (per_wrap _ _ (hi DX) k P), <- (per_wrap _ _ (lo DX) k P). rewrite w_hi, (w_id DX (lo DX)) by lia. reflexivity.
    - rewrite <- (per_wrap _ _ k (hi DY) P), <- (per_wrap _ _ k (lo DY) P). rewrite w_hi, (w_id DY (lo DY)) by lia. reflexivity.
  Qed.

  Theorem translation2 n n2 nt k l (m m' m2 m2' : mem) :
    (0 < n)%nat -> Z.of_nat n <= hi DX - lo DX + 1 -> settled r n ->
    (0 < n2)%nat -> Z.of_nat n2 <= hi DX - lo DX + 1 -> settled r n2 ->
    no_stale2 o (s_nit r) = true ->
    cyclic_data2 lo hi ne (nug o) m -> moved2 lo hi ne (nug o) k l m m2 ->
    can_end loc_eq_dec ar n (program2 r n nt) m m' ->
    can_end loc_eq_dec ar n2 (program2 r n2 nt) m2 m2' ->
    forall e i j, (e < ne)%nat -> lo DX <= i <= hi DX -> lo DY <= j <= hi DY ->
      cell2 m2' e (newest2 r nt) i j = cell2 m' e (newest2 r nt) (w DX (i + k)) (w DY (j + l)).
  Proof.
    intros Hn Hs T Hn2 Hs2 T2 NS CD (M1 & M2 & M3 & M4) E E2 e i j He Hi Hj.
    pose proof (lo_hi2 DX (or_introl eq_refl)) as LX. pose proof (lo_hi2 DY (or_intror eq_refl)) as LY.
    pose proof (ext2_periodic m) as P.
    pose proof (w_in DX (i + k) LX) as WX. pose proof (w_in DY (j + l) LY) as WY.
    rewrite (cyclic_lattice2 n nt m m' (ext2 m)) by (auto using ext2_same; lia).
    unfold cell2 at 2. rewrite per_wrap by (apply lat_dper; exact P).
    rewrite (cyclic_lattice2 n2 nt m2 m2' (shift ar (k, l, 0) (ext2 m))); auto.
    - unfold cell2. rewrite lat_progs_shift. unfold shift, iadd. cbn [fst snd comp]. rewrite Z.add_0_r. reflexivity.
    - split; [|split; [|split]].
      + intros e' i' j' He' Hi' Hj'. rewrite M1 by auto. reflexivity.
      + intros i' j' Hi' Hj'. rewrite M2 by auto. reflexivity.
      + intros i' j' Hi' Hj'. rewrite M3 by auto. reflexivity.
      + intros N i' j' Hi' Hj'. rewrite M4 by auto. reflexivity.
    - destruct P as [PX PY]. split; intros a q; unfold shift; cbn [fst snd]; [rewrite <- (PX a (iadd q _))|rewrite <- (PY a (iadd q _))];
        f_equal; f_equal; rewrite <- !iadd_assoc; f_equal; apply iadd_comm.
  Qed.
End Vis.

Lemma same_data2_sym {V} lo hi ne ng (m m' : loc -> V) : same_data2 lo hi ne ng m m' -> same_data2 lo hi ne ng m' m.
Proof.
  intros (A & B & C & D). repeat split; intros; symmetry; auto.
Qed.
Lemma same_data2_trans {V} lo hi ne ng (m m' m2 : loc -> V) :
  same_data2 lo hi ne ng m m' -> same_data2 lo hi ne ng m' m2 -> same_data2 lo hi ne ng m m2.
Proof.
  intros (A & B & C & D) (A' & B' & C' & D'). split; [|split; [|split]]; intros; [rewrite A by auto|rewrite B by auto|rewrite C by auto|rewrite D by auto]; auto.
Qed.

(** nothing but the user's data matters *)
Theorem no_stale_data2 r : run2_ok r -> forall ar n1 n2 nt (m1 m2 m1' m2' : loc -> car ar),
  (forall d, s_bl r d = Cyclic2 /\ s_br r d = Cyclic2) ->
  (0 < n1)%nat -> Z.of_nat n1 <= s_hi r DX - s_lo r DX + 1 -> settled r n1 ->
  (0 < n2)%nat -> Z.of_nat n2 <= s_hi r DX - s_lo r DX + 1 -> settled r n2 ->
  no_stale2 (s_o r) (s_nit r) = true ->
  cyclic_data2 (s_lo r) (s_hi r) (n_eqns (s_cfg r)) (nug (s_o r)) m1 ->
  same_data2 (s_lo r) (s_hi r) (n_eqns (s_cfg r)) (nug (s_o r)) m1 m2 ->
  can_end loc_eq_dec ar n1 (program2 r n1 nt) m1 m1' ->
  can_end loc_eq_dec ar n2 (program2 r n2 nt) m2 m2' ->
  forall e i j, (e < n_eqns (s_cfg r))%nat -> s_lo r DX <= i <= s_hi r DX -> s_lo r DY <= j <= s_hi r DY ->
    cell2 m1' e (newest2 r nt) i j = cell2 m2' e (newest2 r nt) i j.
Proof.
  intros RK ar n1 n2 nt m1 m2 m1' m2' C H1 S1 T1 H2 S2 T2 NS CD SD E1 E2 e i j He Hi Hj.
  assert (CL : forall d, s_bl r d = Cyclic2) by (intros d; apply C).
  assert (CR : forall d, s_br r d = Cyclic2) by (intros d; apply C).
  pose proof (ext2_same r RK CL CR ar m1 CD) as SE. pose proof (ext2_periodic r RK CL CR ar m1) as P.
  rewrite (cyclic_lattice2 r RK CL CR ar n1 nt m1 m1' (ext2 r ar m1)) by auto.
  rewrite (cyclic_lattice2 r RK CL CR ar n2 nt m2 m2' (ext2 r ar m1)); auto.
  eapply same_data2_trans; [apply same_data2_sym; exact SD|exact SE].
Qed.
