(** 3D halo exchanges on a cyclic grid, compared with the infinite lattice. *)
From Coq Require Import ZArith List Bool Lia ZifyBool.
From Verif Require Import SpecIndex ModelIndex ProofsIndex ModelRun Lang ProofsLang Stencil ProofsStencil
  FormCommon Form3D Solver1D Solver3D Macro ProofsMacro Foot1D Foot3D Proofs1D Proofs3D ProofsThread1D ProofsGeom3D
  ProofsValid ProofsValid1D Boxes ProofsBoxes Boxes3 ProofsBoxes3 ProofsValid2D ProofsValid3D Lattice ProofsLattice.
Import ListNotations.
Local Open Scope Z_scope.

Section Exch.
  Variables (r : run3) (n : nat).
  Hypothesis RK : run3_ok r.
  Hypothesis Hn : (0 < n)%nat.
  Hypothesis Hs : Z.of_nat n <= s3_hi r DY - s3_lo r DY + 1.
  Notation g := (geom3 r n).
  Let OK : geom_ok g := geom3_ok r n RK Hn Hs.
  Variable ar : arith.
  Notation mem := (loc -> car ar).
  Notation h := (s3_halo r).
  Notation lo := (s3_lo r).
  Notation hi := (s3_hi r).
  Notation per := (s3_per r).
  Notation ex := (expand3 (s3_o r) (s3_halo r) (s3_per r)).
  Notation runp e p := (run_prog loc_eq_dec ar n (prog_of g (expand ex e p))).
  Notation run1s e s m := (run_stmt loc_eq_dec ar n (stmt_of g (inst e s)) m).

  Lemma lo3 d : lo_of g d = lo d.
  Proof. unfold lo_of, cut_of. destruct d; cbn [dim_eqb g_dd geom3]; [|apply cut1_lo; auto|]; reflexivity. Qed.
  Lemma hi3 d : hi_of g d = hi d.
  Proof. unfold hi_of, cut_of. destruct d; cbn [dim_eqb g_dd geom3]; [|apply cut1_hi; auto|]; reflexivity. Qed.

  Lemma in_b3 a b c d e f i : in_box g (b3 a b c d e f) i <->
    lo DX - a <= comp DX i <= hi DX + b /\ lo DY - c <= comp DY i <= hi DY + d /\ lo DZ - e <= comp DZ i <= hi DZ + f.
  Proof.
    unfold in_box. split.
    - intros H. pose proof (H DX) as X. pose proof (H DY) as Y. pose proof (H DZ) as Z0.
      rewrite lo3, hi3 in *. cbn [e_d b3 fst snd] in *. lia.
    - intros H [| |]; rewrite lo3, hi3; cbn [e_d b3 fst snd]; lia.
  Qed.

  (** what a fill does *)
  Definition in_r (d : dim) (rr : rdesc) (i : idx) : Prop :=
    fst (grng (lo d) (hi d) rr) <= comp d i <= snd (grng (lo d) (hi d) rr).
  Definition across (d : dim) (r1 r2 : rdesc) (i : idx) : Prop := in_r (dp d) r1 i /\ in_r (dm d) r2 i.
  Definition ycut (d : dim) (r1 r2 : rdesc) : Prop :=
    match d with DX => slab_okb true r1 = true | DY => True | DZ => slab_okb true r2 = true end.
  Definition edge (rd : rdesc) : Prop := slab_okb true rd = true.

  Lemma run_copy3 e d a rd r1 r2 k (m : mem) b i : edge rd -> ycut d r1 r2 ->
    (b = tag e a -> in_r d rd i -> across d r1 r2 i -> run1s e (at3d d a rd r1 r2 (Leaf (a, k))) m (b, i) = m (b, iadd i k)) /\
    ((b = tag e a -> ~ (in_r d rd i /\ across d r1 r2 i)) -> run1s e (at3d d a rd r1 r2 (Leaf (a, k))) m (b, i) = m (b, i)).
  Proof.
    intros He Hr. set (s := inst e (at3d d a rd r1 r2 (Leaf (a, k)))).
    assert (SK : slab_ok g s) by (unfold slab_ok, s; rewrite d_r_inst; destruct d; [exact Hr|exact He|exact Hr]).
    assert (B : in_gbox g s i <-> in_r d rd i /\ across d r1 r2 i).
    { unfold in_gbox, across, in_r. split.
      - intros H. pose proof (H DX) as X. pose proof (H DY) as Y. pose proof (H DZ) as Z0.
        rewrite lo3, hi3 in *. unfold s in *. rewrite !d_r_inst in *. unfold in_rng, first, last in *.
        destruct d; cbn [t_r at3d at3 t_x t_y t_z dp dm] in *; tauto.
      - intros (X & Y & Z0) d0. rewrite lo3, hi3. unfold s. rewrite !d_r_inst. unfold in_rng, first, last.
        destruct d, d0; cbn [t_r at3d at3 t_x t_y t_z dp dm] in *; auto. }
    assert (EA : d_arr s = tag e a) by (unfold s; destruct d; reflexivity).
    assert (EE : d_exp s = Leaf (tag e a, k)) by (unfold s; destruct d; reflexivity).
    split.
    - intros E H1 H2. etransitivity; [exact (run_in g OK ar s m b i SK (eq_trans E (eq_sym EA)) (proj2 B (conj H1 H2)))|].
      rewrite EE. cbn. unfold sh. cbn [fst snd]. congruence.
    - intros H. refine (run_out g OK ar s m b i SK _). intros E H'. apply B in H'. rewrite EA in E. exact (H E H').
  Qed.

  Variable f : mem.
  Hypothesis PF : forall d, periodic ar (x3 d (per d) 0 0) f.

  Lemma per_neg3 v : periodic ar v f -> forall a i, f (a, iadd i (- comp DX v, - comp DY v, - comp DZ v)) = f (a, i).
  Proof.
    intros P a i. rewrite <- (P a). f_equal. f_equal. destruct i as [[x y] z], v as [[u v] w].
    unfold iadd. cbn [comp fst snd]. f_equal; [f_equal|]; lia.
  Qed.
  Lemma shift_up d a i : f (a, iadd i (x3 d (per d) 0 0)) = f (a, i).
  Proof. apply PF. Qed.
  Lemma shift_dn d a i : f (a, iadd i (x3 d (- per d) 0 0)) = f (a, i).
  Proof. rewrite <- (per_neg3 _ (PF d) a i). f_equal. f_equal. destruct d; reflexivity. Qed.

  (** agreement at one location, backwards through fills *)
  Definition ag (m : mem) (b : garr) (i : idx) : Prop := m (b, i) = f (b, i).

  Lemma copy_other3 e d a rd r1 r2 k m b i : edge rd -> ycut d r1 r2 -> b <> tag e a -> ag m b i ->
    ag (run1s e (at3d d a rd r1 r2 (Leaf (a, k))) m) b i.
  Proof.
    intros He Hr NE H. unfold ag in *. destruct (run_copy3 e d a rd r1 r2 k m b i He Hr) as [_ R2].
    rewrite R2; [exact H|intros E; congruence].
  Qed.

  Lemma in_r_dec d rr i : {in_r d rr i} + {~ in_r d rr i}.
  Proof.
    unfold in_r. destruct (Z_le_dec (fst (grng (lo d) (hi d) rr)) (comp d i)), (Z_le_dec (comp d i) (snd (grng (lo d) (hi d) rr)));
      [left|right|right|right]; lia.
  Qed.
  Lemma across_dec d r1 r2 i : {across d r1 r2 i} + {~ across d r1 r2 i}.
  Proof. unfold across. destruct (in_r_dec (dp d) r1 i), (in_r_dec (dm d) r2 i); [left|right|right|right]; tauto. Qed.

  Lemma comp_x3 d k i : comp d (iadd i (x3 d k 0 0)) = comp d i + k.
  Proof. destruct d, i as [[x y] z]; reflexivity. Qed.
  Lemma across_x3 d k r1 r2 i : across d r1 r2 (iadd i (x3 d k 0 0)) <-> across d r1 r2 i.
  Proof.
    unfold across, in_r. destruct d, i as [[x y] z]; unfold iadd, x3; cbn [dp dm comp fst snd]; rewrite !Z.add_0_r; tauto.
  Qed.

  (** left and right fill along [d], in either order; the right one starts at the last cell plus [c] *)
  Definition fL (d : dim) (a : arr) (r1 r2 : rdesc) : tdesc :=
    at3d d a (AtFirst (- h) (-1)) r1 r2 (Leaf (a, x3 d (per d) 0 0)).
  Definition fR (c : Z) (d : dim) (a : arr) (r1 r2 : rdesc) : tdesc :=
    at3d d a (AtLast c (h - 1 + c)) r1 r2 (Leaf (a, x3 d (- per d) 0 0)).

  Lemma fills_ag (lf : bool) c e d a r1 r2 m i : 0 <= c <= 1 -> ycut d r1 r2 ->
    (lo d - h <= comp d i < lo d -> across d r1 r2 i -> ag m (tag e a) (iadd i (x3 d (per d) 0 0))) ->
    (hi d + c <= comp d i <= hi d + h - 1 + c -> across d r1 r2 i -> ag m (tag e a) (iadd i (x3 d (- per d) 0 0))) ->
    (lo d <= comp d i < hi d + c \/ comp d i < lo d - h \/ hi d + h - 1 + c < comp d i \/ ~ across d r1 r2 i -> ag m (tag e a) i) ->
    ag (if lf then run1s e (fR c d a r1 r2) (run1s e (fL d a r1 r2) m)
        else run1s e (fL d a r1 r2) (run1s e (fR c d a r1 r2) m)) (tag e a) i.
  Proof.
    intros Hc Hr HL HR HM.
    assert (NP : h <= per d) by (apply (ok3_grid r RK d)).
    pose proof (halo_pos (s3_o r)) as Hh. change (halo (s3_o r)) with h in Hh.
    assert (EP : per d = hi d - lo d) by reflexivity.
    pose proof (fun m i => run_copy3 e d a (AtFirst (- h) (-1)) r1 r2 (x3 d (per d) 0 0) m (tag e a) i eq_refl Hr) as CL.
    pose proof (fun m i => run_copy3 e d a (AtLast c (h - 1 + c)) r1 r2 (x3 d (- per d) 0 0) m (tag e a) i eq_refl Hr) as CR.
    fold (fL d a r1 r2) in CL. fold (fR c d a r1 r2) in CR.
    unfold in_r in CL, CR. cbn [grng fst snd] in CL, CR.
    set (u := x3 d (per d) 0 0) in *. set (w := x3 d (- per d) 0 0) in *.
    assert (CU : comp d (iadd i u) = comp d i + per d) by apply comp_x3.
    assert (CW : comp d (iadd i w) = comp d i - per d) by (unfold w; rewrite comp_x3; lia).
    unfold ag in *.
    destruct (across_dec d r1 r2 i) as [AC|NA].
    - destruct (Z_lt_dec (comp d i) (lo d)) as [L1|L1].
      + destruct (Z_lt_dec (comp d i) (lo d - h)) as [L2|L2].
        * destruct lf; rewrite ?(proj2 (CR _ _)), ?(proj2 (CL _ _)), ?(proj2 (CR _ _)) by lia; apply HM; lia.
        * specialize (HL ltac:(lia) AC). unfold u in HL at 2. rewrite shift_up in HL. destruct lf.
          -- rewrite (proj2 (CR _ _)) by lia. rewrite (proj1 (CL _ _)) by (auto; lia). exact HL.
          -- rewrite (proj1 (CL _ _)) by (auto; lia). rewrite (proj2 (CR _ _)) by lia. exact HL.
      + destruct (Z_lt_dec (comp d i) (hi d + c)) as [L2|L2].
        * destruct lf; rewrite ?(proj2 (CR _ _)), ?(proj2 (CL _ _)), ?(proj2 (CR _ _)) by lia; apply HM; lia.
        * destruct (Z_lt_dec (hi d + h - 1 + c) (comp d i)) as [L3|L3].
          { destruct lf; rewrite ?(proj2 (CR _ _)), ?(proj2 (CL _ _)), ?(proj2 (CR _ _)) by lia; apply HM; lia. }
          specialize (HR ltac:(lia) AC). unfold w in HR at 2. rewrite shift_dn in HR. destruct lf.
          -- rewrite (proj1 (CR _ _)) by (auto; lia). rewrite (proj2 (CL _ _)) by lia. exact HR.
          -- rewrite (proj2 (CL _ _)) by lia. rewrite (proj1 (CR _ _)) by (auto; lia). exact HR.
    - destruct lf; rewrite ?(proj2 (CR _ _)), ?(proj2 (CL _ _)), ?(proj2 (CR _ _)) by tauto; apply HM; tauto.
  Qed.

  (** fills of other arrays *)
  Definition others (e : nat) (b : garr) (l : list tdesc) : Prop :=
    Forall (fun s => exists c d a r1 r2, (s = fL d a r1 r2 \/ s = fR c d a r1 r2) /\ ycut d r1 r2 /\ b <> tag e a) l.
  Notation runl e l m := (fold_left (fun m0 s => run1s e s m0) l m).
  Lemma others_ag e b l : others e b l -> forall m i, ag m b i -> ag (runl e l m) b i.
  Proof.
    induction 1 as [|s l (c & d & a & r1 & r2 & Hsh & Hr & NE) H IH]; intros m i A; [exact A|].
    cbn [fold_left]. apply IH. destruct Hsh as [-> | ->]; apply copy_other3; auto; reflexivity.
  Qed.

  Definition own_fills (c : Z) (lf : bool) (d : dim) (a : arr) (r1 r2 : rdesc) : list tdesc :=
    if lf then [fL d a r1 r2; fR c d a r1 r2] else [fR c d a r1 r2; fL d a r1 r2].
  Definition copies3 (x : minstr) : list tdesc :=
    match x with
    | MXS a e => own_fills 1 true DY a (Ext e e) (Ext e e) ++ own_fills 1 false DX a (Own e e) (Ext e e) ++
                 own_fills 1 true DZ a (Ext e e) (Own e e)
    | MXVA v _ => own_fills 0 false DX (v DX) rI rI ++ own_fills 0 true DY (v DY) rI rI ++ own_fills 0 true DZ (v DZ) rI rI
    | MXVN v e =>
        let e1 := e + 1 in
        own_fills 1 true DY (v DX) (Ext e1 e1) (Ext e1 e) ++ own_fills 1 true DZ (v DX) (Ext e1 e) (Own e1 e1) ++
        own_fills 1 false DX (v DY) (Own e1 e) (Ext e1 e1) ++ own_fills 1 true DZ (v DY) (Ext e1 e1) (Own e1 e) ++
        own_fills 1 false DX (v DZ) (Own e1 e1) (Ext e1 e) ++ own_fills 1 true DY (v DZ) (Ext e1 e) (Ext e1 e1)
    | _ => []
    end.
  Lemma own_ag lf c e d a r1 r2 m i : 0 <= c <= 1 -> ycut d r1 r2 ->
    (lo d - h <= comp d i < lo d -> across d r1 r2 i -> ag m (tag e a) (iadd i (x3 d (per d) 0 0))) ->
    (hi d + c <= comp d i <= hi d + h - 1 + c -> across d r1 r2 i -> ag m (tag e a) (iadd i (x3 d (- per d) 0 0))) ->
    (lo d <= comp d i < hi d + c \/ comp d i < lo d - h \/ hi d + h - 1 + c < comp d i \/ ~ across d r1 r2 i -> ag m (tag e a) i) ->
    ag (runl e (own_fills c lf d a r1 r2) m) (tag e a) i.
  Proof. intros. pose proof (fills_ag lf c e d a r1 r2 m i) as X. destruct lf; cbn [own_fills fold_left]; apply X; auto. Qed.
  Lemma own_other c lf e b d a r1 r2 : ycut d r1 r2 -> b <> tag e a -> others e b (own_fills c lf d a r1 r2).
  Proof.
    intros Hr NE. destruct lf; cbn [own_fills]; (apply Forall_cons; [|apply Forall_cons; [|apply Forall_nil]]);
      exists c, d, a, r1, r2; auto.
  Qed.

  Lemma run_copies3 e x m : is_exch x = true -> runp e [x] m = runl e (copies3 x) m.
  Proof.
    intros Hx. assert (E : expand ex e [x] = map (inst_i e) (ex x)) by (unfold expand; cbn [flat_map]; rewrite app_nil_r; reflexivity).
    rewrite E. pose proof (eq_refl : h - 1 + 0 = h - 1 + 0) as E0. rewrite Z.add_0_r in E0 at 1.
    assert (E1 : h - 1 + 1 = h) by lia.
    destruct x as [s| |a ext|v ad|v ext|v]; try discriminate; cbn [expand3 copies3 own_fills app];
      unfold fR, fL, cs_left, cs_rght, cv_left, cv_rght; rewrite ?E1, <- ?E0; [reflexivity|reflexivity| |reflexivity].
    cbv zeta. destruct (div3 (s3_o r) || div3dt (s3_o r)); reflexivity.
  Qed.

  Lemma bget_in3 V E a : bget V E (a, izero) = true -> exists B, In B (V a) /\ forall i, in_box g E i -> in_box g B i.
  Proof.
    unfold bget. cbn [fst snd]. rewrite existsb_exists. intros (B & HB & L). exists B. split; auto.
    intros i. apply in_box_sub. exact L.
  Qed.
  Lemma bget_ag3 e V E a m : bagree g ar e V m f -> bget V E (a, izero) = true -> forall i, in_box g E i -> ag m (tag e a) i.
  Proof. intros A H i Hi. destruct (bget_in3 V E a H) as (B & HB & L). apply (A a B i HB). auto. Qed.
  Lemma bset_cases3 V a l b E : In E (bset V a l b) -> (b = a /\ In E l) \/ (b <> a /\ In E (V b)).
  Proof.
    unfold bset. destruct (arr_eqb b a) eqn:Eb.
    - left. split; auto. apply arr_eqb_eq. auto.
    - right. split; auto. intros ->. rewrite (proj2 (arr_eqb_eq a a) eq_refl) in Eb. discriminate.
  Qed.
  Lemma tag_ne3 e a b : b <> a -> tag e b <> tag e a.
  Proof. intros H H'. apply H. eapply tag_inj; eauto. Qed.
  Lemma differ3_ne v : differ3 v = true -> v DX <> v DY /\ v DX <> v DZ /\ v DY <> v DZ.
  Proof.
    unfold differ3. rewrite !andb_true_iff, !negb_true_iff. intros [[A B] C].
    repeat split; intros E; rewrite E, (proj2 (arr_eqb_eq _ _) eq_refl) in *; discriminate.
  Qed.
  Lemma upd3_cases V v L b E : differ3 v = true -> In E (upd3 V v L b) ->
    (exists d, b = v d /\ In E (L d)) \/ ((forall d, b <> v d) /\ In E (V b)).
  Proof.
    intros D H. unfold upd3 in H.
    apply bset_cases3 in H. destruct H as [[-> H]|[NZ H]]; [left; exists DZ; auto|].
    apply bset_cases3 in H. destruct H as [[-> H]|[NY H]]; [left; exists DY; auto|].
    apply bset_cases3 in H. destruct H as [[-> H]|[NX H]]; [left; exists DX; auto|].
    right. split; auto. intros [| |]; auto.
  Qed.

  Ltac simp3 := unfold across, in_r, rI, Own, Ext, x3, iadd in *; cbn [grng comp fst snd dp dm] in *.
  Ltac yc := unfold ycut; first [exact I | reflexivity | unfold Own, slab_okb; lia].

  Lemma lat_vx3 e x V V' (m : mem) : is_exch x = true -> vx3 h x V = Some V' ->
    bagree g ar e V m f -> bagree g ar e V' (runp e [x] m) f.
  Proof.
    intros Hx HV A. rewrite run_copies3 by auto.
    pose proof (halo_pos (s3_o r)) as Hh. change (halo (s3_o r)) with h in Hh.
    assert (G : forall d, h <= per d) by (intros d; apply (ok3_grid r RK d)).
    assert (EP : forall d, per d = hi d - lo d) by reflexivity.
    pose proof (G DX) as GX. pose proof (G DY) as GY. pose proof (G DZ) as GZ. clear G.
    pose proof (EP DX) as PX. pose proof (EP DY) as PY. pose proof (EP DZ) as PZ. clear EP.
    destruct x as [s| |a ext|v ad|v ext|v]; try discriminate; cbn [vx3] in HV; cbn [copies3].
    - destruct (_ && _) eqn:C; [|discriminate]. apply andb_true_iff in C. destruct C as [Ce C].
      assert (ext = h) by lia. subst ext. apply some_inj in HV. subst V'.
      pose proof (bget_ag3 e V _ a m A C) as SRC. rewrite !fold_left_app.
      intros b E i Hb Hi. apply bset_cases3 in Hb. destruct Hb as [[-> Hb]|[NE Hb]].
      + destruct Hb as [<-|[]]. apply in_b3 in Hi. destruct i as [[x y] z]. cbn [comp fst snd] in Hi.
        cut (ag (runl e (own_fills 1 true DZ a (Ext h h) (Own h h)) (runl e (own_fills 1 false DX a (Own h h) (Ext h h))
          (runl e (own_fills 1 true DY a (Ext h h) (Ext h h)) m))) (tag e a) (x, y, z)); [intros X0; exact X0|].
        apply own_ag; [lia|yc|..]; intros K1; [intros K1'|intros K1'|];
          (apply own_ag; [lia|yc|..]; intros K2; [intros K2'|intros K2'|];
           (apply own_ag; [lia|yc|..]; intros K3; [intros K3'|intros K3'|]));
          simp3; first [apply SRC; apply in_b3; simp3; lia | exfalso; lia].
      + pose proof (tag_ne3 e a b NE) as NT. pose proof (A b E i Hb Hi) as K.
        repeat (apply others_ag; [apply own_other; [yc|exact NT]|]). exact K.
    - destruct (_ && _) eqn:C; [|discriminate]. apply andb_true_iff in C. destruct C as [D C].
      apply some_inj in HV. subst V'. destruct (differ3_ne v D) as (N1 & N2 & N3).
      pose proof (tag_ne3 e) as T. rewrite !fold_left_app.
      cbn [forallb ds3] in C. rewrite !andb_true_iff in C. destruct C as (CX & CY & CZ & _).
      pose proof (bget_ag3 e V _ _ m A CX) as SX. pose proof (bget_ag3 e V _ _ m A CY) as SY. pose proof (bget_ag3 e V _ _ m A CZ) as SZ.
      cbn [vb] in SX, SY, SZ.
      intros b E i Hb Hi. apply (upd3_cases V v _ b E D) in Hb. destruct Hb as [(d & -> & Hb)|[NB Hb]].
      + assert (Q : in_box g (vb d h (h - 1) 0 0) i \/ ag m (tag e (v d)) i).
        { destruct Hb as [<-|Hb]; [left; exact Hi|right; exact (A _ E i Hb Hi)]. }
        clear Hb Hi E. destruct i as [[x y] z]. destruct d; cbn [vb] in Q.
        * do 2 (apply others_ag; [apply own_other; [yc|apply T; auto]|]).
          apply own_ag; [lia|yc|..]; intros K1; [intros K2|intros K2|];
            [apply SX; apply in_b3; simp3; lia|apply SX; apply in_b3; simp3; lia|].
          destruct Q as [Q|Q]; [|exact Q]. apply in_b3 in Q. apply SX; apply in_b3; simp3; lia.
        * apply others_ag; [apply own_other; [yc|apply T; auto]|].
          apply own_ag; [lia|yc|..]; intros K1; [intros K2|intros K2|]; (apply others_ag; [apply own_other; [yc|apply T; auto]|]);
            [apply SY; apply in_b3; simp3; lia|apply SY; apply in_b3; simp3; lia|].
          destruct Q as [Q|Q]; [|exact Q]. apply in_b3 in Q. apply SY; apply in_b3; simp3; lia.
        * apply own_ag; [lia|yc|..]; intros K1; [intros K2|intros K2|]; do 2 (apply others_ag; [apply own_other; [yc|apply T; auto]|]);
            [apply SZ; apply in_b3; simp3; lia|apply SZ; apply in_b3; simp3; lia|].
          destruct Q as [Q|Q]; [|exact Q]. apply in_b3 in Q. apply SZ; apply in_b3; simp3; lia.
      + pose proof (A b E i Hb Hi) as K.
        do 3 (apply others_ag; [apply own_other; [yc|apply T; auto]|]). exact K.
    - destruct (_ && _) eqn:C; [|discriminate]. apply andb_true_iff in C. destruct C as [C0 C].
      apply andb_true_iff in C0. destruct C0 as [C0 D]. assert (HE : 0 <= ext <= h - 1) by lia. clear C0.
      apply some_inj in HV. subst V'. destruct (differ3_ne v D) as (N1 & N2 & N3).
      pose proof (tag_ne3 e) as T. cbv zeta. rewrite !fold_left_app.
      cbn [forallb ds3] in C. rewrite !andb_true_iff in C. destruct C as (CX & CY & CZ & _).
      pose proof (bget_ag3 e V _ _ m A CX) as SX. pose proof (bget_ag3 e V _ _ m A CY) as SY. pose proof (bget_ag3 e V _ _ m A CZ) as SZ.
      cbn [vb] in SX, SY, SZ.
      intros b E i Hb Hi. apply (upd3_cases V v _ b E D) in Hb. destruct Hb as [(d & -> & Hb)|[NB Hb]].
      + assert (Q : in_box g (vn3 h ext d) i \/
                    (lo (dp d) <= comp (dp d) i <= hi (dp d) /\ lo (dm d) <= comp (dm d) i <= hi (dm d) /\ ag m (tag e (v d)) i)).
        { destruct Hb as [<-|Hb]; [left; exact Hi|right]. apply filter_In in Hb. destruct Hb as [Hb TH].
          pose proof (Hi (dp d)) as H1. pose proof (Hi (dm d)) as H2. rewrite lo3, hi3 in H1, H2.
          unfold thin in TH. split; [lia|]. split; [lia|]. exact (A _ E i Hb Hi). }
        clear Hb Hi E. destruct i as [[x y] z]. destruct d; cbn [vn3 vb dp dm] in Q.
        * do 4 (apply others_ag; [apply own_other; [yc|apply T; auto]|]).
          destruct Q as [Q|(Q1 & Q2 & Q)].
          -- apply in_b3 in Q. apply own_ag; [lia|yc|..]; intros K1; [intros K1'|intros K1'|];
              (apply own_ag; [lia|yc|..]; intros K2; [intros K2'|intros K2'|]);
              simp3; first [apply SX; apply in_b3; simp3; lia | exfalso; lia].
          -- do 2 (apply own_ag; [lia|yc|simp3; lia|simp3; lia|intros _]). exact Q.
        * do 2 (apply others_ag; [apply own_other; [yc|apply T; auto]|]).
          assert (KO : forall i, ag m (tag e (v DY)) i -> ag (runl e (own_fills 1 true DZ (v DX) (Ext (ext + 1) ext) (Own (ext + 1) (ext + 1)))
             (runl e (own_fills 1 true DY (v DX) (Ext (ext + 1) (ext + 1)) (Ext (ext + 1) ext)) m)) (tag e (v DY)) i).
          { intros i0 H0. do 2 (apply others_ag; [apply own_other; [yc|apply T; auto]|]). exact H0. }
          destruct Q as [Q|(Q1 & Q2 & Q)].
          -- apply in_b3 in Q. apply own_ag; [lia|yc|..]; intros K1; [intros K1'|intros K1'|];
              (apply own_ag; [lia|yc|..]; intros K2; [intros K2'|intros K2'|]);
              simp3; first [apply KO; apply SY; apply in_b3; simp3; lia | exfalso; lia].
          -- do 2 (apply own_ag; [lia|yc|simp3; lia|simp3; lia|intros _]). apply KO. exact Q.
        * assert (KO : forall i, ag m (tag e (v DZ)) i -> ag (runl e (own_fills 1 true DZ (v DY) (Ext (ext + 1) (ext + 1)) (Own (ext + 1) ext))
             (runl e (own_fills 1 false DX (v DY) (Own (ext + 1) ext) (Ext (ext + 1) (ext + 1)))
             (runl e (own_fills 1 true DZ (v DX) (Ext (ext + 1) ext) (Own (ext + 1) (ext + 1)))
             (runl e (own_fills 1 true DY (v DX) (Ext (ext + 1) (ext + 1)) (Ext (ext + 1) ext)) m)))) (tag e (v DZ)) i).
          { intros i0 H0. do 4 (apply others_ag; [apply own_other; [yc|apply T; auto]|]). exact H0. }
          destruct Q as [Q|(Q1 & Q2 & Q)].
          -- apply in_b3 in Q. apply own_ag; [lia|yc|..]; intros K1; [intros K1'|intros K1'|];
              (apply own_ag; [lia|yc|..]; intros K2; [intros K2'|intros K2'|]);
              simp3; first [apply KO; apply SZ; apply in_b3; simp3; lia | exfalso; lia].
          -- do 2 (apply own_ag; [lia|yc|simp3; lia|simp3; lia|intros _]). apply KO. exact Q.
      + pose proof (A b E i Hb Hi) as K.
        do 6 (apply others_ag; [apply own_other; [yc|apply T; auto]|]). exact K.
    - apply some_inj in HV. subst V'. exact A.
  Qed.
End Exch.
