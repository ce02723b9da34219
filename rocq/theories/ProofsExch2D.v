(** 2D halo exchanges on a cyclic grid, compared with the infinite lattice. *)
From Coq Require Import ZArith List Bool Lia ZifyBool.
From Verif Require Import SpecIndex ModelIndex ProofsIndex ModelRun Lang ProofsLang Stencil ProofsStencil
  FormCommon Form2D Solver1D Solver2D Macro ProofsMacro Foot1D Foot2D Proofs1D Proofs2D ProofsThread1D ProofsThread2D
  ProofsValid ProofsValid1D Boxes ProofsBoxes ProofsValid2D Lattice ProofsLattice.
Import ListNotations.
Local Open Scope Z_scope.

Section Exch.
  Variables (r : run2) (n : nat).
  Hypothesis RK : run2_ok r.
  Hypothesis Hn : (0 < n)%nat.
  Hypothesis Hs : Z.of_nat n <= s_hi r DX - s_lo r DX + 1.
  Notation g := (geom2 r n).
  Let OK : geom_ok g := geom2_ok r n RK Hn Hs.
  Variable ar : arith.
  Notation mem := (loc -> car ar).
  Notation h := (s_halo r).
  Notation lo := (s_lo r).
  Notation hi := (s_hi r).
  Notation ex := (expand2 (s_halo r) (s_per r) (s_bl r) (s_br r)).
  Notation runp e p := (run_prog loc_eq_dec ar n (prog_of g (expand ex e p))).
  Notation run1s e s m := (run_stmt loc_eq_dec ar n (stmt_of g (inst e s)) m).

  Lemma lo2 d : lo_of g d = match d with DX => lo DX | DY => lo DY | DZ => 0 end.
  Proof. unfold lo_of, cut_of. destruct d; cbn [dim_eqb g_dd geom2]; [apply cut1_lo; auto| |]; reflexivity. Qed.
  Lemma hi2 d : hi_of g d = match d with DX => hi DX | DY => hi DY | DZ => 0 end.
  Proof. unfold hi_of, cut_of. destruct d; cbn [dim_eqb g_dd geom2]; [apply cut1_hi; auto| |]; reflexivity. Qed.

  Lemma in_b2 a b c d i : in_box g (b2 a b c d) i <->
    lo DX - a <= comp DX i <= hi DX + b /\ lo DY - c <= comp DY i <= hi DY + d /\ comp DZ i = 0.
  Proof.
    unfold in_box. split.
    - intros H. pose proof (H DX) as X. pose proof (H DY) as Y. pose proof (H DZ) as Z0.
      rewrite lo2, hi2 in *. cbn [e_d b2 fst snd] in *. lia.
    - intros H [| |]; rewrite lo2, hi2; cbn [e_d b2 fst snd]; lia.
  Qed.

  (** what a fill does *)
  Definition in_rect (rx ry : rdesc) (i : idx) : Prop :=
    fst (grng (lo DX) (hi DX) rx) <= comp DX i <= snd (grng (lo DX) (hi DX) rx) /\
    fst (grng (lo DY) (hi DY) ry) <= comp DY i <= snd (grng (lo DY) (hi DY) ry) /\ comp DZ i = 0.

  Lemma run_copy e a rx ry k (m : mem) b i : slab_okb true rx = true ->
    (b = tag e a -> in_rect rx ry i -> run1s e (at2 a rx ry (Leaf (a, k))) m (b, i) = m (b, iadd i k)) /\
    ((b = tag e a -> ~ in_rect rx ry i) -> run1s e (at2 a rx ry (Leaf (a, k))) m (b, i) = m (b, i)).
  Proof.
    intros Hr. set (s := inst e (at2 a rx ry (Leaf (a, k)))).
    assert (SK : slab_ok g s) by (unfold slab_ok, s; rewrite d_r_inst; exact Hr).
    assert (B : in_gbox g s i <-> in_rect rx ry i).
    { unfold in_gbox, in_rect. split.
      - intros H. pose proof (H DX) as X. pose proof (H DY) as Y. pose proof (H DZ) as Z0.
        rewrite lo2, hi2 in *. unfold s in *. rewrite !d_r_inst in *. unfold in_rng, first, last in *.
        cbn [t_r at2 t_x t_y t_z] in *. cbn [Ext grng fst snd] in Z0. lia.
      - intros (X & Y & Z0) d. rewrite lo2, hi2. unfold s. rewrite !d_r_inst. unfold in_rng, first, last.
        destruct d; cbn [t_r at2 t_x t_y t_z]; auto. cbn [Ext grng fst snd]. lia. }
    split.
    - intros E H. etransitivity; [exact (run_in g OK ar s m b i SK E (proj2 B H))|]. cbn. unfold sh. cbn [fst snd]. congruence.
    - intros H. refine (run_out g OK ar s m b i SK _). intros E H'. apply B in H'. exact (H E H').
  Qed.

  Hypothesis CL : forall d, s_bl r d = Cyclic2.
  Hypothesis CR : forall d, s_br r d = Cyclic2.
  Variable f : mem.
  Hypothesis PX : periodic ar (s_per r DX, 0, 0) f.
  Hypothesis PY : periodic ar (0, s_per r DY, 0) f.
  Notation px := (s_per r DX).
  Notation py := (s_per r DY).

  Definition shifts : list idx := [(px, 0, 0); (- px, 0, 0); (0, py, 0); (0, - py, 0)].
  Lemma per_neg v : periodic ar v f -> forall a i, f (a, iadd i (- comp DX v, - comp DY v, - comp DZ v)) = f (a, i).
  Proof.
    intros P a i. rewrite <- (P a). f_equal. f_equal. destruct i as [[x y] z], v as [[u v] w].
    unfold iadd. cbn [comp fst snd]. f_equal; [f_equal|]; lia.
  Qed.
  Lemma shifts_ok k : In k shifts -> forall a i, f (a, iadd i k) = f (a, i).
  Proof.
    unfold shifts. cbn [In]. intros [<-|[<-|[<-|[<-|[]]]]] a i; auto.
    - exact (per_neg _ PX a i).
    - exact (per_neg _ PY a i).
  Qed.

  (** agreement at one location, backwards through a fill *)
  Definition ag (m : mem) (b : garr) (i : idx) : Prop := m (b, i) = f (b, i).
  Lemma copy_here e a rx ry k m i : slab_okb true rx = true -> In k shifts ->
    (in_rect rx ry i -> ag m (tag e a) (iadd i k)) -> (~ in_rect rx ry i -> ag m (tag e a) i) ->
    ag (run1s e (at2 a rx ry (Leaf (a, k))) m) (tag e a) i.
  Proof.
    intros Hr Hk H1 H2. unfold ag in *. destruct (run_copy e a rx ry k m (tag e a) i Hr) as [R1 R2].
    assert (D : in_rect rx ry i \/ ~ in_rect rx ry i) by (unfold in_rect; lia).
    destruct D as [D|D].
    - rewrite R1, H1 by auto. apply shifts_ok; auto.
    - rewrite R2, H2 by auto. reflexivity.
  Qed.
  Lemma copy_other e a rx ry k m b i : slab_okb true rx = true -> b <> tag e a -> ag m b i ->
    ag (run1s e (at2 a rx ry (Leaf (a, k))) m) b i.
  Proof.
    intros Hr NE H. unfold ag in *. destruct (run_copy e a rx ry k m b i Hr) as [_ R2].
    rewrite R2; [exact H|intros E; congruence].
  Qed.

  Lemma fold_fills2 e l : forall (m : mem),
    fold_left (fun m i => run_instr loc_eq_dec ar n i m) (map (instr_of g) (map (inst_i e) (map TDo l))) m =
    fold_left (fun m s => run1s e s m) l m.
  Proof. induction l as [|s l IH]; intros m; cbn; auto. Qed.

  Definition copies (x : minstr) : list tdesc :=
    match x with
    | MXS a ext => [ at2 a (AtLast 1 h) (Ext ext ext) (Leaf (a, (- px, 0, 0)));
                     at2 a (AtFirst (- h) (-1)) (Ext ext ext) (Leaf (a, (px, 0, 0)));
                     at2 a (Own ext ext) (AtFirst (- h) (-1)) (Leaf (a, (0, py, 0)));
                     at2 a (Own ext ext) (AtLast 1 h) (Leaf (a, (0, - py, 0))) ]
    | MXVA v _ => [ at2 (v DX) (AtLast 0 (h - 1)) yJ (Leaf (v DX, (- px, 0, 0)));
                    at2 (v DX) (AtFirst (- h) (-1)) yJ (Leaf (v DX, (px, 0, 0)));
                    at2 (v DY) xI (AtFirst (- h) (-1)) (Leaf (v DY, (0, py, 0)));
                    at2 (v DY) xI (AtLast 0 (h - 1)) (Leaf (v DY, (0, - py, 0))) ]
    | MXVN v ext => [ at2 (v DX) (Own (ext + 1) ext) (AtFirst (- h) (-1)) (Leaf (v DX, (0, py, 0)));
                      at2 (v DX) (Own (ext + 1) ext) (AtLast 1 h) (Leaf (v DX, (0, - py, 0)));
                      at2 (v DY) (AtLast 1 h) (Ext (ext + 1) ext) (Leaf (v DY, (- px, 0, 0)));
                      at2 (v DY) (AtFirst (- h) (-1)) (Ext (ext + 1) ext) (Leaf (v DY, (px, 0, 0))) ]
    | _ => []
    end.
  Lemma run_copies e x m : is_exch x = true -> runp e [x] m = fold_left (fun m s => run1s e s m) (copies x) m.
  Proof.
    intros Hx. assert (E : expand ex e [x] = map (inst_i e) (ex x)) by (unfold expand; cbn [flat_map]; rewrite app_nil_r; reflexivity).
    rewrite E. destruct x as [s| |a ext|v ad|v ext|v]; try discriminate; cbn [expand2];
      unfold fs_rght, fs_left, fv_rght, fv_left, fn_rght, fn_left, ff_rght, ff_left, fs_rght, fs_left; rewrite ?CL, ?CR; reflexivity.
  Qed.

  Lemma bget_in V E a : bget V E (a, izero) = true -> exists B, In B (V a) /\ forall i, in_box g E i -> in_box g B i.
  Proof.
    unfold bget. cbn [fst snd]. rewrite existsb_exists. intros (B & HB & L). exists B. split; auto.
    intros i. apply in_box_sub. exact L.
  Qed.
  Lemma bget_ag e V E a m : bagree g ar e V m f -> bget V E (a, izero) = true -> forall i, in_box g E i -> ag m (tag e a) i.
  Proof. intros A H i Hi. destruct (bget_in V E a H) as (B & HB & L). apply (A a B i HB). auto. Qed.

  Lemma bset_cases V a l b E : In E (bset V a l b) -> (b = a /\ In E l) \/ (b <> a /\ In E (V b)).
  Proof.
    unfold bset. destruct (arr_eqb b a) eqn:Eb.
    - left. split; auto. apply arr_eqb_eq. auto.
    - right. split; auto. intros ->. rewrite (proj2 (arr_eqb_eq a a) eq_refl) in Eb. discriminate.
  Qed.
  Lemma tag_ne e a b : b <> a -> tag e b <> tag e a.
  Proof. intros H H'. apply H. eapply tag_inj; eauto. Qed.

  Ltac shf := unfold shifts; cbn [In]; auto.
  Ltac fin lem := apply lem; apply in_b2; unfold in_rect, xI, yJ, Own, Ext, iadd in *; cbn [grng comp fst snd] in *; lia.
  Ltac kill := exfalso; unfold in_rect, xI, yJ, Own, Ext, iadd in *; cbn [grng comp fst snd] in *; lia.

  Lemma lat_vx2 e x V V' (m : mem) : is_exch x = true -> vx2 h x V = Some V' ->
    bagree g ar e V m f -> bagree g ar e V' (runp e [x] m) f.
  Proof.
    intros Hx HV A. rewrite run_copies by auto.
    pose proof (halo_pos (s_o r)) as Hh. change (halo (s_o r)) with h in Hh.
    pose proof (ok2_grid r RK DX (or_introl eq_refl)) as GX. pose proof (ok2_grid r RK DY (or_intror eq_refl)) as GY.
    change (halo (s_o r)) with h in GX, GY.
    assert (EX : px = hi DX - lo DX) by reflexivity. assert (EY : py = hi DY - lo DY) by reflexivity.
    destruct x as [s| |a ext|v ad|v ext|v]; try discriminate; cbn [vx2] in HV; cbn [copies fold_left].
    - destruct (_ && _) eqn:C; [|discriminate]. apply andb_true_iff in C. destruct C as [Ce C].
      assert (ext = h) by lia. subst ext. apply some_inj in HV. subst V'.
      pose proof (bget_ag e V _ a m A C) as SRC.
      assert (SO : slab_okb true (Own h h) = true) by (unfold Own, slab_okb; lia).
      intros b E i Hb Hi. apply bset_cases in Hb. destruct Hb as [[-> Hb]|[NE Hb]].
      + destruct Hb as [<-|[]]. apply in_b2 in Hi. destruct i as [[x y] z]. cbn [comp fst snd] in Hi.
        change (ag (run1s e (at2 a (Own h h) (AtLast 1 h) (Leaf (a, (0, - py, 0))))
          (run1s e (at2 a (Own h h) (AtFirst (- h) (-1)) (Leaf (a, (0, py, 0))))
          (run1s e (at2 a (AtFirst (- h) (-1)) (Ext h h) (Leaf (a, (px, 0, 0))))
          (run1s e (at2 a (AtLast 1 h) (Ext h h) (Leaf (a, (- px, 0, 0)))) m)))) (tag e a) (x, y, z)).
        repeat (apply copy_here; [first [exact SO|reflexivity]|shf| |]; intros ?).
        all: first [fin SRC | kill].
      + pose proof (tag_ne e a b NE) as NT. pose proof (A b E i Hb Hi) as K. 
        repeat (apply copy_other; [first [exact SO|reflexivity]|exact NT|]). exact K.
    - destruct (_ && _) eqn:C; [|discriminate]. apply andb_true_iff in C. destruct C as [C C2].
      apply andb_true_iff in C. destruct C as [NE C1].
      assert (NV : v DX <> v DY). { intros Q. rewrite Q, (proj2 (arr_eqb_eq _ _) eq_refl) in NE. discriminate. }
      pose proof (tag_ne e _ _ NV) as NT. pose proof (tag_ne e _ _ (not_eq_sym NV)) as NT'.
      apply some_inj in HV. subst V'.
      pose proof (bget_ag e V _ _ m A C1) as S1. pose proof (bget_ag e V _ _ m A C2) as S2.
      assert (KX : forall i, (in_box g (b2 h (h - 1) 0 0) i \/ ag m (tag e (v DX)) i) ->
        ag (run1s e (at2 (v DY) xI (AtLast 0 (h - 1)) (Leaf (v DY, (0, - py, 0))))
           (run1s e (at2 (v DY) xI (AtFirst (- h) (-1)) (Leaf (v DY, (0, py, 0))))
           (run1s e (at2 (v DX) (AtFirst (- h) (-1)) yJ (Leaf (v DX, (px, 0, 0))))
           (run1s e (at2 (v DX) (AtLast 0 (h - 1)) yJ (Leaf (v DX, (- px, 0, 0)))) m)))) (tag e (v DX)) i).
      { intros [[x y] z] Hi. do 2 (apply copy_other; [reflexivity|exact NT|]).
        repeat (apply copy_here; [reflexivity|shf| |]; intros ?).
        all: destruct Hi as [Hi|Hi]; [apply in_b2 in Hi; cbn [comp fst snd] in Hi; first [fin S1 | kill]|].
        all: first [exact Hi | fin S1 | kill]. }
      assert (KY : forall i, (in_box g (b2 0 0 h (h - 1)) i \/ ag m (tag e (v DY)) i) ->
        ag (run1s e (at2 (v DY) xI (AtLast 0 (h - 1)) (Leaf (v DY, (0, - py, 0))))
           (run1s e (at2 (v DY) xI (AtFirst (- h) (-1)) (Leaf (v DY, (0, py, 0))))
           (run1s e (at2 (v DX) (AtFirst (- h) (-1)) yJ (Leaf (v DX, (px, 0, 0))))
           (run1s e (at2 (v DX) (AtLast 0 (h - 1)) yJ (Leaf (v DX, (- px, 0, 0)))) m)))) (tag e (v DY)) i).
      { intros [[x y] z] Hi. 
        assert (KM : forall i, ag m (tag e (v DY)) i ->
          ag (run1s e (at2 (v DX) (AtFirst (- h) (-1)) yJ (Leaf (v DX, (px, 0, 0))))
             (run1s e (at2 (v DX) (AtLast 0 (h - 1)) yJ (Leaf (v DX, (- px, 0, 0)))) m)) (tag e (v DY)) i).
        { intros i0 H0. do 2 (apply copy_other; [reflexivity|exact NT'|]). exact H0. }
        do 2 (apply copy_here; [reflexivity|shf| |]; intros ?).
        all: apply KM.
        all: destruct Hi as [Hi|Hi]; [apply in_b2 in Hi; cbn [comp fst snd] in Hi; first [fin S2 | kill]|].
        all: first [exact Hi | fin S2 | kill]. }
      intros b E i Hb Hi. apply bset_cases in Hb. destruct Hb as [[-> Hb]|[NE1 Hb]].
      + apply KY. destruct Hb as [<-|Hb]; [left; exact Hi|right].
        apply bset_cases in Hb. destruct Hb as [[Q _]|[_ Hb]]; [congruence|]. exact (A _ E i Hb Hi).
      + apply bset_cases in Hb. destruct Hb as [[-> Hb]|[NE2 Hb]].
        * apply KX. destruct Hb as [<-|Hb]; [left; exact Hi|right]. exact (A _ E i Hb Hi).
        * pose proof (A b E i Hb Hi) as K. pose proof (tag_ne e _ _ NE1). pose proof (tag_ne e _ _ NE2).
          repeat (apply copy_other; [reflexivity|assumption|]). exact K.
    - destruct (_ && _) eqn:C; [|discriminate]. apply andb_true_iff in C. destruct C as [C C2].
      apply andb_true_iff in C. destruct C as [C C1]. apply andb_true_iff in C. destruct C as [Ce NE].
      assert (NV : v DX <> v DY). { intros Q. rewrite Q, (proj2 (arr_eqb_eq _ _) eq_refl) in NE. discriminate. }
      pose proof (tag_ne e _ _ NV) as NT. pose proof (tag_ne e _ _ (not_eq_sym NV)) as NT'.
      apply some_inj in HV. subst V'.
      assert (SO : slab_okb true (Own (ext + 1) ext) = true) by (unfold Own, slab_okb; lia).
      pose proof (bget_ag e V _ _ m A C1) as S1. pose proof (bget_ag e V _ _ m A C2) as S2.
      assert (KX : forall i, (in_box g (b2 (ext + 1) ext h h) i \/ ag m (tag e (v DX)) i) ->
        ag (run1s e (at2 (v DY) (AtFirst (- h) (-1)) (Ext (ext + 1) ext) (Leaf (v DY, (px, 0, 0))))
           (run1s e (at2 (v DY) (AtLast 1 h) (Ext (ext + 1) ext) (Leaf (v DY, (- px, 0, 0))))
           (run1s e (at2 (v DX) (Own (ext + 1) ext) (AtLast 1 h) (Leaf (v DX, (0, - py, 0))))
           (run1s e (at2 (v DX) (Own (ext + 1) ext) (AtFirst (- h) (-1)) (Leaf (v DX, (0, py, 0)))) m)))) (tag e (v DX)) i).
      { intros [[x y] z] Hi. do 2 (apply copy_other; [reflexivity|exact NT|]).
        repeat (apply copy_here; [exact SO|shf| |]; intros ?).
        all: destruct Hi as [Hi|Hi]; [apply in_b2 in Hi; cbn [comp fst snd] in Hi; first [fin S1 | kill]|].
        all: first [exact Hi | fin S1 | kill]. }
      assert (KY : forall i, (in_box g (b2 h h (ext + 1) ext) i \/ ag m (tag e (v DY)) i) ->
        ag (run1s e (at2 (v DY) (AtFirst (- h) (-1)) (Ext (ext + 1) ext) (Leaf (v DY, (px, 0, 0))))
           (run1s e (at2 (v DY) (AtLast 1 h) (Ext (ext + 1) ext) (Leaf (v DY, (- px, 0, 0))))
           (run1s e (at2 (v DX) (Own (ext + 1) ext) (AtLast 1 h) (Leaf (v DX, (0, - py, 0))))
           (run1s e (at2 (v DX) (Own (ext + 1) ext) (AtFirst (- h) (-1)) (Leaf (v DX, (0, py, 0)))) m)))) (tag e (v DY)) i).
      { intros [[x y] z] Hi. 
        assert (KM : forall i, ag m (tag e (v DY)) i ->
          ag (run1s e (at2 (v DX) (Own (ext + 1) ext) (AtLast 1 h) (Leaf (v DX, (0, - py, 0))))
             (run1s e (at2 (v DX) (Own (ext + 1) ext) (AtFirst (- h) (-1)) (Leaf (v DX, (0, py, 0)))) m)) (tag e (v DY)) i).
        { intros i0 H0. do 2 (apply copy_other; [exact SO|exact NT'|]). exact H0. }
        do 2 (apply copy_here; [reflexivity|shf| |]; intros ?).
        all: apply KM.
        all: destruct Hi as [Hi|Hi]; [apply in_b2 in Hi; cbn [comp fst snd] in Hi; first [fin S2 | kill]|].
        all: first [exact Hi | fin S2 | kill]. }
      intros b E i Hb Hi. apply bset_cases in Hb. destruct Hb as [[-> Hb]|[NE1 Hb]].
      + apply KY. destruct Hb as [<-|Hb]; [left; exact Hi|right].
        apply bset_cases in Hb. destruct Hb as [[Q _]|[_ Hb]]; [congruence|]. exact (A _ E i Hb Hi).
      + apply bset_cases in Hb. destruct Hb as [[-> Hb]|[NE2 Hb]].
        * apply KX. destruct Hb as [<-|Hb]; [left; exact Hi|right]. exact (A _ E i Hb Hi).
        * pose proof (A b E i Hb Hi) as K. pose proof (tag_ne e _ _ NE1). pose proof (tag_ne e _ _ NE2).
          repeat (apply copy_other; [first [exact SO|reflexivity]|assumption|]). exact K.
    - apply some_inj in HV. subst V'. exact A.
  Qed.
End Exch.
