(** 2D halo exchanges in a box closed by rigid walls, compared with a lattice mirrored
    at all walls, where exchanges do nothing. *)
From Coq Require Import ZArith List Bool Lia ZifyBool Reals Lra.
From Verif Require Import SpecIndex ModelIndex ProofsIndex ModelRun Lang ProofsLang Stencil ProofsStencil
  FormCommon Form2D Solver1D Solver2D Macro ProofsMacro Foot1D Foot2D Proofs1D Proofs2D ProofsThread1D ProofsThread2D Arith SpecReal
  ProofsValid ProofsValid1D Boxes ProofsBoxes ProofsValid2D ProofsValidC2D ProofsValidI2D ProofsExch2D ProofsExchC2D Lattice ProofsLattice
  Fun1D ProofsFun1D FunN ProofsFunN ProofsFun2D ProofsNumN ProofsSymN ProofsSymRun2D ProofsImgPt ProofsImages2D ProofsImgPtX ProofsValidB2D.
Import ListNotations.
Local Open Scope Z_scope.

Section Exch.
  Variables (r : run2) (n : nat).
  Hypothesis RK : run2_ok r.
  Hypothesis Hn : (0 < n)%nat.
  Hypothesis Hs : Z.of_nat n <= s_hi r DX - s_lo r DX + 1.
  Variables eps tiny : R.
  Notation AR := (arithR eps tiny).
  Notation mem := (loc -> R).
  Notation g := (geom2 r n).
  Notation h := (s_halo r).
  Notation lo := (s_lo r).
  Notation hi := (s_hi r).
  Notation ex := (expand2 (s_halo r) (s_per r) (s_bl r) (s_br r)).
  Notation runp e p := (run_prog loc_eq_dec AR n (prog_of g (expand ex e p))).
  Notation run1s e s m := (run_stmt loc_eq_dec AR n (stmt_of g (inst e s)) m).
  Notation in_rect := (in_rect r).
  Notation runl e l m := (fold_left (fun m0 s0 => run1s e s0 m0) l m).
  Notation ag := (ag AR).

  (** mirrored at the four walls *)
  Definition symB (f : mem) : Prop :=
    symM eps tiny r f /\ forall e, symSx (2 * lo DX) (viewN AR e f) /\ symSx (2 * hi DX) (viewN AR e f).

  Lemma sy_even (f : mem) e a x y z s : symB f -> scal a -> s = 2 * lo DY \/ s = 2 * hi DY -> f (tag e a, (x, y, z)) = f (tag e a, (x, s - y, z)).
  Proof.
    intros [M _] Sa Hd. destruct (M e) as [M1 M2]. destruct Hd as [-> | ->].
    - exact (of_scal _ a _ Sa M1 (x, y, z)).
    - exact (of_scal _ a _ Sa M2 (x, y, z)).
  Qed.
  Lemma sx_even (f : mem) e a x y z s : symB f -> scalx a -> s = 2 * lo DX \/ s = 2 * hi DX -> f (tag e a, (x, y, z)) = f (tag e a, (s - x, y, z)).
  Proof.
    intros [_ M] Sa Hd. destruct (M e) as [M1 M2]. destruct Hd as [-> | ->].
    - exact (of_scalx _ a _ Sa M1 (x, y, z)).
    - exact (of_scalx _ a _ Sa M2 (x, y, z)).
  Qed.
  Lemma sy_odd (f : mem) e a x y z s : symB f -> par a = Some true -> s = 2 * lo DY \/ s = 2 * hi DY ->
    f (tag e a, (x, y, z)) = (- f (tag e a, (x, (s - y - 1)%Z, z)))%R.
  Proof.
    intros [M _] Sa Hd. destruct (M e) as [M1 M2].
    assert (K : forall s, symS s (viewN AR e f) -> f (tag e a, (x, y, z)) = (- f (tag e a, (x, (s - y - 1)%Z, z)))%R).
    { clear s Hd. intros s W0. pose proof (W0 a) as W. unfold symA in W. rewrite Sa in W. specialize (W (x, y, z)). unfold viewN, mh, pv, un, iadd in W. cbn [fst snd] in W.
      etransitivity; [exact W|]. repeat (f_equal; try lia). }
    destruct Hd as [-> | ->]; apply K; auto.
  Qed.
  Lemma sx_odd (f : mem) e a x y z s : symB f -> parx a = Some true -> s = 2 * lo DX \/ s = 2 * hi DX ->
    f (tag e a, (x, y, z)) = (- f (tag e a, ((s - x - 1)%Z, y, z)))%R.
  Proof.
    intros [_ M] Sa Hd. destruct (M e) as [M1 M2].
    assert (K : forall s, symSx s (viewN AR e f) -> f (tag e a, (x, y, z)) = (- f (tag e a, ((s - x - 1)%Z, y, z)))%R).
    { clear s Hd. intros s W0. pose proof (W0 a) as W. unfold symAx in W. rewrite Sa in W. specialize (W (x, y, z)). unfold viewN, mh, pv, un, iadd in W. cbn [fst snd] in W.
      etransitivity; [exact W|]. repeat (f_equal; try lia). }
    destruct Hd as [-> | ->]; apply K; auto.
  Qed.

  (** one fill *)
  Lemma rect_dec rx ry i : in_rect rx ry i \/ ~ in_rect rx ry i.
  Proof. unfold ProofsExch2D.in_rect. lia. Qed.
  Lemma fy_even e a rx ry k (f m : mem) i : slab_okb true rx = true -> scal a -> symB f ->
    (in_rect rx ry i -> 2 * comp DY i + k = 2 * lo DY \/ 2 * comp DY i + k = 2 * hi DY) ->
    (in_rect rx ry i -> ag f m (tag e a) (comp DX i, comp DY i + k, comp DZ i)) -> (~ in_rect rx ry i -> ag f m (tag e a) i) ->
    ag f (run1s e (at2 a rx ry (Leaf (a, x2 DY k 0))) m) (tag e a) i.
  Proof.
    intros Hr Sa HM HS H1 H2. destruct (run_fill r n RK Hn Hs AR e a rx ry (Leaf (a, x2 DY k 0)) m (tag e a) i Hr) as [R1 R2].
    unfold ProofsExchC2D.ag in *. destruct (rect_dec rx ry i) as [D|D]; [|rewrite R2 by auto; auto].
    rewrite R1 by auto. specialize (H1 D). specialize (HS D). destruct i as [[x y] z]. cbn [ev fst snd comp] in *. replace (iadd (x, y, z) (x2 DY k 0)) with (x, y + k, z) by (unfold x2, iadd; cbn [fst snd]; ixs).
    etransitivity; [exact H1|]. symmetry.
    assert (K : forall s, 2 * y + k = s -> s = 2 * lo DY \/ s = 2 * hi DY -> f (tag e a, (x, y, z)) = f (tag e a, (x, y + k, z))).
    { intros s Q Hd. replace (y + k) with (s - y) by lia. apply sy_even; auto. }
    destruct HS as [Q|Q]; eapply K; eauto.
  Qed.
  Lemma fx_even e a rx ry k (f m : mem) i : slab_okb true rx = true -> scalx a -> symB f ->
    (in_rect rx ry i -> 2 * comp DX i + k = 2 * lo DX \/ 2 * comp DX i + k = 2 * hi DX) ->
    (in_rect rx ry i -> ag f m (tag e a) (comp DX i + k, comp DY i, comp DZ i)) -> (~ in_rect rx ry i -> ag f m (tag e a) i) ->
    ag f (run1s e (at2 a rx ry (Leaf (a, x2 DX k 0))) m) (tag e a) i.
  Proof.
    intros Hr Sa HM HS H1 H2. destruct (run_fill r n RK Hn Hs AR e a rx ry (Leaf (a, x2 DX k 0)) m (tag e a) i Hr) as [R1 R2].
    unfold ProofsExchC2D.ag in *. destruct (rect_dec rx ry i) as [D|D]; [|rewrite R2 by auto; auto].
    rewrite R1 by auto. specialize (H1 D). specialize (HS D). destruct i as [[x y] z]. cbn [ev fst snd comp] in *. replace (iadd (x, y, z) (x2 DX k 0)) with (x + k, y, z) by (unfold x2, iadd; cbn [fst snd]; ixs).
    etransitivity; [exact H1|]. symmetry.
    assert (K : forall s, 2 * x + k = s -> s = 2 * lo DX \/ s = 2 * hi DX -> f (tag e a, (x, y, z)) = f (tag e a, (x + k, y, z))).
    { intros s Q Hd. replace (x + k) with (s - x) by lia. apply sx_even; auto. }
    destruct HS as [Q|Q]; eapply K; eauto.
  Qed.
  Lemma fy_odd e a rx ry k (f m : mem) i : slab_okb true rx = true -> par a = Some true -> symB f ->
    (in_rect rx ry i -> 2 * comp DY i + k + 1 = 2 * lo DY \/ 2 * comp DY i + k + 1 = 2 * hi DY) ->
    (in_rect rx ry i -> ag f m (tag e a) (comp DX i, comp DY i + k, comp DZ i)) -> (~ in_rect rx ry i -> ag f m (tag e a) i) ->
    ag f (run1s e (at2 a rx ry (- Leaf (a, x2 DY k 0))%s) m) (tag e a) i.
  Proof.
    intros Hr Sa HM HS H1 H2. destruct (run_fill r n RK Hn Hs AR e a rx ry (- Leaf (a, x2 DY k 0))%s m (tag e a) i Hr) as [R1 R2].
    unfold ProofsExchC2D.ag in *. destruct (rect_dec rx ry i) as [D|D]; [|rewrite R2 by auto; auto].
    rewrite R1 by auto. specialize (H1 D). specialize (HS D). destruct i as [[x y] z]. cbn [ev fst snd comp arithR aun] in *. replace (iadd (x, y, z) (x2 DY k 0)) with (x, y + k, z) by (unfold x2, iadd; cbn [fst snd]; ixs).
    assert (K : forall s, 2 * y + k + 1 = s -> s = 2 * lo DY \/ s = 2 * hi DY -> f (tag e a, (x, y, z)) = (- f (tag e a, (x, (y + k)%Z, z)))%R).
    { intros s Q Hd. replace (y + k) with (s - y - 1) by lia. apply sy_odd; auto. }
    transitivity (- f (tag e a, (x, (y + k)%Z, z)))%R; [exact (f_equal Ropp H1)|]. symmetry. destruct HS as [Q|Q]; eapply K; eauto.
  Qed.
  Lemma fx_odd e a rx ry k (f m : mem) i : slab_okb true rx = true -> parx a = Some true -> symB f ->
    (in_rect rx ry i -> 2 * comp DX i + k + 1 = 2 * lo DX \/ 2 * comp DX i + k + 1 = 2 * hi DX) ->
    (in_rect rx ry i -> ag f m (tag e a) (comp DX i + k, comp DY i, comp DZ i)) -> (~ in_rect rx ry i -> ag f m (tag e a) i) ->
    ag f (run1s e (at2 a rx ry (- Leaf (a, x2 DX k 0))%s) m) (tag e a) i.
  Proof.
    intros Hr Sa HM HS H1 H2. destruct (run_fill r n RK Hn Hs AR e a rx ry (- Leaf (a, x2 DX k 0))%s m (tag e a) i Hr) as [R1 R2].
    unfold ProofsExchC2D.ag in *. destruct (rect_dec rx ry i) as [D|D]; [|rewrite R2 by auto; auto].
    rewrite R1 by auto. specialize (H1 D). specialize (HS D). destruct i as [[x y] z]. cbn [ev fst snd comp arithR aun] in *. replace (iadd (x, y, z) (x2 DX k 0)) with (x + k, y, z) by (unfold x2, iadd; cbn [fst snd]; ixs).
    assert (K : forall s, 2 * x + k + 1 = s -> s = 2 * lo DX \/ s = 2 * hi DX -> f (tag e a, (x, y, z)) = (- f (tag e a, ((x + k)%Z, y, z)))%R).
    { intros s Q Hd. replace (x + k) with (s - x - 1) by lia. apply sx_odd; auto. }
    transitivity (- f (tag e a, ((x + k)%Z, y, z)))%R; [exact (f_equal Ropp H1)|]. symmetry. destruct HS as [Q|Q]; eapply K; eauto.
  Qed.
  (** a fill of something else *)
  Lemma f_other e a rx ry E (f m : mem) b i : slab_okb true rx = true -> b <> tag e a -> ag f m b i -> ag f (run1s e (at2 a rx ry E) m) b i.
  Proof.
    intros Hr NE H. unfold ProofsExchC2D.ag in *. destruct (run_fill r n RK Hn Hs AR e a rx ry E m b i Hr) as [_ R2].
    rewrite R2; [exact H|intros Eb; congruence].
  Qed.
  Lemma f_out e a rx ry E (f m : mem) b i : slab_okb true rx = true -> ~ in_rect rx ry i -> ag f m b i -> ag f (run1s e (at2 a rx ry E) m) b i.
  Proof.
    intros Hr NE H. unfold ProofsExchC2D.ag in *. destruct (run_fill r n RK Hn Hs AR e a rx ry E m b i Hr) as [_ R2].
    rewrite R2; [exact H|intros Eb; exact NE].
  Qed.

  Hypothesis CL : forall d, d = DX \/ d = DY -> s_bl r d = Rigid2.
  Hypothesis CR : forall d, d = DX \/ d = DY -> s_br r d = Rigid2.

  Definition box_fills (x : minstr) : list tdesc :=
    match x with
    | MXS a ext => fs_rght h (s_per r) (s_br r) DX a (Ext ext ext) ++ fs_left h (s_per r) (s_bl r) DX a (Ext ext ext) ++
                   fs_left h (s_per r) (s_bl r) DY a (Own ext ext) ++ fs_rght h (s_per r) (s_br r) DY a (Own ext ext)
    | MXVA v ad => fv_rght h (s_per r) (s_br r) DX v ad yJ ++ fv_left h (s_per r) (s_bl r) DX v ad yJ ++
                   fv_left h (s_per r) (s_bl r) DY v ad xI ++ fv_rght h (s_per r) (s_br r) DY v ad xI
    | MXVN v ext => fn_left h (s_per r) (s_bl r) DY (v DX) (Own (ext + 1) ext) ++ fn_rght h (s_per r) (s_br r) DY (v DX) (Own (ext + 1) ext) ++
                    fn_rght h (s_per r) (s_br r) DX (v DY) (Ext (ext + 1) ext) ++ fn_left h (s_per r) (s_bl r) DX (v DY) (Ext (ext + 1) ext)
    | MXF v => ff_rght (s_br r) DX (v DX) yJ ++ ff_left (s_bl r) DX (v DX) yJ ++ ff_left (s_bl r) DY (v DY) xI ++ ff_rght (s_br r) DY (v DY) xI
    | _ => []
    end.
  Lemma run_box e x m : is_exch x = true -> runp e [x] m = runl e (box_fills x) m.
  Proof.
    intros Hx. assert (E : expand ex e [x] = map (inst_i e) (ex x)) by (unfold expand; cbn [flat_map]; rewrite app_nil_r; reflexivity).
    rewrite E. rewrite <- (fold_fills2 r n AR e). destruct x as [s| |a ext|v ad|v ext|v]; try discriminate; cbn [expand2 box_fills].
    all: unfold ph, prog_of, run_prog; rewrite !map_app, !fold_left_app; reflexivity.
  Qed.

  (** exchanges of the arrays they are meant for *)
  Definition x_okB (x : minstr) : Prop :=
    match x with
    | MXS a _ => scal a /\ scalx a
    | MXVA v _ | MXF v => par (v DY) = Some true /\ parx (v DX) = Some true
    | MXVN v _ => scal (v DX) /\ scalx (v DY)
    | _ => False
    end.
  Lemma hh : h = 1 \/ h = 2. Proof. pose proof (halo_pos (s_o r)) as H. unfold s_halo. lia. Qed.
  Ltac unf := unfold box_fills, fn_left, fn_rght, ff_left, ff_rght, fs_left, fs_rght, fv_left, fv_rght; rewrite !CL, !CR by auto.
  Ltac zs := repeat match goal with |- context [zseq ?p] => let v := eval vm_compute in (zseq p) in change (zseq p) with v end; cbn [map app fold_left].
  Ltac rect := unfold ProofsExch2D.in_rect, xI, yJ, Own, Ext, iadd in *; cbn [grng comp fst snd] in *.
  Ltac slab := first [reflexivity | assumption].
  Ltac step f := apply f; [slab|assumption|assumption|rect; lia| intros ?| intros ?].
  Ltac fin S1 := apply S1; apply (in_b2 r n Hn Hs); rect; lia.
  Ltac kill := exfalso; rect; lia.

  Ltac src Hi S1 := first [ destruct Hi as [Hi|Hi]; [apply (in_b2 r n Hn Hs) in Hi; cbn [comp fst snd] in Hi; first [fin S1 | kill]|first [exact Hi | fin S1 | kill]] ].

  Lemma box_vx2 e x V V' (m f : mem) : is_exch x = true -> x_okB x -> vxb2 h x V = Some V' ->
    bagree g AR e V m f -> symB f -> bagree g AR e V' (runp e [x] m) f.
  Proof.
    intros Hx OKx HV A SY. rewrite run_box by auto. pose proof hh as Hh. pose proof (GX r RK) as GX0. pose proof (GY r RK) as GY0.
    destruct x as [s| |a ext|v ad|v ext|v]; try discriminate; cbn [vxb2 x_okB] in HV, OKx; destruct OKx as [OY OX].
    - destruct (_ && _) eqn:C; [|discriminate]. apply andb_true_iff in C. destruct C as [Ce C].
      assert (ext = h) by lia. subst ext. apply some_inj in HV. subst V'.
      pose proof (cbget_ag r n AR e V _ a m f A C) as SRC.
      assert (SO : slab_okb true (Own h h) = true) by (unfold Own, slab_okb; lia).
      intros b E i Hb Hi. apply bset_cases in Hb. destruct Hb as [[-> Hb]|[NE Hb]].
      + destruct Hb as [<-|[]]. apply (in_b2 r n Hn Hs) in Hi. destruct i as [[x y] z]. cbn [comp fst snd] in Hi.
        change (ag f (runl e (box_fills (MXS a h)) m) (tag e a) (x, y, z)). unf. unfold at2d.
        destruct Hh as [Hh|Hh]; rewrite Hh in *; zs.
        * do 2 step fy_even. all: try kill. all: do 2 step fx_even; first [fin SRC | kill].
        * do 4 step fy_even. all: try kill. all: do 4 step fx_even; first [fin SRC | kill].
      + pose proof (tag_ne e a b NE) as NT. pose proof (A b E i Hb Hi) as K. change (ag f m (tag e b) i) in K.
        change (ag f (runl e (box_fills (MXS a h)) m) (tag e b) i). unf. unfold at2d.
        destruct Hh as [Hh|Hh]; rewrite Hh in *; zs; repeat (apply f_other; [slab|assumption|]); exact K.
    - destruct (_ && _) eqn:C; [|discriminate]. apply andb_true_iff in C. destruct C as [C C2].
      apply andb_true_iff in C. destruct C as [NE C1].
      assert (NV : v DX <> v DY). { intros Q. rewrite Q, (proj2 (arr_eqb_eq _ _) eq_refl) in NE. discriminate. }
      pose proof (tag_ne e _ _ NV) as NT. pose proof (tag_ne e _ _ (not_eq_sym NV)) as NT'.
      pose proof (cbget_ag r n AR e V _ _ m f A C1) as S1. pose proof (cbget_ag r n AR e V _ _ m f A C2) as S2.
      assert (KO : forall b i, b <> v DX -> b <> v DY -> ag f m (tag e b) i -> ag f (runl e (box_fills (MXVA v ad)) m) (tag e b) i).
      { intros b i N1 N2 K. pose proof (tag_ne e _ _ N1) as M1. pose proof (tag_ne e _ _ N2) as M2. unf. unfold at2d.
        destruct ad; destruct Hh as [Hh|Hh]; rewrite Hh in *; zs; repeat (apply f_other; [slab|assumption|]); exact K. }
      destruct ad; cbv iota beta zeta in *; apply some_inj in HV; subst V'.
      + assert (KX : forall i, comp DX i <= hi DX -> (in_box g (b2 h 0 0 0) i \/ ag f m (tag e (v DX)) i) -> ag f (runl e (box_fills (MXVA v true)) m) (tag e (v DX)) i).
        { intros [[x y] z] LX Hi. cbn [comp fst snd] in LX. unf. unfold at2d. destruct Hh as [Hh|Hh]; rewrite Hh in *; zs.
          - src Hi S1.
          - do 2 (apply f_other; [slab|assumption|]). step fx_odd; (apply f_out; [slab|rect; lia|]); src Hi S1. }
        assert (KY : forall i, comp DY i <= hi DY -> (in_box g (b2 0 0 h 0) i \/ ag f m (tag e (v DY)) i) -> ag f (runl e (box_fills (MXVA v true)) m) (tag e (v DY)) i).
        { intros [[x y] z] LX Hi. cbn [comp fst snd] in LX. unf. unfold at2d. destruct Hh as [Hh|Hh]; rewrite Hh in *; zs.
          - src Hi S2.
          - apply f_out; [slab|rect; lia|]. step fy_odd; do 2 (apply f_other; [slab|assumption|]); src Hi S2. }
        intros b E i Hb Hi. apply bset_cases in Hb. destruct Hb as [[-> Hb]|[NE1 Hb]].
        * destruct Hb as [<-|Hb]; [apply KY; [apply (in_b2 r n Hn Hs) in Hi; lia|left; exact Hi]|].
          apply filter_In in Hb. destruct Hb as [Hb L]. apply KY; [|right; exact (A _ E i Hb Hi)].
          pose proof (Hi DY) as Y. rewrite hi2 in Y by auto. destruct E as [[[xa xb] [ya yb]] zz]. cbn [low] in L. cbn [e_d fst snd] in Y. lia.
        * apply bset_cases in Hb. destruct Hb as [[-> Hb]|[NE2 Hb]]; [|apply KO; auto; exact (A b E i Hb Hi)].
          destruct Hb as [<-|Hb]; [apply KX; [apply (in_b2 r n Hn Hs) in Hi; lia|left; exact Hi]|].
          apply filter_In in Hb. destruct Hb as [Hb L]. apply KX; [|right; exact (A _ E i Hb Hi)].
          pose proof (Hi DX) as Y. rewrite hi2 in Y by auto. destruct E as [[[xa xb] [ya yb]] zz]. cbn [lowx] in L. cbn [e_d fst snd] in Y. lia.
      + assert (KX : forall i, (in_box g (b2 h (h - 1) 0 0) i \/ ag f m (tag e (v DX)) i) -> ag f (runl e (box_fills (MXVA v false)) m) (tag e (v DX)) i).
        { intros [[x y] z] Hi. unf. unfold at2d. destruct Hh as [Hh|Hh]; rewrite Hh in *; zs.
          - do 2 (apply f_other; [slab|assumption|]). do 2 step fx_odd; src Hi S1.
          - do 4 (apply f_other; [slab|assumption|]). do 4 step fx_odd; src Hi S1. }
        assert (KY : forall i, (in_box g (b2 0 0 h (h - 1)) i \/ ag f m (tag e (v DY)) i) -> ag f (runl e (box_fills (MXVA v false)) m) (tag e (v DY)) i).
        { intros [[x y] z] Hi. unf. unfold at2d. destruct Hh as [Hh|Hh]; rewrite Hh in *; zs.
          - do 2 step fy_odd; do 2 (apply f_other; [slab|assumption|]); src Hi S2.
          - do 4 step fy_odd; do 4 (apply f_other; [slab|assumption|]); src Hi S2. }
        intros b E i Hb Hi. apply bset_cases in Hb. destruct Hb as [[-> Hb]|[NE1 Hb]].
        * apply KY. destruct Hb as [<-|Hb]; [left; exact Hi|right].
          apply bset_cases in Hb. destruct Hb as [[Q _]|[_ Hb]]; [congruence|]. exact (A _ E i Hb Hi).
        * apply bset_cases in Hb. destruct Hb as [[-> Hb]|[NE2 Hb]].
          -- apply KX. destruct Hb as [<-|Hb]; [left; exact Hi|right]. exact (A _ E i Hb Hi).
          -- apply KO; auto. exact (A b E i Hb Hi).
    - destruct (_ && _) eqn:C; [|discriminate]. apply andb_true_iff in C. destruct C as [C C2].
      apply andb_true_iff in C. destruct C as [C C1]. apply andb_true_iff in C. destruct C as [Ce NE]. apply Z.leb_le in Ce.
      apply some_inj in HV. subst V'.
      assert (SO : slab_okb true (Own (ext + 1) ext) = true) by (unfold Own, slab_okb; lia).
      assert (NV : v DX <> v DY). { intros Q. rewrite Q, (proj2 (arr_eqb_eq _ _) eq_refl) in NE. discriminate. }
      pose proof (tag_ne e _ _ NV) as NT. pose proof (tag_ne e _ _ (not_eq_sym NV)) as NT'.
      pose proof (cbget_ag r n AR e V _ _ m f A C1) as S1. pose proof (cbget_ag r n AR e V _ _ m f A C2) as S2.
      assert (KO : forall b i, b <> v DX -> b <> v DY -> ag f m (tag e b) i -> ag f (runl e (box_fills (MXVN v ext)) m) (tag e b) i).
      { intros b i N1 N2 K. pose proof (tag_ne e _ _ N1) as M1. pose proof (tag_ne e _ _ N2) as M2. unf. unfold at2d.
        destruct Hh as [Hh|Hh]; rewrite Hh in *; zs; repeat (apply f_other; [slab|assumption|]); exact K. }
      assert (KX : forall i, (in_box g (b2 (ext + 1) ext h h) i \/ ag f m (tag e (v DX)) i) -> ag f (runl e (box_fills (MXVN v ext)) m) (tag e (v DX)) i).
      { intros [[x y] z] Hi. unf. unfold at2d. destruct Hh as [Hh|Hh]; rewrite Hh in *; zs.
        - do 2 (apply f_other; [slab|assumption|]). do 2 step fy_even; src Hi S1.
        - do 4 (apply f_other; [slab|assumption|]). do 4 step fy_even; src Hi S1. }
      assert (KY : forall i, (in_box g (b2 h h (ext + 1) ext) i \/ ag f m (tag e (v DY)) i) -> ag f (runl e (box_fills (MXVN v ext)) m) (tag e (v DY)) i).
      { intros [[x y] z] Hi. unf. unfold at2d. destruct Hh as [Hh|Hh]; rewrite Hh in *; zs.
        - do 2 step fx_even; do 2 (apply f_other; [slab|assumption|]); src Hi S2.
        - do 4 step fx_even; do 4 (apply f_other; [slab|assumption|]); src Hi S2. }
      intros b E i Hb Hi. apply bset_cases in Hb. destruct Hb as [[-> Hb]|[NE1 Hb]].
      + apply KY. destruct Hb as [<-|Hb]; [left; exact Hi|right].
        apply bset_cases in Hb. destruct Hb as [[Q _]|[_ Hb]]; [congruence|]. exact (A _ E i Hb Hi).
      + apply bset_cases in Hb. destruct Hb as [[-> Hb]|[NE2 Hb]].
        * apply KX. destruct Hb as [<-|Hb]; [left; exact Hi|right]. exact (A _ E i Hb Hi).
        * apply KO; auto. exact (A b E i Hb Hi).
    - destruct (_ && _) eqn:C; [|discriminate]. apply andb_true_iff in C. destruct C as [C C2].
      apply andb_true_iff in C. destruct C as [NE C1]. apply some_inj in HV. subst V'.
      assert (NV : v DX <> v DY). { intros Q. rewrite Q, (proj2 (arr_eqb_eq _ _) eq_refl) in NE. discriminate. }
      pose proof (tag_ne e _ _ NV) as NT. pose proof (tag_ne e _ _ (not_eq_sym NV)) as NT'.
      pose proof (cbget_ag r n AR e V _ _ m f A C1) as S1. pose proof (cbget_ag r n AR e V _ _ m f A C2) as S2.
      assert (KO : forall b i, b <> v DX -> b <> v DY -> ag f m (tag e b) i -> ag f (runl e (box_fills (MXF v)) m) (tag e b) i).
      { intros b i N1 N2 K. pose proof (tag_ne e _ _ N1) as M1. pose proof (tag_ne e _ _ N2) as M2. unf. unfold at2d.
        destruct Hh as [Hh|Hh]; rewrite Hh in *; zs; repeat (apply f_other; [slab|assumption|]); exact K. }
      assert (KX : forall i, (in_box g (b2 1 0 0 0) i \/ ag f m (tag e (v DX)) i) -> ag f (runl e (box_fills (MXF v)) m) (tag e (v DX)) i).
      { intros [[x y] z] Hi. unf. unfold at2d. zs. do 2 (apply f_other; [slab|assumption|]). do 2 step fx_odd; src Hi S1. }
      assert (KY : forall i, (in_box g (b2 0 0 1 0) i \/ ag f m (tag e (v DY)) i) -> ag f (runl e (box_fills (MXF v)) m) (tag e (v DY)) i).
      { intros [[x y] z] Hi. unf. unfold at2d. zs. do 2 step fy_odd; do 2 (apply f_other; [slab|assumption|]); src Hi S2. }
      intros b E i Hb Hi. apply bset_cases in Hb. destruct Hb as [[-> Hb]|[NE1 Hb]].
      + apply KY. destruct Hb as [<-|Hb]; [left; exact Hi|right].
        apply bset_cases in Hb. destruct Hb as [[Q _]|[_ Hb]]; [congruence|]. exact (A _ E i Hb Hi).
      + apply bset_cases in Hb. destruct Hb as [[-> Hb]|[NE2 Hb]].
        * apply KX. destruct Hb as [<-|Hb]; [left; exact Hi|right]. exact (A _ E i Hb Hi).
        * apply KO; auto. exact (A b E i Hb Hi).
  Qed.
End Exch.
