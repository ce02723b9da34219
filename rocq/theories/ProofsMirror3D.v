(** Mirror images and exchange of the transverse axes for the antidiffusive velocity of the 3D solver. *)
From Coq Require Import ZArith List Bool Lia ZifyBool Reals Lra FunctionalExtensionality.
From Verif Require Import ModelRun Lang ProofsLang Stencil FormCommon Form3D Solver1D Arith SpecReal
  ProofsReal1D ProofsAnti1D ProofsSym1D ProofsAnti3D.
Local Open Scope R_scope.

(** evaluation of indices that are literals *)
Ltac zn := repeat match goal with
  | |- context [(?a + ?b)%Z] => let v := eval vm_compute in (a + b)%Z in change (a + b)%Z with v
  | |- context [(?a - ?b)%Z] => let v := eval vm_compute in (a - b)%Z in change (a - b)%Z with v
  | |- context [(- ?a)%Z] => let v := eval vm_compute in (- a)%Z in progress change (- a)%Z with v
  end.
(** equal or opposite up to the arguments of fractions *)
Ltac sn := match goal with
  | |- _ * fracR ?o ?t ?x' ?y' = - (_ * fracR ?o ?t ?x ?y) => rewrite (frac_neg o t x y x' y') by (unfold Rdiv; ring); ring
  | |- fracR ?o ?t ?x' ?y' = - fracR ?o ?t ?x ?y => rewrite (frac_neg o t x y x' y') by (unfold Rdiv; ring); ring
  | |- _ * fracR ?o ?t ?x' ?y' = _ * fracR ?o ?t ?x ?y => rewrite (frac_same o t x y x' y') by (unfold Rdiv; ring); reflexivity
  | |- fracR ?o ?t ?x' ?y' = fracR ?o ?t ?x ?y => rewrite (frac_same o t x y x' y') by (unfold Rdiv; ring); reflexivity
  | |- _ => unfold Rdiv; ring
  end.

Section Mirror.
  Variables (o : fl) (sp : sptl) (tp : tmprl) (tiny : R).
  Notation loc3 := (Z -> Z -> Z -> R).
  Variables G p n a b c na nb nc ta G' p' n' a' b' c' na' nb' nc' ta' : loc3.

  (** ** along the face normal: the face is its own image *)
  Section Along.
    Hypothesis HG : nug o = true -> forall i j k, G' i j k = G (1 - i)%Z j k.
    Hypothesis Hp : forall i j k, p' i j k = p (1 - i)%Z j k.
    Hypothesis Hn : forall i j k, n' i j k = n (1 - i)%Z j k.
    Hypothesis Ha : forall i j k, a' i j k = - a (- i)%Z j k.
    Hypothesis Hb : forall i j k, b' i j k = b (1 - i)%Z j k.
    Hypothesis Hc : forall i j k, c' i j k = c (1 - i)%Z j k.
    Hypothesis Hna : forall i j k, na' i j k = - na (- i)%Z j k.
    Hypothesis Hnb : forall i j k, nb' i j k = nb (1 - i)%Z j k.
    Hypothesis Hnc : forall i j k, nc' i j k = nc (1 - i)%Z j k.
    Hypothesis Hta : forall i j k, ta' i j k = - ta (- i)%Z j k.
    Lemma l_pp i j k : pp o p' i j k = pp o p (1 - i)%Z j k.
    Proof. unfold pp. rewrite Hp. reflexivity. Qed.
    Lemma l_pn i j k : pp o n' i j k = pp o n (1 - i)%Z j k.
    Proof. unfold pp. rewrite Hn. reflexivity. Qed.
    Lemma l_gg i j k : gg o G' i j k = gg o G (1 - i)%Z j k.
    Proof. unfold gg. destruct (nug o) eqn:N; auto. Qed.
    Lemma l_g0 : gbx o G' 0 0 0 = gbx o G 0 0 0.
    Proof. unfold gbx. destruct (nug o) eqn:N; auto. rewrite !HG by auto. zn. sn. Qed.
    Lemma l_gxy0 : gbxy o G' 0 0 0 = gbxy o G 0 0 0.
    Proof. unfold gbxy. destruct (nug o) eqn:N; auto. rewrite !HG by auto. zn. sn. Qed.
    Lemma l_gxy1 : gbxy o G' 0 (-1) 0 = gbxy o G 0 (-1) 0.
    Proof. unfold gbxy. destruct (nug o) eqn:N; auto. rewrite !HG by auto. zn. sn. Qed.
    Lemma l_gxz0 : gbxz o G' 0 0 0 = gbxz o G 0 0 0.
    Proof. unfold gbxz. destruct (nug o) eqn:N; auto. rewrite !HG by auto. zn. sn. Qed.
    Lemma l_gxz1 : gbxz o G' 0 0 (-1) = gbxz o G 0 0 (-1).
    Proof. unfold gbxz. destruct (nug o) eqn:N; auto. rewrite !HG by auto. zn. sn. Qed.
    Ltac go := rewrite ?l_g0, ?l_gxy0, ?l_gxy1, ?l_gxz0, ?l_gxz1, ?l_gg; unfold pbxyz, pbxy, pbxz, pbx, pby, pbz, abx, abxy, abxz, bbx, bbxy, bbxz, cbx, cbxy, cbxz, Ten, Twelve, Nda; rewrite ?l_pp, ?l_pn, ?Hp, ?Hn, ?Ha, ?Hb, ?Hc, ?Hna, ?Hnb, ?Hnc, ?Hta; zn.
    Lemma l_ndx : Ndx o tiny p' 0 0 0 = - Ndx o tiny p 0 0 0.
    Proof. unfold Ndx. cbv zeta. go. destruct (iga o); sn. Qed.
    Lemma l_ndy : Ndy o tiny p' 0 0 0 = Ndy o tiny p 0 0 0.
    Proof. unfold Ndy. cbv zeta. go. destruct (iga o); sn. Qed.
    Lemma l_ndz : Ndz o tiny p' 0 0 0 = Ndz o tiny p 0 0 0.
    Proof. unfold Ndz. cbv zeta. go. destruct (iga o); sn. Qed.
    Lemma l_ndxx : Ndxx o tiny p' 0 0 0 = Ndxx o tiny p 0 0 0.
    Proof. unfold Ndxx. cbv zeta. go. destruct (iga o); sn. Qed.
    Lemma l_ndxy : Ndxy o tiny p' 0 0 0 = - Ndxy o tiny p 0 0 0.
    Proof. unfold Ndxy. cbv zeta. go. destruct (iga o); sn. Qed.
    Lemma l_ndxz : Ndxz o tiny p' 0 0 0 = - Ndxz o tiny p 0 0 0.
    Proof. unfold Ndxz. cbv zeta. go. destruct (iga o); sn. Qed.
    Lemma l_ndyz : Ndyz o tiny p' 0 0 0 = Ndyz o tiny p 0 0 0.
    Proof. unfold Ndyz. cbv zeta. go. destruct (iga o); sn. Qed.
    Lemma l_pbx : pbx o p' 0 0 0 = pbx o p 0 0 0.
    Proof. go. sn. Qed.
    Lemma l_bb : bbxy b' 0 0 0 = bbxy b 0 0 0.
    Proof. go. sn. Qed.
    Lemma l_cb : cbxz c' 0 0 0 = cbxz c 0 0 0.
    Proof. go. sn. Qed.
    Lemma l_c0 : Fcen o G' p' a' b' c' 0 0 0 = Fcen o G p a b c 1 0 0.
    Proof. unfold Fcen. go. sn. Qed.
    Lemma l_c1 : Fcen o G' p' a' b' c' 1 0 0 = Fcen o G p a b c 0 0 0.
    Proof. unfold Fcen. go. sn. Qed.
    Lemma l_fxy0 : Fcxy o G' p' a' b' c' 0 0 0 = Fcxy o G p a b c 0 0 0.
    Proof. unfold Fcxy. go. sn. Qed.
    Lemma l_fxy1 : Fcxy o G' p' a' b' c' 0 (-1) 0 = Fcxy o G p a b c 0 (-1) 0.
    Proof. unfold Fcxy. go. sn. Qed.
    Lemma l_fxz0 : Fcxz o G' p' a' b' c' 0 0 0 = Fcxz o G p a b c 0 0 0.
    Proof. unfold Fcxz. go. sn. Qed.
    Lemma l_fxz1 : Fcxz o G' p' a' b' c' 0 0 (-1) = Fcxz o G p a b c 0 0 (-1).
    Proof. unfold Fcxz. go. sn. Qed.
    Lemma l_nfd : Nfd o tiny G' p' a' b' c' 0 0 0 = Nfd o tiny G p a b c 0 0 0.
    Proof. unfold Nfd. cbv zeta. go. destruct (iga o); sn. Qed.
    Lemma l_nfdn : Nfd o tiny G' p' na' nb' nc' 0 0 0 = Nfd o tiny G p na nb nc 0 0 0.
    Proof. unfold Nfd. cbv zeta. go. destruct (iga o); sn. Qed.
    Lemma l_nff : Nff o tiny G' p' a' b' c' 0 0 0 = Nff o tiny G p a b c 0 0 0.
    Proof. unfold Nff. cbv zeta. zn. rewrite l_c0, l_c1, l_fxy0, l_fxy1, l_fxz0, l_fxz1. go. destruct (iga o); sn. Qed.
    Lemma l_nxf : Nxf o tiny G' p' a' b' c' 0 0 0 = - Nxf o tiny G p a b c 0 0 0.
    Proof. unfold Nxf. cbv zeta. zn. rewrite l_c0, l_c1. go. destruct (iga o); sn. Qed.
    Lemma l_nfdt : Nfdt o tiny G' p' n' a' b' c' 0 0 0 = Nfdt o tiny G p n a b c 0 0 0.
    Proof. unfold Nfdt. cbv zeta. go. destruct (iga o); sn. Qed.
    Lemma l_ntx : Ntx o tiny p' n' 0 0 0 = - Ntx o tiny p n 0 0 0.
    Proof. unfold Ntx. go. destruct (iga o); sn. Qed.
    Lemma l_nt : Nt o tiny p' n' 0 0 0 = Nt o tiny p n 0 0 0.
    Proof. unfold Nt. go. destruct (iga o); sn. Qed.
    Lemma l_nda : Nda a' 0 0 0 = Nda a 0 0 0.
    Proof. go. sn. Qed.
    Lemma l_d2 : D2 o tiny G' p' a' b' c' = - D2 o tiny G p a b c.
    Proof. unfold D2. rewrite l_ndx, l_nfd, Ha. rewrite ?Rabs_Ropp. zn. sn. Qed.
    Lemma anti_along : A3 o sp tp tiny G' p' n' a' b' c' na' nb' nc' ta' = - A3 o sp tp tiny G p n a b c na nb nc ta.
    Proof.
      unfold A3. destruct (div2 o).
      - assert (D : D3 o sp tp tiny G' p' n' a' b' c' na' nb' nc' ta' = - D3 o sp tp tiny G p n a b c na nb nc ta).
        { unfold D3, U3, S3, Sp, Tp, Nxxa, Ntt. cbv zeta. rewrite l_d2, l_ndx, l_ndxx, l_nda, l_pbx, l_nff, l_nxf, l_nfd, l_nfdn, l_nfdt, l_ntx, l_nt, !Ha, !Hna, !Hta. rewrite ?Rabs_Ropp. zn.
          destruct (div3 o), (div3dt o), (iga o), sp, tp; sn. }
        rewrite l_d2, D. ring.
      - assert (T : Tot o tiny G' p' a' b' c' = - Tot o tiny G p a b c).
        { unfold Tot. destruct (tot o); [|ring]. rewrite l_ndxx, l_ndxy, l_ndxz, l_ndyz, l_bb, l_cb, l_g0, !Ha. rewrite ?Rabs_Ropp. zn. sn. }
        assert (D : Dfl o G' p' a' b' c' = - Dfl o G p a b c).
        { unfold Dfl. destruct (dfl o); [|ring]. cbv zeta. rewrite l_pbx, l_g0, !Ha, !Hb, !Hc. zn. destruct (iga o); sn. }
        rewrite T, D, l_ndx, l_ndy, l_ndz, l_g0, l_bb, l_cb, Ha. rewrite ?Rabs_Ropp. zn. sn.
    Qed.
  End Along.

  (** ** across the face normal *)
  Section Across.
    Hypothesis HG : nug o = true -> forall i j k, G' i j k = G i (- j)%Z k.
    Hypothesis Hp : forall i j k, p' i j k = p i (- j)%Z k.
    Hypothesis Hn : forall i j k, n' i j k = n i (- j)%Z k.
    Hypothesis Ha : forall i j k, a' i j k = a i (- j)%Z k.
    Hypothesis Hb : forall i j k, b' i j k = - b i (- 1 - j)%Z k.
    Hypothesis Hc : forall i j k, c' i j k = c i (- j)%Z k.
    Hypothesis Hna : forall i j k, na' i j k = na i (- j)%Z k.
    Hypothesis Hnb : forall i j k, nb' i j k = - nb i (- 1 - j)%Z k.
    Hypothesis Hnc : forall i j k, nc' i j k = nc i (- j)%Z k.
    Hypothesis Hta : forall i j k, ta' i j k = ta i (- j)%Z k.
    Lemma x_pp i j k : pp o p' i j k = pp o p i (- j)%Z k.
    Proof. unfold pp. rewrite Hp. reflexivity. Qed.
    Lemma x_pn i j k : pp o n' i j k = pp o n i (- j)%Z k.
    Proof. unfold pp. rewrite Hn. reflexivity. Qed.
    Lemma x_gg i j k : gg o G' i j k = gg o G i (- j)%Z k.
    Proof. unfold gg. destruct (nug o) eqn:N; auto. Qed.
    Lemma x_g0 : gbx o G' 0 0 0 = gbx o G 0 0 0.
    Proof. unfold gbx. destruct (nug o) eqn:N; auto. rewrite !HG by auto. zn. sn. Qed.
    Lemma x_gxy0 : gbxy o G' 0 0 0 = gbxy o G 0 (-1) 0.
    Proof. unfold gbxy. destruct (nug o) eqn:N; auto. rewrite !HG by auto. zn. sn. Qed.
    Lemma x_gxy1 : gbxy o G' 0 (-1) 0 = gbxy o G 0 0 0.
    Proof. unfold gbxy. destruct (nug o) eqn:N; auto. rewrite !HG by auto. zn. sn. Qed.
    Lemma x_gxz0 : gbxz o G' 0 0 0 = gbxz o G 0 0 0.
    Proof. unfold gbxz. destruct (nug o) eqn:N; auto. rewrite !HG by auto. zn. sn. Qed.
    Lemma x_gxz1 : gbxz o G' 0 0 (-1) = gbxz o G 0 0 (-1).
    Proof. unfold gbxz. destruct (nug o) eqn:N; auto. rewrite !HG by auto. zn. sn. Qed.
    Ltac go := rewrite ?x_g0, ?x_gxy0, ?x_gxy1, ?x_gxz0, ?x_gxz1, ?x_gg; unfold pbxyz, pbxy, pbxz, pbx, pby, pbz, abx, abxy, abxz, bbx, bbxy, bbxz, cbx, cbxy, cbxz, Ten, Twelve, Nda; rewrite ?x_pp, ?x_pn, ?Hp, ?Hn, ?Ha, ?Hb, ?Hc, ?Hna, ?Hnb, ?Hnc, ?Hta; zn.
    Lemma x_ndx : Ndx o tiny p' 0 0 0 = Ndx o tiny p 0 0 0.
    Proof. unfold Ndx. cbv zeta. go. destruct (iga o); sn. Qed.
    Lemma x_ndy : Ndy o tiny p' 0 0 0 = - Ndy o tiny p 0 0 0.
    Proof. unfold Ndy. cbv zeta. go. destruct (iga o); sn. Qed.
    Lemma x_ndz : Ndz o tiny p' 0 0 0 = Ndz o tiny p 0 0 0.
    Proof. unfold Ndz. cbv zeta. go. destruct (iga o); sn. Qed.
    Lemma x_ndxx : Ndxx o tiny p' 0 0 0 = Ndxx o tiny p 0 0 0.
    Proof. unfold Ndxx. cbv zeta. go. destruct (iga o); sn. Qed.
    Lemma x_ndxy : Ndxy o tiny p' 0 0 0 = - Ndxy o tiny p 0 0 0.
    Proof. unfold Ndxy. cbv zeta. go. destruct (iga o); sn. Qed.
    Lemma x_ndxz : Ndxz o tiny p' 0 0 0 = Ndxz o tiny p 0 0 0.
    Proof. unfold Ndxz. cbv zeta. go. destruct (iga o); sn. Qed.
    Lemma x_ndyz : Ndyz o tiny p' 0 0 0 = - Ndyz o tiny p 0 0 0.
    Proof. unfold Ndyz. cbv zeta. go. destruct (iga o); sn. Qed.
    Lemma x_pbx : pbx o p' 0 0 0 = pbx o p 0 0 0.
    Proof. go. sn. Qed.
    Lemma x_bb : bbxy b' 0 0 0 = - bbxy b 0 0 0.
    Proof. go. sn. Qed.
    Lemma x_cb : cbxz c' 0 0 0 = cbxz c 0 0 0.
    Proof. go. sn. Qed.
    Lemma x_c0 : Fcen o G' p' a' b' c' 0 0 0 = Fcen o G p a b c 0 0 0.
    Proof. unfold Fcen. go. sn. Qed.
    Lemma x_c1 : Fcen o G' p' a' b' c' 1 0 0 = Fcen o G p a b c 1 0 0.
    Proof. unfold Fcen. go. sn. Qed.
    Lemma x_fxy0 : Fcxy o G' p' a' b' c' 0 0 0 = Fcxy o G p a b c 0 (-1) 0.
    Proof. unfold Fcxy. go. sn. Qed.
    Lemma x_fxy1 : Fcxy o G' p' a' b' c' 0 (-1) 0 = Fcxy o G p a b c 0 0 0.
    Proof. unfold Fcxy. go. sn. Qed.
    Lemma x_fxz0 : Fcxz o G' p' a' b' c' 0 0 0 = Fcxz o G p a b c 0 0 0.
    Proof. unfold Fcxz. go. sn. Qed.
    Lemma x_fxz1 : Fcxz o G' p' a' b' c' 0 0 (-1) = Fcxz o G p a b c 0 0 (-1).
    Proof. unfold Fcxz. go. sn. Qed.
    Lemma x_nfd : Nfd o tiny G' p' a' b' c' 0 0 0 = Nfd o tiny G p a b c 0 0 0.
    Proof. unfold Nfd. cbv zeta. go. destruct (iga o); sn. Qed.
    Lemma x_nfdn : Nfd o tiny G' p' na' nb' nc' 0 0 0 = Nfd o tiny G p na nb nc 0 0 0.
    Proof. unfold Nfd. cbv zeta. go. destruct (iga o); sn. Qed.
    Lemma x_nff : Nff o tiny G' p' a' b' c' 0 0 0 = Nff o tiny G p a b c 0 0 0.
    Proof. unfold Nff. cbv zeta. zn. rewrite x_c0, x_c1, x_fxy0, x_fxy1, x_fxz0, x_fxz1. go. destruct (iga o); sn. Qed.
    Lemma x_nxf : Nxf o tiny G' p' a' b' c' 0 0 0 = Nxf o tiny G p a b c 0 0 0.
    Proof. unfold Nxf. cbv zeta. zn. rewrite x_c0, x_c1. go. destruct (iga o); sn. Qed.
    Lemma x_nfdt : Nfdt o tiny G' p' n' a' b' c' 0 0 0 = Nfdt o tiny G p n a b c 0 0 0.
    Proof. unfold Nfdt. cbv zeta. go. destruct (iga o); sn. Qed.
    Lemma x_ntx : Ntx o tiny p' n' 0 0 0 = Ntx o tiny p n 0 0 0.
    Proof. unfold Ntx. go. destruct (iga o); sn. Qed.
    Lemma x_nt : Nt o tiny p' n' 0 0 0 = Nt o tiny p n 0 0 0.
    Proof. unfold Nt. go. destruct (iga o); sn. Qed.
    Lemma x_nda : Nda a' 0 0 0 = Nda a 0 0 0.
    Proof. go. sn. Qed.
    Lemma x_d2 : D2 o tiny G' p' a' b' c' = D2 o tiny G p a b c.
    Proof. unfold D2. rewrite x_ndx, x_nfd, Ha. rewrite ?Rabs_Ropp. zn. sn. Qed.
    Lemma anti_across : A3 o sp tp tiny G' p' n' a' b' c' na' nb' nc' ta' = A3 o sp tp tiny G p n a b c na nb nc ta.
    Proof.
      unfold A3. destruct (div2 o).
      - assert (D : D3 o sp tp tiny G' p' n' a' b' c' na' nb' nc' ta' = D3 o sp tp tiny G p n a b c na nb nc ta).
        { unfold D3, U3, S3, Sp, Tp, Nxxa, Ntt. cbv zeta. rewrite x_d2, x_ndx, x_ndxx, x_nda, x_pbx, x_nff, x_nxf, x_nfd, x_nfdn, x_nfdt, x_ntx, x_nt, !Ha, !Hna, !Hta. rewrite ?Rabs_Ropp. zn.
          destruct (div3 o), (div3dt o), (iga o), sp, tp; sn. }
        rewrite x_d2, D. ring.
      - assert (T : Tot o tiny G' p' a' b' c' = Tot o tiny G p a b c).
        { unfold Tot. destruct (tot o); [|ring]. rewrite x_ndxx, x_ndxy, x_ndxz, x_ndyz, x_bb, x_cb, x_g0, !Ha. rewrite ?Rabs_Ropp. zn. sn. }
        assert (D : Dfl o G' p' a' b' c' = Dfl o G p a b c).
        { unfold Dfl. destruct (dfl o); [|ring]. cbv zeta. rewrite x_pbx, x_g0, !Ha, !Hb, !Hc. zn. destruct (iga o); sn. }
        rewrite T, D, x_ndx, x_ndy, x_ndz, x_g0, x_bb, x_cb, Ha. rewrite ?Rabs_Ropp. zn. sn.
    Qed.
  End Across.

  (** ** the two axes across the face normal exchanged *)
  Section Swap.
    Hypothesis HG : nug o = true -> forall i j k, G' i j k = G i k j.
    Hypothesis Hp : forall i j k, p' i j k = p i k j.
    Hypothesis Hn : forall i j k, n' i j k = n i k j.
    Hypothesis Ha : forall i j k, a' i j k = a i k j.
    Hypothesis Hb : forall i j k, b' i j k = c i k j.
    Hypothesis Hc : forall i j k, c' i j k = b i k j.
    Hypothesis Hna : forall i j k, na' i j k = na i k j.
    Hypothesis Hnb : forall i j k, nb' i j k = nc i k j.
    Hypothesis Hnc : forall i j k, nc' i j k = nb i k j.
    Hypothesis Hta : forall i j k, ta' i j k = ta i k j.
    Lemma s_pp i j k : pp o p' i j k = pp o p i k j. Proof. unfold pp. rewrite Hp. reflexivity. Qed.
    Lemma s_pn i j k : pp o n' i j k = pp o n i k j. Proof. unfold pp. rewrite Hn. reflexivity. Qed.
    Lemma s_gg i j k : gg o G' i j k = gg o G i k j. Proof. unfold gg. destruct (nug o) eqn:N; auto. Qed.
    Lemma s_g0 i j k : gbx o G' i j k = gbx o G i k j. Proof. unfold gbx. destruct (nug o) eqn:N; auto. rewrite !HG by auto. sn. Qed.
    Lemma s_gxy i j k : gbxy o G' i j k = gbxz o G i k j. Proof. unfold gbxy, gbxz. destruct (nug o) eqn:N; auto. rewrite !HG by auto. sn. Qed.
    Lemma s_gxz i j k : gbxz o G' i j k = gbxy o G i k j. Proof. unfold gbxy, gbxz. destruct (nug o) eqn:N; auto. rewrite !HG by auto. sn. Qed.
    Ltac go := rewrite ?s_g0, ?s_gxy, ?s_gxz, ?s_gg; unfold pbxyz, pbxy, pbxz, pbx, pby, pbz, abx, abxy, abxz, bbx, bbxy, bbxz, cbx, cbxy, cbxz, Ten, Twelve, Nda; rewrite ?s_pp, ?s_pn, ?Hp, ?Hn, ?Ha, ?Hb, ?Hc, ?Hna, ?Hnb, ?Hnc, ?Hta.
    Lemma s_ndx : Ndx o tiny p' 0 0 0 = Ndx o tiny p 0 0 0.
    Proof. unfold Ndx. cbv zeta. go. destruct (iga o); sn. Qed.
    Lemma s_ndy : Ndy o tiny p' 0 0 0 = Ndz o tiny p 0 0 0.
    Proof. unfold Ndy, Ndz. cbv zeta. go. destruct (iga o); sn. Qed.
    Lemma s_ndz : Ndz o tiny p' 0 0 0 = Ndy o tiny p 0 0 0.
    Proof. unfold Ndz, Ndy. cbv zeta. go. destruct (iga o); sn. Qed.
    Lemma s_ndxx : Ndxx o tiny p' 0 0 0 = Ndxx o tiny p 0 0 0.
    Proof. unfold Ndxx. cbv zeta. go. destruct (iga o); sn. Qed.
    Lemma s_ndxy : Ndxy o tiny p' 0 0 0 = Ndxz o tiny p 0 0 0.
    Proof. unfold Ndxy, Ndxz. cbv zeta. go. destruct (iga o); sn. Qed.
    Lemma s_ndxz : Ndxz o tiny p' 0 0 0 = Ndxy o tiny p 0 0 0.
    Proof. unfold Ndxz, Ndxy. cbv zeta. go. destruct (iga o); sn. Qed.
    Lemma s_ndyz : Ndyz o tiny p' 0 0 0 = Ndyz o tiny p 0 0 0.
    Proof. unfold Ndyz. cbv zeta. go. destruct (iga o); sn. Qed.
    Lemma s_pbx : pbx o p' 0 0 0 = pbx o p 0 0 0.
    Proof. go. sn. Qed.
    Lemma s_bb : bbxy b' 0 0 0 = cbxz c 0 0 0.
    Proof. go. sn. Qed.
    Lemma s_cb : cbxz c' 0 0 0 = bbxy b 0 0 0.
    Proof. go. sn. Qed.
    Lemma s_cen i j k : Fcen o G' p' a' b' c' i j k = Fcen o G p a b c i k j.
    Proof. unfold Fcen. go. sn. Qed.
    Lemma s_fxy i j k : Fcxy o G' p' a' b' c' i j k = Fcxz o G p a b c i k j.
    Proof. unfold Fcxy, Fcxz. go. sn. Qed.
    Lemma s_fxz i j k : Fcxz o G' p' a' b' c' i j k = Fcxy o G p a b c i k j.
    Proof. unfold Fcxy, Fcxz. go. sn. Qed.
    Lemma s_nfd : Nfd o tiny G' p' a' b' c' 0 0 0 = Nfd o tiny G p a b c 0 0 0.
    Proof. unfold Nfd. cbv zeta. go. destruct (iga o); sn. Qed.
    Lemma s_nfdn : Nfd o tiny G' p' na' nb' nc' 0 0 0 = Nfd o tiny G p na nb nc 0 0 0.
    Proof. unfold Nfd. cbv zeta. go. destruct (iga o); sn. Qed.
    Lemma s_nff : Nff o tiny G' p' a' b' c' 0 0 0 = Nff o tiny G p a b c 0 0 0.
    Proof. unfold Nff. cbv zeta. rewrite !s_cen, !s_fxy, !s_fxz. go. destruct (iga o); sn. Qed.
    Lemma s_nxf : Nxf o tiny G' p' a' b' c' 0 0 0 = Nxf o tiny G p a b c 0 0 0.
    Proof. unfold Nxf. cbv zeta. rewrite !s_cen. go. destruct (iga o); sn. Qed.
    Lemma s_nfdt : Nfdt o tiny G' p' n' a' b' c' 0 0 0 = Nfdt o tiny G p n a b c 0 0 0.
    Proof. unfold Nfdt. cbv zeta. go. destruct (iga o); sn. Qed.
    Lemma s_ntx : Ntx o tiny p' n' 0 0 0 = Ntx o tiny p n 0 0 0.
    Proof. unfold Ntx. go. destruct (iga o); sn. Qed.
    Lemma s_nt : Nt o tiny p' n' 0 0 0 = Nt o tiny p n 0 0 0.
    Proof. unfold Nt. go. destruct (iga o); sn. Qed.
    Lemma s_nda : Nda a' 0 0 0 = Nda a 0 0 0.
    Proof. go. sn. Qed.
    Lemma s_d2 : D2 o tiny G' p' a' b' c' = D2 o tiny G p a b c.
    Proof. unfold D2. rewrite s_ndx, s_nfd, Ha. sn. Qed.
    Lemma anti_swap : A3 o sp tp tiny G' p' n' a' b' c' na' nb' nc' ta' = A3 o sp tp tiny G p n a b c na nb nc ta.
    Proof.
      unfold A3. destruct (div2 o).
      - assert (D : D3 o sp tp tiny G' p' n' a' b' c' na' nb' nc' ta' = D3 o sp tp tiny G p n a b c na nb nc ta).
        { unfold D3, U3, S3, Sp, Tp, Nxxa, Ntt. cbv zeta. rewrite s_d2, s_ndx, s_ndxx, s_nda, s_pbx, s_nff, s_nxf, s_nfd, s_nfdn, s_nfdt, s_ntx, s_nt, !Ha, !Hna, !Hta.
          destruct (div3 o), (div3dt o), (iga o), sp, tp; sn. }
        rewrite s_d2, D. ring.
      - assert (T : Tot o tiny G' p' a' b' c' = Tot o tiny G p a b c).
        { unfold Tot. destruct (tot o); [|ring]. rewrite s_ndxx, s_ndxy, s_ndxz, s_ndyz, s_bb, s_cb, s_g0, !Ha. sn. }
        assert (D : Dfl o G' p' a' b' c' = Dfl o G p a b c).
        { unfold Dfl. destruct (dfl o); [|ring]. cbv zeta. rewrite s_pbx, s_g0, !Ha, !Hb, !Hc. destruct (iga o); sn. }
        rewrite T, D, s_ndx, s_ndy, s_ndz, s_g0, s_bb, s_cb, Ha. sn.
    Qed.
  End Swap.
End Mirror.

(** the velocity is determined by the values of its arguments *)
Lemma A3_ext o sp' tp tiny (G G' p p' n n' a a' b b' c c' na na' nb nb' nc nc' ta ta' : Z -> Z -> Z -> R) :
  (nug o = true -> forall i j k, G' i j k = G i j k) -> (forall i j k, p' i j k = p i j k) -> (forall i j k, n' i j k = n i j k) ->
  (forall i j k, a' i j k = a i j k) -> (forall i j k, b' i j k = b i j k) -> (forall i j k, c' i j k = c i j k) ->
  (forall i j k, na' i j k = na i j k) -> (forall i j k, nb' i j k = nb i j k) -> (forall i j k, nc' i j k = nc i j k) ->
  (forall i j k, ta' i j k = ta i j k) ->
  A3 o sp' tp tiny G' p' n' a' b' c' na' nb' nc' ta' = A3 o sp' tp tiny G p n a b c na nb nc ta.
Proof.
  intros HG0 H1 H2 H3 H4 H5 H6 H7 H8 H9.
  assert (E : forall f f' : Z -> Z -> Z -> R, (forall i j k, f' i j k = f i j k) -> f' = f)
    by (intros; do 3 (apply functional_extensionality; intro); auto).
  rewrite (E p p' H1), (E n n' H2), (E a a' H3), (E b b' H4), (E c c' H5), (E na na' H6), (E nb nb' H7), (E nc nc' H8), (E ta ta' H9).
  destruct (nug o) eqn:N; [rewrite (E G G'); auto|].
  assert (EG : forall i j k, gg o G' i j k = gg o G i j k) by (intros; unfold gg; rewrite N; auto).
  assert (EX : gbx o G' = gbx o G) by (apply E; intros; unfold gbx; rewrite N; auto).
  assert (EY : gbxy o G' = gbxy o G) by (apply E; intros; unfold gbxy; rewrite N; auto).
  assert (EZ : gbxz o G' = gbxz o G) by (apply E; intros; unfold gbxz; rewrite N; auto).
  apply E in EG. unfold A3, D2, D3, Tot, Dfl, U3, D2, Nff, Nxf, Nfdt, Nfd, Fcen, Fcxy, Fcxz. rewrite EG, EX, EY, EZ. reflexivity.
Qed.
