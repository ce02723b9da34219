(** Mirror images of the antidiffusive velocity of the 2D solver. *)
From Coq Require Import ZArith List Bool Lia ZifyBool Reals Lra FunctionalExtensionality.
From Verif Require Import ModelRun Lang ProofsLang Stencil FormCommon Form2D Solver1D Arith SpecReal
  ProofsReal1D ProofsAnti1D ProofsSym1D ProofsAnti2D.
Local Open Scope R_scope.

(** evaluation of indices that are literals *)
Ltac zn := repeat match goal with
  | |- context [(?a + ?b)%Z] => let v := eval vm_compute in (a + b)%Z in change (a + b)%Z with v
  | |- context [(?a - ?b)%Z] => let v := eval vm_compute in (a - b)%Z in change (a - b)%Z with v
  | |- context [(- ?a)%Z] => let v := eval vm_compute in (- a)%Z in progress change (- a)%Z with v
  end.
(** equal or opposite up to the arguments of fractions *)
Ltac sn := match goal with
  | |- _ * fracR ?o ?t ?x' ?y' = - (_ * fracR ?o ?t ?x ?y) => rewrite (frac_neg o t x y x' y') by (unfold Rdiv; ring); ring
  | |- fracR ?o ?t ?x' ?y' = - fracR ?o ?t ?x ?y => rewrite (frac_neg o t x y x' y') by (unfold Rdiv; ring); ring
  | |- _ * fracR ?o ?t ?x' ?y' = _ * fracR ?o ?t ?x ?y => rewrite (frac_same o t x y x' y') by (unfold Rdiv; ring); reflexivity
  | |- fracR ?o ?t ?x' ?y' = fracR ?o ?t ?x ?y => rewrite (frac_same o t x y x' y') by (unfold Rdiv; ring); reflexivity
  | |- _ => unfold Rdiv; ring
  end.

Section Mirror.
  Variables (o : fl) (sp : sptl) (tp : tmprl) (tiny : R).
  Notation loc2 := (Z -> Z -> R).
  Variables G p n a b na nb ta G' p' n' a' b' na' nb' ta' : loc2.

  (** ** along the face normal: the face is its own image *)
  Section Along.
    Hypothesis HG : nug o = true -> forall i j, G' i j = G (1 - i)%Z j.
    Hypothesis Hp : forall i j, p' i j = p (1 - i)%Z j.
    Hypothesis Hn : forall i j, n' i j = n (1 - i)%Z j.
    Hypothesis Ha : forall i j, a' i j = - a (- i)%Z j.
    Hypothesis Hb : forall i j, b' i j = b (1 - i)%Z j.
    Hypothesis Hna : forall i j, na' i j = - na (- i)%Z j.
    Hypothesis Hnb : forall i j, nb' i j = nb (1 - i)%Z j.
    Hypothesis Hta : forall i j, ta' i j = - ta (- i)%Z j.
    Lemma l_pp i j : pp o p' i j = pp o p (1 - i)%Z j. Proof. unfold pp. rewrite Hp. reflexivity. Qed.
    Lemma l_pn i j : pp o n' i j = pp o n (1 - i)%Z j. Proof. unfold pp. rewrite Hn. reflexivity. Qed.
    Lemma l_gg i j : gg o G' i j = gg o G (1 - i)%Z j. Proof. unfold gg. destruct (nug o) eqn:N; auto. Qed.
    Lemma l_g0 : gbx o G' 0 0 = gbx o G 0 0.
    Proof. unfold gbx. destruct (nug o) eqn:N; auto. rewrite !HG by auto. zn. sn. Qed.
    Lemma l_gxy j : gbxy o G' 0 j = gbxy o G 0 j.
    Proof. unfold gbxy. destruct (nug o) eqn:N; auto. rewrite !HG by auto. change (1 - 0)%Z with 1%Z; change (0 + 1)%Z with 1%Z; change (1 - 1)%Z with 0%Z. sn. Qed.
    Ltac go := rewrite ?l_g0, ?l_gxy, ?l_gg; unfold pbxy, pbx, pby, abx, abxy, bbx, bbxy, Six, Eight, Nda; rewrite ?l_pp, ?l_pn, ?Hp, ?Hn, ?Ha, ?Hb, ?Hna, ?Hnb, ?Hta; zn.
    Lemma l_ndx : Ndx o tiny p' 0 0 = - Ndx o tiny p 0 0. Proof. unfold Ndx. go. destruct (iga o); sn. Qed.
    Lemma l_ndy : Ndy o tiny p' 0 0 = Ndy o tiny p 0 0. Proof. unfold Ndy. go. destruct (iga o); sn. Qed.
    Lemma l_ndxx : Ndxx o tiny p' 0 0 = Ndxx o tiny p 0 0. Proof. unfold Ndxx. go. destruct (iga o); sn. Qed.
    Lemma l_ndxy : Ndxy o tiny p' 0 0 = - Ndxy o tiny p 0 0. Proof. unfold Ndxy. go. destruct (iga o); sn. Qed.
    Lemma l_ndxxx : Ndxxx p' 0 0 = - Ndxxx p 0 0. Proof. unfold Ndxxx. go. sn. Qed.
    Lemma l_ndxxy : Ndxxy p' 0 0 = Ndxxy p 0 0. Proof. unfold Ndxxy. go. sn. Qed.
    Lemma l_ndxyy : Ndxyy p' 0 0 = - Ndxyy p 0 0. Proof. unfold Ndxyy. go. sn. Qed.
    Lemma l_pbx : pbx o p' 0 0 = pbx o p 0 0. Proof. go. sn. Qed.
    Lemma l_bb : bbxy b' 0 0 = bbxy b 0 0. Proof. go. sn. Qed.
    Lemma l_c0 : Fcen o G' p' a' b' 0 0 = Fcen o G p a b 1 0. Proof. unfold Fcen. go. sn. Qed.
    Lemma l_c1 : Fcen o G' p' a' b' 1 0 = Fcen o G p a b 0 0. Proof. unfold Fcen. go. sn. Qed.
    Lemma l_r0 : Fcor o G' p' a' b' 0 0 = Fcor o G p a b 0 0. Proof. unfold Fcor. go. sn. Qed.
    Lemma l_r1 : Fcor o G' p' a' b' 0 (-1) = Fcor o G p a b 0 (-1). Proof. unfold Fcor. go. sn. Qed.
    Lemma l_nfd : Nfd o tiny G' p' a' b' 0 0 = Nfd o tiny G p a b 0 0.
    Proof. unfold Nfd. cbv zeta. go. destruct (iga o); sn. Qed.
    Lemma l_nfdn : Nfd o tiny G' p' na' nb' 0 0 = Nfd o tiny G p na nb 0 0.
    Proof. unfold Nfd. cbv zeta. go. destruct (iga o); sn. Qed.
    Lemma l_nff : Nff o tiny G' p' a' b' 0 0 = Nff o tiny G p a b 0 0.
    Proof. unfold Nff. cbv zeta. zn. rewrite l_c0, l_c1, l_r0, l_r1. go. destruct (iga o); sn. Qed.
    Lemma l_nxf : Nxf o tiny G' p' a' b' 0 0 = - Nxf o tiny G p a b 0 0.
    Proof. unfold Nxf. cbv zeta. zn. rewrite l_c0, l_c1. go. destruct (iga o); sn. Qed.
    Lemma l_nfdt : Nfdt o tiny G' p' n' a' b' 0 0 = Nfdt o tiny G p n a b 0 0.
    Proof. unfold Nfdt. cbv zeta. go. destruct (iga o); sn. Qed.
    Lemma l_ntx : Ntx o tiny p' n' 0 0 = - Ntx o tiny p n 0 0. Proof. unfold Ntx. go. destruct (iga o); sn. Qed.
    Lemma l_nt : Nt o tiny p' n' 0 0 = Nt o tiny p n 0 0. Proof. unfold Nt. go. destruct (iga o); sn. Qed.
    Lemma l_nda : Nda a' 0 0 = Nda a 0 0. Proof. go. sn. Qed.
    Lemma l_d2 : D2 o tiny G' p' a' b' = - D2 o tiny G p a b.
    Proof. unfold D2. rewrite l_ndx, l_nfd, Ha, Rabs_Ropp. zn. sn. Qed.
    Lemma anti_along : A2 o sp tp tiny G' p' n' a' b' na' nb' ta' = - A2 o sp tp tiny G p n a b na nb ta.
    Proof.
      assert (FO : Fot o G' p' a' b' = - Fot o G p a b).
      { unfold Fot. destruct (fot o); [|ring]. rewrite l_ndxxx, l_ndxxy, l_ndxyy, l_bb, l_g0, !Ha, !Rabs_Ropp. zn. sn. }
      unfold A2. destruct (div2 o).
      - assert (D : D3 o sp tp tiny G' p' n' a' b' na' nb' ta' = - D3 o sp tp tiny G p n a b na nb ta).
        { unfold D3, U3, S3, Sp, Tp, Nxxa, Ntt. cbv zeta. rewrite l_d2, l_ndx, l_ndxx, l_nda, l_pbx, l_nff, l_nxf, l_nfd, l_nfdn, l_nfdt, l_ntx, l_nt, !Ha, !Hna, !Hta, !Rabs_Ropp. zn.
          destruct (div3 o), (div3dt o), (iga o), sp, tp; sn. }
        rewrite l_d2, D, FO. ring.
      - assert (T : Tot o tiny G' p' a' b' = - Tot o tiny G p a b).
        { unfold Tot. destruct (tot o); [|ring]. rewrite l_ndxx, l_ndxy, l_bb, l_g0, !Ha, !Rabs_Ropp. zn. sn. }
        assert (D : Dfl o G' p' a' b' = - Dfl o G p a b).
        { unfold Dfl. destruct (dfl o); [|ring]. cbv zeta. rewrite l_pbx, l_g0, !Ha, !Hb. zn. destruct (iga o); sn. }
        rewrite T, D, FO, l_ndx, l_ndy, l_g0, l_bb, Ha, Rabs_Ropp. zn. sn.
    Qed.
  End Along.

  (** ** across the face normal *)
  Section Across.
    Hypothesis HG : nug o = true -> forall i j, G' i j = G i (- j)%Z.
    Hypothesis Hp : forall i j, p' i j = p i (- j)%Z.
    Hypothesis Hn : forall i j, n' i j = n i (- j)%Z.
    Hypothesis Ha : forall i j, a' i j = a i (- j)%Z.
    Hypothesis Hb : forall i j, b' i j = - b i (- 1 - j)%Z.
    Hypothesis Hna : forall i j, na' i j = na i (- j)%Z.
    Hypothesis Hnb : forall i j, nb' i j = - nb i (- 1 - j)%Z.
    Hypothesis Hta : forall i j, ta' i j = ta i (- j)%Z.
    Lemma x_pp i j : pp o p' i j = pp o p i (- j)%Z. Proof. unfold pp. rewrite Hp. reflexivity. Qed.
    Lemma x_pn i j : pp o n' i j = pp o n i (- j)%Z. Proof. unfold pp. rewrite Hn. reflexivity. Qed.
    Lemma x_gg i : gg o G' i 0 = gg o G i 0. Proof. unfold gg. destruct (nug o) eqn:N; auto. rewrite HG by auto. reflexivity. Qed.
    Lemma x_g0 : gbx o G' 0 0 = gbx o G 0 0.
    Proof. unfold gbx. destruct (nug o) eqn:N; auto. rewrite !HG by auto. zn. sn. Qed.
    Lemma x_gxy0 : gbxy o G' 0 0 = gbxy o G 0 (-1).
    Proof. unfold gbxy. destruct (nug o) eqn:N; auto. rewrite !HG by auto. zn. sn. Qed.
    Lemma x_gxy1 : gbxy o G' 0 (-1) = gbxy o G 0 0.
    Proof. unfold gbxy. destruct (nug o) eqn:N; auto. rewrite !HG by auto. zn. sn. Qed.
    Ltac go := rewrite ?x_g0, ?x_gxy0, ?x_gxy1, ?x_gg; unfold pbxy, pbx, pby, abx, abxy, bbx, bbxy, Six, Eight, Nda; rewrite ?x_pp, ?x_pn, ?Hp, ?Hn, ?Ha, ?Hb, ?Hna, ?Hnb, ?Hta; zn.
    Lemma x_ndx : Ndx o tiny p' 0 0 = Ndx o tiny p 0 0. Proof. unfold Ndx. go. destruct (iga o); sn. Qed.
    Lemma x_ndy : Ndy o tiny p' 0 0 = - Ndy o tiny p 0 0. Proof. unfold Ndy. go. destruct (iga o); sn. Qed.
    Lemma x_ndxx : Ndxx o tiny p' 0 0 = Ndxx o tiny p 0 0. Proof. unfold Ndxx. go. destruct (iga o); sn. Qed.
    Lemma x_ndxy : Ndxy o tiny p' 0 0 = - Ndxy o tiny p 0 0. Proof. unfold Ndxy. go. destruct (iga o); sn. Qed.
    Lemma x_ndxxx : Ndxxx p' 0 0 = Ndxxx p 0 0. Proof. unfold Ndxxx. go. sn. Qed.
    Lemma x_ndxxy : Ndxxy p' 0 0 = - Ndxxy p 0 0. Proof. unfold Ndxxy. go. sn. Qed.
    Lemma x_ndxyy : Ndxyy p' 0 0 = Ndxyy p 0 0. Proof. unfold Ndxyy. go. sn. Qed.
    Lemma x_pbx : pbx o p' 0 0 = pbx o p 0 0. Proof. go. sn. Qed.
    Lemma x_bb : bbxy b' 0 0 = - bbxy b 0 0. Proof. go. sn. Qed.
    Lemma x_c0 : Fcen o G' p' a' b' 0 0 = Fcen o G p a b 0 0. Proof. unfold Fcen. go. sn. Qed.
    Lemma x_c1 : Fcen o G' p' a' b' 1 0 = Fcen o G p a b 1 0. Proof. unfold Fcen. go. sn. Qed.
    Lemma x_r0 : Fcor o G' p' a' b' 0 0 = Fcor o G p a b 0 (-1). Proof. unfold Fcor. go. sn. Qed.
    Lemma x_r1 : Fcor o G' p' a' b' 0 (-1) = Fcor o G p a b 0 0. Proof. unfold Fcor. go. sn. Qed.
    Lemma x_nfd : Nfd o tiny G' p' a' b' 0 0 = Nfd o tiny G p a b 0 0.
    Proof. unfold Nfd. cbv zeta. go. destruct (iga o); sn. Qed.
    Lemma x_nfdn : Nfd o tiny G' p' na' nb' 0 0 = Nfd o tiny G p na nb 0 0.
    Proof. unfold Nfd. cbv zeta. go. destruct (iga o); sn. Qed.
    Lemma x_nff : Nff o tiny G' p' a' b' 0 0 = Nff o tiny G p a b 0 0.
    Proof. unfold Nff. cbv zeta. zn. rewrite x_c0, x_c1, x_r0, x_r1. go. destruct (iga o); sn. Qed.
    Lemma x_nxf : Nxf o tiny G' p' a' b' 0 0 = Nxf o tiny G p a b 0 0.
    Proof. unfold Nxf. cbv zeta. zn. rewrite x_c0, x_c1. go. destruct (iga o); sn. Qed.
    Lemma x_nfdt : Nfdt o tiny G' p' n' a' b' 0 0 = Nfdt o tiny G p n a b 0 0.
    Proof. unfold Nfdt. cbv zeta. go. destruct (iga o); sn. Qed.
    Lemma x_ntx : Ntx o tiny p' n' 0 0 = Ntx o tiny p n 0 0. Proof. unfold Ntx. go. destruct (iga o); sn. Qed.
    Lemma x_nt : Nt o tiny p' n' 0 0 = Nt o tiny p n 0 0. Proof. unfold Nt. go. destruct (iga o); sn. Qed.
    Lemma x_nda : Nda a' 0 0 = Nda a 0 0. Proof. go. sn. Qed.
    Lemma x_d2 : D2 o tiny G' p' a' b' = D2 o tiny G p a b.
    Proof. unfold D2. rewrite x_ndx, x_nfd, Ha. zn. sn. Qed.
    Lemma anti_across : A2 o sp tp tiny G' p' n' a' b' na' nb' ta' = A2 o sp tp tiny G p n a b na nb ta.
    Proof.
      assert (FO : Fot o G' p' a' b' = Fot o G p a b).
      { unfold Fot. destruct (fot o); [|ring]. rewrite x_ndxxx, x_ndxxy, x_ndxyy, x_bb, x_g0, !Ha, !Rabs_Ropp. zn. sn. }
      unfold A2. destruct (div2 o).
      - assert (D : D3 o sp tp tiny G' p' n' a' b' na' nb' ta' = D3 o sp tp tiny G p n a b na nb ta).
        { unfold D3, U3, S3, Sp, Tp, Nxxa, Ntt. cbv zeta. rewrite x_d2, x_ndx, x_ndxx, x_nda, x_pbx, x_nff, x_nxf, x_nfd, x_nfdn, x_nfdt, x_ntx, x_nt, !Ha, !Hna, !Hta. zn.
          destruct (div3 o), (div3dt o), (iga o), sp, tp; sn. }
        rewrite x_d2, D, FO. ring.
      - assert (T : Tot o tiny G' p' a' b' = Tot o tiny G p a b).
        { unfold Tot. destruct (tot o); [|ring]. rewrite x_ndxx, x_ndxy, x_bb, x_g0, !Ha. zn. sn. }
        assert (D : Dfl o G' p' a' b' = Dfl o G p a b).
        { unfold Dfl. destruct (dfl o); [|ring]. cbv zeta. rewrite x_pbx, x_g0, !Ha, !Hb. zn. destruct (iga o); sn. }
        rewrite T, D, FO, x_ndx, x_ndy, x_g0, x_bb, Ha. zn. sn.
    Qed.
  End Across.
End Mirror.

(** the velocity is determined by the values of its arguments *)
Lemma A2_ext o sp' tp tiny (G G' p p' n n' a a' b b' na na' nb nb' ta ta' : Z -> Z -> R) :
  (nug o = true -> forall i j, G' i j = G i j) -> (forall i j, p' i j = p i j) -> (forall i j, n' i j = n i j) ->
  (forall i j, a' i j = a i j) -> (forall i j, b' i j = b i j) -> (forall i j, na' i j = na i j) ->
  (forall i j, nb' i j = nb i j) -> (forall i j, ta' i j = ta i j) ->
  A2 o sp' tp tiny G' p' n' a' b' na' nb' ta' = A2 o sp' tp tiny G p n a b na nb ta.
Proof.
  intros HG0 H1 H2 H3 H4 H5 H6 H7.
  assert (E : forall f f' : Z -> Z -> R, (forall i j, f' i j = f i j) -> f' = f)
    by (intros; do 2 (apply functional_extensionality; intro); auto).
  rewrite (E p p' H1), (E n n' H2), (E a a' H3), (E b b' H4), (E na na' H5), (E nb nb' H6), (E ta ta' H7).
  destruct (nug o) eqn:N; [rewrite (E G G'); auto|].
  assert (EG : forall i j, gg o G' i j = gg o G i j) by (intros; unfold gg; rewrite N; auto).
  assert (EX : gbx o G' = gbx o G) by (apply E; intros; unfold gbx; rewrite N; auto).
  assert (EY : gbxy o G' = gbxy o G) by (apply E; intros; unfold gbxy; rewrite N; auto).
  apply E in EG. unfold A2, D2, D3, Fot, Tot, Dfl, U3, D2, Nff, Nxf, Nfdt, Nfd, Fcen, Fcor. rewrite EG, EX, EY. reflexivity.
Qed.
