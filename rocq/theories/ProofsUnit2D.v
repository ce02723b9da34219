(** Moving by whole cells: Courant number one in one direction. *)
From Coq Require Import ZArith List Bool Lia ZifyBool Reals Lra.
From Verif Require Import ModelRun Lang ProofsLang Stencil FormCommon Form2D Solver1D Solver2D Fun1D FunN Arith SpecReal
  ProofsReal1D ProofsAnti1D ProofsNum1D ProofsSign1D ProofsFunN ProofsPerN ProofsNumN ProofsReal2D ProofsAnti2D ProofsNum2D.
Import ListNotations.
Local Open Scope R_scope.

Section Anti.
  Variables (o : fl) (sp : sptl) (tp : tmprl) (tiny : R).
  Notation loc2 := (Z -> Z -> R).
  Variables (p n G a b na nb ta : loc2) (k l : R).
  Hypothesis Hna : forall i j, na i j = 0.
  Hypothesis Hnb : forall i j, nb i j = 0.
  Hypothesis Hta : forall i j, ta i j = 0.
  Hypothesis Ha : forall i j, a i j = k.
  Hypothesis Hb : forall i j, b i j = l.
  Hypothesis Hk : (l = 0 /\ (k = 0 \/ k = 1 \/ k = -1)) \/ k = 0.
  Hypothesis N1 : nug o = false.
  Lemma sizes : Rabs k * Rabs k = Rabs k /\ k * k = Rabs k /\ k * l = 0 /\ Rabs k * l = 0 /\ Rabs k * Rabs l = 0.
  Proof.
    destruct Hk as [[-> [->|[->| ->]]]| ->]; rewrite ?Rabs_R0, ?Rabs_R1; try (rewrite (Rabs_left (-1)) by lra); repeat split; ring.
  Qed.
  Lemma anti_unit2 : div2 o = false \/ (iga o = true /\ oabs o = false /\ div3dt o = false) ->
    A2 o sp tp tiny G p n a b na nb ta = 0.
  Proof.
    intros Opt. destruct sizes as (Q1 & Q2 & Q3 & Q4 & Q5).
    assert (GB : forall i j, gbx o G i j = 1) by (intros; unfold gbx; rewrite N1; reflexivity).
    assert (GG : forall i j, gg o G i j = 1) by (intros; unfold gg; rewrite N1; reflexivity).
    assert (BB : bbxy b 0 0 = l) by (unfold bbxy; rewrite !Hb; field).
    assert (FO : Fot o G p a b = 0).
    { unfold Fot. destruct (fot o); auto. rewrite !GB, BB, !Ha.
      replace (Ndxxx p 0 0 * ((6 * Rabs k * (k * k) / (1 * 1) - 3 * (k * k) / 1 - 3 * (k * k * k * k) / (1 * 1 * 1)) / 2)) with 0.
      2: { replace (k * k * k * k) with ((k * k) * (k * k)) by ring. rewrite !Q2.
           replace (6 * Rabs k * Rabs k) with (6 * (Rabs k * Rabs k)) by ring. rewrite !Q1. field. }
      replace (3 * (Rabs k - k * k / 1) * k * l / (1 * 1)) with (3 * (Rabs k - k * k) * (k * l)) by field. rewrite Q3.
      replace (3 * (3 * Rabs l * (k * k) / 1 + 3 * (l * l) * Rabs k / 1 - 2 * Rabs l * Rabs k - 9 * (l * l) * (k * k) / (1 * 1)) / 1 / 4)
        with (3 / 4 * (3 * (Rabs l * (k * k)) + 3 * (l * (Rabs k * l)) - 2 * (Rabs k * Rabs l) - 9 * (l * k) * (k * l))) by field.
      rewrite Q2, Q3, Q4, Q5. rewrite (Rmult_comm (Rabs l)), Q5. ring. }
    unfold A2. destruct (div2 o).
    - destruct Opt as [H|(I1 & O1 & T1)]; [discriminate|].
      assert (PP : forall q i j, pp o q i j = q i j) by (intros; unfold pp, paR; rewrite O1; reflexivity).
      assert (ND : forall i j, Nfd o tiny G p a b i j = k * (p (i + 1)%Z j - p i j) + l * (pbxy o p i j - pbxy o p i (j - 1))).
      { intros i j. unfold Nfd, abx, bbx. rewrite I1, GB, !Ha, !Hb, !PP. field. }
      assert (NZ : forall i j, Nfd o tiny G p na nb i j = 0).
      { intros i j. unfold Nfd, abx, bbx. rewrite I1, GB, !Hna, !Hnb. field. }
      assert (D2z : D2 o tiny G p a b = 0).
      { unfold D2. rewrite ND, !Ha. unfold Ndx. rewrite I1.
        replace (Rabs k / 2 * (p (0 + 1)%Z 0%Z - p 0%Z 0%Z) - k / 2 * (k * (p (0 + 1)%Z 0%Z - p 0%Z 0%Z) + l * (pbxy o p 0 0 - pbxy o p 0 (0 - 1))))
          with ((Rabs k - k * k) / 2 * (p (0 + 1)%Z 0%Z - p 0%Z 0%Z) - (k * l) / 2 * (pbxy o p 0 0 - pbxy o p 0 (0 - 1))) by field.
        rewrite Q2, Q3. field. }
      assert (D3z : D3 o sp tp tiny G p n a b na nb ta = 0); [|rewrite D2z, D3z, FO; ring].
      unfold D3. rewrite T1. destruct (div3 o); auto.
      assert (XA : Nxxa o p a = 0) by (unfold Nxxa; rewrite !Ha, I1; ring).
      assert (TT : Ntt o p ta = 0) by (unfold Ntt; rewrite !Hta, I1; ring).
      assert (SP : Sp o sp p a = 0) by (unfold Sp; rewrite XA; destruct sp; ring).
      assert (TP : Tp o tp p ta = 0) by (unfold Tp; rewrite TT; destruct tp; ring).
      unfold U3, S3. rewrite I1, SP, TP, NZ, !Hna, !Ha.
      assert (NA : Nda a 0 0 = 0) by (unfold Nda; rewrite !Ha; field). rewrite NA.
      set (q := Ndxx o tiny p 0 0). set (u := Fcen o G p a b 1 0 - Fcen o G p a b 0 0).
      assert (NF : Nxf o tiny G p a b 0 0 = u) by (unfold Nxf; rewrite I1; reflexivity).
      assert (FF : exists v, Nff o tiny G p a b 0 0 = k * u + l * v).
      { eexists. unfold Nff, abx, bbx. rewrite I1, GB, !Ha, !Hb. unfold u.
        replace (0 + 1)%Z with 1%Z by lia.
        transitivity (k * (Fcen o G p a b 1 0 - Fcen o G p a b 0 0) + l * (Fcor o G p a b 0 0 - Fcor o G p a b 0 (0 - 1))); [field|reflexivity]. }
      destruct FF as [v FF]. rewrite NF, FF.
      assert (UQ : exists v', u = k * q + l * v').
      { eexists. unfold u, q, Fcen, Ndxx, pbx. rewrite I1, !GG, !Ha, !Hb, !PP.
        repeat match goal with |- context [(?x + ?y)%Z] => let z := eval vm_compute in (x + y)%Z in change (x + y)%Z with z
          | |- context [(?x - ?y)%Z] => let z := eval vm_compute in (x - y)%Z in change (x - y)%Z with z end.
        match goal with |- _ = k * ?Q + l * _ => transitivity (k * Q + l * (pby o p 1 0 - pby o p 1 (-1) - pby o p 0 0 + pby o p 0 (-1))); [field|reflexivity] end. }
      destruct UQ as [v' ->].
      match goal with |- ?E = 0 => replace E with (q * k * (- (1 / 6) + 1 / 2 * Rabs k - 1 / 3 * (k * k)) + 1 / 2 * (Rabs k * l) * v' - 1 / 3 * k * (k * l) * v' - 1 / 3 * (k * l) * v) end.
      + rewrite Q2, Q3, Q4.
        replace (q * k * (- (1 / 6) + 1 / 2 * Rabs k - 1 / 3 * Rabs k)) with (q / 6 * (k * Rabs k - k)) by field.
        assert (Z : k * Rabs k - k = 0).
        { destruct Hk as [[_ [->|[->| ->]]]| ->]; rewrite ?Rabs_R0, ?Rabs_R1; try (rewrite (Rabs_left (-1)) by lra); ring. }
        rewrite Z. ring.
      + field.
    - assert (DF : Dfl o G p a b = 0) by (unfold Dfl; rewrite !Ha, !Hb; destruct (dfl o), (iga o); try reflexivity; unfold Rdiv; ring).
      unfold Tot. rewrite !GB, BB, FO, DF, !Ha.
      replace (Rabs k / 2 * (1 - Rabs k / 1) * Ndx o tiny p 0 0) with ((Rabs k - Rabs k * Rabs k) / 2 * Ndx o tiny p 0 0) by field.
      rewrite Q1, Q3.
      assert (Z : (if tot o then Ndxx o tiny p 0 0 * ((3 * k * Rabs k / 1 - 2 * (k * k * k) / (1 * 1) - k) / 6) + Ndxy o tiny p 0 0 * ((Rabs k - 2 * (k * k) / 1) * l / (2 * 1)) else 0) = 0).
      { destruct (tot o); auto.
        replace ((Rabs k - 2 * (k * k) / 1) * l / (2 * 1)) with ((Rabs k * l - 2 * k * (k * l)) / 2) by field. rewrite Q3, Q4.
        replace ((3 * k * Rabs k / 1 - 2 * (k * k * k) / (1 * 1) - k) / 6) with 0; [field|].
        destruct Hk as [[_ [->|[->| ->]]]| ->]; rewrite ?Rabs_R0, ?Rabs_R1; try (rewrite (Rabs_left (-1)) by lra); field. }
      rewrite Z. field.
  Qed.
End Anti.

Section Pass.
  Variables eps tiny : R.
  Notation AR := (arithR eps tiny).
  Variables (o : fl) (sp : sptl) (tp : tmprl).
  Notation F := (forms2 o sp tp).
  Notation ds := [DX; DY].
  Variable X : fixedN AR.
  Hypothesis HN : forall d x, nN AR X d x = 0.
  Hypothesis HT : forall d x, nT AR X d x = 0.
  Hypothesis N1 : nug o = false.
  Hypothesis Opt : div2 o = false \/ (iga o = true /\ oabs o = false /\ div3dt o = false).
  Variables k l : Z.
  Hypothesis Hk : (l = 0 /\ (k = 0 \/ k = 1 \/ k = -1) \/ k = 0 /\ (l = 0 \/ l = 1 \/ l = -1))%Z.
  Hypothesis HX : forall x, nC AR X DX x = IZR k.
  Hypothesis HY : forall x, nC AR X DY x = IZR l.
  Notation back := ((- k)%Z, (- l)%Z, 0%Z).

  Lemma up_unitN psi x : upN AR o F X psi x = psi (iadd x back).
  Proof.
    rewrite (up_donorN eps tiny o F ds (closed2 eps tiny o sp tp)). rewrite (cl_sum _ _ _ _ _ (closed2 eps tiny o sp tp)).
    unfold gN, divN, donN. cbn [dsum]. rewrite N1, !HX, !HY, !nx_pv.
    assert (P0 : iadd x (0, 0, 0)%Z = x) by (destruct x as [[i j] z]; unfold iadd; cbn [fst snd]; rewrite !Z.add_0_r; reflexivity).
    assert (M1 : Rmax 0 0 = 0) by (apply Rmax_left; lra). assert (M2 : Rmin 0 0 = 0) by (apply Rmin_left; lra).
    assert (M3 : Rmax 0 1 = 1) by (apply Rmax_right; lra). assert (M4 : Rmin 0 1 = 0) by (apply Rmin_left; lra).
    assert (M5 : Rmax 0 (-1) = 0) by (apply Rmax_left; lra). assert (M6 : Rmin 0 (-1) = -1) by (apply Rmin_right; lra).
    destruct Hk as [[-> [->|[->| ->]]]|[-> [->|[->| ->]]]]; cbn [Z.opp];
      rewrite ?P0; change (iadd x (-1, 0, 0)%Z) with (pv DX x); change (iadd x (0, -1, 0)%Z) with (pv DY x);
      change (iadd x (1, 0, 0)%Z) with (nx DX x); change (iadd x (0, 1, 0)%Z) with (nx DY x);
      rewrite ?M1, ?M2, ?M3, ?M4, ?M5, ?M6; toR; field.
  Qed.

  Lemma steps_unitN nit freq ex nt : forall ts psi x,
    stepsN AR o F X nit freq ex nt ts psi x = psi (iadd x ((- k * Z.of_nat nt)%Z, (- l * Z.of_nat nt)%Z, 0%Z)).
  Proof.
    induction nt as [|q0 IH]; intros ts psi x; cbn [stepsN].
    - apply (f_equal psi). destruct x as [[i j] z]. unfold iadd. cbn [fst snd]. apply f_equal2; [apply f_equal2|]; lia.
    - rewrite IH. unfold stepN. rewrite scaleN_R. set (y := iadd x _).
      rewrite (passes_idle eps tiny o F ds (closed2 eps tiny o sp tp) X _ _ _ _ _ _
        (fun a b D => (forall z, D DX z = IZR k) /\ (forall z, D DY z = IZR l) \/ (forall d z, In d ds -> D d z = 0))).
      + rewrite up_unitN, scaleN_R, <- Rmult_assoc, sc_inv, Rmult_1_l. apply (f_equal psi). unfold y. destruct x as [[i j] z].
        unfold iadd. cbn [fst snd]. apply f_equal2; [apply f_equal2|]; lia.
      + left. auto.
      + intros a b D K.
        assert (Z0 : forall d z, In d ds -> corrN AR F X b a D d z = 0).
        { intros d z Hd. rewrite corr2.
          destruct K as [[K1 K2]|K].
          - destruct Hd as [<-|[<-|[]]]; cbn [od].
            + apply anti_unit2 with (k := IZR k) (l := IZR l); intros; unfold lc; auto.
              destruct Hk as [[-> [->|[->| ->]]]|[-> _]]; auto; left; auto 6.
            + apply anti_unit2 with (k := IZR l) (l := IZR k); intros; unfold lc; auto.
              destruct Hk as [[-> _]|[-> [->|[->| ->]]]]; auto; left; auto 6.
          - apply anti_unit2 with (k := 0) (l := 0); intros; unfold lc; auto; apply K; destruct Hd as [<-|[<-|[]]]; cbn; auto. }
        split; auto.
  Qed.
End Pass.
