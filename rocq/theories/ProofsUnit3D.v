(** Moving by whole cells in 3D: Courant number one in one direction. *)
From Coq Require Import ZArith List Bool Lia ZifyBool Reals Lra.
From Verif Require Import ModelRun Lang ProofsLang Stencil FormCommon Form3D Solver1D Solver3D Fun1D FunN Arith SpecReal
  ProofsReal1D ProofsAnti1D ProofsNum1D ProofsSign1D ProofsFunN ProofsPerN ProofsNumN ProofsReal3D ProofsAnti3D ProofsNum3D.
Import ListNotations.
Local Open Scope R_scope.

Section Anti.
  Variables (o : fl) (sp : sptl) (tp : tmprl) (tiny : R).
  Notation loc3 := (Z -> Z -> Z -> R).
  Variables (p n G a b c na nb nc ta : loc3) (k l e : R).
  Hypothesis Hna : forall i j h, na i j h = 0.
  Hypothesis Hnb : forall i j h, nb i j h = 0.
  Hypothesis Hnc : forall i j h, nc i j h = 0.
  Hypothesis Hta : forall i j h, ta i j h = 0.
  Hypothesis Ha : forall i j h, a i j h = k.
  Hypothesis Hb : forall i j h, b i j h = l.
  Hypothesis Hc : forall i j h, c i j h = e.
  Hypothesis Hk : (l = 0 /\ e = 0 /\ (k = 0 \/ k = 1 \/ k = -1)) \/ k = 0.
  Hypothesis N1 : nug o = false.
  Lemma sizes : Rabs k * Rabs k = Rabs k /\ k * k = Rabs k /\ k * l = 0 /\ Rabs k * l = 0 /\ k * e = 0 /\ Rabs k * e = 0 /\ k * Rabs k = k.
  Proof.
    destruct Hk as [(-> & -> & [->|[->| ->]])| ->]; rewrite ?Rabs_R0, ?Rabs_R1; try (rewrite (Rabs_left (-1)) by lra); repeat split; ring.
  Qed.
  Lemma anti_unit3 : div2 o = false \/ (iga o = true /\ oabs o = false /\ div3dt o = false) ->
    A3 o sp tp tiny G p n a b c na nb nc ta = 0.
  Proof.
    intros Opt. destruct sizes as (Q1 & Q2 & Q3 & Q4 & Q5 & Q6 & Q7).
    assert (GB : forall i j h, gbx o G i j h = 1) by (intros; unfold gbx; rewrite N1; reflexivity).
    assert (GG : forall i j h, gg o G i j h = 1) by (intros; unfold gg; rewrite N1; reflexivity).
    assert (BB : bbxy b 0 0 0 = l) by (unfold bbxy; rewrite !Hb; field).
    assert (CB : cbxz c 0 0 0 = e) by (unfold cbxz; rewrite !Hc; field).
    unfold A3. destruct (div2 o).
    - destruct Opt as [H|(I1 & O1 & T1)]; [discriminate|].
      assert (PP : forall q i j h, pp o q i j h = q i j h) by (intros; unfold pp, paR; rewrite O1; reflexivity).
      assert (ND : forall i j h, Nfd o tiny G p a b c i j h = k * (p (i + 1)%Z j h - p i j h) + l * (pbxy o p i j h - pbxy o p i (j - 1) h)
                     + e * (pbxz o p i j h - pbxz o p i j (h - 1))).
      { intros i j h. unfold Nfd, abx, bbx, cbx. cbv zeta. rewrite I1, GB, !Ha, !Hb, !Hc, !PP. field. }
      assert (NZ : forall i j h, Nfd o tiny G p na nb nc i j h = 0).
      { intros i j h. unfold Nfd, abx, bbx, cbx. cbv zeta. rewrite I1, GB, !Hna, !Hnb, !Hnc. field. }
      assert (D2z : D2 o tiny G p a b c = 0).
      { unfold D2. rewrite ND, !Ha. unfold Ndx. rewrite I1.
        set (y1 := pbxy o p 0 0 0 - pbxy o p 0 (0 - 1) 0). set (y2 := pbxz o p 0 0 0 - pbxz o p 0 0 (0 - 1)).
        set (y0 := p (0 + 1)%Z 0%Z 0%Z - p 0%Z 0%Z 0%Z).
        replace (Rabs k / 2 * y0 - k / 2 * (k * y0 + l * y1 + e * y2))
          with ((Rabs k - k * k) / 2 * y0 - (k * l) / 2 * y1 - (k * e) / 2 * y2) by field.
        rewrite Q2, Q3, Q5. field. }
      assert (D3z : D3 o sp tp tiny G p n a b c na nb nc ta = 0); [|rewrite D2z, D3z; ring].
      unfold D3. rewrite T1. destruct (div3 o); auto.
      assert (XA : Nxxa o p a = 0) by (unfold Nxxa; rewrite !Ha, I1; ring).
      assert (TT : Ntt o p ta = 0) by (unfold Ntt; rewrite !Hta, I1; ring).
      assert (SP : Sp o sp p a = 0) by (unfold Sp; rewrite XA; destruct sp; ring).
      assert (TP : Tp o tp p ta = 0) by (unfold Tp; rewrite TT; destruct tp; ring).
      unfold U3, S3. rewrite I1, SP, TP, NZ, !Hna, !Ha.
      assert (NA : Nda a 0 0 0 = 0) by (unfold Nda; rewrite !Ha; field). rewrite NA.
      set (q := Ndxx o tiny p 0 0 0). set (u := Fcen o G p a b c 1 0 0 - Fcen o G p a b c 0 0 0).
      assert (NF : Nxf o tiny G p a b c 0 0 0 = u) by (unfold Nxf; rewrite I1; reflexivity).
      assert (FF : exists v w, Nff o tiny G p a b c 0 0 0 = k * u + l * v + e * w).
      { exists (Fcxy o G p a b c 0 0 0 - Fcxy o G p a b c 0 (0 - 1) 0), (Fcxz o G p a b c 0 0 0 - Fcxz o G p a b c 0 0 (0 - 1)).
        unfold Nff, abx, bbx, cbx. cbv zeta. rewrite I1, GB, !Ha, !Hb, !Hc. unfold u.
        replace (0 + 1)%Z with 1%Z by lia. field. }
      destruct FF as (v & w & FF). rewrite NF, FF.
      assert (UQ : exists v' w', u = k * q + l * v' + e * w').
      { exists (pby o p 1 0 0 - pby o p 1 (-1) 0 - pby o p 0 0 0 + pby o p 0 (-1) 0), (pbz o p 1 0 0 - pbz o p 1 0 (-1) - pbz o p 0 0 0 + pbz o p 0 0 (-1)).
        unfold u, q, Fcen, Ndxx, pbx. rewrite I1, !GG, !Ha, !Hb, !Hc, !PP.
        repeat match goal with |- context [(?x + ?y)%Z] => let z := eval vm_compute in (x + y)%Z in change (x + y)%Z with z
          | |- context [(?x - ?y)%Z] => let z := eval vm_compute in (x - y)%Z in change (x - y)%Z with z end.
        field. }
      destruct UQ as (v' & w' & ->).
      match goal with |- ?E = 0 => replace E with (q * k * (- (1 / 6) + 1 / 2 * Rabs k - 1 / 3 * (k * k)) + 1 / 2 * (Rabs k * l) * v' + 1 / 2 * (Rabs k * e) * w'
        - 1 / 3 * k * (k * l) * v' - 1 / 3 * k * (k * e) * w' - 1 / 3 * (k * l) * v - 1 / 3 * (k * e) * w) end.
      + rewrite Q2, Q3, Q4, Q5, Q6.
        replace (q * k * (- (1 / 6) + 1 / 2 * Rabs k - 1 / 3 * Rabs k)) with (q / 6 * (k * Rabs k - k)) by field.
        rewrite Q7. field.
      + field.
    - assert (DF : Dfl o G p a b c = 0) by (unfold Dfl; cbv zeta; rewrite !Ha, !Hb, !Hc; destruct (dfl o), (iga o); try reflexivity; unfold Rdiv; ring).
      unfold Tot. rewrite !GB, BB, CB, DF, !Ha.
      set (y0 := Ndx o tiny p 0 0 0). set (y1 := Ndy o tiny p 0 0 0). set (y2 := Ndz o tiny p 0 0 0).
      replace (Rabs k / 2 * (1 - Rabs k / 1) * y0) with ((Rabs k - Rabs k * Rabs k) / 2 * y0) by field.
      replace (k / 2 * (l * y1 + e * y2) / 1) with ((k * l) * y1 / 2 + (k * e) * y2 / 2) by field.
      assert (Z : (if tot o then Ndxx o tiny p 0 0 0 * ((3 * k * Rabs k / 1 - 2 * (k * k * k) / (1 * 1) - k) / 6)
        + Ndxy o tiny p 0 0 0 * ((Rabs k - 2 * (k * k) / 1) * l / (2 * 1)) + Ndxz o tiny p 0 0 0 * ((Rabs k - 2 * (k * k) / 1) * e / (2 * 1))
        + Ndyz o tiny p 0 0 0 * (- 2 * k * l * e / 3 / (1 * 1)) else 0) = 0).
      { destruct (tot o); auto.
        replace ((Rabs k - 2 * (k * k) / 1) * l / (2 * 1)) with ((Rabs k * l - 2 * k * (k * l)) / 2) by field.
        replace ((Rabs k - 2 * (k * k) / 1) * e / (2 * 1)) with ((Rabs k * e - 2 * k * (k * e)) / 2) by field.
        replace (- 2 * k * l * e / 3 / (1 * 1)) with (- 2 / 3 * (k * l) * e) by field.
        replace ((3 * k * Rabs k / 1 - 2 * (k * k * k) / (1 * 1) - k) / 6) with ((3 * (k * Rabs k) - 2 * (k * (k * k)) - k) / 6) by field.
        rewrite Q2, Q3, Q4, Q5, Q6, Q7. field. }
      rewrite Z, Q1, Q3, Q5. field.
  Qed.
End Anti.

(** a step of length at most one along one axis *)
Definition unit3 (s : dim -> Z) : Prop :=
  exists d, (s d = 0 \/ s d = 1 \/ s d = -1)%Z /\ s (dp d) = 0%Z /\ s (dm d) = 0%Z.

Section Pass.
  Variables eps tiny : R.
  Notation AR := (arithR eps tiny).
  Variables (o : fl) (sp : sptl) (tp : tmprl).
  Notation F := (forms3 o sp tp).
  Notation ds := [DX; DY; DZ].
  Variable X : fixedN AR.
  Hypothesis HN : forall d x, nN AR X d x = 0.
  Hypothesis HT : forall d x, nT AR X d x = 0.
  Hypothesis N1 : nug o = false.
  Hypothesis Opt : div2 o = false \/ (iga o = true /\ oabs o = false /\ div3dt o = false).
  Variable s : dim -> Z.
  Hypothesis Hs : unit3 s.
  Hypothesis HX : forall d x, nC AR X d x = IZR (s d).
  Notation back := ((- s DX)%Z, (- s DY)%Z, (- s DZ)%Z).

  Lemma up_unitN psi x : upN AR o F X psi x = psi (iadd x back).
  Proof.
    rewrite (up_donorN eps tiny o F ds (closed3 eps tiny o sp tp)). rewrite (cl_sum _ _ _ _ _ (closed3 eps tiny o sp tp)).
    unfold gN, divN, donN. cbn [dsum]. rewrite N1, !HX, !nx_pv.
    assert (P0 : iadd x (0, 0, 0)%Z = x) by (destruct x as [[i j] z]; unfold iadd; cbn [fst snd]; rewrite !Z.add_0_r; reflexivity).
    assert (M1 : Rmax 0 0 = 0) by (apply Rmax_left; lra). assert (M2 : Rmin 0 0 = 0) by (apply Rmin_left; lra).
    assert (M3 : Rmax 0 1 = 1) by (apply Rmax_right; lra). assert (M4 : Rmin 0 1 = 0) by (apply Rmin_left; lra).
    assert (M5 : Rmax 0 (-1) = 0) by (apply Rmax_left; lra). assert (M6 : Rmin 0 (-1) = -1) by (apply Rmin_right; lra).
    destruct Hs as (d & E0 & E1 & E2). destruct d; cbn [dp dm] in *; rewrite E1, E2; destruct E0 as [E0|[E0|E0]]; rewrite E0; cbn [Z.opp];
      rewrite ?P0; change (iadd x (-1, 0, 0)%Z) with (pv DX x); change (iadd x (0, -1, 0)%Z) with (pv DY x);
      change (iadd x (1, 0, 0)%Z) with (nx DX x); change (iadd x (0, 1, 0)%Z) with (nx DY x);
      change (iadd x (0, 0, -1)%Z) with (pv DZ x); change (iadd x (0, 0, 1)%Z) with (nx DZ x);
      rewrite ?M1, ?M2, ?M3, ?M4, ?M5, ?M6; toR; field.
  Qed.

  Lemma steps_unitN nit freq ex nt : forall ts psi x,
    stepsN AR o F X nit freq ex nt ts psi x = psi (iadd x ((- s DX * Z.of_nat nt)%Z, (- s DY * Z.of_nat nt)%Z, (- s DZ * Z.of_nat nt)%Z)).
  Proof.
    induction nt as [|q0 IH]; intros ts psi x; cbn [stepsN].
    - apply (f_equal psi). destruct x as [[i j] z]. unfold iadd. cbn [fst snd]. apply f_equal2; [apply f_equal2|]; lia.
    - rewrite IH. unfold stepN. rewrite scaleN_R. set (y := iadd x _).
      rewrite (passes_idle eps tiny o F ds (closed3 eps tiny o sp tp) X _ _ _ _ _ _
        (fun a b D => (forall d z, D d z = IZR (s d)) \/ (forall d z, In d ds -> D d z = 0))).
      + rewrite up_unitN, scaleN_R, <- Rmult_assoc, sc_inv, Rmult_1_l. apply (f_equal psi). unfold y. destruct x as [[i j] z].
        unfold iadd. cbn [fst snd]. apply f_equal2; [apply f_equal2|]; lia.
      + left. auto.
      + intros a b D K.
        assert (Z0 : forall d z, corrN AR F X b a D d z = 0).
        { intros d z. rewrite corr3.
          destruct K as [K|K].
          - apply anti_unit3 with (k := IZR (s d)) (l := IZR (s (dp d))) (e := IZR (s (dm d))); intros; unfold lc3; auto.
            destruct Hs as (f & E0 & E1 & E2).
            destruct d, f; cbn [dp dm] in *; rewrite ?E1, ?E2; auto; left; (split; [reflexivity|]); (split; [reflexivity|]);
              destruct E0 as [-> | [-> | ->]]; auto.
          - apply anti_unit3 with (k := 0) (l := 0) (e := 0); intros; unfold lc3; auto; apply K; apply in_ds. }
        split; auto.
  Qed.
End Pass.
