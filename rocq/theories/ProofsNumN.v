(** Numerical properties of the functions of FunN.v over the reals, in any
    number of dimensions, from closed forms of the stages ([closed]; proved for
    the formulae of each dimension in ProofsReal2D.v, ...). *)
From Coq Require Import ZArith List Bool Lia ZifyBool Reals Lra.
From Verif Require Import ModelRun Lang ProofsLang Stencil FormCommon Solver1D Fun1D FunN Arith SpecReal
  ProofsReal1D ProofsNum1D ProofsSign1D ProofsFunN.
Import ListNotations.
Local Open Scope R_scope.

(** neighbours *)
Definition uv (d : dim) : idx := match d with DX => (1, 0, 0) | DY => (0, 1, 0) | DZ => (0, 0, 1) end%Z.
Definition un (d : dim) : idx := match d with DX => (-1, 0, 0) | DY => (0, -1, 0) | DZ => (0, 0, -1) end%Z.
Definition nx (d : dim) (x : idx) : idx := iadd x (uv d).
Definition pv (d : dim) (x : idx) : idx := iadd x (un d).
Lemma nx_pv d x : nx d (pv d x) = x.
Proof. destruct x as [[i j] k], d; unfold nx, pv, iadd, uv, un, comp; cbn [fst snd]; repeat f_equal; lia. Qed.
Lemma pv_nx d x : pv d (nx d x) = x.
Proof. destruct x as [[i j] k], d; unfold nx, pv, iadd, uv, un, comp; cbn [fst snd]; repeat f_equal; lia. Qed.

(** sums and extrema over the dimensions *)
Fixpoint dsum (ds : list dim) (f : dim -> R) : R := match ds with [] => 0 | d :: l => f d + dsum l f end.
Lemma dsum_ext ds f g : (forall d, In d ds -> f d = g d) -> dsum ds f = dsum ds g.
Proof. induction ds as [|d l IH]; intros H; cbn; auto. f_equal; [apply H; left; auto|apply IH; intros; apply H; right; auto]. Qed.
Lemma dsum_le ds f g : (forall d, In d ds -> f d <= g d) -> dsum ds f <= dsum ds g.
Proof.
  induction ds as [|d l IH]; intros H; cbn; [lra|]. apply Rplus_le_compat; [apply H; left; auto|apply IH; intros; apply H; right; auto].
Qed.
Lemma dsum_0 ds f : (forall d, In d ds -> f d = 0) -> dsum ds f = 0.
Proof. intros H. rewrite (dsum_ext ds f (fun _ => 0)) by auto. induction ds; cbn; auto. rewrite IHds; [ring|]. intros; apply H; right; auto. Qed.
Lemma dsum_pos ds f : (forall d, In d ds -> 0 <= f d) -> 0 <= dsum ds f.
Proof. intros H. rewrite <- (dsum_0 ds (fun _ => 0)) by auto. apply dsum_le; auto. Qed.
Lemma dsum_plus ds f g : dsum ds (fun d => f d + g d) = dsum ds f + dsum ds g.
Proof. induction ds; cbn; [ring|]. rewrite IHds. ring. Qed.
Lemma dsum_scal ds a f : dsum ds (fun d => a * f d) = a * dsum ds f.
Proof. induction ds; cbn; [ring|]. rewrite IHds. ring. Qed.
Lemma dsum_minus ds f g : dsum ds (fun d => f d - g d) = dsum ds f - dsum ds g.
Proof. induction ds; cbn; [ring|]. rewrite IHds. ring. Qed.

Fixpoint nbmin (ds : list dim) (psi : idx -> R) (x : idx) : R :=
  match ds with [] => psi x | d :: l => Rmin (psi (nx d x)) (Rmin (psi (pv d x)) (nbmin l psi x)) end.
Fixpoint nbmax (ds : list dim) (psi : idx -> R) (x : idx) : R :=
  match ds with [] => psi x | d :: l => Rmax (psi (nx d x)) (Rmax (psi (pv d x)) (nbmax l psi x)) end.
Lemma nbmin_le ds psi x : nbmin ds psi x <= psi x.
Proof. induction ds as [|d l IH]; cbn; [lra|]. eapply Rle_trans; [apply Rmin_r|]. eapply Rle_trans; [apply Rmin_r|]. exact IH. Qed.
Lemma nbmax_ge ds psi x : psi x <= nbmax ds psi x.
Proof. induction ds as [|d l IH]; cbn; [lra|]. eapply Rle_trans; [|apply Rmax_r]. eapply Rle_trans; [|apply Rmax_r]. exact IH. Qed.
Lemma nbmin_glb ds psi x a : a <= psi x -> (forall d, In d ds -> a <= psi (nx d x) /\ a <= psi (pv d x)) -> a <= nbmin ds psi x.
Proof.
  intros H0. induction ds as [|d l IH]; intros H; cbn; auto. destruct (H d (or_introl eq_refl)).
  repeat apply Rmin_glb; auto. apply IH. intros; apply H; right; auto.
Qed.
Lemma nbmax_lub ds psi x a : psi x <= a -> (forall d, In d ds -> psi (nx d x) <= a /\ psi (pv d x) <= a) -> nbmax ds psi x <= a.
Proof.
  intros H0. induction ds as [|d l IH]; intros H; cbn; auto. destruct (H d (or_introl eq_refl)).
  repeat apply Rmax_lub; auto. apply IH. intros; apply H; right; auto.
Qed.

Lemma max_min a : Rmax 0 a + Rmin 0 a = a.
Proof. unfold Rmax, Rmin; destruct Rle_dec; ring. Qed.

(** ** Closed forms *)
Section Closed.
  Variable o : fl.
  Variable ds : list dim.
  Definition donN (psi : idx -> R) (C : dim -> idx -> R) (d : dim) (x : idx) : R :=
    Rmax 0 (C d x) * psi x + Rmin 0 (C d x) * psi (nx d x).
  Definition gN (G : idx -> R) (x : idx) : R := if nug o then G x else 1.
  Definition divN (phi : dim -> idx -> R) (x : idx) : R := dsum ds (fun d => phi d x - phi d (pv d x)).
  Definition inN (phi : dim -> idx -> R) (x : idx) : R := dsum ds (fun d => Rmax 0 (phi d (pv d x)) - Rmin 0 (phi d x)).
  Definition outN (phi : dim -> idx -> R) (x : idx) : R := dsum ds (fun d => Rmax 0 (phi d x) - Rmin 0 (phi d (pv d x))).
  Definition limAN (up dn : idx -> R) (d : dim) x := Rmin 1 (Rmin (dn x) (up (nx d x))).
  Definition limBN (up dn : idx -> R) (d : dim) x := Rmin 1 (Rmin (up x) (dn (nx d x))).
  Definition limfacN (psi : idx -> R) (C : dim -> idx -> R) (up dn : idx -> R) (d : dim) (x : idx) : R :=
    if negb (iga o) && oabs o then
      if gtb (C d x) 0 then if gtb (psi x) 0 then limAN up dn d x else limBN up dn d x
      else if gtb (psi (nx d x)) 0 then limBN up dn d x else limAN up dn d x
    else if gtb (C d x) 0 then limAN up dn d x else limBN up dn d x.

  Record closed (eps tiny : R) (F : forms) : Prop := {
    cl_flux : forall (psi : idx -> R) C d x, In d ds -> fluxN (arithR eps tiny) F psi C d x = donN psi C d x;
    cl_sum : forall (psi : idx -> R) phi G x, sumN (arithR eps tiny) o F psi phi G x = psi x - divN phi x / gN G x;
    cl_min : forall (psi : idx -> R) x, minN (arithR eps tiny) F psi x = nbmin ds psi x;
    cl_max : forall (psi : idx -> R) x, maxN (arithR eps tiny) F psi x = nbmax ds psi x;
    cl_bup : forall (psi mx : idx -> R) phi G x, bupN (arithR eps tiny) F psi mx phi G x =
      (Rmax (mx x) (nbmax ds psi x) - psi x) * gN G x / (inN phi x + eps);
    cl_bdn : forall (psi mn : idx -> R) phi G x, bdnN (arithR eps tiny) F psi mn phi G x =
      (psi x - Rmin (mn x) (nbmin ds psi x)) * gN G x / (outN phi x + eps);
    cl_mono : forall (psi : idx -> R) C up dn d x, In d ds ->
      monoN (arithR eps tiny) F psi C up dn d x = C d x * limfacN psi C up dn d x }.
End Closed.

Lemma scaleN_R eps tiny ex (psi : idx -> R) x : scaleN (arithR eps tiny) ex psi x = sc ex * psi x.
Proof.
  unfold scaleN, sc. change (car (arithR eps tiny)) with R. destruct (ex =? 0)%Z; [symmetry; apply Rmult_1_l|].
  destruct (0 <? ex)%Z; cbn [arithR abin acst Rcst]; rewrite div1; unfold Rdiv; ring.
Qed.

Section Num.
  Variables eps tiny : R.
  Notation AR := (arithR eps tiny).
  Variables (o : fl) (F : forms) (ds : list dim).
  Hypothesis CF : closed o ds eps tiny F.
  Hypothesis NAT : natural AR F ds.
  Variable X : fixedN AR.
  Notation C0 := (nC AR X).
  Notation g := (gN o (nG AR X)).
  Notation antiN := (antiN AR F).
  Notation fluxN := (fluxN AR F).
  Notation sumN := (sumN AR o F).
  Notation upN := (upN AR o F X).
  Notation corrN := (corrN AR F X).
  Notation limN := (limN AR o F X).
  Notation finN := (finN AR o F X).
  Notation passesN := (passesN AR o F X).
  Notation stepN := (stepN AR o F X).
  Notation stepsN := (stepsN AR o F X).
  Notation divN := (divN ds).
  Notation donN := donN.

  Lemma divN_ext phi phi' x : (forall d y, In d ds -> phi d y = phi' d y) -> divN phi x = divN phi' x.
  Proof. intros H. apply dsum_ext. intros d Hd. rewrite !H by auto. reflexivity. Qed.

  (** *** Constant fields *)
  Lemma lim_zero psi c mn mx d : In d ds -> (forall x, c d x = 0) -> forall x, limN psi c mn mx d x = 0.
  Proof.
    intros Hd H x. unfold FunN.limN. destruct (fct o); auto. rewrite (cl_mono _ _ _ _ _ CF) by auto.
    change (car AR) with R in *. rewrite H. toR; ring.
  Qed.
  Lemma fin_zeroN psi c mn mx : (forall d x, In d ds -> c d x = 0) -> forall x, finN psi (limN psi c mn mx) x = psi x.
  Proof.
    intros H x. unfold FunN.finN. rewrite (cl_sum _ _ _ _ _ CF).
    rewrite (divN_ext _ (fun _ _ => 0)).
    - unfold ProofsNumN.divN. rewrite dsum_0 by (intros; toR; ring). unfold Rdiv. toR; ring.
    - intros d y Hd. assert (L := lim_zero psi c mn mx d Hd (fun x => H d x Hd)).
      destruct (iga o); [apply L|]. rewrite (cl_flux _ _ _ _ _ CF) by auto. unfold ProofsNumN.donN.
      change (car AR) with R in *. rewrite L, Rmax_left, Rmin_left by lra. toR; ring.
  Qed.
  (** fields moved by corrections that vanish *)
  Lemma passes_idle (mn mx : idx -> R) more : forall psin psi C (K : (idx -> R) -> (idx -> R) -> (dim -> idx -> R) -> Prop),
    K psin psi C ->
    (forall a b D, K a b D -> (forall d x, In d ds -> corrN b a D d x = 0) /\
       forall b', (forall x, b' x = b x) -> K b b' (corrN b a D)) ->
    forall x, passesN mn mx more psin psi C x = psi x.
  Proof.
    induction more as [|k IH]; intros psin psi C K H0 HK x; [reflexivity|]. cbn [FunN.passesN].
    destruct (HK _ _ _ H0) as [Z0 K1].
    assert (E := fin_zeroN psi (corrN psi psin C) mn mx Z0).
    rewrite (IH _ _ _ K); auto.
  Qed.

  Lemma up_divfree psi c : (forall x, psi x = c) -> (forall x, divN C0 x = 0) -> forall x, upN psi x = c.
  Proof.
    intros Hp HC x. unfold FunN.upN. rewrite (cl_sum _ _ _ _ _ CF), Hp.
    rewrite (divN_ext _ (fun d y => c * C0 d y)).
    - replace (divN (fun d y => c * C0 d y) x) with (c * divN C0 x).
      + rewrite HC. unfold Rdiv. toR; ring.
      + unfold ProofsNumN.divN. rewrite <- dsum_scal. apply dsum_ext. intros. toR; ring.
    - intros d y Hd. rewrite (cl_flux _ _ _ _ _ CF) by auto. unfold ProofsNumN.donN. change (car AR) with R in *.
      rewrite !Hp. rewrite <- Rmult_plus_distr_r. replace (Rmax 0 (C0 d y) + Rmin 0 (C0 d y)) with (C0 d y); [toR; ring|].
      symmetry. apply max_min.
  Qed.

  (** *** Upwind *)
  Lemma donor_sumN psi C x : g x <> 0 ->
    sumN psi (donN psi C) (nG AR X) x =
    psi x * (1 - outN ds C x / g x) +
    dsum ds (fun d => Rmax 0 (C d (pv d x)) * psi (pv d x) / g x + - Rmin 0 (C d x) * psi (nx d x) / g x).
  Proof.
    intros Hg. rewrite (cl_sum _ _ _ _ _ CF).
    assert (E : divN (donN psi C) x = psi x * outN ds C x -
                dsum ds (fun d => Rmax 0 (C d (pv d x)) * psi (pv d x) + - Rmin 0 (C d x) * psi (nx d x))).
    { unfold ProofsNumN.divN, outN. rewrite <- dsum_scal, <- dsum_minus. apply dsum_ext. intros d _.
      unfold ProofsNumN.donN. rewrite nx_pv. toR; ring. }
    rewrite E.
    replace (dsum ds (fun d => Rmax 0 (C d (pv d x)) * psi (pv d x) / g x + - Rmin 0 (C d x) * psi (nx d x) / g x))
      with (/ g x * dsum ds (fun d => Rmax 0 (C d (pv d x)) * psi (pv d x) + - Rmin 0 (C d x) * psi (nx d x))).
    - toR. field. exact Hg.
    - rewrite <- dsum_scal. apply dsum_ext. intros. unfold Rdiv. toR; ring.
  Qed.
  Lemma donor_signN psi C x : 0 < g x -> outN ds C x <= g x -> (forall y, 0 <= psi y) ->
    0 <= sumN psi (donN psi C) (nG AR X) x.
  Proof.
    intros Hg Ho Hp. rewrite donor_sumN by lra. pose proof (div_le1 _ _ Ho Hg).
    assert (0 <= psi x * (1 - outN ds C x / g x)) by (apply Rmult_le_pos; [apply Hp|lra]).
    assert (0 <= dsum ds (fun d => Rmax 0 (C d (pv d x)) * psi (pv d x) / g x + - Rmin 0 (C d x) * psi (nx d x) / g x)).
    { apply dsum_pos. intros d _. destruct (mmR (C d (pv d x))), (mmR (C d x)).
      apply Rplus_le_le_0_compat; apply div_nonneg; auto; apply Rmult_le_pos; auto; lra. }
    toR. lra.
  Qed.
  (** in flows without divergence: bounded by the neighbours *)
  Lemma in_out C x : divN C x = 0 ->
    dsum ds (fun d => Rmax 0 (C d (pv d x)) + - Rmin 0 (C d x)) = outN ds C x.
  Proof.
    intros H. assert (E : outN ds C x - dsum ds (fun d => Rmax 0 (C d (pv d x)) + - Rmin 0 (C d x)) = divN C x).
    { unfold outN, ProofsNumN.divN. rewrite <- dsum_minus. apply dsum_ext. intros d _.
      pose proof (max_min (C d x)). pose proof (max_min (C d (pv d x))). lra. }
    lra.
  Qed.
  Lemma donor_boundN (f : R -> R -> Prop) psi C x M :
    (f = Rle \/ f = (fun a b => b <= a)) -> 0 < g x -> outN ds C x <= g x -> divN C x = 0 ->
    f (psi x) M -> (forall d, In d ds -> f (psi (nx d x)) M /\ f (psi (pv d x)) M) ->
    f (sumN psi (donN psi C) (nG AR X) x) M.
  Proof.
    intros Hf Hg Ho HD H1 H2. rewrite donor_sumN by lra.
    assert (E : M = M * (1 - outN ds C x / g x) +
      dsum ds (fun d => Rmax 0 (C d (pv d x)) * M / g x + - Rmin 0 (C d x) * M / g x)).
    { replace (dsum ds (fun d => Rmax 0 (C d (pv d x)) * M / g x + - Rmin 0 (C d x) * M / g x))
        with (M / g x * outN ds C x).
      - field. lra.
      - rewrite <- (in_out C x HD), <- dsum_scal. apply dsum_ext. intros. unfold Rdiv. ring. }
    pose proof (div_le1 _ _ Ho Hg) as Q. pose proof (Rinv_0_lt_compat _ Hg).
    assert (K : forall a b k, 0 <= k -> f a b -> f (k * a / g x) (k * b / g x)).
    { intros a b k Hk H0. destruct Hf as [->| ->]; apply Rmult_le_compat_r; try lra; apply Rmult_le_compat_l; auto. }
    assert (S : forall a b a' b', f a a' -> f b b' -> f (a + b) (a' + b')).
    { intros. destruct Hf as [->| ->]; lra. }
    rewrite E. apply S.
    - destruct Hf as [->| ->]; apply Rmult_le_compat_r; lra.
    - assert (D : forall l u v, (forall d, In d l -> f (u d) (v d)) -> f (dsum l u) (dsum l v)).
      { intros l u v. induction l as [|d l IH]; intros H0; cbn.
        - destruct Hf as [->| ->]; lra.
        - apply S; [apply H0; left; auto|apply IH; intros; apply H0; right; auto]. }
      apply D. intros d Hd. destruct (H2 d Hd) as [Ha Hb].
      destruct (mmR (C d (pv d x))), (mmR (C d x)). apply S; apply K; auto; lra.
  Qed.
  Lemma up_donorN psi x : upN psi x = sumN psi (donN psi C0) (nG AR X) x.
  Proof.
    unfold FunN.upN. rewrite !(cl_sum _ _ _ _ _ CF). f_equal. f_equal. apply divN_ext. intros. apply (cl_flux _ _ _ _ _ CF). auto.
  Qed.

  (** *** Flux limiting *)
  Section Limit.
    Variables (psi mn mx : idx -> R) (c : dim -> idx -> R).
    Hypothesis Hg : forall x, 0 < g x.
    Hypothesis He : 0 < eps.
    Definition phiN : dim -> idx -> R := if iga o then c else donN psi c.
    Notation phi := phiN.
    Definition topN (x : idx) : R := Rmax (mx x) (nbmax ds psi x).
    Definition botN (x : idx) : R := Rmin (mn x) (nbmin ds psi x).
    Definition upLN (x : idx) : R := (topN x - psi x) * g x / (inN ds phi x + eps).
    Definition dnLN (x : idx) : R := (psi x - botN x) * g x / (outN ds phi x + eps).
    Definition kN : dim -> idx -> R := limfacN o psi c upLN dnLN.

    Lemma inN_nonneg p x : 0 <= inN ds p x.
    Proof. apply dsum_pos. intros d _. destruct (mmR (p d (pv d x))), (mmR (p d x)). lra. Qed.
    Lemma outN_nonneg p x : 0 <= outN ds p x.
    Proof. apply dsum_pos. intros d _. destruct (mmR (p d (pv d x))), (mmR (p d x)). lra. Qed.
    Lemma topN_ge x : psi x <= topN x.
    Proof. unfold topN. eapply Rle_trans; [|apply Rmax_r]. apply nbmax_ge. Qed.
    Lemma botN_le x : botN x <= psi x.
    Proof. unfold botN. eapply Rle_trans; [apply Rmin_r|]. apply nbmin_le. Qed.
    Lemma upLN_nonneg x : 0 <= upLN x.
    Proof.
      unfold upLN. pose proof (topN_ge x). pose proof (inN_nonneg phi x). pose proof (Hg x).
      apply div_nonneg; [|lra]. apply Rmult_le_pos; lra.
    Qed.
    Lemma dnLN_nonneg x : 0 <= dnLN x.
    Proof.
      unfold dnLN. pose proof (botN_le x). pose proof (outN_nonneg phi x). pose proof (Hg x).
      apply div_nonneg; [|lra]. apply Rmult_le_pos; lra.
    Qed.
    Lemma limAN_bounds d x : 0 <= limAN upLN dnLN d x <= 1 /\ limAN upLN dnLN d x <= dnLN x /\ limAN upLN dnLN d x <= upLN (nx d x).
    Proof.
      unfold limAN. pose proof (dnLN_nonneg x). pose proof (upLN_nonneg (nx d x)).
      unfold Rmin. repeat destruct Rle_dec; lra.
    Qed.
    Lemma limBN_bounds d x : 0 <= limBN upLN dnLN d x <= 1 /\ limBN upLN dnLN d x <= upLN x /\ limBN upLN dnLN d x <= dnLN (nx d x).
    Proof.
      unfold limBN. pose proof (upLN_nonneg x). pose proof (dnLN_nonneg (nx d x)).
      unfold Rmin. repeat destruct Rle_dec; lra.
    Qed.
    Lemma kN_bounds d x : 0 <= kN d x <= 1.
    Proof.
      unfold kN, limfacN. pose proof (limAN_bounds d x). pose proof (limBN_bounds d x).
      repeat match goal with |- context [if ?b then _ else _] => destruct b end; lra.
    Qed.
    Lemma limN_k d x : In d ds -> fct o = true -> limN psi c mn mx d x = c d x * kN d x.
    Proof.
      intros Hd Hf. unfold FunN.limN. rewrite Hf, (cl_mono _ _ _ _ _ CF) by auto. unfold kN. f_equal.
      assert (EP : forall e y, In e ds -> (if iga o then c else fluxN psi c) e y = phi e y).
      { intros e y Hy. unfold phiN. destruct (iga o); auto. apply (cl_flux _ _ _ _ _ CF); auto. }
      assert (EU : forall y, bupN AR F psi mx (if iga o then c else fluxN psi c) (nG AR X) y = upLN y).
      { intros y. rewrite (cl_bup _ _ _ _ _ CF). unfold upLN, topN.
        apply (f_equal (fun v => (Rmax (mx y) (nbmax ds psi y) - psi y) * g y / (v + eps))).
        apply dsum_ext. intros e Hy. rewrite !EP by auto. reflexivity. }
      assert (ED : forall y, bdnN AR F psi mn (if iga o then c else fluxN psi c) (nG AR X) y = dnLN y).
      { intros y. rewrite (cl_bdn _ _ _ _ _ CF). unfold dnLN, botN.
        apply (f_equal (fun v => (psi y - Rmin (mn y) (nbmin ds psi y)) * g y / (v + eps))).
        apply dsum_ext. intros e Hy. rewrite !EP by auto. reflexivity. }
      unfold limfacN, limAN, limBN. change (car AR) with R in *. rewrite !EU, !ED. reflexivity.
    Qed.
    Lemma fin_kN x : fct o = true ->
      finN psi (limN psi c mn mx) x = psi x - divN (fun d y => kN d y * phi d y) x / g x.
    Proof.
      intros Hf. unfold FunN.finN. rewrite (cl_sum _ _ _ _ _ CF). f_equal. f_equal. apply divN_ext. intros d y Hd.
      unfold phiN. destruct (iga o) eqn:Ei.
      - rewrite limN_k by auto. toR; ring.
      - rewrite (cl_flux _ _ _ _ _ CF) by auto. unfold ProofsNumN.donN. rewrite limN_k by auto. apply fac_scale. apply kN_bounds.
    Qed.

    (** the sign of the flux decides which limiter is used *)
    Hypothesis Sgn : iga o = true \/ oabs o = true \/ forall y, 0 <= psi y.
    Lemma k_upN d x : 0 < phi d x -> kN d x <= dnLN x /\ kN d x <= upLN (nx d x).
    Proof.
      intros Hp. pose proof (limAN_bounds d x) as A. unfold kN, limfacN, gtb. unfold phiN in Hp.
      destruct (iga o) eqn:Ei.
      - cbn [negb andb]. destruct (Rlt_dec 0 (c d x)); lra.
      - cbn [negb andb]. unfold ProofsNumN.donN in Hp. destruct (Rlt_dec 0 (c d x)) as [Hc|Hc].
        + rewrite Rmax_right, Rmin_left in Hp by lra.
          assert (0 < psi x) by (apply Rmult_lt_reg_l with (c d x); auto; lra).
          destruct (oabs o); [destruct (Rlt_dec 0 (psi x)); lra|lra].
        + rewrite Rmax_left, Rmin_right in Hp by lra.
          assert (psi (nx d x) < 0).
          { destruct (Rlt_dec (psi (nx d x)) 0); auto. exfalso.
            assert (c d x * psi (nx d x) <= 0); [|lra].
            rewrite <- (Rmult_0_l (psi (nx d x))). apply Rmult_le_compat_r; lra. }
          destruct (oabs o); [destruct (Rlt_dec 0 (psi (nx d x))); lra|].
          destruct Sgn as [S|[S|S]]; try discriminate. specialize (S (nx d x)). lra.
    Qed.
    Lemma k_dnN d x : phi d x < 0 -> kN d x <= upLN x /\ kN d x <= dnLN (nx d x).
    Proof.
      intros Hp. pose proof (limBN_bounds d x) as A. unfold kN, limfacN, gtb. unfold phiN in Hp.
      destruct (iga o) eqn:Ei.
      - cbn [negb andb]. destruct (Rlt_dec 0 (c d x)); lra.
      - cbn [negb andb]. unfold ProofsNumN.donN in Hp. destruct (Rlt_dec 0 (c d x)) as [Hc|Hc].
        + rewrite Rmax_right, Rmin_left in Hp by lra.
          assert (psi x < 0) by (apply Rmult_lt_reg_l with (c d x); auto; lra).
          destruct (oabs o); [destruct (Rlt_dec 0 (psi x)); lra|].
          destruct Sgn as [S|[S|S]]; try discriminate. specialize (S x). lra.
        + rewrite Rmax_left, Rmin_right in Hp by lra.
          assert (0 < psi (nx d x)).
          { destruct (Rlt_dec 0 (psi (nx d x))); auto. exfalso.
            assert (0 <= c d x * psi (nx d x)); [|lra].
            replace (c d x * psi (nx d x)) with ((- c d x) * (- psi (nx d x))) by ring. apply Rmult_le_pos; lra. }
          destruct (oabs o); [destruct (Rlt_dec 0 (psi (nx d x))); lra|lra].
    Qed.
    (** what a face brings and takes at most *)
    Lemma face_max (L : idx -> R) d x : (forall y, 0 <= L y) -> (0 < phi d x -> kN d x <= L x) ->
      kN d x * phi d x <= L x * Rmax 0 (phi d x).
    Proof.
      intros HL H. destruct (Rlt_dec 0 (phi d x)) as [Hp|Hp].
      - rewrite Rmax_right by lra. apply Rmult_le_compat_r; [lra|auto].
      - rewrite Rmax_left, Rmult_0_r by lra. pose proof (kN_bounds d x).
        rewrite <- (Rmult_0_r (kN d x)). apply Rmult_le_compat_l; lra.
    Qed.
    Lemma face_pos l d x : 0 <= l -> (0 < phi d x -> kN d x <= l) -> kN d x * phi d x <= l * Rmax 0 (phi d x).
    Proof. intros H1 H2. apply (face_max (fun _ => l)); auto. Qed.
    Lemma face_neg l d x : 0 <= l -> (phi d x < 0 -> kN d x <= l) -> - (kN d x * phi d x) <= l * - Rmin 0 (phi d x).
    Proof.
      intros H1 H2. destruct (Rlt_dec (phi d x) 0) as [Hp|Hp].
      - rewrite Rmin_right by lra. replace (- (kN d x * phi d x)) with (kN d x * - phi d x) by ring.
        apply Rmult_le_compat_r; [lra|auto].
      - rewrite Rmin_left, Ropp_0, Rmult_0_r by lra. pose proof (kN_bounds d x).
        assert (0 <= kN d x * phi d x) by (apply Rmult_le_pos; lra). lra.
    Qed.
    Lemma fct_upperN x : fct o = true -> finN psi (limN psi c mn mx) x <= topN x.
    Proof.
      intros Hf. rewrite fin_kN by auto. pose proof (topN_ge x). pose proof (Hg x) as Hgi.
      pose proof (inN_nonneg phi x) as HI. pose proof (upLN_nonneg x) as HU.
      assert (B : - divN (fun d y => kN d y * phi d y) x <= upLN x * inN ds phi x).
      { unfold inN, ProofsNumN.divN. rewrite <- dsum_scal.
        replace (- dsum ds (fun d => kN d x * phi d x - kN d (pv d x) * phi d (pv d x)))
          with (dsum ds (fun d => (-1) * (kN d x * phi d x - kN d (pv d x) * phi d (pv d x)))) by (rewrite dsum_scal; ring).
        apply dsum_le. intros d _.
        assert (B1 := face_neg (upLN x) d x HU (fun H => proj1 (k_dnN d x H))).
        assert (B2 := face_pos (upLN x) d (pv d x) HU (fun H => eq_ind _ (fun y => _ <= upLN y) (proj2 (k_upN d (pv d x) H)) _ (nx_pv d x))).
        lra. }
      assert (B3 : - divN (fun d y => kN d y * phi d y) x / g x <= upLN x * inN ds phi x / g x).
      { apply Rmult_le_compat_r; [left; apply Rinv_0_lt_compat; auto|]. exact B. }
      pose proof (gain (topN x - psi x) (g x) (inN ds phi x) eps ltac:(lra) Hgi HI He) as B4. fold (upLN x) in B4.
      unfold Rdiv in *. toR. lra.
    Qed.
    Lemma fct_lowerN x : fct o = true -> botN x <= finN psi (limN psi c mn mx) x.
    Proof.
      intros Hf. rewrite fin_kN by auto. pose proof (botN_le x). pose proof (Hg x) as Hgi.
      pose proof (outN_nonneg phi x) as HI. pose proof (dnLN_nonneg x) as HU.
      assert (B : divN (fun d y => kN d y * phi d y) x <= dnLN x * outN ds phi x).
      { unfold outN, ProofsNumN.divN. rewrite <- dsum_scal. apply dsum_le. intros d _.
        assert (B1 := face_pos (dnLN x) d x HU (fun H => proj1 (k_upN d x H))).
        assert (B2 := face_neg (dnLN x) d (pv d x) HU (fun H => eq_ind _ (fun y => _ <= dnLN y) (proj2 (k_dnN d (pv d x) H)) _ (nx_pv d x))).
        lra. }
      assert (B3 : divN (fun d y => kN d y * phi d y) x / g x <= dnLN x * outN ds phi x / g x).
      { apply Rmult_le_compat_r; [left; apply Rinv_0_lt_compat; auto|]. exact B. }
      pose proof (gain (psi x - botN x) (g x) (outN ds phi x) eps ltac:(lra) Hgi HI He) as B4. fold (dnLN x) in B4.
      toR. lra.
    Qed.
  End Limit.

  (** *** Sign of whole steps *)
  Section Sign.
    Hypothesis Hg : forall x, 0 < g x.
    Hypothesis Ho : forall x, outN ds C0 x <= g x.
    Lemma up_signN psi : (forall x, 0 <= psi x) -> forall x, 0 <= upN psi x.
    Proof. intros Hp x. rewrite up_donorN. apply donor_signN; auto. Qed.
    Lemma passes_sign_fctN mn mx more : fct o = true -> 0 < eps -> (forall x, 0 <= mn x) ->
      forall psin psi C, (forall x, 0 <= psi x) -> forall x, 0 <= passesN mn mx more psin psi C x.
    Proof.
      intros Hf He Hmn. induction more as [|k IH]; intros psin psi C Hp x; [auto|]. cbn [FunN.passesN].
      apply IH; auto. intros y. eapply Rle_trans; [|apply fct_lowerN; auto].
      unfold botN. apply Rmin_glb; auto. apply nbmin_glb; auto.
    Qed.
    (** [tame C]: velocities that corrections keep small enough *)
    Variable tame : (dim -> idx -> R) -> Prop.
    Definition tamed : Prop := forall psin psi C, (forall x, 0 <= psi x) -> (forall x, 0 <= psin x) -> tame C ->
      tame (corrN psi psin C) /\ forall x, outN ds (corrN psi psin C) x <= g x.
    Lemma passes_sign_tame mn mx more : fct o = false -> iga o = false -> tamed ->
      forall psin psi C, (forall x, 0 <= psi x) -> (forall x, 0 <= psin x) -> tame C ->
      forall x, 0 <= passesN mn mx more psin psi C x.
    Proof.
      intros Hf Hi T. induction more as [|k IH]; intros psin psi C Hp Hq HC x; [auto|]. cbn [FunN.passesN].
      destruct (T psin psi C Hp Hq HC) as [T1 T2]. apply IH; auto. intros y.
      unfold FunN.finN, FunN.limN. rewrite Hf, Hi.
      pose proof (donor_signN psi (corrN psi psin C) y (Hg y) (T2 y) Hp) as D.
      rewrite (cl_sum _ _ _ _ _ CF) in D. rewrite (cl_sum _ _ _ _ _ CF).
      rewrite (divN_ext _ (donN psi (corrN psi psin C))); auto. intros d z Hd. apply (cl_flux _ _ _ _ _ CF). auto.
    Qed.
    Definition sign_safeN (nit : nat) : Prop :=
      nit = 1%nat \/ (fct o = true /\ 0 < eps) \/ (fct o = false /\ iga o = false /\ tamed /\ tame C0).
    Lemma step_signN nit k ex psi : sign_safeN nit -> (k = nit \/ k = 1%nat) ->
      (forall x, 0 <= psi x) -> forall x, 0 <= stepN k ex psi x.
    Proof.
      intros S HK Hp x. unfold FunN.stepN. rewrite scaleN_R.
      set (p := scaleN AR ex psi).
      assert (P0 : forall y, 0 <= p y).
      { intros y. unfold p. rewrite scaleN_R. apply Rmult_le_pos; [left; apply sc_pos|apply Hp]. }
      apply Rmult_le_pos; [left; apply sc_pos|]. pose proof (up_signN p P0) as U.
      destruct HK as [->| ->]; [|apply U; auto].
      destruct S as [->|[[Hf He]|(Hf & Hi & T & T0)]].
      - apply U; auto.
      - apply passes_sign_fctN; auto. intros y. rewrite (cl_min _ _ _ _ _ CF). apply nbmin_glb; auto.
      - apply passes_sign_tame; auto.
    Qed.
    Lemma steps_signN nit freq ex nt : sign_safeN nit -> forall ts psi,
      (forall x, 0 <= psi x) -> forall x, 0 <= stepsN nit freq ex nt ts psi x.
    Proof.
      intros S. induction nt as [|n IH]; intros ts psi Hp x; cbn [FunN.stepsN]; auto.
      apply IH; auto. apply step_signN with (nit := nit); auto. apply passes_cases.
    Qed.
  End Sign.

  (** *** Bounds in flows without divergence *)
  Section Bounds.
    Hypothesis Hg : forall x, 0 < g x.
    Hypothesis Ho : forall x, outN ds C0 x <= g x.
    Hypothesis HD : forall x, divN C0 x = 0.
    Definition withinN (a b : R) (f : idx -> R) : Prop := forall x, a <= f x <= b.
    Lemma up_withinN a b psi : withinN a b psi -> withinN a b (upN psi).
    Proof.
      intros H x. rewrite up_donorN. split.
      - apply (donor_boundN (fun u v => v <= u)); auto; [apply H|]. intros; split; apply H.
      - apply (donor_boundN Rle); auto; [apply H|]. intros; split; apply H.
    Qed.
    Definition signsN (a : R) : Prop := iga o = true \/ oabs o = true \/ 0 <= a.
    Lemma fin_withinN a b psi c mn mx : fct o = true -> 0 < eps -> signsN a ->
      withinN a b psi -> withinN a b mn -> withinN a b mx -> withinN a b (finN psi (limN psi c mn mx)).
    Proof.
      intros Hf He S Hp Hmn Hmx x.
      assert (S' : iga o = true \/ oabs o = true \/ forall y, 0 <= psi y).
      { destruct S as [S|[S|S]]; auto. right. right. intros y. specialize (Hp y). lra. }
      split.
      - eapply Rle_trans; [|apply fct_lowerN; auto]. unfold botN. apply Rmin_glb; [apply Hmn|].
        apply nbmin_glb; [apply Hp|intros; split; apply Hp].
      - eapply Rle_trans; [apply fct_upperN; auto|]. unfold topN. apply Rmax_lub; [apply Hmx|].
        apply nbmax_lub; [apply Hp|intros; split; apply Hp].
    Qed.
    Lemma passes_withinN a b mn mx more : fct o = true -> 0 < eps -> signsN a -> withinN a b mn -> withinN a b mx ->
      forall psin psi C, withinN a b psi -> withinN a b (passesN mn mx more psin psi C).
    Proof.
      intros Hf He S Hmn Hmx. induction more as [|k IH]; intros psin psi C Hp; [auto|]. cbn [FunN.passesN].
      apply IH. apply fin_withinN; auto.
    Qed.
    Lemma step_withinN a b nit k ex psi : (nit = 1%nat \/ fct o = true /\ 0 < eps /\ signsN a) ->
      (k = nit \/ k = 1%nat) -> withinN a b psi -> withinN a b (stepN k ex psi).
    Proof.
      intros S HK Hp x. unfold FunN.stepN. rewrite scaleN_R. set (p := scaleN AR ex psi).
      assert (P0 : withinN (sc ex * a) (sc ex * b) p).
      { intros y. unfold p. rewrite scaleN_R. pose proof (sc_pos ex). specialize (Hp y).
        split; apply Rmult_le_compat_l; lra. }
      assert (Back : forall v, sc ex * a <= v <= sc ex * b -> a <= sc (- ex) * v <= b).
      { intros v Hv. pose proof (sc_pos (- ex)). pose proof (sc_inv ex) as SI.
        replace a with (sc (- ex) * (sc ex * a)) by (rewrite <- Rmult_assoc, SI; ring).
        replace b with (sc (- ex) * (sc ex * b)) by (rewrite <- Rmult_assoc, SI; ring).
        split; apply Rmult_le_compat_l; lra. }
      apply Back. pose proof (up_withinN _ _ p P0) as U.
      destruct HK as [->| ->]; [|apply U].
      destruct S as [->|(Hf & He & S)]; [apply U|].
      assert (S' : signsN (sc ex * a)).
      { destruct S as [S|[S|S]]; [left|right; left|right; right]; auto. apply Rmult_le_pos; auto. left. apply sc_pos. }
      apply passes_withinN; auto.
      - intros y. rewrite (cl_min _ _ _ _ _ CF). split; [apply nbmin_glb; [apply P0|intros; split; apply P0]|].
        eapply Rle_trans; [apply nbmin_le|apply P0].
      - intros y. rewrite (cl_max _ _ _ _ _ CF). split; [|apply nbmax_lub; [apply P0|intros; split; apply P0]].
        eapply Rle_trans; [|apply nbmax_ge]. apply P0.
    Qed.
    Lemma steps_withinN a b nit freq ex nt : (nit = 1%nat \/ fct o = true /\ 0 < eps /\ signsN a) ->
      forall ts psi, withinN a b psi -> withinN a b (stepsN nit freq ex nt ts psi).
    Proof.
      intros S. induction nt as [|n IH]; intros ts psi Hp; cbn [FunN.stepsN]; auto.
      apply IH. apply step_withinN with (nit := nit); auto. apply passes_cases.
    Qed.
  End Bounds.

  (** *** Conservation, for a linear functional invariant under shifts *)
  Section Mass.
    Variable P : (idx -> R) -> Prop.  (* the fields considered *)
    Variable tot : (idx -> R) -> R.
    Hypothesis tot_ext : forall f f', (forall x, f x = f' x) -> tot f = tot f'.
    Hypothesis tot_lin : forall a b f f', tot (fun x => a * f x + b * f' x) = a * tot f + b * tot f'.
    Hypothesis tot_shift : forall d f, In d ds -> P f -> tot (fun x => f (pv d x)) = tot f.
    Hypothesis g0 : forall x, g x <> 0.
    Notation mass f := (tot (fun x => g x * f x)).
    Lemma mass_ext f f' : (forall x, f x = f' x) -> mass f = mass f'.
    Proof. intros H. apply tot_ext. intros x. rewrite H. reflexivity. Qed.
    Lemma tot_zero : tot (fun _ => 0) = 0.
    Proof. transitivity (0 * tot (fun _ => 0) + 0 * tot (fun _ => 0)); [|ring]. rewrite <- tot_lin. apply tot_ext. intros; ring. Qed.
    Lemma tot_div phi : forall l, (forall d, In d l -> In d ds) -> (forall d, In d l -> P (phi d)) ->
      tot (fun x => dsum l (fun d => phi d x - phi d (pv d x))) = 0.
    Proof.
      induction l as [|d l IH]; intros Hl HP; cbn [dsum]; [apply tot_zero|].
      transitivity (tot (fun x => 1 * (1 * phi d x + (-1) * phi d (pv d x)) + 1 * dsum l (fun d => phi d x - phi d (pv d x)))).
      - apply tot_ext. intros; ring.
      - rewrite tot_lin, tot_lin, IH, (tot_shift d (phi d)); [ring|..]; auto using in_eq, in_cons.
        all: intros e He; first [apply Hl|apply HP]; right; auto.
    Qed.
    Lemma mass_sumN psi phi : (forall d, In d ds -> P (phi d)) -> mass (sumN psi phi (nG AR X)) = mass psi.
    Proof.
      intros HP. transitivity (tot (fun x => 1 * (g x * psi x) + (-1) * divN phi x)).
      - apply tot_ext. intros x. rewrite (cl_sum _ _ _ _ _ CF). field. apply g0.
      - rewrite tot_lin. unfold ProofsNumN.divN. rewrite tot_div; auto. ring.
    Qed.
    Lemma mass_passesN mn mx more : forall psin psi C,
      (forall psin psi C, (forall d, P (C d)) -> P psi -> P psin ->
         let c := corrN psi psin C in let phi := limN psi c mn mx in
         (forall d, P (c d)) /\ (forall d, P ((if iga o then phi else fluxN psi phi) d)) /\ P (finN psi phi)) ->
      (forall d, P (C d)) -> P psi -> P psin ->
      mass (passesN mn mx more psin psi C) = mass psi.
    Proof.
      induction more as [|k IH]; intros psin psi C H HC Hp Hq; [reflexivity|]. cbn [FunN.passesN].
      destruct (H psin psi C HC Hp Hq) as (H1 & H2 & H3).
      rewrite IH; auto. unfold FunN.finN. apply mass_sumN. auto.
    Qed.
    Lemma mass_scaleN ex psi : mass (scaleN AR ex psi) = sc ex * mass psi.
    Proof.
      transitivity (tot (fun x => sc ex * (g x * psi x) + 0 * (g x * psi x))).
      - apply tot_ext. intros x. rewrite scaleN_R. toR; ring.
      - rewrite tot_lin. ring.
    Qed.
  End Mass.
End Num.
