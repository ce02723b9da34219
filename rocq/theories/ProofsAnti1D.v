(** The antidiffusive velocity over the reals. *)
From Coq Require Import ZArith List Bool Lia ZifyBool Reals Lra.
From Verif Require Import ModelRun Lang ProofsLang Stencil FormCommon Form1D Solver1D Fun1D Arith SpecReal ProofsReal1D.
Import ListNotations.
Local Open Scope R_scope.

(** ** Closed form *)
Section Closed.
  Variables (o : fl) (sp : sptl) (tp : tmprl).
  Variable tiny : R.
  Definition paR (x : R) : R := if oabs o then Rabs x else x.
  Definition fracR (a b : R) : R := if pfc o then (if Req_EM_T b 0 then 0 else a / b) else a / (b + tiny).
  Variables psi C G N T : Z -> R.
  Notation p i := (paR (psi i%Z)).
  Definition gbR (i : Z) : R := if nug o then (G (i + 1)%Z + G i) / 2 else 1.
  Definition ndxR (i : Z) : R :=
    if iga o then psi (i + 1)%Z - psi i else 2 * fracR (p (i + 1) - p i) (p (i + 1) + p i).
  Definition ndxxR (i : Z) : R :=
    if iga o then (psi (i + 2)%Z - psi (i + 1)%Z - psi i + psi (i - 1)%Z) / 2
    else 2 * fracR (p (i + 2) - p (i + 1) - p i + p (i - 1)) (p (i + 2) + p (i + 1) + p i + p (i - 1)).
  Definition totR (C : Z -> R) (i : Z) : R :=
    if tot o then ndxxR i * ((3 * C i * Rabs (C i) / gbR i - 2 * (C i * C i * C i) / (gbR i * gbR i) - C i) / 6) else 0.
  Definition dflR (C : Z -> R) (i : Z) : R :=
    if dfl o then
      let b := - (1 / 2) * C i / (gR o G (i + 1) + gR o G i) * (C (i + 1)%Z - C (i - 1)%Z) in
      if iga o then b * (1 / 2) * (psi (i + 1)%Z + psi i) else b
    else 0.
  Definition cbR (C : Z -> R) (i : Z) : R := (C i + C (i - 1)%Z) / 2.
  Definition pbR (i : Z) : R := (p (i + 1) + p i) / 2.
  Definition nfdivR (C : Z -> R) (i : Z) : R :=
    if iga o then (cbR C (i + 1) * psi (i + 1)%Z - cbR C i * psi i) / gbR i
    else 2 * fracR (cbR C (i + 1) * p (i + 1) - cbR C i * p i) (gbR i * (p (i + 1) + p i)).
  Definition fdivR (C : Z -> R) (i : Z) : R := (C i * pbR i - C (i - 1)%Z * pbR (i - 1)) / gR o G i.
  Definition sum4 (i : Z) : R := p (i + 2) + p (i + 1) + p i + p (i - 1).
  Definition nfdfR (C : Z -> R) (i : Z) : R :=
    let nom := cbR C (i + 1) * fdivR C (i + 1) - cbR C i * fdivR C i in
    if iga o then nom / gbR i else 4 * fracR nom (gbR i * sum4 i).
  Definition ndxfR (C : Z -> R) (i : Z) : R :=
    let nom := fdivR C (i + 1) - fdivR C i in
    if iga o then nom else 4 * fracR nom (sum4 i).
  Definition div2R (i : Z) : R := Rabs (C i) / 2 * ndxR i - C i / 2 * nfdivR C i.
  Definition up3R (i : Z) : R := if iga o then 0 else Rabs (div2R i) / 2 * ndxR i.
  Definition ndxxCR (i : Z) : R :=
    let b := C (i + 1)%Z + C (i - 1)%Z - 2 * C i in if iga o then b * pbR i else b.
  Definition spR (i : Z) : R := match sp with exact => ndxxCR i | aver2 => 4 * ndxxCR i | aver4 => 0 end.
  Definition nttR (i : Z) : R := if iga o then T i * pbR i else T i.
  Definition tpR (i : Z) : R := match tp with noextrp => nttR i | linear2 => 10 * nttR i end.
  Definition div3R (i : Z) : R :=
    if div3 o then
      up3R i
      + (- (1 / 24) * (4 * C i * ndxxR i + 2 * ndxR i * ((C (i + 1)%Z - C (i - 1)%Z) / 2) + spR i))
      + 1 / 2 * Rabs (C i) * ndxfR C i
      + 1 / 24 * (- 8 * C i * nfdfR C i + tpR i + 2 * C i * nfdivR N i - 2 * N i * nfdivR C i)
    else 0.
  Definition antiR (i : Z) : R :=
    if div2 o then div2R i + div3R i
    else Rabs (C i) / 2 * (1 - Rabs (C i) / gbR i) * ndxR i + totR C i + dflR C i.
End Closed.

Section Eval.
  Variables eps tiny : R.
  Notation AR := (arithR eps tiny).
  Variables (o : fl) (sp : sptl) (tp : tmprl).
  Variable env : arr -> Z -> R.
  Variable x : Z.
  Notation E e := (evx AR env e x).
  Notation psi := (env (Psi false)).
  Notation G := (env Gf).

  Lemma e_bin op a b : E (Bin op a b) = abin AR op (E a) (E b).
  Proof. reflexivity. Qed.
  Lemma e_un op a : E (Un op a) = aun AR op (E a).
  Proof. reflexivity. Qed.
  Lemma e_cst c : E (Cst c) = Rcst eps tiny c.
  Proof. reflexivity. Qed.
  Lemma e_q n : E (q n) = IZR n.
  Proof. unfold q. rewrite e_cst. cbn. apply div1. Qed.
  Lemma e_qq n d : E (qq n d) = IZR n / IZR (Zpos d).
  Proof. reflexivity. Qed.
  Lemma e_abs a : E (sabs a) = Rabs (E a).
  Proof. reflexivity. Qed.
  Lemma e_v a k : E (V a k) = env a (x + k)%Z.
  Proof. reflexivity. Qed.
  Lemma e_p k : E (P (Psi false) k) = psi (x + k)%Z.
  Proof. reflexivity. Qed.
  Ltac ev := repeat first [rewrite e_q | rewrite e_qq | rewrite e_abs | rewrite e_v | rewrite e_p | rewrite e_bin | rewrite e_un];
    cbn [arithR abin aun]; try change (car AR) with R.

  Lemma e_pa k : E (pa o (Psi false) k) = paR o (psi (x + k)%Z).
  Proof. unfold pa, paR. destruct (oabs o); reflexivity. Qed.
  Lemma e_g k : E (G1 o k) = gR o G (x + k)%Z.
  Proof.
    unfold G1, Gx, gR. destruct (nug o); [|apply e_q]. rewrite e_bin, e_q. cbn [arithR abin].
    rewrite Rplus_0_r. reflexivity.
  Qed.
  Lemma e_gb k : E (G_bar_x o k) = gbR o G (x + k)%Z.
  Proof.
    unfold G_bar_x, gbR. destruct (nug o) eqn:En; ev; [|reflexivity]. rewrite !e_g. unfold gR. rewrite En.
    replace (x + (k + 1))%Z with (x + k + 1)%Z by lia. reflexivity.
  Qed.
  Lemma e_frac a b : E (frac o a b) = fracR o tiny (E a) (E b).
  Proof.
    unfold frac, fracR. destruct (pfc o); [|reflexivity].
    change (E (Ite Ne b (q 0) (Bin Div a b) (q 0))) with
      (if (if Req_EM_T (E b) (E (q 0)) then false else true) then E a / E b else E (q 0)).
    rewrite e_q. destruct (Req_EM_T (E b) 0); reflexivity.
  Qed.
  Ltac zs := repeat match goal with
    | |- context [(x + (?k + ?j))%Z] => replace (x + (k + j))%Z with (x + k + j)%Z by lia
    | |- context [(x + (?k - ?j))%Z] => replace (x + (k - j))%Z with (x + k - j)%Z by lia end.

  Lemma e_ndx k : E (ndx_psi o (Psi false) k) = ndxR o tiny psi (x + k)%Z.
  Proof.
    unfold ndx_psi, ndxR. destruct (iga o); ev; rewrite ?e_frac; ev; rewrite ?e_pa; zs; [|reflexivity].
    replace (1 + 1) with 2 by lra. field.
  Qed.
  Lemma e_ndxx k : E (ndxx_psi o (Psi false) k) = ndxxR o tiny psi (x + k)%Z.
  Proof.
    unfold ndxx_psi, ndxxR. destruct (iga o); ev; rewrite ?e_frac; ev; rewrite ?e_pa; zs; [|reflexivity].
    replace (1 + 1 + 1 + 1) with 4 by lra. field.
  Qed.
  Lemma e_tot a k : E (TOT o (Psi false) a k) = totR o tiny psi G (env a) (x + k)%Z.
  Proof.
    unfold TOT, totR, ndxx_psi_coeff, pow2, pow3. destruct (tot o); ev; rewrite ?e_ndxx, ?e_gb; reflexivity.
  Qed.
  Lemma e_dfl a k : E (DFL o (Psi false) a k) = dflR o psi G (env a) (x + k)%Z.
  Proof.
    unfold DFL, dflR. destruct (dfl o); [|apply e_q]. destruct (iga o); ev; rewrite ?e_g; zs; reflexivity.
  Qed.
  Lemma e_cb a k : E (GC0_bar_x a k) = cbR (env a) (x + k)%Z.
  Proof. unfold GC0_bar_x, cbR. ev; zs. reflexivity. Qed.
  Lemma e_pb k : E (psi_bar_x o (Psi false) k) = pbR o psi (x + k)%Z.
  Proof. unfold psi_bar_x, pbR. ev; rewrite ?e_pa; zs. reflexivity. Qed.
  Lemma e_nfdiv a k : E (nfdiv o (Psi false) a k) = nfdivR o tiny psi G (env a) (x + k)%Z.
  Proof.
    unfold nfdiv, nfdivR. destruct (iga o); ev; rewrite ?e_frac; ev; rewrite ?e_cb, ?e_pa, ?e_gb; zs; reflexivity.
  Qed.
  Lemma e_fdiv a k : E (fdiv_centre o (Psi false) a k) = fdivR o psi G (env a) (x + k)%Z.
  Proof. unfold fdiv_centre, fdivR. ev; rewrite ?e_pb, ?e_g; zs. reflexivity. Qed.
  Lemma e_nfdf a k : E (nfdiv_fdiv o (Psi false) a k) = nfdfR o tiny psi G (env a) (x + k)%Z.
  Proof.
    unfold nfdiv_fdiv, nfdfR, sum4. destruct (iga o); ev; rewrite ?e_frac; ev; rewrite ?e_cb, ?e_fdiv, ?e_pa, ?e_gb; zs; reflexivity.
  Qed.
  Lemma e_ndxf a k : E (ndx_fdiv o (Psi false) a k) = ndxfR o tiny psi G (env a) (x + k)%Z.
  Proof.
    unfold ndx_fdiv, ndxfR, sum4. destruct (iga o); ev; rewrite ?e_frac; ev; rewrite ?e_fdiv, ?e_pa; zs; reflexivity.
  Qed.
  Lemma e_div2 a k : E (div_2nd o (Psi false) a k) = div2R o tiny psi (env a) G (x + k)%Z.
  Proof. unfold div_2nd, div2R. ev; rewrite ?e_ndx, ?e_nfdiv. reflexivity. Qed.
End Eval.

Section Anti.
  Variables eps tiny : R.
  Notation AR := (arithR eps tiny).
  Variables (o : fl) (sp : sptl) (tp : tmprl).
  Ltac ev := repeat first [rewrite e_q | rewrite e_qq | rewrite e_abs | rewrite e_v | rewrite e_p | rewrite e_bin | rewrite e_un];
    cbn [arithR abin aun]; try change (car AR) with R.

  Theorem antiF_R (psi C G N T : Z -> R) i :
    antiF AR o sp tp psi C G N T i = antiR o sp tp tiny psi C G N T i.
  Proof.
    unfold antiF. set (env := fun a => match a with Psi _ => psi | GC _ => C | NdtGC _ => N | NdttGC _ => T | _ => G end).
    unfold forms1, f_antidiff, antidiff, antiR. destruct (div2 o); ev.
    - rewrite e_div2, Z.add_0_r. apply f_equal2; [reflexivity|].
      unfold div_3rd, div3R. destruct (div3 o); [|apply e_q]. ev.
      unfold div_3rd_upwind, up3R, div_3rd_spatial, div_3rd_spatial_helper, spR, div_3rd_temporal, tpR. ev.
      assert (EN : forall k, evx AR env (ndxx_GC0 o (Psi false) (GC DX) k) i = ndxxCR o psi C (i + k)).
      { intros k. unfold ndxx_GC0, ndxxCR. destruct (iga o); ev; rewrite ?e_pb; change (env (GC DX)) with C;
          replace (i + (k + 1))%Z with (i + k + 1)%Z by lia; replace (i + (k - 1))%Z with (i + k - 1)%Z by lia; reflexivity. }
      assert (ET : forall k, evx AR env (ndtt_GC0 o (Psi false) (NdttGC DX) k) i = nttR o psi T (i + k)).
      { intros k. unfold ndtt_GC0, nttR. destruct (iga o); ev; rewrite ?e_pb; [reflexivity|]. rewrite Rplus_0_r. reflexivity. }
      assert (EX : forall k, evx AR env (ndx_GC0 (GC DX) k) i = (C (i + k + 1)%Z - C (i + k - 1)%Z) / 2).
      { intros k. unfold ndx_GC0. ev. change (env (GC DX)) with C.
        replace (i + (k + 1))%Z with (i + k + 1)%Z by lia. replace (i + (k - 1))%Z with (i + k - 1)%Z by lia. reflexivity. }
      rewrite e_ndxf, e_nfdf, !e_nfdiv, e_ndxx, e_ndx, EX.
      destruct (iga o); ev; rewrite ?e_div2, ?e_ndx; destruct sp, tp; ev; rewrite ?EN, ?ET; rewrite ?Z.add_0_r; reflexivity.
    - rewrite e_tot, e_dfl, e_gb, e_ndx, !Z.add_0_r. reflexivity.
  Qed.

  Lemma frac_0 b : fracR o tiny 0 b = 0.
  Proof. unfold fracR, Rdiv. destruct (pfc o); [destruct (Req_EM_T b 0)|]; ring. Qed.

  Lemma anti_const (psi C G N T : Z -> R) c k i :
    (forall x, psi x = c) -> (forall x, C x = k) -> (forall x, N x = 0) -> (forall x, T x = 0) ->
    antiR o sp tp tiny psi C G N T i = 0.
  Proof.
    intros HP HC HN HT.
    assert (E1 : forall j, ndxR o tiny psi j = 0).
    { intros j. unfold ndxR. rewrite !HP. destruct (iga o); [ring|]. rewrite Rminus_diag_eq, frac_0 by reflexivity. ring. }
    assert (E2 : forall j, ndxxR o tiny psi j = 0).
    { intros j. unfold ndxxR. rewrite !HP. destruct (iga o); [field|].
      replace (paR o c - paR o c - paR o c + paR o c) with 0 by ring. rewrite frac_0. ring. }
    assert (E3 : forall D d, (forall j, D j = d) -> forall j, nfdivR o tiny psi G D j = 0).
    { intros D d HD j. unfold nfdivR, cbR. rewrite !HP, !HD. destruct (iga o); [unfold Rdiv; ring|].
      rewrite Rminus_diag_eq, frac_0 by reflexivity. ring. }
    assert (E4 : forall j, fdivR o psi G C j = 0).
    { intros j. unfold fdivR, pbR. rewrite !HP, !HC. unfold Rdiv. ring. }
    assert (E5 : forall j, nfdfR o tiny psi G C j = 0).
    { intros j. unfold nfdfR. rewrite !E4. destruct (iga o); [unfold Rdiv; ring|].
      replace (cbR C (j + 1) * 0 - cbR C j * 0) with 0 by ring. rewrite frac_0. ring. }
    assert (E6 : forall j, ndxfR o tiny psi G C j = 0).
    { intros j. unfold ndxfR. rewrite !E4. destruct (iga o); [ring|]. rewrite Rminus_0_r, frac_0. ring. }
    assert (E7 : forall j, ndxxCR o psi C j = 0).
    { intros j. unfold ndxxCR. rewrite !HC. destruct (iga o); ring. }
    assert (E8 : forall j, nttR o psi T j = 0).
    { intros j. unfold nttR. rewrite !HT. destruct (iga o); ring. }
    unfold antiR, div2R, div3R, up3R, spR, tpR, totR, dflR.
    rewrite E1, E2, E5, E6, E7, E8, (E3 C k), (E3 N 0), !HC, HN by auto.
    destruct (div2 o).
    - destruct (div3 o); [|unfold Rdiv; ring]. destruct (iga o), sp, tp; unfold Rdiv; ring.
    - destruct (tot o), (dfl o), (iga o); unfold Rdiv; ring.
  Qed.

  (** Courant number 0, 1 or -1 *)
  Lemma anti_unit (psi C G N T : Z -> R) k i : iga o && oabs o = false -> nug o = false -> k = 0 \/ k = 1 \/ k = -1 ->
    (forall x, C x = k) -> (forall x, N x = 0) -> (forall x, T x = 0) ->
    antiR o sp tp tiny psi C G N T i = 0.
  Proof.
    intros IA NU HK HC HN HT.
    assert (K2 : k * k * k = k) by (destruct HK as [->|[->| ->]]; ring).
    assert (KA : Rabs k * k = k * k /\ Rabs k * Rabs k = Rabs k /\ k * Rabs k = k \/ k = -1 /\ Rabs k = 1).
    { destruct HK as [->|[->| ->]].
      - left. rewrite Rabs_R0. repeat split; ring.
      - left. rewrite Rabs_R1. repeat split; ring.
      - right. split; auto. rewrite Rabs_left by lra. ring. }
    assert (GB : forall j, gbR o G j = 1) by (intros; unfold gbR; rewrite NU; reflexivity).
    assert (GG : forall j, gR o G j = 1) by (intros; unfold gR; rewrite NU; reflexivity).
    assert (FL : forall a b c, fracR o tiny (a * b) c = a * fracR o tiny b c).
    { intros a b c. unfold fracR, Rdiv. destruct (pfc o); [destruct (Req_EM_T c 0)|]; ring. }
    assert (CB : forall j, cbR C j = k) by (intros; unfold cbR; rewrite !HC; field).
    assert (CN : forall j, cbR N j = 0) by (intros; unfold cbR; rewrite !HN; field).
    assert (E3 : forall j, nfdivR o tiny psi G C j = k * ndxR o tiny psi j).
    { intros j. unfold nfdivR, ndxR. rewrite !CB, GB. destruct (iga o); [field|].
      rewrite <- Rmult_minus_distr_l, FL, Rmult_1_l. ring. }
    assert (E3' : forall j, nfdivR o tiny psi G N j = 0).
    { intros j. unfold nfdivR. rewrite !CN, GB. destruct (iga o); [field|].
      replace (0 * paR o (psi (j + 1)%Z) - 0 * paR o (psi j)) with 0 by ring. rewrite frac_0. ring. }
    assert (E4 : forall j, fdivR o psi G C j = k * ((paR o (psi (j + 1)%Z) - paR o (psi (j - 1)%Z)) / 2)).
    { intros j. unfold fdivR, pbR. rewrite !HC, GG. replace (j - 1 + 1)%Z with j by lia. field. }
    assert (DD : iga o = true -> oabs o = true -> True) by auto.
    assert (ND : forall j, fdivR o psi G C (j + 1) - fdivR o psi G C j =
      k / 2 * (paR o (psi (j + 2)%Z) - paR o (psi (j + 1)%Z) - paR o (psi j) + paR o (psi (j - 1)%Z))).
    { intros j. rewrite !E4. replace (j + 1 + 1)%Z with (j + 2)%Z by lia. replace (j + 1 - 1)%Z with j by lia. field. }
    unfold antiR, div2R, div3R, up3R, spR, tpR, totR, dflR.
    unfold nttR. rewrite E3, E3', !GB, !HC, HN, HT.
    assert (D2 : Rabs k / 2 * ndxR o tiny psi i - k / 2 * (k * ndxR o tiny psi i) = 0).
    { destruct HK as [->|[->| ->]]; [rewrite Rabs_R0|rewrite Rabs_R1|rewrite Rabs_left by lra]; field. }
    assert (XX : ndxxCR o psi C i = 0) by (unfold ndxxCR; rewrite !HC; destruct (iga o); ring).
    rewrite XX.
    destruct (div2 o).
    - destruct (div3 o); [|unfold div2R; rewrite ?E3, ?HC, ?D2; ring].
      unfold div2R; rewrite ?E3, ?HC, ?D2, Rabs_R0.
      replace ((if iga o then 0 else 0 / 2 * ndxR o tiny psi i)) with 0 by (destruct (iga o); field).
      replace (match sp with exact => 0 | aver2 => 4 * 0 | aver4 => 0 end) with 0 by (destruct sp; ring).
      replace (match tp with noextrp => if iga o then 0 * pbR o psi i else 0
               | linear2 => 10 * (if iga o then 0 * pbR o psi i else 0) end) with 0 by (destruct tp, (iga o); ring).
      assert (NF : nfdfR o tiny psi G C i = k * ndxfR o tiny psi G C i).
      { unfold nfdfR, ndxfR. rewrite !CB, GB. rewrite <- Rmult_minus_distr_l. destruct (iga o); [field|].
        rewrite FL, Rmult_1_l. ring. }
      assert (NX : iga o = false \/ oabs o = false -> ndxfR o tiny psi G C i = k * ndxxR o tiny psi i).
      { intros HI. unfold ndxfR, ndxxR, sum4. rewrite ND. destruct (iga o).
        - destruct HI as [HI|HI]; [discriminate|]. unfold paR. rewrite HI. field.
        - rewrite FL. field. }
      rewrite NF. destruct (iga o) eqn:Ei.
      + destruct (oabs o) eqn:Ea.
        * discriminate.
        * rewrite NX by auto. destruct HK as [->|[->| ->]]; [rewrite Rabs_R0|rewrite Rabs_R1|rewrite Rabs_left by lra]; field.
      + rewrite NX by auto. destruct HK as [->|[->| ->]]; [rewrite Rabs_R0|rewrite Rabs_R1|rewrite Rabs_left by lra]; field.
    - replace (k - k) with 0 by ring.
      replace ((3 * k * Rabs k / 1 - 2 * (k * k * k) / (1 * 1) - k) / 6) with 0.
      + destruct (tot o), (dfl o), (iga o); destruct HK as [->|[->| ->]]; [rewrite ?Rabs_R0|rewrite ?Rabs_R1|rewrite ?Rabs_left by lra | ..]; try (unfold Rdiv; ring); rewrite ?Rabs_R0, ?Rabs_R1, ?Rabs_left by lra; unfold Rdiv; rewrite ?Rinv_1; ring.
      + destruct HK as [->|[->| ->]]; [rewrite Rabs_R0|rewrite Rabs_R1|rewrite Rabs_left by lra]; field.
  Qed.
End Anti.
