(** The antidiffusive velocity of the 2D solver over the reals. *)
From Coq Require Import ZArith List Bool Lia ZifyBool Reals Lra.
From Verif Require Import ModelRun Lang ProofsLang Stencil FormCommon Form2D Solver1D Solver2D Fun1D FunN Arith SpecReal
  ProofsReal1D ProofsAnti1D ProofsFunN ProofsPerN ProofsNumN.
Import ListNotations.
Local Open Scope R_scope.

(** ** Closed form, in coordinates along and across the face normal; [p], [n]:
    the field and that of the previous pass, [a]: the advector component along,
    [b]: across, [G], time derivatives [na], [nb], [ta] *)
Section Closed.
  Variables (o : fl) (sp : sptl) (tp : tmprl) (tiny : R).
  Notation fracR := (fracR o tiny).
  Notation loc2 := (Z -> Z -> R).
  Section P.
    Variable p : loc2.
    Definition pp (i j : Z) : R := paR o (p i j).
    Definition pbx (i j : Z) : R := (pp (i + 1) j + pp i j) / 2.
    Definition pby (i j : Z) : R := (pp i j + pp i (j + 1)) / 2.
    Definition pbxy (i j : Z) : R := (pp (i + 1) j + pp i j + pp i (j + 1) + pp (i + 1) (j + 1)) / 4.
    Definition Ndx (i j : Z) : R :=
      if iga o then p (i + 1)%Z j - p i j else 2 * fracR (pp (i + 1) j - pp i j) (pp (i + 1) j + pp i j).
    Definition Ndy (i j : Z) : R :=
      if iga o then (p (i + 1)%Z (j + 1)%Z + p i (j + 1)%Z - p (i + 1)%Z (j - 1)%Z - p i (j - 1)%Z) / 4
      else fracR (pp (i + 1) (j + 1) + pp i (j + 1) - pp (i + 1) (j - 1) - pp i (j - 1))
                 (pp (i + 1) (j + 1) + pp i (j + 1) + pp (i + 1) (j - 1) + pp i (j - 1)).
    Definition Ndxx (i j : Z) : R :=
      if iga o then (p (i + 2)%Z j - p (i + 1)%Z j - p i j + p (i - 1)%Z j) / 2
      else 2 * fracR (pp (i + 2) j - pp (i + 1) j - pp i j + pp (i - 1) j)
                     (pp (i + 2) j + pp (i + 1) j + pp i j + pp (i - 1) j).
    Definition Ndxy (i j : Z) : R :=
      if iga o then (p (i + 1)%Z (j + 1)%Z - p i (j + 1)%Z - p (i + 1)%Z (j - 1)%Z + p i (j - 1)%Z) / 2
      else 2 * fracR (pp (i + 1) (j + 1) - pp i (j + 1) - pp (i + 1) (j - 1) + pp i (j - 1))
                     (pp (i + 1) (j + 1) + pp i (j + 1) + pp (i + 1) (j - 1) + pp i (j - 1)).
    Definition Ndxxx (i j : Z) : R := (p (i + 2)%Z j - 3 * p (i + 1)%Z j + 3 * p i j - p (i - 1)%Z j) / 4.
    Definition Ndxxy (i j : Z) : R :=
      (p (i + 2)%Z (j + 1)%Z - p (i + 1)%Z (j + 1)%Z - p i (j + 1)%Z + p (i - 1)%Z (j + 1)%Z
       - p (i + 2)%Z (j - 1)%Z + p (i + 1)%Z (j - 1)%Z + p i (j - 1)%Z - p (i - 1)%Z (j - 1)%Z) / 8.
    Definition Ndxyy (i j : Z) : R :=
      (p (i + 1)%Z (j + 1)%Z - 2 * p (i + 1)%Z j + p (i + 1)%Z (j - 1)%Z - p i (j + 1)%Z + 2 * p i j - p i (j - 1)%Z) / 6.
    Definition Six (i j : Z) : R :=
      pp (i + 1) j + pp i j + pp i (j + 1) + pp (i + 1) (j + 1) + pp i (j - 1) + pp (i + 1) (j - 1).
    Definition Eight (i j : Z) : R :=
      pp (i + 2) j + pp (i + 1) j + pp i j + pp (i - 1) j + pp i (j + 1) + pp i (j - 1) + pp (i + 1) (j + 1) + pp (i + 1) (j - 1).
  End P.
  Variable G : loc2.
  Definition gg (i j : Z) : R := if nug o then G i j else 1.
  Definition gbx (i j : Z) : R := if nug o then (G (i + 1)%Z j + G i j) / 2 else 1.
  Definition gbxy (i j : Z) : R :=
    if nug o then (G i j + G i (j + 1)%Z + G (i + 1)%Z j + G (i + 1)%Z (j + 1)%Z) / 4 else 1.

  Section A.
    Variables a b : loc2.
    Definition abx (i j : Z) : R := (a i j + a (i - 1)%Z j) / 2.
    Definition abxy (i j : Z) : R := (a i j + a (i - 1)%Z j + a i (j + 1)%Z + a (i - 1)%Z (j + 1)%Z) / 4.
    Definition bbx (i j : Z) : R := (b (i + 1)%Z j + b i j) / 2.
    Definition bbxy (i j : Z) : R := (b (i + 1)%Z j + b i j + b (i + 1)%Z (j - 1)%Z + b i (j - 1)%Z) / 4.
    Definition Nda (i j : Z) : R := (a (i + 1)%Z j - a (i - 1)%Z j) / 2.
  End A.

  Section Adv.
    Variables (p n a b na nb ta : loc2).
    Definition Fcen (i j : Z) : R :=
      (a i j * pbx p i j - a (i - 1)%Z j * pbx p (i - 1) j + b i j * pby p i j - b i (j - 1)%Z * pby p i (j - 1)) / gg i j.
    Definition Fcor (i j : Z) : R :=
      (abxy a (i + 1) j * pby p (i + 1) j - abxy a i j * pby p i j + bbxy b i (j + 1) * pbx p i (j + 1) - bbxy b i j * pbx p i j)
      / gbxy i j.
    Definition Nfd (a b : loc2) (i j : Z) : R :=
      let nom := abx a (i + 1) j * pp p (i + 1) j - abx a i j * pp p i j + bbx b i j * pbxy p i j - bbx b i (j - 1) * pbxy p i (j - 1) in
      if iga o then nom / gbx i j else 6 * fracR nom (gbx i j * Six p i j).
    Definition Nff (i j : Z) : R :=
      let nom := abx a (i + 1) j * Fcen (i + 1) j - abx a i j * Fcen i j + bbx b i j * Fcor i j - bbx b i (j - 1) * Fcor i (j - 1) in
      if iga o then nom / gbx i j else 8 * fracR nom (gbx i j * Eight p i j).
    Definition Nxf (i j : Z) : R :=
      let nom := Fcen (i + 1) j - Fcen i j in if iga o then nom else 8 * fracR nom (Eight p i j).
    Definition Nfdt (i j : Z) : R :=
      let nom := abx a (i + 1) j * (pp p (i + 1) j - pp n (i + 1) j) - abx a i j * (pp p i j - pp n i j)
                 + bbx b i j * (pbxy p i j - pbxy n i j) - bbx b i (j - 1) * (pbxy p i (j - 1) - pbxy n i (j - 1)) in
      if iga o then nom / gbx i j else 12 * fracR nom (gbx i j * (Six p i j + Six n i j)).
    Definition Ntx (i j : Z) : R :=
      if iga o then p (i + 1)%Z j - n (i + 1)%Z j - p i j + n i j
      else 4 * fracR (pp p (i + 1) j - pp n (i + 1) j - pp p i j + pp n i j)
                     (pp p (i + 1) j + pp n (i + 1) j + pp p i j + pp n i j).
    Definition Nt (i j : Z) : R :=
      if iga o then (p (i + 1)%Z j - n (i + 1)%Z j + p i j - n i j) / 2
      else 2 * fracR (pp p (i + 1) j - pp n (i + 1) j + pp p i j - pp n i j)
                     (pp p (i + 1) j + pp n (i + 1) j + pp p i j + pp n i j).
    Notation a0 := (a 0%Z 0%Z).
    Notation g0 := (gbx 0 0).
    Notation b0 := (bbxy b 0 0).
    Definition Tot : R :=
      if tot o then
        Ndxx p 0 0 * ((3 * a0 * Rabs a0 / g0 - 2 * (a0 * a0 * a0) / (g0 * g0) - a0) / 6)
        + Ndxy p 0 0 * ((Rabs a0 - 2 * (a0 * a0) / g0) * b0 / (2 * g0))
      else 0.
    Definition Fot : R :=
      if fot o then
        Ndxxx p 0 0 * ((6 * Rabs a0 * (a0 * a0) / (g0 * g0) - 3 * (a0 * a0) / g0 - 3 * (a0 * a0 * a0 * a0) / (g0 * g0 * g0)) / 2)
        + Ndxxy p 0 0 * (3 * (Rabs a0 - a0 * a0 / g0) * a0 * b0 / (g0 * g0))
        + Ndxyy p 0 0 * (3 * (3 * Rabs b0 * (a0 * a0) / g0 + 3 * (b0 * b0) * Rabs a0 / g0 - 2 * Rabs b0 * Rabs a0
                               - 9 * (b0 * b0) * (a0 * a0) / (g0 * g0)) / g0 / 4)
      else 0.
    Definition Dfl : R :=
      if dfl o then
        let c := - (1 / 4) * a0 / g0 * ((a 1%Z 0%Z - a (-1)%Z 0%Z) + (b 1%Z 0%Z + b 0%Z 0%Z - b 1%Z (-1)%Z - b 0%Z (-1)%Z)) in
        if iga o then c * pbx p 0 0 else c
      else 0.
    Definition D2 : R := Rabs a0 / 2 * Ndx p 0 0 - a0 / 2 * Nfd a b 0 0.
    Definition U3 : R := if iga o then 0 else Rabs D2 / 2 * Ndx p 0 0.
    Definition Nxxa : R := let c := a 1%Z 0%Z + a (-1)%Z 0%Z - 2 * a0 in if iga o then c * pbx p 0 0 else c.
    Definition Ntt : R := if iga o then ta 0%Z 0%Z * pbx p 0 0 else ta 0%Z 0%Z.
    Definition Sp : R := match sp with exact => Nxxa | aver2 => 4 * Nxxa | aver4 => 0 end.
    Definition Tp : R := match tp with noextrp => Ntt | linear2 => 10 * Ntt end.
    Definition S3 : R := - (1 / 24) * (4 * a0 * Ndxx p 0 0 + 2 * Ndx p 0 0 * Nda a 0 0 + Sp).
    Definition D3 : R :=
      if div3 o then
        U3 + S3 + 1 / 2 * Rabs a0 * Nxf 0 0
        + 1 / 24 * (- 8 * a0 * Nff 0 0 + Tp + 2 * a0 * Nfd na nb 0 0 - 2 * na 0%Z 0%Z * Nfd a b 0 0)
      else if div3dt o then
        U3 + S3 - 1 / 2 * Rabs a0 * Ntx 0 0
        + 1 / 24 * (8 * a0 * Nfdt 0 0 + 1 * Ntt + 2 * a0 * Nfd na nb 0 0 + 2 * na 0%Z 0%Z * Nt 0 0)
      else 0.
    Definition A2 : R :=
      if div2 o then D2 + D3 + Fot
      else Rabs a0 / 2 * (1 - Rabs a0 / g0) * Ndx p 0 0 - a0 * b0 / (2 * g0) * Ndy p 0 0 + Tot + Fot + Dfl.
  End Adv.
End Closed.

(** local coordinates at the face to the right of [x] in direction [d] *)
Definition lc {T} (d : dim) (x : idx) (f : idx -> T) (i j : Z) : T := f (iadd x (x2 d i j)).

Section Eval.
  Variables eps tiny : R.
  Notation AR := (arithR eps tiny).
  Variables (o : fl) (sp : sptl) (tp : tmprl).
  Variable d : dim.
  Variable x : idx.
  Variable env : arr -> idx -> R.
  Notation E e := (evd AR env e x).
  Notation L a := (lc d x (env a)).

  Lemma f_bin op u v : E (Bin op u v) = abin AR op (E u) (E v).
  Proof. reflexivity. Qed.
  Lemma f_un op u : E (Un op u) = aun AR op (E u).
  Proof. reflexivity. Qed.
  Lemma f_q n : E (q n) = IZR n.
  Proof. unfold q. cbn. apply div1. Qed.
  Lemma f_qq n k : E (qq n k) = IZR n / IZR (Zpos k).
  Proof. reflexivity. Qed.
  Lemma f_abs u : E (sabs u) = Rabs (E u).
  Proof. reflexivity. Qed.
  Lemma f_v u i j : E (V2 d u i j) = L u i j.
  Proof. reflexivity. Qed.
  Lemma f_p u i j : E (P2 d u i j) = L u i j.
  Proof. reflexivity. Qed.
  Ltac ev := repeat first [rewrite f_q | rewrite f_qq | rewrite f_abs | rewrite f_v | rewrite f_p | rewrite f_bin | rewrite f_un];
    cbn [arithR abin aun]; try change (car AR) with R.

  Lemma f_pa u i j : E (pa2 o d u i j) = pp o (L u) i j.
  Proof. unfold pa2, pp, paR. destruct (oabs o); reflexivity. Qed.
  Lemma f_g i j : E (G2 o d i j) = gg o (L Gf) i j.
  Proof.
    unfold G2, Gx, gg. destruct (nug o); [|apply f_q]. rewrite f_bin, f_q. cbn [arithR abin].
    rewrite Rplus_0_r. reflexivity.
  Qed.
  Lemma f_gb i j : E (G_bar_x2 o d i j) = gbx o (L Gf) i j.
  Proof. unfold G_bar_x2, gbx. destruct (nug o) eqn:En; ev; [|reflexivity]. rewrite !f_g. unfold gg. rewrite En. reflexivity. Qed.
  Lemma f_gbxy i j : E (G_bar_xy2 o d i j) = gbxy o (L Gf) i j.
  Proof. unfold G_bar_xy2, gbxy. destruct (nug o) eqn:En; ev; [|reflexivity]. rewrite !f_g. unfold gg. rewrite En. reflexivity. Qed.
  Lemma f_frac u v : E (frac o u v) = fracR o tiny (E u) (E v).
  Proof.
    unfold frac, fracR. destruct (pfc o); [|reflexivity].
    change (E (Ite Ne v (q 0) (Bin Div u v) (q 0))) with
      (if (if Req_EM_T (E v) (E (q 0)) then false else true) then E u / E v else E (q 0)).
    rewrite f_q. destruct (Req_EM_T (E v) 0); reflexivity.
  Qed.
  Ltac two := replace (1 + 1 + 1 + 1 + 1 + 1 + 1 + 1) with 8 by lra; replace (1 + 1 + 1 + 1 + 1 + 1) with 6 by lra; replace (1 + 1 + 1 + 1) with 4 by lra; replace (1 + 1) with 2 by lra.
  Lemma f_pbx u i j : E (psi_bar_x2 o d u i j) = pbx o (L u) i j.
  Proof. unfold psi_bar_x2, pbx. ev. rewrite !f_pa. reflexivity. Qed.
  Lemma f_pby u i j : E (psi_bar_y2 o d u i j) = pby o (L u) i j.
  Proof. unfold psi_bar_y2, pby. ev. rewrite !f_pa. reflexivity. Qed.
  Lemma f_pbxy u i j : E (psi_bar_xy2 o d u i j) = pbxy o (L u) i j.
  Proof. unfold psi_bar_xy2, pbxy. ev. rewrite !f_pa. reflexivity. Qed.
  Lemma f_ndx u i j : E (ndx_psi2 o d u i j) = Ndx o tiny (L u) i j.
  Proof. unfold ndx_psi2, Ndx. destruct (iga o); ev; rewrite ?f_frac; ev; rewrite ?f_pa; two; [|reflexivity]. field. Qed.
  Lemma f_ndy u i j : E (ndy_psi2 o d u i j) = Ndy o tiny (L u) i j.
  Proof. unfold ndy_psi2, Ndy. destruct (iga o); ev; rewrite ?f_frac; ev; rewrite ?f_pa; two; reflexivity. Qed.
  Lemma f_ndxx u i j : E (ndxx_psi2 o d u i j) = Ndxx o tiny (L u) i j.
  Proof. unfold ndxx_psi2, Ndxx. destruct (iga o); ev; rewrite ?f_frac; ev; rewrite ?f_pa; two; [|reflexivity]. field. Qed.
  Lemma f_ndxy u i j : E (ndxy_psi2 o d u i j) = Ndxy o tiny (L u) i j.
  Proof. unfold ndxy_psi2, Ndxy. destruct (iga o); ev; rewrite ?f_frac; ev; rewrite ?f_pa; two; [|reflexivity]. field. Qed.
  Lemma f_ndxxx u i j : E (ndxxx_psi2 d u i j) = Ndxxx (L u) i j.
  Proof. unfold ndxxx_psi2, Ndxxx. ev. two. reflexivity. Qed.
  Lemma f_ndxxy u i j : E (ndxxy_psi2 d u i j) = Ndxxy (L u) i j.
  Proof. unfold ndxxy_psi2, Ndxxy. ev. two. reflexivity. Qed.
  Lemma f_ndxyy u i j : E (ndxyy_psi2 d u i j) = Ndxyy (L u) i j.
  Proof. unfold ndxyy_psi2, Ndxyy. ev. two. reflexivity. Qed.
  Lemma f_abx u i j : E (GC0_bar_x2 d u i j) = abx (L u) i j.
  Proof. unfold GC0_bar_x2, abx. ev. reflexivity. Qed.
  Lemma f_abxy u i j : E (GC0_bar_xy2 d u i j) = abxy (L u) i j.
  Proof. unfold GC0_bar_xy2, abxy. ev. reflexivity. Qed.
  Lemma f_bbx u i j : E (GC1_bar_x2 d u i j) = bbx (L u) i j.
  Proof. unfold GC1_bar_x2, bbx. ev. reflexivity. Qed.
  Lemma f_bbxy u i j : E (GC1_bar_xy2 d u i j) = bbxy (L u) i j.
  Proof. unfold GC1_bar_xy2, bbxy. ev. reflexivity. Qed.
  Lemma f_nda u i j : E (ndx_GC02 d u i j) = Nda (L u) i j.
  Proof. unfold ndx_GC02, Nda. ev. reflexivity. Qed.
  Lemma f_six u i j : E (six o d u i j) = Six o (L u) i j.
  Proof. unfold six, Six. ev. rewrite !f_pa. reflexivity. Qed.
  Lemma f_eight u i j : E (eight o d u i j) = Eight o (L u) i j.
  Proof. unfold eight, Eight. ev. rewrite !f_pa. reflexivity. Qed.

  Variables (psi psin : arr) (gc ndt ndtt : dim -> arr).
  Notation p := (L psi).
  Notation n := (L psin).
  Notation a := (L (gc d)).
  Notation b := (L (gc (od d))).
  Lemma f_fcen i j : E (fdiv_centre2 o d psi gc i j) = Fcen o (L Gf) p a b i j.
  Proof. unfold fdiv_centre2, Fcen. ev. rewrite ?f_pbx, ?f_pby, ?f_g. reflexivity. Qed.
  Lemma f_fcor i j : E (fdiv_corner_xy2 o d psi gc i j) = Fcor o (L Gf) p a b i j.
  Proof. unfold fdiv_corner_xy2, Fcor. ev. rewrite ?f_pbx, ?f_pby, ?f_gbxy, ?f_abxy, ?f_bbxy. reflexivity. Qed.
  Lemma f_nfd v i j : E (nfdiv2 o d psi v i j) = Nfd o tiny (L Gf) p (L (v d)) (L (v (od d))) i j.
  Proof.
    unfold nfdiv2, Nfd. destruct (iga o); ev; rewrite ?f_frac; ev; rewrite ?f_abx, ?f_bbx, ?f_pa, ?f_gb, ?f_pbxy, ?f_six; reflexivity.
  Qed.
  Lemma f_nff i j : E (nfdiv_fdiv2 o d psi gc i j) = Nff o tiny (L Gf) p a b i j.
  Proof.
    unfold nfdiv_fdiv2, Nff. destruct (iga o); ev; rewrite ?f_frac; ev; rewrite ?f_abx, ?f_bbx, ?f_fcen, ?f_fcor, ?f_gb, ?f_eight; reflexivity.
  Qed.
  Lemma f_nxf i j : E (ndx_fdiv2 o d psi gc i j) = Nxf o tiny (L Gf) p a b i j.
  Proof. unfold ndx_fdiv2, Nxf. destruct (iga o); ev; rewrite ?f_frac; ev; rewrite ?f_fcen, ?f_eight; reflexivity. Qed.
  Lemma f_nfdt i j : E (nfdiv_dt2 o d psi psin gc i j) = Nfdt o tiny (L Gf) p n a b i j.
  Proof.
    unfold nfdiv_dt2, Nfdt. destruct (iga o); ev; rewrite ?f_frac; ev; rewrite ?f_abx, ?f_bbx, ?f_pa, ?f_gb, ?f_pbxy, ?f_six; [reflexivity|].
    f_equal. f_equal. f_equal. unfold Six. toR. ring.
  Qed.
  Lemma f_ntx i j : E (ndtx_psi2 o d psi psin i j) = Ntx o tiny p n i j.
  Proof. unfold ndtx_psi2, Ntx. destruct (iga o); ev; rewrite ?f_frac; ev; rewrite ?f_pa; reflexivity. Qed.
  Lemma f_nt i j : E (ndt_psi2 o d psi psin i j) = Nt o tiny p n i j.
  Proof. unfold ndt_psi2, Nt. destruct (iga o); ev; rewrite ?f_frac; ev; rewrite ?f_pa; reflexivity. Qed.
  Lemma f_pow2 u : E (pow2 u) = E u * E u.
  Proof. reflexivity. Qed.
  Lemma f_pow3 u : E (pow3 u) = E u * E u * E u.
  Proof. reflexivity. Qed.
  Lemma f_pow4 u : E (pow4 u) = E u * E u * E u * E u.
  Proof. reflexivity. Qed.
  Ltac pw := rewrite ?f_pow2, ?f_pow3, ?f_pow4.
  Lemma f_tot : E (TOT2 o d psi gc 0 0) = Tot o tiny (L Gf) p a b.
  Proof.
    unfold TOT2, Tot, ndxx_psi_coeff2, ndxy_psi_coeff2. destruct (tot o); [|apply f_q].
    ev; pw; ev. rewrite ?f_ndxx, ?f_ndxy, ?f_gb, ?f_bbxy. reflexivity.
  Qed.
  Lemma f_fot : E (FOT2 o d psi gc 0 0) = Fot o (L Gf) p a b.
  Proof.
    unfold FOT2, Fot, ndxxx_psi_coeff2, ndxxy_psi_coeff2, ndxyy_psi_coeff2. destruct (fot o); [|apply f_q].
    ev; pw; ev. rewrite ?f_ndxxx, ?f_ndxxy, ?f_ndxyy, ?f_gb, ?f_bbxy. reflexivity.
  Qed.
  Lemma f_dfl : E (DFL2 o d psi gc 0 0) = Dfl o (L Gf) p a b.
  Proof.
    unfold DFL2, Dfl. destruct (dfl o); [|apply f_q]. destruct (iga o); ev; rewrite ?f_gb, ?f_pbx; reflexivity.
  Qed.
  Lemma f_d2 : E (div_2nd2 o d psi gc 0 0) = D2 o tiny (L Gf) p a b.
  Proof. unfold div_2nd2, D2. ev. rewrite f_ndx, f_nfd. reflexivity. Qed.
  Lemma f_u3 : E (div_3rd_upwind2 o d psi gc 0 0) = U3 o tiny (L Gf) p a b.
  Proof. unfold div_3rd_upwind2, U3. destruct (iga o); ev; rewrite ?f_d2, ?f_ndx; reflexivity. Qed.
  Lemma f_xxa : E (ndxx_GC02 o d psi (gc d) 0 0) = Nxxa o p a.
  Proof. unfold ndxx_GC02, Nxxa. destruct (iga o); ev; rewrite ?f_pbx; reflexivity. Qed.
  Lemma f_tt : E (ndtt_GC02 o d psi (ndtt d) 0 0) = Ntt o p (L (ndtt d)).
  Proof. unfold ndtt_GC02, Ntt. destruct (iga o); ev; rewrite ?f_pbx; [reflexivity|]. apply Rplus_0_r. Qed.
  Lemma f_s3 : E (div_3rd_spatial2 o sp d psi gc 0 0) = S3 o sp tiny p a.
  Proof.
    unfold div_3rd_spatial2, S3, div_3rd_spatial_helper2, Sp. ev. rewrite ?f_ndxx, ?f_ndx, ?f_nda.
    destruct sp; ev; rewrite ?f_xxa; reflexivity.
  Qed.
  Lemma f_tp : E (div_3rd_temporal2 o tp d psi ndtt 0 0) = Tp o tp p (L (ndtt d)).
  Proof. unfold div_3rd_temporal2, Tp. destruct tp; ev; rewrite ?f_tt; reflexivity. Qed.
  Lemma f_d3 : E (div_3rd2 o sp tp d psi psin gc ndt ndtt 0 0) =
    D3 o sp tp tiny (L Gf) p n a b (L (ndt d)) (L (ndt (od d))) (L (ndtt d)).
  Proof.
    unfold div_3rd2, D3. destruct (div3 o); [|destruct (div3dt o); [|apply f_q]];
      ev; rewrite ?f_u3, ?f_s3, ?f_nxf, ?f_nff, ?f_tp, ?f_nfd, ?f_ntx, ?f_nfdt, ?f_tt, ?f_nt; reflexivity.
  Qed.
  Lemma f_anti : E (antidiff2 o sp tp d psi psin gc ndt ndtt 0 0) =
    A2 o sp tp tiny (L Gf) p n a b (L (ndt d)) (L (ndt (od d))) (L (ndtt d)).
  Proof.
    unfold antidiff2, A2. destruct (div2 o); ev; rewrite ?f_d2, ?f_d3, ?f_fot, ?f_gb, ?f_bbxy, ?f_ndx, ?f_ndy, ?f_tot, ?f_dfl; reflexivity.
  Qed.
End Eval.

Theorem antiN_R2 eps tiny o sp tp (psi psin : idx -> R) C G N T d x :
  antiN (arithR eps tiny) (forms2 o sp tp) psi psin C G N T d x =
  A2 o sp tp tiny (lc d x G) (lc d x psi) (lc d x psin) (lc d x (C d)) (lc d x (C (od d)))
     (lc d x (N d)) (lc d x (N (od d))) (lc d x (T d)).
Proof. unfold antiN, forms2, f_antidiff. rewrite f_anti. reflexivity. Qed.
