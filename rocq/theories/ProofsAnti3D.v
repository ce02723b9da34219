(** The antidiffusive velocity of the 3D solver over the reals. *)
From Coq Require Import ZArith List Bool Lia ZifyBool Reals Lra.
From Verif Require Import ModelRun Lang ProofsLang Stencil FormCommon Form3D Solver1D Solver3D Fun1D FunN Arith SpecReal
  ProofsReal1D ProofsAnti1D ProofsFunN ProofsPerN ProofsNumN.
Import ListNotations.
Local Open Scope R_scope.

(** ** Closed form, in coordinates along the face normal and along the two next
    dimensions; [p], [n]: the field and that of the previous pass, [a]: the
    advector component along, [b], [c]: across, [G], time derivatives [na],
    [nb], [nc], [ta] *)
Section Closed.
  Variables (o : fl) (sp : sptl) (tp : tmprl) (tiny : R).
  Notation fracR := (fracR o tiny).
  Notation loc3 := (Z -> Z -> Z -> R).
  Section P.
    Variable p : loc3.
    Definition pp (i j k : Z) : R := paR o (p i j k).
    Definition pbx (i j k : Z) : R := (pp (i + 1) j k + pp i j k) / 2.
    Definition pby (i j k : Z) : R := (pp i j k + pp i (j + 1) k) / 2.
    Definition pbz (i j k : Z) : R := (pp i j k + pp i j (k + 1)) / 2.
    Definition pbxy (i j k : Z) : R := (pp (i + 1) j k + pp i j k + pp i (j + 1) k + pp (i + 1) (j + 1) k) / 4.
    Definition pbxz (i j k : Z) : R := (pp (i + 1) j k + pp i j k + pp i j (k + 1) + pp (i + 1) j (k + 1)) / 4.
    Definition pbxyz (i j k : Z) : R :=
      (pp i j k + pp (i + 1) j k + pp i (j + 1) k + pp i j (k + 1)
       + pp (i + 1) (j + 1) k + pp (i + 1) j (k + 1) + pp i (j + 1) (k + 1) + pp (i + 1) (j + 1) (k + 1)) / 8.
    Definition Ndx (i j k : Z) : R :=
      if iga o then p (i + 1)%Z j k - p i j k else 2 * fracR (pp (i + 1) j k - pp i j k) (pp (i + 1) j k + pp i j k).
    Definition Ndy (i j k : Z) : R :=
      if iga o then (p (i + 1)%Z (j + 1)%Z k + p i (j + 1)%Z k - p (i + 1)%Z (j - 1)%Z k - p i (j - 1)%Z k) / 4
      else fracR (pp (i + 1) (j + 1) k + pp i (j + 1) k - pp (i + 1) (j - 1) k - pp i (j - 1) k)
                 (pp (i + 1) (j + 1) k + pp i (j + 1) k + pp (i + 1) (j - 1) k + pp i (j - 1) k).
    Definition Ndz (i j k : Z) : R :=
      if iga o then (p (i + 1)%Z j (k + 1)%Z + p i j (k + 1)%Z - p (i + 1)%Z j (k - 1)%Z - p i j (k - 1)%Z) / 4
      else fracR (pp (i + 1) j (k + 1) + pp i j (k + 1) - pp (i + 1) j (k - 1) - pp i j (k - 1))
                 (pp (i + 1) j (k + 1) + pp i j (k + 1) + pp (i + 1) j (k - 1) + pp i j (k - 1)).
    Definition Ndxx (i j k : Z) : R :=
      if iga o then (p (i + 2)%Z j k - p (i + 1)%Z j k - p i j k + p (i - 1)%Z j k) / 2
      else 2 * fracR (pp (i + 2) j k - pp (i + 1) j k - pp i j k + pp (i - 1) j k)
                     (pp (i + 2) j k + pp (i + 1) j k + pp i j k + pp (i - 1) j k).
    Definition Ndxy (i j k : Z) : R :=
      if iga o then (p (i + 1)%Z (j + 1)%Z k - p i (j + 1)%Z k - p (i + 1)%Z (j - 1)%Z k + p i (j - 1)%Z k) / 2
      else 2 * fracR (pp (i + 1) (j + 1) k - pp i (j + 1) k - pp (i + 1) (j - 1) k + pp i (j - 1) k)
                     (pp (i + 1) (j + 1) k + pp i (j + 1) k + pp (i + 1) (j - 1) k + pp i (j - 1) k).
    Definition Ndxz (i j k : Z) : R :=
      if iga o then (p (i + 1)%Z j (k + 1)%Z - p i j (k + 1)%Z - p (i + 1)%Z j (k - 1)%Z + p i j (k - 1)%Z) / 2
      else 2 * fracR (pp (i + 1) j (k + 1) - pp i j (k + 1) - pp (i + 1) j (k - 1) + pp i j (k - 1))
                     (pp (i + 1) j (k + 1) + pp i j (k + 1) + pp (i + 1) j (k - 1) + pp i j (k - 1)).
    Definition Ndyz (i j k : Z) : R :=
      let nom (P : loc3) :=
        P (i+1)%Z (j+1)%Z (k+1)%Z + P (i+1)%Z (j-1)%Z (k-1)%Z - P (i+1)%Z (j+1)%Z (k-1)%Z - P (i+1)%Z (j-1)%Z (k+1)%Z
         + P i (j+1)%Z (k+1)%Z + P i (j-1)%Z (k-1)%Z - P i (j+1)%Z (k-1)%Z - P i (j-1)%Z (k+1)%Z in
      let den (P : loc3) :=
        P (i+1)%Z (j+1)%Z (k+1)%Z + P (i+1)%Z (j-1)%Z (k-1)%Z + P (i+1)%Z (j+1)%Z (k-1)%Z + P (i+1)%Z (j-1)%Z (k+1)%Z
         + P i (j+1)%Z (k+1)%Z + P i (j-1)%Z (k-1)%Z + P i (j+1)%Z (k-1)%Z + P i (j-1)%Z (k+1)%Z in
      if iga o then nom p / 8 else fracR (nom pp) (den pp).
    Definition Ten (i j k : Z) : R :=
      pp (i+1) j k + pp i j k + pp i (j+1) k + pp (i+1) (j+1) k + pp i (j-1) k + pp (i+1) (j-1) k
      + pp (i+1) j (k+1) + pp (i+1) j (k-1) + pp i j (k-1) + pp i j (k+1).
    Definition Twelve (i j k : Z) : R :=
      pp (i+2) j k + pp (i+1) j k + pp i j k + pp (i-1) j k + pp i (j+1) k + pp i (j-1) k + pp (i+1) (j+1) k + pp (i+1) (j-1) k
      + pp i j (k+1) + pp i j (k-1) + pp (i+1) j (k+1) + pp (i+1) j (k-1).
  End P.
  Variable G : loc3.
  Definition gg (i j k : Z) : R := if nug o then G i j k else 1.
  Definition gbx (i j k : Z) : R := if nug o then (G (i + 1)%Z j k + G i j k) / 2 else 1.
  Definition gbxy (i j k : Z) : R :=
    if nug o then (G i j k + G i (j + 1)%Z k + G (i + 1)%Z j k + G (i + 1)%Z (j + 1)%Z k) / 4 else 1.
  Definition gbxz (i j k : Z) : R :=
    if nug o then (G i j k + G i j (k + 1)%Z + G (i + 1)%Z j k + G (i + 1)%Z j (k + 1)%Z) / 4 else 1.

  Section A.
    Variables a b c : loc3.
    Definition abx (i j k : Z) : R := (a i j k + a (i - 1)%Z j k) / 2.
    Definition abxy (i j k : Z) : R := (a i j k + a (i - 1)%Z j k + a i (j + 1)%Z k + a (i - 1)%Z (j + 1)%Z k) / 4.
    Definition abxz (i j k : Z) : R := (a i j k + a (i - 1)%Z j k + a i j (k + 1)%Z + a (i - 1)%Z j (k + 1)%Z) / 4.
    Definition bbx (i j k : Z) : R := (b (i + 1)%Z j k + b i j k) / 2.
    Definition bbxy (i j k : Z) : R := (b (i + 1)%Z j k + b i j k + b (i + 1)%Z (j - 1)%Z k + b i (j - 1)%Z k) / 4.
    Definition bbxz (i j k : Z) : R := (b (i + 1)%Z j k + b (i + 1)%Z j (k + 1)%Z + b i j k + b i j (k + 1)%Z) / 4.
    Definition cbx (i j k : Z) : R := (c (i + 1)%Z j k + c i j k) / 2.
    Definition cbxz (i j k : Z) : R := (c (i + 1)%Z j k + c i j k + c (i + 1)%Z j (k - 1)%Z + c i j (k - 1)%Z) / 4.
    Definition cbxy (i j k : Z) : R := (c (i + 1)%Z (j + 1)%Z k + c i (j + 1)%Z k + c (i + 1)%Z j k + c i j k) / 4.
    Definition Nda (i j k : Z) : R := (a (i + 1)%Z j k - a (i - 1)%Z j k) / 2.
  End A.

  Section Adv.
    Variables (p n a b c na nb nc ta : loc3).
    Definition Fcen (i j k : Z) : R :=
      (a i j k * pbx p i j k - a (i - 1)%Z j k * pbx p (i - 1) j k
       + b i j k * pby p i j k - b i (j - 1)%Z k * pby p i (j - 1) k
       + c i j k * pbz p i j k - c i j (k - 1)%Z * pbz p i j (k - 1)) / gg i j k.
    Definition Fcxy (i j k : Z) : R :=
      (abxy a (i + 1) j k * pby p (i + 1) j k - abxy a i j k * pby p i j k
       + bbxy b i (j + 1) k * pbx p i (j + 1) k - bbxy b i j k * pbx p i j k
       + cbxy c i j k * pbxyz p i j k - cbxy c i j (k - 1) * pbxyz p i j (k - 1)) / gbxy i j k.
    Definition Fcxz (i j k : Z) : R :=
      (abxz a (i + 1) j k * pbz p (i + 1) j k - abxz a i j k * pbz p i j k
       + bbxz b i j k * pbxyz p i j k - bbxz b i (j - 1) k * pbxyz p i (j - 1) k
       + cbxz c i j (k + 1) * pbx p i j (k + 1) - cbxz c i j k * pbx p i j k) / gbxz i j k.
    Definition Nfd (a b c : loc3) (i j k : Z) : R :=
      let nom := abx a (i + 1) j k * pp p (i + 1) j k - abx a i j k * pp p i j k
                 + bbx b i j k * pbxy p i j k - bbx b i (j - 1) k * pbxy p i (j - 1) k
                 + cbx c i j k * pbxz p i j k - cbx c i j (k - 1) * pbxz p i j (k - 1) in
      if iga o then nom / gbx i j k else 10 * fracR nom (gbx i j k * Ten p i j k).
    Definition Nff (i j k : Z) : R :=
      let nom := abx a (i + 1) j k * Fcen (i + 1) j k - abx a i j k * Fcen i j k
                 + bbx b i j k * Fcxy i j k - bbx b i (j - 1) k * Fcxy i (j - 1) k
                 + cbx c i j k * Fcxz i j k - cbx c i j (k - 1) * Fcxz i j (k - 1) in
      if iga o then nom / gbx i j k else 12 * fracR nom (gbx i j k * Twelve p i j k).
    Definition Nxf (i j k : Z) : R :=
      let nom := Fcen (i + 1) j k - Fcen i j k in if iga o then nom else 12 * fracR nom (Twelve p i j k).
    Definition Nfdt (i j k : Z) : R :=
      let nom := abx a (i + 1) j k * (pp p (i + 1) j k - pp n (i + 1) j k) - abx a i j k * (pp p i j k - pp n i j k)
                 + bbx b i j k * (pbxy p i j k - pbxy n i j k) - bbx b i (j - 1) k * (pbxy p i (j - 1) k - pbxy n i (j - 1) k)
                 + cbx c i j k * (pbxz p i j k - pbxz n i j k) - cbx c i j (k - 1) * (pbxz p i j (k - 1) - pbxz n i j (k - 1)) in
      if iga o then nom / gbx i j k else 20 * fracR nom (gbx i j k * (Ten p i j k + Ten n i j k)).
    Definition Ntx (i j k : Z) : R :=
      if iga o then p (i + 1)%Z j k - n (i + 1)%Z j k - p i j k + n i j k
      else 4 * fracR (pp p (i + 1) j k - pp n (i + 1) j k - pp p i j k + pp n i j k)
                     (pp p (i + 1) j k + pp n (i + 1) j k + pp p i j k + pp n i j k).
    Definition Nt (i j k : Z) : R :=
      if iga o then (p (i + 1)%Z j k - n (i + 1)%Z j k + p i j k - n i j k) / 2
      else 2 * fracR (pp p (i + 1) j k - pp n (i + 1) j k + pp p i j k - pp n i j k)
                     (pp p (i + 1) j k + pp n (i + 1) j k + pp p i j k + pp n i j k).
    Notation a0 := (a 0%Z 0%Z 0%Z).
    Notation g0 := (gbx 0 0 0).
    Notation b0 := (bbxy b 0 0 0).
    Notation c0 := (cbxz c 0 0 0).
    Definition Tot : R :=
      if tot o then
        Ndxx p 0 0 0 * ((3 * a0 * Rabs a0 / g0 - 2 * (a0 * a0 * a0) / (g0 * g0) - a0) / 6)
        + Ndxy p 0 0 0 * ((Rabs a0 - 2 * (a0 * a0) / g0) * b0 / (2 * g0))
        + Ndxz p 0 0 0 * ((Rabs a0 - 2 * (a0 * a0) / g0) * c0 / (2 * g0))
        + Ndyz p 0 0 0 * (- 2 * a0 * b0 * c0 / 3 / (g0 * g0))
      else 0.
    Definition Dfl : R :=
      if dfl o then
        let v := - (1 / 4) * a0 / g0 * ((a 1%Z 0%Z 0%Z - a (-1)%Z 0%Z 0%Z)
                   + (b 1%Z 0%Z 0%Z + b 0%Z 0%Z 0%Z - b 1%Z (-1)%Z 0%Z - b 0%Z (-1)%Z 0%Z)
                   + (c 1%Z 0%Z 0%Z + c 0%Z 0%Z 0%Z - c 1%Z 0%Z (-1)%Z - c 0%Z 0%Z (-1)%Z)) in
        if iga o then v * pbx p 0 0 0 else v
      else 0.
    Definition D2 : R := Rabs a0 / 2 * Ndx p 0 0 0 - a0 / 2 * Nfd a b c 0 0 0.
    Definition U3 : R := if iga o then 0 else Rabs D2 / 2 * Ndx p 0 0 0.
    Definition Nxxa : R := let v := a 1%Z 0%Z 0%Z + a (-1)%Z 0%Z 0%Z - 2 * a0 in if iga o then v * pbx p 0 0 0 else v.
    Definition Ntt : R := if iga o then ta 0%Z 0%Z 0%Z * pbx p 0 0 0 else ta 0%Z 0%Z 0%Z.
    Definition Sp : R := match sp with exact => Nxxa | aver2 => 4 * Nxxa | aver4 => 0 end.
    Definition Tp : R := match tp with noextrp => Ntt | linear2 => 10 * Ntt end.
    Definition S3 : R := - (1 / 24) * (4 * a0 * Ndxx p 0 0 0 + 2 * Ndx p 0 0 0 * Nda a 0 0 0 + Sp).
    Definition D3 : R :=
      if div3 o then
        U3 + S3 + 1 / 2 * Rabs a0 * Nxf 0 0 0
        + 1 / 24 * (- 8 * a0 * Nff 0 0 0 + Tp + 2 * a0 * Nfd na nb nc 0 0 0 - 2 * na 0%Z 0%Z 0%Z * Nfd a b c 0 0 0)
      else if div3dt o then
        U3 + S3 - 1 / 2 * Rabs a0 * Ntx 0 0 0
        + 1 / 24 * (8 * a0 * Nfdt 0 0 0 + Tp + 2 * a0 * Nfd na nb nc 0 0 0 + 2 * na 0%Z 0%Z 0%Z * Nt 0 0 0)
      else 0.
    Definition A3 : R :=
      if div2 o then D2 + D3
      else Rabs a0 / 2 * (1 - Rabs a0 / g0) * Ndx p 0 0 0 - a0 / 2 * (b0 * Ndy p 0 0 0 + c0 * Ndz p 0 0 0) / g0 + Tot + Dfl.
  End Adv.
End Closed.

(** local coordinates at the face to the right of [x] in direction [d] *)
Definition lc3 {T} (d : dim) (x : idx) (f : idx -> T) (i j k : Z) : T := f (iadd x (x3 d i j k)).

Section Eval.
  Variables eps tiny : R.
  Notation AR := (arithR eps tiny).
  Variables (o : fl) (sp : sptl) (tp : tmprl).
  Variable d : dim.
  Variable x : idx.
  Variable env : arr -> idx -> R.
  Notation E e := (evd AR env e x).
  Notation L a := (lc3 d x (env a)).

  Lemma f_bin op u v : E (Bin op u v) = abin AR op (E u) (E v).
  Proof. reflexivity. Qed.
  Lemma f_un op u : E (Un op u) = aun AR op (E u).
  Proof. reflexivity. Qed.
  Lemma f_q n : E (q n) = IZR n.
  Proof. unfold q. cbn. apply div1. Qed.
  Lemma f_qq n k : E (qq n k) = IZR n / IZR (Zpos k).
  Proof. reflexivity. Qed.
  Lemma f_abs u : E (sabs u) = Rabs (E u).
  Proof. reflexivity. Qed.
  Lemma f_v u i j k : E (V3 d u i j k) = L u i j k.
  Proof. reflexivity. Qed.
  Lemma f_p u i j k : E (P3 d u i j k) = L u i j k.
  Proof. reflexivity. Qed.
  Ltac ev := repeat first [rewrite f_q | rewrite f_qq | rewrite f_abs | rewrite f_v | rewrite f_p | rewrite f_bin | rewrite f_un];
    cbn [arithR abin aun]; try change (car AR) with R.

  Lemma f_pa u i j k : E (pa3 o d u i j k) = pp o (L u) i j k.
  Proof. unfold pa3, pp, paR. destruct (oabs o); reflexivity. Qed.
  Lemma f_g i j k : E (G3 o d i j k) = gg o (L Gf) i j k.
  Proof.
    unfold G3, Gx, gg. destruct (nug o); [|apply f_q]. rewrite f_bin, f_q. cbn [arithR abin].
    rewrite Rplus_0_r. reflexivity.
  Qed.
  Lemma f_gb i j k : E (G_bar_x3 o d i j k) = gbx o (L Gf) i j k.
  Proof. unfold G_bar_x3, gbx. destruct (nug o) eqn:En; ev; [|reflexivity]. rewrite !f_g. unfold gg. rewrite En. reflexivity. Qed.
  Lemma f_gbxy i j k : E (G_bar_xy3 o d i j k) = gbxy o (L Gf) i j k.
  Proof. unfold G_bar_xy3, gbxy. destruct (nug o) eqn:En; ev; [|reflexivity]. rewrite !f_g. unfold gg. rewrite En. reflexivity. Qed.
  Lemma f_gbxz i j k : E (G_bar_xz3 o d i j k) = gbxz o (L Gf) i j k.
  Proof. unfold G_bar_xz3, gbxz. destruct (nug o) eqn:En; ev; [|reflexivity]. rewrite !f_g. unfold gg. rewrite En. reflexivity. Qed.
  Lemma f_frac u v : E (frac o u v) = fracR o tiny (E u) (E v).
  Proof.
    unfold frac, fracR. destruct (pfc o); [|reflexivity].
    change (E (Ite Ne v (q 0) (Bin Div u v) (q 0))) with
      (if (if Req_EM_T (E v) (E (q 0)) then false else true) then E u / E v else E (q 0)).
    rewrite f_q. destruct (Req_EM_T (E v) 0); reflexivity.
  Qed.
  Ltac two := replace (1 + 1 + 1 + 1 + 1 + 1 + 1 + 1) with 8 by lra.
  Lemma f_pbx u i j k : E (psi_bar_x3 o d u i j k) = pbx o (L u) i j k.
  Proof. unfold psi_bar_x3, pbx. ev. rewrite !f_pa. reflexivity. Qed.
  Lemma f_pby u i j k : E (psi_bar_y3 o d u i j k) = pby o (L u) i j k.
  Proof. unfold psi_bar_y3, pby. ev. rewrite !f_pa. reflexivity. Qed.
  Lemma f_pbz u i j k : E (psi_bar_z3 o d u i j k) = pbz o (L u) i j k.
  Proof. unfold psi_bar_z3, pbz. ev. rewrite !f_pa. reflexivity. Qed.
  Lemma f_pbxy u i j k : E (psi_bar_xy3 o d u i j k) = pbxy o (L u) i j k.
  Proof. unfold psi_bar_xy3, pbxy. ev. rewrite !f_pa. reflexivity. Qed.
  Lemma f_pbxz u i j k : E (psi_bar_xz3 o d u i j k) = pbxz o (L u) i j k.
  Proof. unfold psi_bar_xz3, pbxz. ev. rewrite !f_pa. reflexivity. Qed.
  Lemma f_pbxyz u i j k : E (psi_bar_xyz3 o d u i j k) = pbxyz o (L u) i j k.
  Proof. unfold psi_bar_xyz3, pbxyz. ev. rewrite !f_pa. reflexivity. Qed.
  Lemma f_ndx u i j k : E (ndx_psi3 o d u i j k) = Ndx o tiny (L u) i j k.
  Proof. unfold ndx_psi3, Ndx. destruct (iga o); ev; rewrite ?f_frac; ev; rewrite ?f_pa; [|reflexivity]; field. Qed.
  Lemma f_ndy u i j k : E (ndy_psi3 o d u i j k) = Ndy o tiny (L u) i j k.
  Proof. unfold ndy_psi3, Ndy. destruct (iga o); ev; rewrite ?f_frac; ev; rewrite ?f_pa; [|reflexivity]; field. Qed.
  Lemma f_ndz u i j k : E (ndz_psi3 o d u i j k) = Ndz o tiny (L u) i j k.
  Proof. unfold ndz_psi3, Ndz. destruct (iga o); ev; rewrite ?f_frac; ev; rewrite ?f_pa; [|reflexivity]; field. Qed.
  Lemma f_ndxx u i j k : E (ndxx_psi3 o d u i j k) = Ndxx o tiny (L u) i j k.
  Proof. unfold ndxx_psi3, Ndxx. destruct (iga o); ev; rewrite ?f_frac; ev; rewrite ?f_pa; [|reflexivity]; field. Qed.
  Lemma f_ndxy u i j k : E (ndxy_psi3 o d u i j k) = Ndxy o tiny (L u) i j k.
  Proof. unfold ndxy_psi3, Ndxy. destruct (iga o); ev; rewrite ?f_frac; ev; rewrite ?f_pa; [|reflexivity]; field. Qed.
  Lemma f_ndxz u i j k : E (ndxz_psi3 o d u i j k) = Ndxz o tiny (L u) i j k.
  Proof. unfold ndxz_psi3, Ndxz. destruct (iga o); ev; rewrite ?f_frac; ev; rewrite ?f_pa; [|reflexivity]; field. Qed.
  Lemma f_ndyz u i j k : E (ndyz_psi3 o d u i j k) = Ndyz o tiny (L u) i j k.
  Proof. unfold ndyz_psi3, Ndyz. cbv zeta. destruct (iga o); ev; rewrite ?f_frac; ev; rewrite ?f_pa; two; reflexivity. Qed.
  Lemma f_abx u i j k : E (GC0_bar_x3 d u i j k) = abx (L u) i j k.
  Proof. unfold GC0_bar_x3, abx. ev. reflexivity. Qed.
  Lemma f_abxy u i j k : E (GC0_bar_xy3 d u i j k) = abxy (L u) i j k.
  Proof. unfold GC0_bar_xy3, abxy. ev. reflexivity. Qed.
  Lemma f_abxz u i j k : E (GC0_bar_xz3 d u i j k) = abxz (L u) i j k.
  Proof. unfold GC0_bar_xz3, abxz. ev. reflexivity. Qed.
  Lemma f_bbx u i j k : E (GC1_bar_x3 d u i j k) = bbx (L u) i j k.
  Proof. unfold GC1_bar_x3, bbx. ev. reflexivity. Qed.
  Lemma f_bbxy u i j k : E (GC1_bar_xy3 d u i j k) = bbxy (L u) i j k.
  Proof. unfold GC1_bar_xy3, bbxy. ev. reflexivity. Qed.
  Lemma f_bbxz u i j k : E (GC1_bar_xz3 d u i j k) = bbxz (L u) i j k.
  Proof. unfold GC1_bar_xz3, bbxz. ev. reflexivity. Qed.
  Lemma f_cbx u i j k : E (GC2_bar_x3 d u i j k) = cbx (L u) i j k.
  Proof. unfold GC2_bar_x3, cbx. ev. reflexivity. Qed.
  Lemma f_cbxz u i j k : E (GC2_bar_xz3 d u i j k) = cbxz (L u) i j k.
  Proof. unfold GC2_bar_xz3, cbxz. ev. reflexivity. Qed.
  Lemma f_cbxy u i j k : E (GC2_bar_xy3 d u i j k) = cbxy (L u) i j k.
  Proof. unfold GC2_bar_xy3, cbxy. ev. reflexivity. Qed.
  Lemma f_nda u i j k : E (ndx_GC03 d u i j k) = Nda (L u) i j k.
  Proof. unfold ndx_GC03, Nda. ev. reflexivity. Qed.
  Lemma f_ten u i j k : E (adds (ten o d u i j k)) = Ten o (L u) i j k.
  Proof. unfold ten, adds, Ten. cbn [fold_left]. ev. rewrite !f_pa. reflexivity. Qed.

  Variables (psi psin : arr) (gc ndt ndtt : dim -> arr).
  Notation p := (L psi).
  Notation n := (L psin).
  Notation a := (L (gc d)).
  Notation b := (L (gc (dp d))).
  Notation c := (L (gc (dm d))).
  Lemma f_twelve i j k : E (twelve o d psi i j k) = Twelve o p i j k.
  Proof. unfold twelve, adds, Twelve. cbn [fold_left]. ev. rewrite !f_pa. reflexivity. Qed.
  Lemma f_twelve' i j k : E (twelve' o d psi i j k) = Twelve o p i j k.
  Proof. unfold twelve', adds, Twelve. cbn [fold_left]. ev. rewrite !f_pa. toR; ring. Qed.
  Lemma f_fcen i j k : E (fdiv_centre3 o d psi gc i j k) = Fcen o (L Gf) p a b c i j k.
  Proof. unfold fdiv_centre3, Fcen. ev. rewrite ?f_pbx, ?f_pby, ?f_pbz, ?f_g. reflexivity. Qed.
  Lemma f_fcxy i j k : E (fdiv_corner_xy3 o d psi gc i j k) = Fcxy o (L Gf) p a b c i j k.
  Proof. unfold fdiv_corner_xy3, Fcxy. ev. rewrite ?f_pbx, ?f_pby, ?f_pbxyz, ?f_gbxy, ?f_abxy, ?f_bbxy, ?f_cbxy. reflexivity. Qed.
  Lemma f_fcxz i j k : E (fdiv_corner_xz3 o d psi gc i j k) = Fcxz o (L Gf) p a b c i j k.
  Proof. unfold fdiv_corner_xz3, Fcxz. ev. rewrite ?f_pbx, ?f_pbz, ?f_pbxyz, ?f_gbxz, ?f_abxz, ?f_bbxz, ?f_cbxz. reflexivity. Qed.
  Lemma f_nfd v i j k : E (nfdiv3 o d psi v i j k) = Nfd o tiny (L Gf) p (L (v d)) (L (v (dp d))) (L (v (dm d))) i j k.
  Proof. unfold nfdiv3, Nfd. cbv zeta. destruct (iga o); ev; rewrite ?f_frac; ev; rewrite ?f_abx, ?f_bbx, ?f_cbx, ?f_pa, ?f_gb, ?f_pbxy, ?f_pbxz, ?f_ten; reflexivity. Qed.
  Lemma f_nff i j k : E (nfdiv_fdiv3 o d psi gc i j k) = Nff o tiny (L Gf) p a b c i j k.
  Proof. unfold nfdiv_fdiv3, Nff. cbv zeta. destruct (iga o); ev; rewrite ?f_frac; ev; rewrite ?f_abx, ?f_bbx, ?f_cbx, ?f_fcen, ?f_fcxy, ?f_fcxz, ?f_gb, ?f_twelve; reflexivity. Qed.
  Lemma f_nxf i j k : E (ndx_fdiv3 o d psi gc i j k) = Nxf o tiny (L Gf) p a b c i j k.
  Proof. unfold ndx_fdiv3, Nxf. cbv zeta. destruct (iga o); ev; rewrite ?f_frac; ev; rewrite ?f_fcen, ?f_twelve'; reflexivity. Qed.
  Lemma f_twenty i j k : E (adds (ten o d psi i j k ++ ten o d psin i j k)) = Ten o p i j k + Ten o n i j k.
  Proof. unfold ten, adds, Ten. cbn [app fold_left]. ev. rewrite !f_pa. toR; ring. Qed.
  Lemma f_nfdt i j k : E (nfdiv_dt3 o d psi psin gc i j k) = Nfdt o tiny (L Gf) p n a b c i j k.
  Proof. unfold nfdiv_dt3, Nfdt. cbv zeta. destruct (iga o); ev; rewrite ?f_frac; ev; rewrite ?f_abx, ?f_bbx, ?f_cbx, ?f_pa, ?f_gb, ?f_pbxy, ?f_pbxz, ?f_twenty; reflexivity. Qed.
  Lemma f_ntx i j k : E (ndtx_psi3 o d psi psin i j k) = Ntx o tiny p n i j k.
  Proof. unfold ndtx_psi3, Ntx. destruct (iga o); ev; rewrite ?f_frac; ev; rewrite ?f_pa; reflexivity. Qed.
  Lemma f_nt i j k : E (ndt_psi3 o d psi psin i j k) = Nt o tiny p n i j k.
  Proof. unfold ndt_psi3, Nt. destruct (iga o); ev; rewrite ?f_frac; ev; rewrite ?f_pa; [|reflexivity]; toR; field. Qed.
  Lemma f_pow2 u : E (pow2 u) = E u * E u.
  Proof. reflexivity. Qed.
  Lemma f_pow3 u : E (pow3 u) = E u * E u * E u.
  Proof. reflexivity. Qed.
  Ltac pw := rewrite ?f_pow2, ?f_pow3.
  Lemma f_tot : E (TOT3 o d psi gc 0 0 0) = Tot o tiny (L Gf) p a b c.
  Proof.
    unfold TOT3, Tot, ndxx_psi_coeff3, ndxy_psi_coeff3, ndxz_psi_coeff3, ndyz_psi_coeff3. destruct (tot o); [|apply f_q].
    ev; pw; ev. rewrite ?f_ndxx, ?f_ndxy, ?f_ndxz, ?f_ndyz, ?f_gb, ?f_bbxy, ?f_cbxz. reflexivity.
  Qed.
  Lemma f_dfl : E (DFL3 o d psi gc 0 0 0) = Dfl o (L Gf) p a b c.
  Proof.
    unfold DFL3, Dfl. destruct (dfl o); [|apply f_q]. cbv zeta. destruct (iga o); ev; rewrite ?f_gb, ?f_pbx; reflexivity.
  Qed.
  Lemma f_d2 : E (div_2nd3 o d psi gc 0 0 0) = D2 o tiny (L Gf) p a b c.
  Proof. unfold div_2nd3, D2. ev. rewrite f_ndx, f_nfd. reflexivity. Qed.
  Lemma f_u3 : E (div_3rd_upwind3 o d psi gc 0 0 0) = U3 o tiny (L Gf) p a b c.
  Proof. unfold div_3rd_upwind3, U3. destruct (iga o); ev; rewrite ?f_d2, ?f_ndx; reflexivity. Qed.
  Lemma f_xxa : E (ndxx_GC03 o d psi (gc d) 0 0 0) = Nxxa o p a.
  Proof. unfold ndxx_GC03, Nxxa. destruct (iga o); ev; rewrite ?f_pbx; reflexivity. Qed.
  Lemma f_tt : E (ndtt_GC03 o d psi (ndtt d) 0 0 0) = Ntt o p (L (ndtt d)).
  Proof. unfold ndtt_GC03, Ntt. destruct (iga o); ev; rewrite ?f_pbx; [reflexivity|]. apply Rplus_0_r. Qed.
  Lemma f_s3 : E (div_3rd_spatial3 o sp d psi gc 0 0 0) = S3 o sp tiny p a.
  Proof.
    unfold div_3rd_spatial3, S3, div_3rd_spatial_helper3, Sp. ev. rewrite ?f_ndxx, ?f_ndx, ?f_nda.
    destruct sp; ev; rewrite ?f_xxa; reflexivity.
  Qed.
  Lemma f_tp : E (div_3rd_temporal3 o tp d psi ndtt 0 0 0) = Tp o tp p (L (ndtt d)).
  Proof. unfold div_3rd_temporal3, Tp. destruct tp; ev; rewrite ?f_tt; reflexivity. Qed.
  Lemma f_d3 : E (div_3rd3 o sp tp d psi psin gc ndt ndtt 0 0 0) =
    D3 o sp tp tiny (L Gf) p n a b c (L (ndt d)) (L (ndt (dp d))) (L (ndt (dm d))) (L (ndtt d)).
  Proof.
    unfold div_3rd3, D3. destruct (div3 o); [|destruct (div3dt o); [|apply f_q]];
      ev; rewrite ?f_u3, ?f_s3, ?f_nxf, ?f_nff, ?f_tp, ?f_nfd, ?f_ntx, ?f_nfdt, ?f_tt, ?f_nt; reflexivity.
  Qed.
  Lemma f_anti : E (antidiff3 o sp tp d psi psin gc ndt ndtt 0 0 0) =
    A3 o sp tp tiny (L Gf) p n a b c (L (ndt d)) (L (ndt (dp d))) (L (ndt (dm d))) (L (ndtt d)).
  Proof.
    unfold antidiff3, A3. destruct (div2 o); ev; rewrite ?f_d2, ?f_d3, ?f_gb, ?f_bbxy, ?f_cbxz, ?f_ndx, ?f_ndy, ?f_ndz, ?f_tot, ?f_dfl; reflexivity.
  Qed.
End Eval.

Theorem antiN_R3 eps tiny o sp tp (psi psin : idx -> R) C G N T d x :
  antiN (arithR eps tiny) (forms3 o sp tp) psi psin C G N T d x =
  A3 o sp tp tiny (lc3 d x G) (lc3 d x psi) (lc3 d x psin) (lc3 d x (C d)) (lc3 d x (C (dp d))) (lc3 d x (C (dm d)))
     (lc3 d x (N d)) (lc3 d x (N (dp d))) (lc3 d x (N (dm d))) (lc3 d x (T d)).
Proof. unfold antiN, forms3, f_antidiff. rewrite f_anti. reflexivity. Qed.
