(** 1D programs executed on the lattice compute the functions of Fun1D.v. *)
From Coq Require Import ZArith List Bool Lia ZifyBool.
From Verif Require Import SpecIndex ModelIndex ModelRun Lang ProofsLang Stencil ProofsStencil
  FormCommon Form1D Solver1D Macro ProofsMacro Foot1D Proofs1D Lattice Fun1D.
Import ListNotations.
Local Open Scope Z_scope.

Section One.
  Variable ar : arith.
  Variables (rs : Z -> Z) (rv : bool -> Z -> Z).
  Notation V := (car ar).
  Notation fld := (Z -> car ar).
  Notation st := (arr -> fld).
  Notation evx := (evx ar).

  (** one equation, one dimension *)
  Definition l1_do (s : tdesc) (g : st) : st :=
    fun a x => if arr_eqb a (t_arr s) then evx g (t_exp s) x else g a x.
  Definition l1_instr (g : st) (i : minstr) : st :=
    match i with
    | MDo s => l1_do s g
    | MXS b _ => fun a x => if arr_eqb a b then g a (rs x) else g a x
    | MXVA v ad => fun a x => if arr_eqb a (v DX) then g a (rv ad x) else g a x
    | _ => g
    end.
  Definition l1_prog (p : list minstr) (g : st) : st := fold_left l1_instr p g.
  Lemma l1_app p q g : l1_prog (p ++ q) g = l1_prog q (l1_prog p g).
  Proof. apply fold_left_app. Qed.

  Lemma evx_ext (g g' : st) e x : (forall a y, g a y = g' a y) -> evx g e x = evx g' e x.
  Proof. intros H. apply ev_ext. intros. apply H. Qed.

  Lemma arr_eqb_refl a : arr_eqb a a = true.
  Proof. apply arr_eqb_eq. reflexivity. Qed.
  Lemma arr_eqb_ne a b : a <> b -> arr_eqb a b = false.
  Proof. intros H. apply not_true_is_false. intros E. apply H. apply arr_eqb_eq. exact E. Qed.

  Variable o : fl.
  Variable sp : sptl.
  Variable tp : tmprl.
  Notation F := (forms1 o sp tp).
  Notation antiF := (antiF ar o sp tp).
  Notation fluxF := (fluxF ar o sp tp).
  Notation minF := (minF ar o sp tp).
  Notation maxF := (maxF ar o sp tp).
  Notation bupF := (bupF ar o sp tp).
  Notation bdnF := (bdnF ar o sp tp).
  Notation monoF := (monoF ar o sp tp).
  Notation sumF := (sumF ar o sp tp).

  (** *** The formulae depend on the arrays they are given only *)
  Ltac flags := repeat match goal with
    | |- context [if ?c then _ else _] => match c with ?f o => destruct c end
    end.
  Lemma nat_anti g psi psi' v x :
    evx g (f_antidiff F DX psi psi' v) x = antiF (g psi) (g (v DX)) (g Gf) (g (NdtGC DX)) (g (NdttGC DX)) x.
  Proof.
    unfold Fun1D.antiF, forms1, f_antidiff, antidiff, TOT, DFL, div_3rd, div_3rd_upwind, div_2nd, div_3rd_spatial,
      div_3rd_spatial_helper, div_3rd_temporal, ndxx_psi_coeff, ndxx_psi, ndx_psi, nfdiv, nfdiv_fdiv, ndx_fdiv,
      fdiv_centre, ndtt_GC0, ndxx_GC0, ndx_GC0, GC0_bar_x, psi_bar_x, G_bar_x, pa, P, V, G1, Gx, frac.
    destruct (div2 o).
    - destruct (div3 o); destruct (iga o), (nug o), (pfc o); try reflexivity; destruct (oabs o); try reflexivity;
        destruct sp, tp; reflexivity.
    - destruct (tot o), (dfl o), (iga o), (nug o), (pfc o); try reflexivity; destruct (oabs o); reflexivity.
  Qed.
  Lemma nat_flux g psi a x : evx g (f_flux F DX psi a) x = fluxF (g psi) (g a) x.
  Proof.
    unfold Fun1D.fluxF, forms1, f_flux, make_flux, Fx, pospart, negpart. destruct (npa o); reflexivity.
  Qed.
  Lemma nat_min g psi x : evx g (f_min F psi) x = minF (g psi) x.
  Proof. reflexivity. Qed.
  Lemma nat_max g psi x : evx g (f_max F psi) x = maxF (g psi) x.
  Proof. reflexivity. Qed.
  Lemma nat_bup g psi v x : evx g (f_bup F psi v) x = bupF (g psi) (g PsiMax) (g (v DX)) (g Gf) x.
  Proof.
    unfold Fun1D.bupF, forms1, f_bup, beta_up, pospart, negpart, G1, Gx. destruct (npa o), (nug o); reflexivity.
  Qed.
  Lemma nat_bdn g psi v x : evx g (f_bdn F psi v) x = bdnF (g psi) (g PsiMin) (g (v DX)) (g Gf) x.
  Proof.
    unfold Fun1D.bdnF, forms1, f_bdn, beta_dn, pospart, negpart, G1, Gx. destruct (npa o), (nug o); reflexivity.
  Qed.
  Lemma nat_mono g psi a x : evx g (f_mono F DX psi a) x = monoF (g psi) (g a) (g BetaUp) (g BetaDn) x.
  Proof.
    unfold Fun1D.monoF, forms1, f_mono, GC_mono. destruct (iga o), (oabs o); reflexivity.
  Qed.
  Lemma nat_sum g psi v x :
    evx g (f_sum F psi v) x =
    evx (fun a => match a with Psi _ => g psi | Flux _ => g (v DX) | _ => g Gf end) (f_sum F (Psi false) Flux) x.
  Proof. unfold forms1, f_sum, G1, Gx. destruct (nug o); reflexivity. Qed.
  Lemma nat_terms g psi v x :
    map (fun e => evx g e x) (f_terms F psi v) =
    map (fun e => evx (fun a => match a with Psi _ => g psi | Flux _ => g (v DX) | _ => g Gf end) e x)
        (f_terms F (Psi false) Flux).
  Proof. unfold forms1, f_terms, G1, Gx. destruct (nug o); reflexivity. Qed.

  (** extensionality *)
  Notation "f == g" := (forall x : Z, f x = g x) (at level 70).
  Lemma evx_envs (env env' : arr -> fld) e : (forall a, env a == env' a) -> evx env e == evx env' e.
  Proof. intros H x. apply evx_ext. intros. apply H. Qed.
  Ltac ext1 := intros; apply evx_ext; intros [] ?; auto.
  Lemma antiF_ext p p' C C' G G' N N' T T' : p == p' -> C == C' -> G == G' -> N == N' -> T == T' ->
    antiF p C G N T == antiF p' C' G' N' T'.
  Proof. ext1. Qed.
  Lemma fluxF_ext p p' C C' : p == p' -> C == C' -> fluxF p C == fluxF p' C'.
  Proof. ext1. Qed.
  Lemma minF_ext p p' : p == p' -> minF p == minF p'.
  Proof. ext1. Qed.
  Lemma maxF_ext p p' : p == p' -> maxF p == maxF p'.
  Proof. ext1. Qed.
  Lemma bupF_ext p p' m m' f f' G G' : p == p' -> m == m' -> f == f' -> G == G' -> bupF p m f G == bupF p' m' f' G'.
  Proof. ext1. Qed.
  Lemma bdnF_ext p p' m m' f f' G G' : p == p' -> m == m' -> f == f' -> G == G' -> bdnF p m f G == bdnF p' m' f' G'.
  Proof. ext1. Qed.
  Lemma monoF_ext p p' C C' u u' d d' : p == p' -> C == C' -> u == u' -> d == d' -> monoF p C u d == monoF p' C' u' d'.
  Proof. ext1. Qed.
  Lemma sumF_ext p p' f f' G G' : p == p' -> f == f' -> G == G' -> sumF p f G == sumF p' f' G'.
  Proof.
    intros Hp Hf HG x. unfold Fun1D.sumF. destruct (khn o).
    - f_equal. f_equal. apply map_ext. intros e. apply evx_ext. intros [] ?; auto.
    - apply evx_ext. intros [] ?; auto.
  Qed.

  (** *** Statements *)
  Definition khn_arr (a : arr) : bool := match a with Khn _ => true | _ => false end.

  Lemma l1_here a r e g : l1_do (at1 a r e) g a == evx g e.
  Proof. intros x. unfold l1_do. cbn [at1 t_arr t_exp]. rewrite arr_eqb_refl. reflexivity. Qed.
  Lemma l1_other a r e g b : b <> a -> l1_do (at1 a r e) g b == g b.
  Proof. intros H x. unfold l1_do. cbn [at1 t_arr t_exp]. rewrite arr_eqb_ne by auto. reflexivity. Qed.

  (** one Kahan addition *)
  Lemma kahan_l1 psi' e (g : st) (env : arr -> fld) :
    khn_arr psi' = false ->
    (forall ao, In ao (leaves e) -> fst ao <> psi' /\ khn_arr (fst ao) = false) ->
    let g' := l1_prog (map MDo (kahan_add (fun a e => at1 a rI e) psi' e)) g in
    (forall x, (g' psi' x, g' (Khn 0) x) = kadd ar (g psi' x, g (Khn 0) x) (evx g e x)) /\
    (forall a, a <> psi' -> khn_arr a = false -> g' a == g a).
  Proof.
    intros HK HL. cbv zeta. unfold kahan_add. cbn [map l1_prog fold_left l1_instr].
    set (g1 := l1_do (at1 (Khn 1) rI _) g). set (g2 := l1_do _ g1). set (g3 := l1_do _ g2). set (g4 := l1_do _ g3).
    assert (N : forall k, psi' <> Khn k) by (intros k ->; discriminate).
    assert (E1 : g1 (Khn 1) == fun x => abin ar Sub (evx g e x) (g (Khn 0) x)).
    { intros x. unfold g1. rewrite l1_here. unfold Fun1D.evx. cbn [ev fst snd izero comp]. rewrite Z.add_0_r. reflexivity. }
    assert (E1p : g1 psi' == g psi') by (apply l1_other; auto).
    assert (E1c : g1 (Khn 0) == g (Khn 0)) by (apply l1_other; congruence).
    assert (E2 : g2 (Khn 2) == fun x => abin ar Add (g psi' x) (abin ar Sub (evx g e x) (g (Khn 0) x))).
    { intros x. unfold g2. rewrite l1_here. unfold Fun1D.evx. cbn [ev fst snd izero comp].
      rewrite Z.add_0_r, E1, E1p. reflexivity. }
    assert (E2p : g2 psi' == g psi') by (intros x; unfold g2; rewrite l1_other by auto; apply E1p).
    assert (E2y : g2 (Khn 1) == g1 (Khn 1)) by (apply l1_other; congruence).
    assert (E3 : g3 (Khn 0) == fun x => snd (kadd ar (g psi' x, g (Khn 0) x) (evx g e x))).
    { intros x. unfold g3. rewrite l1_here. unfold Fun1D.evx. cbn [ev fst snd izero comp].
      rewrite Z.add_0_r, E2, E2p, E2y, E1. reflexivity. }
    assert (E3t : g3 (Khn 2) == g2 (Khn 2)) by (apply l1_other; congruence).
    split.
    - intros x. unfold g4. rewrite l1_here. rewrite l1_other by auto. rewrite E3.
      unfold Fun1D.evx. cbn [ev fst snd izero comp]. rewrite Z.add_0_r, E3t, E2. reflexivity.
    - intros a Ha Hk x. assert (forall k, a <> Khn k) by (intros k ->; discriminate).
      unfold g4, g3, g2, g1. rewrite !l1_other by auto. reflexivity.
  Qed.

  Lemma evx_leaves g g' e x : (forall ao, In ao (leaves e) -> forall y, g (fst ao) y = g' (fst ao) y) -> evx g e x = evx g' e x.
  Proof. intros H. apply ev_ext. intros ao Hao. apply H. exact Hao. Qed.

  Lemma kahans_l1 psi' (es : list sexpr) : khn_arr psi' = false ->
    (forall e, In e es -> forall ao, In ao (leaves e) -> fst ao <> psi' /\ khn_arr (fst ao) = false) ->
    forall g : st,
    let g' := l1_prog (map MDo (flat_map (kahan_add (fun a e => at1 a rI e) psi') es)) g in
    (forall x, g' psi' x = fst (fold_left (kadd ar) (map (fun e => evx g e x) es) (g psi' x, g (Khn 0) x))) /\
    (forall a, a <> psi' -> khn_arr a = false -> g' a == g a).
  Proof.
    intros HK. induction es as [|e es IH]; intros HL g; cbv zeta; [cbn; auto|].
    cbn [flat_map]. rewrite map_app, l1_app.
    destruct (kahan_l1 psi' e g g HK (HL e (or_introl eq_refl))) as [A1 B1]. cbv zeta in A1, B1.
    set (g1 := l1_prog (map MDo (kahan_add _ psi' e)) g) in *.
    destruct (IH (fun e' H => HL e' (or_intror H)) g1) as [A2 B2]. split.
    - intros x. rewrite A2. cbn [map fold_left]. rewrite <- A1. f_equal. f_equal. apply map_ext_in. intros e' He'.
      apply evx_leaves. intros ao Hao y. destruct (HL e' (or_intror He') ao Hao). apply B1; auto.
    - intros a Ha Hk x. rewrite B2 by auto. apply B1; auto.
  Qed.

  Lemma sum_l1 b v (g : st) : In v vecs ->
    let g' := l1_prog (sum1 o F (Psi b) (Psi (negb b)) v) g in
    (g' (Psi (negb b)) == sumF (g (Psi b)) (g (v DX)) (g Gf)) /\
    (forall a, a <> Psi (negb b) -> khn_arr a = false -> g' a == g a).
  Proof.
    intros Hv. cbv zeta. unfold sum1, Fun1D.sumF. destruct (khn o).
    - rewrite map_app, l1_app. set (g0 := l1_prog (map MDo (kahan_zro _ _)) g).
      assert (Z1 : forall x, g0 (Psi (negb b)) x = acst ar (CQ 0 1)) by (intros x; destruct b; reflexivity).
      assert (Z2 : forall x, g0 (Khn 0) x = acst ar (CQ 0 1)) by (intros x; reflexivity).
      assert (Z3 : forall a, a <> Psi (negb b) -> khn_arr a = false -> g0 a == g a).
      { intros a Ha Hk x. unfold g0, kahan_zro. cbn [map l1_prog fold_left l1_instr].
        rewrite !l1_other; auto. intros ->; discriminate. }
      assert (HL : forall e, In e (f_terms F (Psi b) v) -> forall ao, In ao (leaves e) ->
                   fst ao <> Psi (negb b) /\ khn_arr (fst ao) = false).
      { intros e He ao Hao.
        assert (D : fst ao = Psi b \/ fst ao = v DX \/ fst ao = Gf).
        { cbn [f_terms forms1 In] in He. unfold G1, Gx in He.
          destruct He as [<-|[<-|[<-|[]]]]; revert Hao; destruct (nug o); cbn; intuition (subst; auto). }
        assert (E : v DX <> Psi (negb b) /\ khn_arr (v DX) = false).
        { unfold vecs in Hv. cbn [In] in Hv.
          repeat match goal with H : _ \/ _ |- _ => destruct H as [<-|H] | H : False |- _ => destruct H end; split; auto; discriminate. }
        destruct D as [->|[->| ->]]; [|exact E|]; split; try reflexivity; destruct b; discriminate. }
      destruct (kahans_l1 (Psi (negb b)) (f_terms F (Psi b) v) eq_refl HL g0) as [A B]. split.
      + intros x. rewrite A, Z1, Z2. f_equal. f_equal. rewrite <- nat_terms. apply map_ext_in. intros e He.
        apply evx_leaves. intros ao Hao y. destruct (HL e He ao Hao). apply Z3; auto.
      + intros a Ha Hk x. rewrite B by auto. apply Z3; auto.
    - cbn [l1_prog fold_left l1_instr]. split.
      + intros x. rewrite l1_here. apply nat_sum.
      + intros a Ha _. apply l1_other; auto.
  Qed.

  (** *** Passes *)
  Variable X : fixed ar.
  Definition has (g : st) : Prop :=
    (g (GC DX) == xC ar X) /\ (g Gf == xG ar X) /\ (g (NdtGC DX) == xN ar X) /\ (g (NdttGC DX) == xT ar X).
  (** arrays that survive a step *)
  Definition kept (a : arr) : bool :=
    match a with GC _ | Gf | NdtGC _ | NdttGC _ => true | _ => false end.
  Lemma has_kept g g' : (forall a, kept a = true -> g' a == g a) -> has g -> has g'.
  Proof.
    intros H (H1 & H2 & H3 & H4). repeat split; intros x; rewrite H by reflexivity; auto.
  Qed.

  Lemma up_l1 b (g : st) : has g ->
    let p := fun x => g (Psi b) (rs x) in
    let g' := l1_prog (MXS (Psi b) 0 :: fct_init1 o F (Psi b) ++ upstream1 o F (Psi b) (Psi (negb b))) g in
    (g' (Psi (negb b)) == upF ar o sp tp X p) /\
    (fct o = true -> (g' PsiMin == minF p) /\ (g' PsiMax == maxF p)) /\
    (forall a, kept a = true -> g' a == g a).
  Proof.
    intros HX p. cbv zeta. unfold upstream1.
    change (MXS (Psi b) 0 :: fct_init1 o F (Psi b) ++ MDo (at1 (Flux DX) rIM (f_flux F DX (Psi b) (GC DX))) :: sum1 o F (Psi b) (Psi (negb b)) Flux)
      with ([MXS (Psi b) 0] ++ fct_init1 o F (Psi b) ++ [MDo (at1 (Flux DX) rIM (f_flux F DX (Psi b) (GC DX)))] ++ sum1 o F (Psi b) (Psi (negb b)) Flux).
    rewrite !l1_app.
    set (g1 := l1_prog [MXS (Psi b) 0] g).
    assert (P1 : g1 (Psi b) == p) by (intros x; unfold g1; cbn; rewrite eqb_reflx; reflexivity).
    assert (K1 : forall a, kept a = true -> g1 a == g a).
    { intros a Ha x. unfold g1. cbn. rewrite arr_eqb_ne; auto. intros ->; discriminate. }
    set (g2 := l1_prog (fct_init1 o F (Psi b)) g1).
    assert (P2 : g2 (Psi b) == p).
    { intros x. unfold g2, fct_init1. destruct (fct o); [|apply P1]. cbn [l1_prog fold_left l1_instr].
      rewrite !l1_other by discriminate. apply P1. }
    assert (K2 : forall a, kept a = true -> g2 a == g a).
    { intros a Ha x. unfold g2, fct_init1. destruct (fct o); [|apply K1; auto]. cbn [l1_prog fold_left l1_instr].
      rewrite !l1_other by (intros ->; discriminate). apply K1; auto. }
    assert (M2 : fct o = true -> (g2 PsiMin == minF p) /\ (g2 PsiMax == maxF p)).
    { intros Hf. unfold g2, fct_init1. rewrite Hf. cbn [l1_prog fold_left l1_instr]. split; intros x.
      - rewrite l1_other by discriminate. rewrite l1_here, nat_min. apply minF_ext. exact P1.
      - rewrite l1_here, nat_max. apply maxF_ext. intros y. rewrite l1_other by discriminate. apply P1. }
    set (g3 := l1_prog [MDo _] g2).
    assert (P3 : g3 (Psi b) == p).
    { intros x. unfold g3. cbn [l1_prog fold_left l1_instr]. rewrite l1_other by discriminate. apply P2. }
    assert (F3 : g3 (Flux DX) == fluxF p (xC ar X)).
    { intros x. unfold g3. cbn [l1_prog fold_left l1_instr]. rewrite l1_here, nat_flux.
      apply fluxF_ext; [exact P2|]. intros y. rewrite K2 by reflexivity. apply HX. }
    assert (K3 : forall a, kept a = true -> g3 a == g a).
    { intros a Ha x. unfold g3. cbn [l1_prog fold_left l1_instr].
      rewrite !l1_other by (intros ->; discriminate). apply K2; auto. }
    assert (M3 : fct o = true -> (g3 PsiMin == minF p) /\ (g3 PsiMax == maxF p)).
    { intros Hf. destruct (M2 Hf) as [A B]. unfold g3. cbn [l1_prog fold_left l1_instr].
      split; intros x; rewrite l1_other by discriminate; auto. }
    destruct (sum_l1 b Flux g3 ltac:(cbn; auto 10)) as [A B]. cbv zeta in A, B. split; [|split].
    - intros x. rewrite A. unfold upF. apply sumF_ext; auto. intros y. rewrite K3 by reflexivity. apply HX.
    - intros Hf. destruct (M3 Hf) as [C D]. split; intros x; rewrite B by (discriminate || reflexivity); auto.
    - intros a Ha x. rewrite B; [apply K3; auto| |]; destruct a; try discriminate; reflexivity.
  Qed.

  Lemma fct_l1 b c (g : st) : has g -> fct o = true ->
    let p := g (Psi b) in
    let cc := fun x => g (Cor c DX) (rv true x) in
    let g' := l1_prog (fct_adjust1 o F (Psi b) (Cor c)) g in
    (g' (Mono DX) == limF ar o sp tp X p cc (g PsiMin) (g PsiMax)) /\
    (g' (Cor c DX) == cc) /\ (g' (Psi b) == p) /\
    (g' PsiMin == g PsiMin) /\ (g' PsiMax == g PsiMax) /\
    (forall a, kept a = true -> g' a == g a).
  Proof.
    intros HX Hf p cc. cbv zeta. unfold fct_adjust1. rewrite Hf.
    rewrite !l1_app.
    set (g1 := l1_prog [MXVA (Cor c) true] g).
    assert (C1 : g1 (Cor c DX) == cc) by (intros x; unfold g1; cbn; rewrite eqb_reflx; reflexivity).
    assert (O1 : forall a, a <> Cor c DX -> g1 a == g a).
    { intros a Ha x. unfold g1. cbn. rewrite arr_eqb_ne; auto. }
    set (phi := if iga o then cc else fluxF p cc).
    set (g2 := l1_prog (if iga o then [] else _) g1).
    assert (O2 : forall a, a <> Cor c DX -> a <> Flux DX -> g2 a == g a).
    { intros a Ha Hb x. unfold g2. destruct (iga o); [apply O1; auto|].
      cbn [l1_prog fold_left l1_instr]. rewrite l1_other by auto. apply O1; auto. }
    assert (C2 : g2 (Cor c DX) == cc).
    { intros x. unfold g2. destruct (iga o); [apply C1|].
      cbn [l1_prog fold_left l1_instr]. rewrite l1_other by discriminate. apply C1. }
    set (flx := if iga o then Cor c else Flux).
    assert (F2 : g2 (flx DX) == phi).
    { intros x. unfold flx, phi, g2. destruct (iga o); [apply C1|].
      cbn [l1_prog fold_left l1_instr]. rewrite l1_here, nat_flux. apply fluxF_ext; [apply O1; discriminate|exact C1]. }
    cbv zeta.
    set (g3 := l1_prog [MDo (at1 BetaUp _ _); MDo _] g2).
    assert (O3 : forall a, a <> Cor c DX -> a <> Flux DX -> a <> BetaUp -> a <> BetaDn -> g3 a == g a).
    { intros a Ha Hb Hc Hd x. unfold g3. cbn [l1_prog fold_left l1_instr]. rewrite !l1_other by auto. apply O2; auto. }
    assert (C3 : g3 (Cor c DX) == cc).
    { intros x. unfold g3. cbn [l1_prog fold_left l1_instr]. rewrite !l1_other by discriminate. apply C2. }
    assert (G2 : g2 Gf == xG ar X) by (intros y; rewrite O2 by discriminate; apply HX).
    assert (FN : flx DX <> BetaUp) by (unfold flx; destruct (iga o); discriminate).
    assert (U3 : g3 BetaUp == bupF p (g PsiMax) phi (xG ar X)).
    { intros x. unfold g3. cbn [l1_prog fold_left l1_instr]. rewrite l1_other by discriminate.
      rewrite l1_here, nat_bup. apply bupF_ext; auto; apply O2; discriminate. }
    assert (D3 : g3 BetaDn == bdnF p (g PsiMin) phi (xG ar X)).
    { intros x. unfold g3. cbn [l1_prog fold_left l1_instr].
      rewrite l1_here, nat_bdn.
      apply bdnF_ext; auto; intros y; rewrite l1_other by (auto || discriminate); auto; apply O2; discriminate. }
    assert (N4 : forall g, l1_prog (if iga o then [] else [MBar]) g = g) by (intros; destruct (iga o); reflexivity).
    rewrite N4. cbn [l1_prog fold_left l1_instr].
    repeat split.
    - intros x. rewrite l1_here, nat_mono. unfold limF. rewrite Hf. fold phi.
      apply monoF_ext; auto. apply O3; discriminate.
    - intros x. rewrite l1_other by discriminate. auto.
    - intros x. rewrite l1_other by discriminate. apply O3; discriminate.
    - intros x. rewrite l1_other by discriminate. apply O3; discriminate.
    - intros x. rewrite l1_other by discriminate. apply O3; discriminate.
    - intros a Ha x. rewrite l1_other by (intros ->; discriminate). apply O3; intros ->; discriminate.
  Qed.

  Lemma corrF_ext last p p' C C' : p == p' -> C == C' ->
    corrF ar o sp tp rv X last p C == corrF ar o sp tp rv X last p' C'.
  Proof.
    intros Hp HC x. unfold corrF. destruct (fct o); [|destruct (dfl o && negb last)]; apply antiF_ext; auto.
  Qed.
  Lemma limF_ext p p' c c' mn mn' mx mx' : p == p' -> c == c' -> (fct o = true -> mn == mn') -> (fct o = true -> mx == mx') ->
    limF ar o sp tp X p c mn mx == limF ar o sp tp X p' c' mn' mx'.
  Proof.
    intros Hp Hc Hn Hm. unfold limF. destruct (fct o); auto.
    assert (E : (if iga o then c else fluxF p c) == (if iga o then c' else fluxF p' c')).
    { destruct (iga o); auto. apply fluxF_ext; auto. }
    apply monoF_ext; auto; [apply bupF_ext|apply bdnF_ext]; auto.
  Qed.
  Lemma finF_ext p p' c c' : p == p' -> c == c' -> finF ar o sp tp X p c == finF ar o sp tp X p' c'.
  Proof.
    intros Hp Hc. unfold finF. apply sumF_ext; auto. destruct (iga o); auto. apply fluxF_ext; auto.
  Qed.

  Lemma co_l1 b unco c last (g : st) : has g -> In unco [GC; Cor (negb c)] ->
    let p := fun x => g (Psi b) (rs x) in
    let cc := corrF ar o sp tp rv X last p (g (unco DX)) in
    let g' := l1_prog (MXS (Psi b) 0 :: corrective1 o F (Psi b) (Psi (negb b)) unco (Cor c) last) g in
    (g' (Psi (negb b)) == finF ar o sp tp X p (limF ar o sp tp X p cc (g PsiMin) (g PsiMax))) /\
    (g' (Cor c DX) == cc) /\
    (g' PsiMin == g PsiMin) /\ (g' PsiMax == g PsiMax) /\
    (forall a, kept a = true -> g' a == g a).
  Proof.
    intros HX Hu p cc. cbv zeta. unfold corrective1.
    change (l1_prog (MXS (Psi b) 0 :: ?q) g) with (l1_prog q (l1_prog [MXS (Psi b) 0] g)).
    rewrite !l1_app.
    set (g1 := l1_prog [MXS (Psi b) 0] g).
    assert (P1 : g1 (Psi b) == p) by (intros x; unfold g1; cbn; rewrite eqb_reflx; reflexivity).
    assert (O1 : forall a, a <> Psi b -> g1 a == g a).
    { intros a Ha x. unfold g1. cbn. rewrite arr_eqb_ne; auto. }
    set (g2 := l1_prog [MDo _] g1).
    assert (NU : unco DX <> Psi b) by (cbn in Hu; intuition (subst; discriminate)).
    assert (C2 : g2 (Cor c DX) == antiF p (g (unco DX)) (xG ar X) (xN ar X) (xT ar X)).
    { intros x. unfold g2. cbn [l1_prog fold_left l1_instr]. rewrite l1_here, nat_anti.
      apply antiF_ext; auto; intros y; rewrite O1 by (auto || discriminate); auto; apply HX. }
    assert (P2 : g2 (Psi b) == p).
    { intros x. unfold g2. cbn [l1_prog fold_left l1_instr]. rewrite l1_other by discriminate. apply P1. }
    assert (O2 : forall a, a <> Psi b -> a <> Cor c DX -> g2 a == g a).
    { intros a Ha Hb x. unfold g2. cbn [l1_prog fold_left l1_instr]. rewrite l1_other by auto. apply O1; auto. }
    set (g3 := l1_prog (if dfl o && negb last && negb (fct o) then [MXVA (Cor c) false] else []) g2).
    assert (P3 : g3 (Psi b) == p).
    { intros x. unfold g3. destruct (_ && negb (fct o)); [cbn; apply P2|apply P2]. }
    assert (O3 : forall a, a <> Psi b -> a <> Cor c DX -> g3 a == g a).
    { intros a Ha Hb x. unfold g3. destruct (_ && negb (fct o)); [|apply O2; auto]. cbn. rewrite arr_eqb_ne by auto. apply O2; auto. }
    assert (HX3 : has g3).
    { revert HX. apply has_kept. intros a Ha. apply O3; intros ->; discriminate. }
    set (g4 := l1_prog (fct_adjust1 o F (Psi b) (Cor c)) g3).
    set (gc := if fct o then Mono else Cor c).
    assert (S4 : (g4 (gc DX) == limF ar o sp tp X p cc (g PsiMin) (g PsiMax)) /\ (g4 (Cor c DX) == cc) /\ (g4 (Psi b) == p) /\
                 (g4 PsiMin == g PsiMin) /\ (g4 PsiMax == g PsiMax) /\ (forall a, kept a = true -> g4 a == g a)).
    { unfold gc, g4. destruct (fct o) eqn:Hf.
      - destruct (fct_l1 b c g3 HX3 Hf) as (A & B & C & D & E & K). cbv zeta in *.
        assert (CC : (fun x => g3 (Cor c DX) (rv true x)) == cc).
        { intros x. unfold cc, corrF. rewrite Hf. unfold g3. rewrite andb_false_r. apply C2. }
        split; [|split; [|split; [|split; [|split]]]].
        + intros x. rewrite A. apply limF_ext; auto; intros _; apply O3; discriminate.
        + intros x. rewrite B. apply CC.
        + intros x. rewrite C. apply P3.
        + intros x. rewrite D. apply O3; discriminate.
        + intros x. rewrite E. apply O3; discriminate.
        + intros a Ha x. rewrite K by auto. apply O3; intros ->; discriminate.
      - unfold fct_adjust1. rewrite Hf. cbn [l1_prog fold_left].
        assert (CC : g3 (Cor c DX) == cc).
        { intros x. unfold cc, corrF, g3. rewrite Hf. rewrite andb_true_r. destruct (dfl o && negb last); [|apply C2].
          cbn. rewrite eqb_reflx. cbn. apply C2. }
        split; [|split; [|split; [|split; [|split]]]]; auto.
        + intros x. unfold limF. rewrite Hf. apply CC.
        + apply O3; discriminate.
        + apply O3; discriminate.
        + intros a Ha. apply O3; intros ->; discriminate. }
    destruct S4 as (L4 & C4 & P4 & N4 & M4 & K4).
    assert (VC : In gc vecs) by (unfold gc; destruct (fct o), c; cbn; auto 10).
    assert (GCN : gc DX <> Flux DX) by (unfold gc; destruct (fct o); discriminate).
    cbv zeta. fold gc. destruct (iga o) eqn:Hi.
    - destruct (sum_l1 b gc g4 VC) as [A B]. cbv zeta in A, B.
      split; [|split; [|split; [|split]]].
      + intros x. rewrite A. unfold finF. rewrite Hi. apply sumF_ext; auto.
        intros y. rewrite K4 by reflexivity. apply HX.
      + intros x. rewrite B by (discriminate || reflexivity). auto.
      + intros x. rewrite B by (discriminate || reflexivity). auto.
      + intros x. rewrite B by (discriminate || reflexivity). auto.
      + intros a Ha x. rewrite B; [apply K4; auto| |]; destruct a; try discriminate; reflexivity.
    - change (l1_prog (MDo ?s :: ?q) g4) with (l1_prog q (l1_do s g4)).
      set (g5 := l1_do _ g4).
      assert (O5 : forall a, a <> Flux DX -> g5 a == g4 a) by (intros a Ha; apply l1_other; auto).
      destruct (sum_l1 b Flux g5 ltac:(cbn; auto 10)) as [A B]. cbv zeta in A, B.
      split; [|split; [|split; [|split]]].
      + intros x. rewrite A. unfold finF. rewrite Hi. apply sumF_ext.
        * intros y. rewrite O5 by discriminate. auto.
        * intros y. unfold g5. rewrite l1_here, nat_flux. apply fluxF_ext; auto.
        * intros y. rewrite O5 by discriminate. rewrite K4 by reflexivity. apply HX.
      + intros x. rewrite B, O5 by (discriminate || reflexivity). auto.
      + intros x. rewrite B, O5 by (discriminate || reflexivity). auto.
      + intros x. rewrite B, O5 by (discriminate || reflexivity). auto.
      + intros a Ha x. rewrite B, O5; [apply K4; auto| | |]; destruct a; try discriminate; reflexivity.
  Qed.

  Lemma lev_next b j : lev b (S j) = negb (lev b j).
  Proof. unfold lev. rewrite Nat.odd_succ, <- Nat.negb_odd. destruct b, (Nat.odd j); reflexivity. Qed.
  Lemma unco_in j : In (GC_unco j) [GC; Cor (negb (Nat.odd j))].
  Proof. unfold GC_unco. destruct (Nat.eqb j 1); cbn; auto. Qed.
  Lemma unco_next j : (0 < j)%nat -> GC_unco (S j) = GC_corr j.
  Proof.
    intros H. unfold GC_unco, GC_corr. destruct (Nat.eqb_spec (S j) 1); [lia|].
    rewrite Nat.odd_succ, <- Nat.negb_odd, negb_involutive. reflexivity.
  Qed.

  Lemma passesF_ext nit mn mn' mx mx' more : (fct o = true -> mn == mn') -> (fct o = true -> mx == mx') ->
    forall j psi psi' C C', psi == psi' -> C == C' ->
    passesF ar o sp tp rs rv X nit mn mx j more psi C == passesF ar o sp tp rs rv X nit mn' mx' j more psi' C'.
  Proof.
    intros Hn Hm. induction more as [|k IH]; intros j psi psi' C C' Hp HC; [exact Hp|]. cbn [passesF].
    apply IH.
    - apply finF_ext; auto. apply limF_ext; auto. apply corrF_ext; auto.
    - apply corrF_ext; auto.
  Qed.

  Lemma bars_l1 p g : Forall (fun i => i = MBar) p -> l1_prog p g = g.
  Proof. intros H. induction H as [|i p -> H IH]; [reflexivity|exact IH]. Qed.

  Lemma passes_l1 nit lasteq b mn mx more : forall j (g : st) psi C, (0 < j)%nat -> has g ->
    g (Psi (lev b j)) == psi -> g (GC_unco j DX) == C ->
    (fct o = true -> (g PsiMin == mn) /\ (g PsiMax == mx)) ->
    let g' := l1_prog (passes1 o F nit lasteq b j more) g in
    (g' (Psi (lev b (j + more))) == passesF ar o sp tp rs rv X nit mn mx j more psi C) /\
    (forall a, kept a = true -> g' a == g a).
  Proof.
    induction more as [|k IH]; intros j g psi C Hj HX HP HC HM; cbv zeta.
    - rewrite Nat.add_0_r. cbn. auto.
    - cbn [passes1 passesF]. rewrite l1_app, (bars_l1 (cyc_bars lasteq)) by (destruct lasteq; repeat constructor).
      rewrite (lev_next b j).
      cbn [app]. rewrite app_comm_cons, l1_app.
      destruct (co_l1 (lev b j) (GC_unco j) (Nat.odd j) (Nat.eqb (S j) nit) g HX (unco_in j)) as (A & B & D & E & K).
      cbv zeta in *. change (Cor (Nat.odd j)) with (GC_corr j) in *.
      set (g1 := l1_prog _ g) in *.
      replace (j + S k)%nat with (S j + k)%nat by lia.
      set (p := fun x => psi (rs x)).
      set (cc := corrF ar o sp tp rv X (Nat.eqb (S j) nit) p C).
      assert (EC : g1 (GC_corr j DX) == cc).
      { intros x. rewrite B. apply corrF_ext; auto. intros y. apply HP. }
      destruct (IH (S j) g1 (finF ar o sp tp X p (limF ar o sp tp X p cc mn mx)) cc) as [A2 K2].
      + lia.
      + revert HX. apply has_kept. exact K.
      + rewrite lev_next. intros x. rewrite A. apply finF_ext; [intros y; apply HP|].
        apply limF_ext.
        * intros y. apply HP.
        * apply corrF_ext; auto. intros y; apply HP.
        * intros Hf. apply (HM Hf).
        * intros Hf. apply (HM Hf).
      + rewrite unco_next by auto. exact EC.
      + intros Hf. destruct (HM Hf) as [M1 M2]. split; intros x; [rewrite D|rewrite E]; auto.
      + split; [exact A2|]. intros a Ha x. cbv zeta in K2. rewrite K2, K by auto. reflexivity.
  Qed.

  Lemma scale_l1 b k (g : st) :
    (l1_prog (scale1 (Psi b) k) g (Psi b) == scaleF ar k (g (Psi b))) /\
    (forall a, a <> Psi b -> l1_prog (scale1 (Psi b) k) g a == g a).
  Proof.
    unfold scale1, scaleF. destruct (k =? 0); [split; reflexivity|].
    destruct (0 <? k); cbn [l1_prog fold_left l1_instr]; split; intros;
      rewrite ?l1_here, ?l1_other by auto; auto;
      unfold Fun1D.evx; cbn [ev fst snd comp izero q]; rewrite Z.add_0_r; reflexivity.
  Qed.

  Lemma scaleF_ext k p p' : p == p' -> scaleF ar k p == scaleF ar k p'.
  Proof. intros H x. unfold scaleF. rewrite H. reflexivity. Qed.

  Lemma upF_ext p p' : p == p' -> upF ar o sp tp X p == upF ar o sp tp X p'.
  Proof. intros H. apply sumF_ext; auto. apply fluxF_ext; auto. Qed.

  Lemma stepF_ext nit k exq psi psi' : psi == psi' ->
    stepF ar o sp tp rs rv X nit k exq psi == stepF ar o sp tp rs rv X nit k exq psi'.
  Proof.
    intros H. unfold stepF.
    assert (E : (fun x => scaleF ar exq psi (rs x)) == (fun x => scaleF ar exq psi' (rs x))).
    { intros x. apply scaleF_ext. exact H. }
    apply scaleF_ext. apply passesF_ext; auto.
    - intros _. apply minF_ext; auto.
    - intros _. apply maxF_ext; auto.
    - apply upF_ext; auto.
  Qed.

  Lemma body_l1 nit k exq lasteq b (g : st) : (0 < k)%nat -> has g ->
    let g' := l1_prog (body1 o F nit k exq lasteq b) g in
    (g' (Psi (lev b k)) == stepF ar o sp tp rs rv X nit k exq (g (Psi b))) /\
    (forall a, kept a = true -> g' a == g a).
  Proof.
    intros Hk HX. cbv zeta. unfold body1. rewrite l1_app.
    destruct (scale_l1 b exq g) as [S1 S2]. set (g1 := l1_prog (scale1 (Psi b) exq) g) in *.
    assert (HX1 : has g1) by (revert HX; apply has_kept; intros a Ha; apply S2; intros ->; discriminate).
    set (q1 := fct_init1 o F (Psi b)). set (q2 := upstream1 o F (Psi b) (Psi (lev b 1))).
    set (q3 := passes1 o F nit lasteq b 1 (k - 1)). set (q4 := if lasteq then [] else [MBar]).
    set (q5 := cyc_bars lasteq).
    replace ([MXS (Psi b) 0] ++ q1 ++ q2 ++ q3 ++ q4 ++ q5 ++ scale1 (Psi (lev b k)) (- exq))
      with ((MXS (Psi b) 0 :: q1 ++ q2) ++ q3 ++ q4 ++ q5 ++ scale1 (Psi (lev b k)) (- exq))
      by (cbn [app]; rewrite <- !app_assoc; reflexivity).
    rewrite !l1_app. unfold q1, q2. rewrite lev_next. change (lev b 0) with (xorb b false). rewrite xorb_false_r.
    destruct (up_l1 b g1 HX1) as (A & M & K). cbv zeta in *. set (g2 := l1_prog _ g1) in *.
    set (p := fun x => g1 (Psi b) (rs x)) in *.
    assert (HX2 : has g2) by (revert HX1; apply has_kept; exact K).
    destruct (passes_l1 nit lasteq b (minF p) (maxF p) (k - 1) 1 g2 (upF ar o sp tp X p) (xC ar X)) as [A3 K3]; auto.
    { intros x. rewrite K by reflexivity. apply HX1. }
    cbv zeta in *. fold q3 in A3, K3. set (g3 := l1_prog q3 g2) in *.
    rewrite (bars_l1 q4), (bars_l1 q5) by (unfold q4, q5; destruct lasteq; repeat constructor).
    destruct (scale_l1 (lev b k) (- exq) g3) as [S3 S4].
    split.
    - intros x. rewrite S3. unfold stepF. apply scaleF_ext. replace (lev b k) with (lev b (1 + (k - 1))) by (f_equal; lia).
      intros y. rewrite A3.
      assert (E : p == (fun x => scaleF ar exq (g (Psi b)) (rs x))) by (intros z; apply S1).
      apply passesF_ext; auto.
      + intros _. apply minF_ext; auto.
      + intros _. apply maxF_ext; auto.
      + apply upF_ext; auto.
    - intros a Ha x. rewrite S4 by (intros ->; discriminate). rewrite K3, K, S2 by (auto; intros ->; discriminate). reflexivity.
  Qed.
End One.

(** ** The fields of the first hook *)
Section Ante.
  Variable ar : arith.
  Variables (rs : Z -> Z) (rv : bool -> Z -> Z).
  Notation fld := (Z -> car ar).
  Notation "f == g" := (forall x : Z, f x = g x) (at level 70).
  Variable o : fl.
  Lemma ante_l1 (g : arr -> fld) :
    let g' := l1_prog ar rs rv (ante1 o) g in
    has ar (anteF ar rs rv o (g (GC DX)) (g Gf) (g (NdtGC DX)) (g (NdttGC DX))) g' /\ forall b, g' (Psi b) == g (Psi b).
  Proof.
    cbv zeta. unfold ante1, has, anteF. cbn [xC xG xN xT].
    destruct (nug o), (div3dt o || div3 o); cbn; repeat split; intros; reflexivity.
  Qed.
End Ante.
