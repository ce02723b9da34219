(** Programs executed on the lattice compute the functions of FunN.v. *)
From Coq Require Import ZArith List Bool Lia ZifyBool.
From Verif Require Import SpecIndex ModelIndex ModelRun Lang ProofsLang Stencil ProofsStencil
  FormCommon Solver1D Macro ProofsMacro Lattice Fun1D ProofsFun1D FunN.
Import ListNotations.
Local Open Scope Z_scope.

Lemma iadd_z (i : idx) : iadd i izero = i.
Proof. destruct i as [[x y] z]. unfold iadd, izero. cbn [comp fst snd]. rewrite !Z.add_0_r. reflexivity. Qed.

Section N.
  Variable ar : arith.
  Notation V := (car ar).
  Notation fld := (idx -> car ar).
  Notation vec := (dim -> idx -> car ar).
  Notation st := (arr -> fld).
  Notation evd := (evd ar).
  Notation "f == g" := (forall x : idx, f x = g x) (at level 70).

  (** *** Programs without ranges *)
  Definition ess (p : list minstr) : list (arr * sexpr) :=
    flat_map (fun i => match i with MDo s => [(t_arr s, t_exp s)] | _ => [] end) p.
  Definition ln_do (g : st) (s : arr * sexpr) : st :=
    fun b x => if arr_eqb b (fst s) then evd g (snd s) x else g b x.
  Definition ln_prog (l : list (arr * sexpr)) (g : st) : st := fold_left ln_do l g.
  Lemma ess_app p q : ess (p ++ q) = ess p ++ ess q.
  Proof. apply flat_map_app. Qed.
  Lemma ln_app p q g : ln_prog (p ++ q) g = ln_prog q (ln_prog p g).
  Proof. apply fold_left_app. Qed.

  Lemma evd_ext (g g' : st) e x : (forall a y, g a y = g' a y) -> evd g e x = evd g' e x.
  Proof. intros H. apply ev_ext. intros. apply H. Qed.
  Lemma evd_leaves (g g' : st) e x : (forall ao, In ao (leaves e) -> g (fst ao) == g' (fst ao)) -> evd g e x = evd g' e x.
  Proof. intros H. apply ev_ext. intros ao Hao. apply H. exact Hao. Qed.

  Lemma ln_here a e g : ln_do g (a, e) a == evd g e.
  Proof. intros x. unfold ln_do. cbn [fst snd]. rewrite arr_eqb_refl. reflexivity. Qed.
  Lemma ln_other a e g b : b <> a -> ln_do g (a, e) b == g b.
  Proof. intros H x. unfold ln_do. cbn [fst snd]. rewrite arr_eqb_ne by auto. reflexivity. Qed.

  Variable o : fl.
  Variable F : forms.
  Variable ds : list dim.
  Notation antiN := (antiN ar F).
  Notation fluxN := (fluxN ar F).
  Notation minN := (minN ar F).
  Notation maxN := (maxN ar F).
  Notation bupN := (bupN ar F).
  Notation bdnN := (bdnN ar F).
  Notation monoN := (monoN ar F).
  Notation sumN := (sumN ar o F).
  Notation "u =v= v" := (forall d, In d ds -> u d == v d) (at level 70).

  (** the formulae depend on the arrays they are given only, and on the
      components in [ds] only *)
  Record natural : Prop := {
    n_anti : forall g d psi psin v x, In d ds ->
      evd g (f_antidiff F d psi psin v) x =
      antiN (g psi) (g psin) (fun d => g (v d)) (g Gf) (fun d => g (NdtGC d)) (fun d => g (NdttGC d)) d x;
    n_flux : forall g d psi a x, In d ds -> evd g (f_flux F d psi a) x = fluxN (g psi) (fun _ => g a) d x;
    n_min : forall g psi x, evd g (f_min F psi) x = minN (g psi) x;
    n_max : forall g psi x, evd g (f_max F psi) x = maxN (g psi) x;
    n_bup : forall g psi v x, evd g (f_bup F psi v) x = bupN (g psi) (g PsiMax) (fun d => g (v d)) (g Gf) x;
    n_bdn : forall g psi v x, evd g (f_bdn F psi v) x = bdnN (g psi) (g PsiMin) (fun d => g (v d)) (g Gf) x;
    n_mono : forall g d psi a x, In d ds ->
      evd g (f_mono F d psi a) x = monoN (g psi) (fun _ => g a) (g BetaUp) (g BetaDn) d x;
    n_sum : forall g psi v x, evd g (f_sum F psi v) x =
      evd (fun a => match a with Psi _ => g psi | Flux d => g (v d) | _ => g Gf end) (f_sum F (Psi false) Flux) x;
    n_terms : forall g psi v x, map (fun e => evd g e x) (f_terms F psi v) =
      map (fun e => evd (fun a => match a with Psi _ => g psi | Flux d => g (v d) | _ => g Gf end) e x)
          (f_terms F (Psi false) Flux);
    n_term : forall psi v e ao, In e (f_terms F psi v) -> In ao (leaves e) ->
      fst ao = psi \/ (exists d, In d ds /\ fst ao = v d) \/ fst ao = Gf;
    (* components *)
    k_anti : forall d a i, In d ds -> In (a, i) (leaves (f_antidiff F d (Psi false) (Psi true) GC)) ->
      match a with GC d' | NdtGC d' | NdttGC d' => In d' ds | _ => True end;
    k_bup : forall a i, In (a, i) (leaves (f_bup F (Psi false) Flux)) -> match a with Flux d' => In d' ds | _ => True end;
    k_bdn : forall a i, In (a, i) (leaves (f_bdn F (Psi false) Flux)) -> match a with Flux d' => In d' ds | _ => True end;
    k_sum : forall a i, In (a, i) (leaves (f_sum F (Psi false) Flux)) -> match a with Flux d' => In d' ds | _ => True end }.
  Hypothesis NAT : natural.

  (** *** Extensionality *)
  Ltac ext1 := intros; apply evd_ext; intros [] ?; auto.
  Ltac ext2 := intros; apply evd_leaves; intros [] ?; cbn [fst]; auto.
  Lemma antiN_ext p p' q q' C C' G G' N N' T T' : p == p' -> q == q' -> C =v= C' -> G == G' -> N =v= N' -> T =v= T' ->
    antiN p q C G N T =v= antiN p' q' C' G' N' T'.
  Proof.
    intros Hp Hq HC HG HN HT d Hd x. apply evd_leaves. intros [a i] Hao. pose proof (k_anti NAT d a i Hd Hao) as K.
    cbn [fst]. destruct a as [[]| | | | | | | | | | | | |]; auto.
  Qed.
  Lemma fluxN_ext p p' C C' : p == p' -> C =v= C' -> fluxN p C =v= fluxN p' C'.
  Proof. intros Hp HC d Hd x. apply evd_ext. intros [] ?; auto; apply HC; auto. Qed.
  Lemma minN_ext p p' : p == p' -> minN p == minN p'.
  Proof. ext1. Qed.
  Lemma maxN_ext p p' : p == p' -> maxN p == maxN p'.
  Proof. ext1. Qed.
  Lemma bupN_ext p p' m m' f f' G G' : p == p' -> m == m' -> f =v= f' -> G == G' -> bupN p m f G == bupN p' m' f' G'.
  Proof.
    intros Hp Hm Hf HG x. apply evd_leaves. intros [a i] Hao. pose proof (k_bup NAT a i Hao) as K. cbn [fst].
    destruct a; auto.
  Qed.
  Lemma bdnN_ext p p' m m' f f' G G' : p == p' -> m == m' -> f =v= f' -> G == G' -> bdnN p m f G == bdnN p' m' f' G'.
  Proof.
    intros Hp Hm Hf HG x. apply evd_leaves. intros [a i] Hao. pose proof (k_bdn NAT a i Hao) as K. cbn [fst].
    destruct a; auto.
  Qed.
  Lemma monoN_ext p p' C C' u u' w w' : p == p' -> C =v= C' -> u == u' -> w == w' -> monoN p C u w =v= monoN p' C' u' w'.
  Proof. intros Hp HC Hu Hw d Hd x. apply evd_ext. intros [] ?; auto; apply HC; auto. Qed.
  Lemma sumN_ext p p' f f' G G' : p == p' -> f =v= f' -> G == G' -> sumN p f G == sumN p' f' G'.
  Proof.
    intros Hp Hf HG x. unfold FunN.sumN. destruct (khn o).
    - f_equal. f_equal. apply map_ext_in. intros e He. apply evd_leaves. intros ao Hao.
      destruct (n_term NAT _ _ e ao He Hao) as [E|[(d & Hd & E)|E]]; rewrite E; auto.
    - apply evd_leaves. intros [a i] Hao. pose proof (k_sum NAT a i Hao) as K. cbn [fst]. destruct a; auto.
  Qed.

  (** *** Programs by parts *)
  Definition vE (v : dim -> arr) (E : dim -> sexpr) : list (arr * sexpr) := map (fun d => (v d, E d)) ds.
  Definition kahE (psi' : arr) (e : sexpr) : list (arr * sexpr) :=
    map (fun s => (t_arr s, t_exp s))
      (kahan_add (fun a e => {| t_arr := a; t_x := Ext 0 0; t_y := Ext 0 0; t_z := Ext 0 0; t_exp := e |}) psi' e).
  Definition sumE (psi psi' : arr) (flx : dim -> arr) : list (arr * sexpr) :=
    if khn o then [(psi', q 0); (Khn 0, q 0)] ++ flat_map (kahE psi') (f_terms F psi flx)
    else [(psi', f_sum F psi flx)].
  Definition fct_initE (psi : arr) : list (arr * sexpr) :=
    if fct o then [(PsiMin, f_min F psi); (PsiMax, f_max F psi)] else [].
  Definition fluxE (psi : arr) (gc : dim -> arr) : list (arr * sexpr) := vE Flux (fun d => f_flux F d psi (gc d)).
  Definition fctE (psi : arr) (corr : dim -> arr) : list (arr * sexpr) :=
    if fct o then
      (if iga o then [] else fluxE psi corr) ++
      (let flx := if iga o then corr else Flux in [(BetaUp, f_bup F psi flx); (BetaDn, f_bdn F psi flx)]) ++
      vE Mono (fun d => f_mono F d psi (corr d))
    else [].
  Definition upE (psi psi' : arr) : list (arr * sexpr) := fluxE psi GC ++ sumE psi psi' Flux.
  Definition corrE (psi psi' : arr) (unco corr : dim -> arr) : list (arr * sexpr) :=
    vE corr (fun d => f_antidiff F d psi psi' unco) ++ fctE psi corr ++
    (let gc := if fct o then Mono else corr in
     if iga o then sumE psi psi' gc else fluxE psi gc ++ sumE psi psi' Flux).
  Definition scaleE (psi : arr) (ex : Z) : list (arr * sexpr) :=
    if ex =? 0 then []
    else if 0 <? ex then [ (psi, (Leaf (psi, izero) / q (2 ^ ex))%s) ]
    else [ (psi, (Leaf (psi, izero) * q (2 ^ (- ex)))%s) ].
  Fixpoint passesE (b : bool) (j more : nat) : list (arr * sexpr) :=
    match more with
    | O => []
    | S m => corrE (Psi (lev b j)) (Psi (lev b (S j))) (GC_unco j) (GC_corr j) ++ passesE b (S j) m
    end.
  Definition bodyE (k : nat) (ex : Z) (b : bool) : list (arr * sexpr) :=
    scaleE (Psi b) ex ++ fct_initE (Psi b) ++ upE (Psi b) (Psi (lev b 1)) ++ passesE b 1 (k - 1) ++
    scaleE (Psi (lev b k)) (- ex).

  (** vector statements *)
  Lemma vec_ln (v : dim -> arr) E (g : st) : (forall d d', v d = v d' -> d = d') ->
    (forall d g1 x, In d ds -> (forall a, (forall d', a <> v d') -> g1 a == g a) -> evd g1 (E d) x = evd g (E d) x) ->
    let g' := ln_prog (vE v E) g in
    (forall d, In d ds -> g' (v d) == evd g (E d)) /\ (forall a, (forall d', a <> v d') -> g' a == g a).
  Proof.
    unfold vE. intros INJ HE. cbv zeta.
    clear NAT. revert HE. induction ds as [|d l IH] using rev_ind; intros HE.
    - split; [intros d []|reflexivity].
    - rewrite map_app, ln_app. cbn [map ln_prog fold_left].
      destruct IH as [A B]; [intros d' g1 x Hd'; apply HE; apply in_or_app; auto|].
      fold (ln_prog (map (fun d => (v d, E d)) l) g). set (g1 := ln_prog _ g) in *.
      assert (HL : evd g1 (E d) == evd g (E d)).
      { intros x. apply HE; [apply in_or_app; right; left; auto|exact B]. }
      split.
      + intros d' Hd' x. destruct (arr_eqb (v d') (v d)) eqn:EQ.
        * apply arr_eqb_eq in EQ. pose proof (INJ _ _ EQ). subst d'. rewrite ln_here. apply HL.
        * rewrite ln_other by (intros K; rewrite K, arr_eqb_refl in EQ; discriminate).
          apply A. apply in_app_or in Hd'. destruct Hd' as [Hd'|[->|[]]]; auto.
          rewrite arr_eqb_refl in EQ. discriminate.
      + intros a Ha x. rewrite ln_other by auto. apply B. exact Ha.
  Qed.

  (** sums *)
  Lemma kahan_ln psi' e (g : st) : khn_arr psi' = false ->
    (forall ao, In ao (leaves e) -> fst ao <> psi' /\ khn_arr (fst ao) = false) ->
    let g' := ln_prog (kahE psi' e) g in
    (forall x, (g' psi' x, g' (Khn 0) x) = kadd ar (g psi' x, g (Khn 0) x) (evd g e x)) /\
    (forall a, a <> psi' -> khn_arr a = false -> g' a == g a).
  Proof.
    intros HK HL. cbv zeta. unfold kahE, kahan_add. cbn [map ln_prog fold_left t_arr t_exp].
    assert (K0 : psi' <> Khn 0 /\ psi' <> Khn 1 /\ psi' <> Khn 2) by (repeat split; intros ->; discriminate).
    destruct K0 as (K0 & K1 & K2).
    split.
    - intros x.
      repeat (rewrite ?ln_here; repeat (rewrite ln_other by (congruence || (intro Q; discriminate Q) || auto))).
      unfold FunN.evd. cbn [ev fst snd]. rewrite !iadd_z.
      repeat (rewrite ?ln_here; repeat (rewrite ln_other by (congruence || (intro Q; discriminate Q) || auto))).
      unfold FunN.evd. cbn [ev fst snd]. rewrite !iadd_z.
      repeat (rewrite ?ln_here; repeat (rewrite ln_other by (congruence || (intro Q; discriminate Q) || auto))).
      unfold FunN.evd. cbn [ev fst snd]. rewrite !iadd_z.
      repeat (rewrite ?ln_here; repeat (rewrite ln_other by (congruence || (intro Q; discriminate Q) || auto))).
      reflexivity.
    - intros a Ha Hk x.
      assert (A : a <> Khn 0 /\ a <> Khn 1 /\ a <> Khn 2) by (repeat split; intros ->; discriminate).
      destruct A as (A0 & A1 & A2). rewrite !ln_other by auto. reflexivity.
  Qed.
  Lemma kahans_ln psi' (es : list sexpr) : khn_arr psi' = false ->
    (forall e, In e es -> forall ao, In ao (leaves e) -> fst ao <> psi' /\ khn_arr (fst ao) = false) ->
    forall g, let g' := ln_prog (flat_map (kahE psi') es) g in
    (forall x, g' psi' x = fst (fold_left (kadd ar) (map (fun e => evd g e x) es) (g psi' x, g (Khn 0) x))) /\
    (forall a, a <> psi' -> khn_arr a = false -> g' a == g a).
  Proof.
    intros HK. induction es as [|e es IH]; intros HL g; cbv zeta; [split; reflexivity|].
    cbn [flat_map]. rewrite ln_app.
    destruct (kahan_ln psi' e g HK (HL e (or_introl eq_refl))) as [A1 B1]. cbv zeta in A1, B1.
    set (g1 := ln_prog (kahE psi' e) g) in *.
    destruct (IH (fun e' H => HL e' (or_intror H)) g1) as [A2 B2]. split.
    - intros x. cbv zeta in A2. rewrite A2. cbn [map fold_left]. rewrite <- A1. f_equal. f_equal.
      apply map_ext_in. intros e' He'. apply evd_leaves. intros ao Hao.
      destruct (HL e' (or_intror He') ao Hao). apply B1; auto.
    - intros a Ha Hk x. cbv zeta in B2. rewrite B2, B1 by auto. reflexivity.
  Qed.

  Lemma sum_ln b (v : dim -> arr) (g : st) : In v [GC; Flux; Mono; Cor true; Cor false] ->
    let g' := ln_prog (sumE (Psi b) (Psi (negb b)) v) g in
    (g' (Psi (negb b)) == sumN (g (Psi b)) (fun d => g (v d)) (g Gf)) /\
    (forall a, a <> Psi (negb b) -> khn_arr a = false -> g' a == g a).
  Proof.
    intros Hv. cbv zeta. unfold sumE, FunN.sumN.
    destruct (khn o).
    - rewrite ln_app. set (g0 := ln_prog [_; _] g).
      assert (Z1 : g0 (Psi (negb b)) == fun _ => acst ar (CQ 0 1)).
      { intros x. unfold g0. cbn [ln_prog fold_left]. rewrite ln_other, ln_here by discriminate. reflexivity. }
      assert (Z2 : g0 (Khn 0) == fun _ => acst ar (CQ 0 1)).
      { intros x. unfold g0. cbn [ln_prog fold_left]. rewrite ln_here. reflexivity. }
      assert (Z3 : forall a, a <> Psi (negb b) -> khn_arr a = false -> g0 a == g a).
      { intros a Ha Hk x. unfold g0. cbn [ln_prog fold_left]. rewrite !ln_other; auto. intros ->; discriminate. }
      assert (HL : forall e, In e (f_terms F (Psi b) v) -> forall ao, In ao (leaves e) -> fst ao <> Psi (negb b) /\ khn_arr (fst ao) = false).
      { intros e He ao Hao. destruct (n_term NAT _ _ e ao He Hao) as [->|[(d & _ & ->)| ->]].
        - split; [destruct b; discriminate|reflexivity].
        - cbn [In] in Hv. repeat match goal with H : _ \/ _ |- _ => destruct H as [<-|H] | H : False |- _ => destruct H end; split; auto; discriminate.
        - split; [discriminate|reflexivity]. }
      destruct (kahans_ln (Psi (negb b)) (f_terms F (Psi b) v) eq_refl HL g0) as [A B]. split.
      + intros x. cbv zeta in A. rewrite A, Z1, Z2. f_equal. f_equal. rewrite <- (n_terms NAT). apply map_ext_in. intros e He.
        apply evd_leaves. intros ao Hao y. destruct (HL e He ao Hao). apply Z3; auto.
      + intros a Ha Hk x. cbv zeta in B. rewrite B by auto. apply Z3; auto.
    - cbn [ln_prog fold_left]. split.
      + intros x. rewrite ln_here. apply (n_sum NAT).
      + intros a Ha _. apply ln_other; auto.
  Qed.

  (** *** Passes *)
  Variable X : fixedN ar.
  Definition hasN (g : st) : Prop :=
    ((fun d => g (GC d)) =v= nC ar X) /\ (g Gf == nG ar X) /\ ((fun d => g (NdtGC d)) =v= nN ar X) /\ ((fun d => g (NdttGC d)) =v= nT ar X).
  Lemma hasN_kept g g' : (forall a, kept a = true -> g' a == g a) -> hasN g -> hasN g'.
  Proof.
    intros H (H1 & H2 & H3 & H4). repeat split; intros; rewrite H by reflexivity; auto.
  Qed.

  Lemma flux_ln b (v : dim -> arr) (g : st) : (forall d d', v d <> Flux d') ->
    let g' := ln_prog (fluxE (Psi b) v) g in
    ((fun d => g' (Flux d)) =v= fluxN (g (Psi b)) (fun d => g (v d))) /\
    (forall a, (forall d, a <> Flux d) -> g' a == g a).
  Proof.
    intros Hv. cbv zeta. unfold fluxE.
    destruct (vec_ln Flux (fun d => f_flux F d (Psi b) (v d)) g) as [A B].
    - intros d d' E. injection E. auto.
    - intros d g1 x Hd K. rewrite !(n_flux NAT) by auto.
      apply fluxN_ext; auto; intros; apply K; auto; discriminate.
    - cbv zeta in A, B. split; [|exact B]. intros d Hd x. rewrite A by auto. apply (n_flux NAT); auto.
  Qed.

  Lemma init_ln b (g : st) :
    let g' := ln_prog (fct_initE (Psi b)) g in
    (fct o = true -> (g' PsiMin == minN (g (Psi b))) /\ (g' PsiMax == maxN (g (Psi b)))) /\
    (forall a, a <> PsiMin -> a <> PsiMax -> g' a == g a).
  Proof.
    cbv zeta. unfold fct_initE. destruct (fct o); [|split; [discriminate|reflexivity]].
    cbn [ln_prog fold_left]. split.
    - intros _. split; intros x.
      + rewrite ln_other by discriminate. rewrite ln_here, (n_min NAT). reflexivity.
      + rewrite ln_here, (n_max NAT). apply maxN_ext. intros y. rewrite ln_other by discriminate. reflexivity.
    - intros a Ha Hb x. rewrite !ln_other by auto. reflexivity.
  Qed.

  Lemma up_ln b (g : st) : hasN g ->
    let p := g (Psi b) in
    let g' := ln_prog (fct_initE (Psi b) ++ upE (Psi b) (Psi (negb b))) g in
    (g' (Psi (negb b)) == upN ar o F X p) /\ (g' (Psi b) == p) /\
    (fct o = true -> (g' PsiMin == minN p) /\ (g' PsiMax == maxN p)) /\
    (forall a, kept a = true -> g' a == g a).
  Proof.
    intros HX p. cbv zeta. unfold upE. rewrite !ln_app.
    destruct (init_ln b g) as [M2 O2]. set (g2 := ln_prog (fct_initE (Psi b)) g) in *.
    destruct (flux_ln b GC g2 ltac:(discriminate)) as [F3 O3]. cbv zeta in F3, O3. set (g3 := ln_prog (fluxE (Psi b) GC) g2) in *.
    destruct (sum_ln b Flux g3 ltac:(cbn; auto 10)) as [A B]. cbv zeta in A, B.
    set (g4 := ln_prog (sumE (Psi b) (Psi (negb b)) Flux) g3) in *.
    assert (P3 : g3 (Psi b) == p) by (intros x; rewrite O3, O2 by discriminate; reflexivity).
    assert (K3 : forall a, kept a = true -> g3 a == g a).
    { intros a Ha x. rewrite O3, O2 by (intros; intros ->; discriminate). reflexivity. }
    repeat split.
    - intros x. rewrite A. unfold upN. apply sumN_ext; auto.
      + intros d Hd y. rewrite F3 by auto. apply fluxN_ext; auto.
        * intros z. apply O2; discriminate.
        * intros d' Hd' z. rewrite O2 by discriminate. apply HX; auto.
      + intros y. rewrite K3 by reflexivity. apply HX.
    - intros x. rewrite B; auto. destruct b; discriminate.
    - intros x. rewrite B, O3 by (reflexivity || discriminate). apply M2; auto.
    - intros x. rewrite B, O3 by (reflexivity || discriminate). apply M2; auto.
    - intros a Ha x. rewrite B; [apply K3; auto| |]; destruct a; try discriminate; reflexivity.
  Qed.

  Lemma limN_ext p p' c c' mn mn' mx mx' : p == p' -> c =v= c' -> (fct o = true -> mn == mn') -> (fct o = true -> mx == mx') ->
    limN ar o F X p c mn mx =v= limN ar o F X p' c' mn' mx'.
  Proof.
    intros Hp Hc Hn Hm. unfold limN. destruct (fct o); auto.
    assert (E : (if iga o then c else fluxN p c) =v= (if iga o then c' else fluxN p' c')).
    { destruct (iga o); auto. apply fluxN_ext; auto. }
    apply monoN_ext; auto; [apply bupN_ext|apply bdnN_ext]; auto.
  Qed.
  Lemma finN_ext p p' c c' : p == p' -> c =v= c' -> finN ar o F X p c == finN ar o F X p' c'.
  Proof.
    intros Hp Hc. unfold finN. apply sumN_ext; auto. destruct (iga o); auto. apply fluxN_ext; auto.
  Qed.
  Lemma corrN_ext p p' q q' C C' : p == p' -> q == q' -> C =v= C' -> corrN ar F X p q C =v= corrN ar F X p' q' C'.
  Proof. intros. unfold corrN. apply antiN_ext; auto. Qed.

  Lemma fct_ln b c (g : st) : hasN g -> fct o = true ->
    let g' := ln_prog (fctE (Psi b) (Cor c)) g in
    ((fun d => g' (Mono d)) =v= limN ar o F X (g (Psi b)) (fun d => g (Cor c d)) (g PsiMin) (g PsiMax)) /\
    (forall a, (forall d, a <> Flux d) -> (forall d, a <> Mono d) -> a <> BetaUp -> a <> BetaDn -> g' a == g a).
  Proof.
    intros HX Hf. cbv zeta. unfold fctE. rewrite Hf, !ln_app.
    set (p := g (Psi b)). set (cc := fun d => g (Cor c d)).
    set (phi := if iga o then cc else fluxN p cc).
    set (g2 := ln_prog (if iga o then [] else fluxE (Psi b) (Cor c)) g).
    set (flx := if iga o then Cor c else Flux).
    assert (S2 : ((fun d => g2 (flx d)) =v= phi) /\ (forall a, (forall d, a <> Flux d) -> g2 a == g a)).
    { unfold g2, flx, phi. destruct (iga o); [split; reflexivity|].
      destruct (flux_ln b (Cor c) g ltac:(discriminate)) as [A B]. split; [exact A|exact B]. }
    destruct S2 as [F2 O2].
    cbv zeta.
    set (g3 := ln_prog [(BetaUp, _); _] g2).
    assert (O3 : forall a, (forall d, a <> Flux d) -> a <> BetaUp -> a <> BetaDn -> g3 a == g a).
    { intros a Hb Hc Hd x. unfold g3. cbn [ln_prog fold_left]. rewrite !ln_other by auto. apply O2; auto. }
    assert (FN : forall d, flx d <> BetaUp) by (intros d; unfold flx; destruct (iga o); discriminate).
    assert (U3 : g3 BetaUp == bupN p (g PsiMax) phi (nG ar X)).
    { intros x. unfold g3. cbn [ln_prog fold_left]. rewrite ln_other by discriminate.
      rewrite ln_here, (n_bup NAT). apply bupN_ext; auto; try (apply O2; discriminate).
      intros y. rewrite O2 by discriminate. apply HX. }
    assert (D3 : g3 BetaDn == bdnN p (g PsiMin) phi (nG ar X)).
    { intros x. unfold g3. cbn [ln_prog fold_left].
      rewrite ln_here, (n_bdn NAT).
      apply bdnN_ext; auto.
      - intros y. rewrite ln_other by discriminate. apply O2; discriminate.
      - intros y. rewrite ln_other by discriminate. apply O2; discriminate.
      - intros d Hd y. rewrite ln_other by auto. apply F2; auto.
      - intros y. rewrite ln_other by discriminate. rewrite O2 by discriminate. apply HX. }
    destruct (vec_ln Mono (fun d => f_mono F d (Psi b) (Cor c d)) g3) as [A B].
    - intros d d' E. injection E. auto.
    - intros d g1 x Hd K. rewrite !(n_mono NAT) by auto.
      apply monoN_ext; auto; intros; apply K; auto; discriminate.
    - cbv zeta in A, B. split.
      + intros d Hd x. rewrite A by auto. rewrite (n_mono NAT) by auto. unfold limN. rewrite Hf. fold phi.
        transitivity (monoN p cc (bupN p (g PsiMax) phi (nG ar X)) (bdnN p (g PsiMin) phi (nG ar X)) d x); [|reflexivity].
        transitivity (monoN (g3 (Psi b)) (fun d => g3 (Cor c d)) (g3 BetaUp) (g3 BetaDn) d x); [reflexivity|].
        apply monoN_ext; auto.
        * apply O3; discriminate.
        * intros d' Hd'. apply O3; discriminate.
      + intros a H1 H2 H3 H4 x. rewrite B by auto. apply O3; auto.
  Qed.

  Lemma co_ln b unco c (g : st) : hasN g -> In unco [GC; Cor (negb c)] ->
    let p := g (Psi b) in
    let cc := corrN ar F X p (g (Psi (negb b))) (fun d => g (unco d)) in
    let g' := ln_prog (corrE (Psi b) (Psi (negb b)) unco (Cor c)) g in
    (g' (Psi (negb b)) == finN ar o F X p (limN ar o F X p cc (g PsiMin) (g PsiMax))) /\
    (g' (Psi b) == p) /\
    ((fun d => g' (Cor c d)) =v= cc) /\
    (g' PsiMin == g PsiMin) /\ (g' PsiMax == g PsiMax) /\
    (forall a, kept a = true -> g' a == g a).
  Proof.
    intros HX Hu p cc. cbv zeta. unfold corrE. rewrite !ln_app.
    assert (UN : forall d d', unco d <> Cor c d').
    { intros d d'. cbn in Hu. destruct Hu as [<-|[<-|[]]]; [discriminate|]. destruct c; discriminate. }
    destruct (vec_ln (Cor c) (fun d => f_antidiff F d (Psi b) (Psi (negb b)) unco) g) as [C2 O2].
    { intros d d' E. injection E. auto. }
    { intros d g1 x Hd K. rewrite !(n_anti NAT) by auto. apply antiN_ext; auto; intros; apply K; auto; discriminate. }
    cbv zeta in C2, O2. set (g2 := ln_prog (vE (Cor c) _) g) in *.
    assert (C2' : (fun d => g2 (Cor c d)) =v= cc).
    { intros d Hd x. rewrite C2 by auto. rewrite (n_anti NAT) by auto. unfold cc, corrN.
      apply antiN_ext; auto; apply HX. }
    assert (HX2 : hasN g2).
    { revert HX. apply hasN_kept. intros a Ha. apply O2; intros d ->; discriminate. }
    set (g4 := ln_prog (fctE (Psi b) (Cor c)) g2).
    set (gc := if fct o then Mono else Cor c).
    assert (S4 : ((fun d => g4 (gc d)) =v= limN ar o F X p cc (g PsiMin) (g PsiMax)) /\
                 (forall a, (forall d, a <> Flux d) -> (forall d, a <> Mono d) -> a <> BetaUp -> a <> BetaDn -> g4 a == g2 a)).
    { unfold gc, g4. destruct (fct o) eqn:Hf.
      - destruct (fct_ln b c g2 HX2 Hf) as (A & B). cbv zeta in *. split; [|exact B].
        intros d Hd x. rewrite A by auto. apply limN_ext; auto; intros; apply O2; discriminate.
      - unfold fctE. rewrite Hf. split; [|reflexivity].
        intros d Hd x. unfold limN. rewrite Hf. apply C2'; auto. }
    destruct S4 as (L4 & O4).
    assert (P4 : g4 (Psi b) == p) by (intros x; rewrite O4, O2 by discriminate; reflexivity).
    assert (C4 : (fun d => g4 (Cor c d)) =v= cc) by (intros d Hd x; rewrite O4 by discriminate; apply C2'; auto).
    assert (N4 : g4 PsiMin == g PsiMin) by (intros x; rewrite O4, O2 by discriminate; reflexivity).
    assert (M4 : g4 PsiMax == g PsiMax) by (intros x; rewrite O4, O2 by discriminate; reflexivity).
    assert (K4 : forall a, kept a = true -> g4 a == g a).
    { intros a Ha x. rewrite O4, O2 by (intros; intros ->; discriminate). reflexivity. }
    assert (VC : In gc [GC; Flux; Mono; Cor true; Cor false]) by (unfold gc; destruct (fct o), c; cbn; auto 10).
    assert (GCN : forall d d', gc d <> Flux d') by (intros; unfold gc; destruct (fct o); discriminate).
    cbv zeta. fold gc. destruct (iga o) eqn:Hi.
    - destruct (sum_ln b gc g4 VC) as [A B]. cbv zeta in A, B.
      split; [|split; [|split; [|split; [|split]]]].
      + intros x. rewrite A. unfold finN. rewrite Hi. apply sumN_ext; auto.
        intros y. rewrite K4 by reflexivity. apply HX.
      + intros x. rewrite B; auto. destruct b; discriminate.
      + intros d Hd x. rewrite B by (discriminate || reflexivity). apply C4; auto.
      + intros x. rewrite B by (discriminate || reflexivity). auto.
      + intros x. rewrite B by (discriminate || reflexivity). auto.
      + intros a Ha x. rewrite B; [apply K4; auto| |]; destruct a; try discriminate; reflexivity.
    - rewrite ln_app. destruct (flux_ln b gc g4 GCN) as [F5 O5]. cbv zeta in F5, O5. set (g5 := ln_prog (fluxE (Psi b) gc) g4) in *.
      destruct (sum_ln b Flux g5 ltac:(cbn; auto 10)) as [A B]. cbv zeta in A, B.
      split; [|split; [|split; [|split; [|split]]]].
      + intros x. rewrite A. unfold finN. rewrite Hi. apply sumN_ext.
        * intros y. rewrite O5 by discriminate. auto.
        * intros d Hd y. rewrite F5 by auto. apply fluxN_ext; auto.
        * intros y. rewrite O5 by discriminate. rewrite K4 by reflexivity. apply HX.
      + intros x. rewrite B, O5; auto; try discriminate. destruct b; discriminate.
      + intros d Hd x. rewrite B, O5 by (discriminate || reflexivity). apply C4; auto.
      + intros x. rewrite B, O5 by (discriminate || reflexivity). auto.
      + intros x. rewrite B, O5 by (discriminate || reflexivity). auto.
      + intros a Ha x. rewrite B, O5; [apply K4; auto| | |]; destruct a; try discriminate; reflexivity.
  Qed.

  Lemma passesN_ext mn mn' mx mx' more : (fct o = true -> mn == mn') -> (fct o = true -> mx == mx') ->
    forall pn pn' psi psi' C C', pn == pn' -> psi == psi' -> C =v= C' ->
    passesN ar o F X mn mx more pn psi C == passesN ar o F X mn' mx' more pn' psi' C'.
  Proof.
    intros Hn Hm. induction more as [|k IH]; intros pn pn' psi psi' C C' Hq Hp HC; [exact Hp|]. cbn [passesN].
    apply IH; auto.
    - apply finN_ext; auto. apply limN_ext; auto. apply corrN_ext; auto.
    - apply corrN_ext; auto.
  Qed.

  Lemma passes_ln b mn mx more : forall j (g : st) pn psi C, (0 < j)%nat -> hasN g ->
    g (Psi (lev b j)) == psi -> g (Psi (lev b (S j))) == pn -> (fun d => g (GC_unco j d)) =v= C ->
    (fct o = true -> (g PsiMin == mn) /\ (g PsiMax == mx)) ->
    let g' := ln_prog (passesE b j more) g in
    (g' (Psi (lev b (j + more))) == passesN ar o F X mn mx more pn psi C) /\
    (forall a, kept a = true -> g' a == g a).
  Proof.
    induction more as [|k IH]; intros j g pn psi C Hj HX HP HQ HC HM; cbv zeta.
    - rewrite Nat.add_0_r. cbn. auto.
    - cbn [passesE passesN]. rewrite ln_app. rewrite (lev_next b j) in HQ |- *.
      destruct (co_ln (lev b j) (GC_unco j) (Nat.odd j) g HX (unco_in j)) as (A & A' & B & D & E & K).
      cbv zeta in *. change (Cor (Nat.odd j)) with (GC_corr j) in *.
      set (g1 := ln_prog (corrE _ _ _ _) g) in *.
      replace (j + S k)%nat with (S j + k)%nat by lia.
      set (cc := corrN ar F X psi pn C).
      assert (EC : (fun d => g1 (GC_corr j d)) =v= cc).
      { intros d Hd x. rewrite B by auto. apply corrN_ext; auto. }
      destruct (IH (S j) g1 psi (finN ar o F X psi (limN ar o F X psi cc mn mx)) cc) as [A2 K2].
      + lia.
      + revert HX. apply hasN_kept. exact K.
      + rewrite lev_next. intros x. rewrite A. apply finN_ext; auto.
        apply limN_ext; auto; try (intros Hf; apply (HM Hf)).
        apply corrN_ext; auto.
      + rewrite !lev_next, negb_involutive. intros x. rewrite A'. auto.
      + rewrite unco_next by auto. exact EC.
      + intros Hf. destruct (HM Hf) as [M1 M2]. split; intros x; [rewrite D|rewrite E]; auto.
      + split; [exact A2|]. intros a Ha x. cbv zeta in K2. rewrite K2, K by auto. reflexivity.
  Qed.

  Lemma scale_ln b k (g : st) :
    (ln_prog (scaleE (Psi b) k) g (Psi b) == scaleN ar k (g (Psi b))) /\
    (forall a, a <> Psi b -> ln_prog (scaleE (Psi b) k) g a == g a).
  Proof.
    unfold scaleE, scaleN. destruct (k =? 0); [split; reflexivity|].
    destruct (0 <? k); cbn [ln_prog fold_left]; split; intros;
      rewrite ?ln_here, ?ln_other by auto; auto;
      unfold FunN.evd; cbn [ev fst snd q]; rewrite iadd_z; reflexivity.
  Qed.
  Lemma scaleN_ext k p p' : p == p' -> scaleN ar k p == scaleN ar k p'.
  Proof. intros H x. unfold scaleN. rewrite H. reflexivity. Qed.
  Lemma upN_ext p p' : p == p' -> upN ar o F X p == upN ar o F X p'.
  Proof. intros H. apply sumN_ext; auto. apply fluxN_ext; auto. Qed.
  Lemma stepN_ext k ex psi psi' : psi == psi' -> stepN ar o F X k ex psi == stepN ar o F X k ex psi'.
  Proof.
    intros H. unfold stepN. pose proof (scaleN_ext ex _ _ H) as E.
    apply scaleN_ext. apply passesN_ext; auto.
    - intros _. apply minN_ext; auto.
    - intros _. apply maxN_ext; auto.
    - apply upN_ext; auto.
  Qed.
  Lemma stepsN_ext nit freq ex nt : forall ts psi psi', psi == psi' ->
    stepsN ar o F X nit freq ex nt ts psi == stepsN ar o F X nit freq ex nt ts psi'.
  Proof.
    induction nt as [|n IH]; intros ts psi psi' H; [exact H|]. cbn [stepsN]. apply IH. apply stepN_ext. exact H.
  Qed.

  Lemma body_ln k ex b (g : st) : (0 < k)%nat -> hasN g ->
    let g' := ln_prog (bodyE k ex b) g in
    (g' (Psi (lev b k)) == stepN ar o F X k ex (g (Psi b))) /\
    (forall a, kept a = true -> g' a == g a).
  Proof.
    intros Hk HX. cbv zeta. unfold bodyE.
    rewrite (app_assoc (fct_initE (Psi b))), !(ln_app (scaleE _ _)), !(ln_app (_ ++ _)), ln_app.
    destruct (scale_ln b ex g) as [S1 S2]. set (g1 := ln_prog (scaleE (Psi b) ex) g) in *.
    assert (HX1 : hasN g1) by (revert HX; apply hasN_kept; intros a Ha; apply S2; intros ->; discriminate).
    destruct (up_ln b g1 HX1) as (U1 & U2 & U3 & U4). cbv zeta in *.
    assert (L1 : lev b 1 = negb b) by (destruct b; reflexivity). rewrite L1.
    set (g2 := ln_prog (fct_initE (Psi b) ++ _) g1) in *.
    assert (HX2 : hasN g2) by (revert HX1; apply hasN_kept; exact U4).
    set (p := scaleN ar ex (g (Psi b))).
    destruct (passes_ln b (minN p) (maxN p) (k - 1) 1 g2 p (upN ar o F X p) (nC ar X)) as [A B]; auto.
    - rewrite L1. intros x. rewrite U1. apply upN_ext. exact S1.
    - rewrite lev_next, L1, negb_involutive. intros x. rewrite U2. apply S1.
    - intros d Hd. apply HX2; auto.
    - intros Hf. destruct (U3 Hf) as [V1 V2]. split; intros x; [rewrite V1; apply minN_ext|rewrite V2; apply maxN_ext]; exact S1.
    - cbv zeta in A, B. set (g3 := ln_prog (passesE b 1 (k - 1)) g2) in *.
      destruct (scale_ln (lev b k) (- ex) g3) as [T1 T2]. split.
      + intros x. rewrite T1. unfold stepN. fold p. apply scaleN_ext. intros y.
        replace k with (1 + (k - 1))%nat at 1 by lia. apply A.
      + intros a Ha x. rewrite T2 by (intros ->; discriminate). rewrite B, U4, S2 by (auto; intros ->; discriminate).
        reflexivity.
  Qed.
End N.
