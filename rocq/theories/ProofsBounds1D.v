(** 1D solver: all accesses are inside the allocated arrays. *)
From Coq Require Import ZArith List Bool Lia ZifyBool.
From Verif Require Import SpecIndex ModelIndex ProofsIndex ModelRun Lang ProofsLang Stencil ProofsStencil
  FormCommon Form1D Solver1D Macro ProofsMacro Foot1D Proofs1D ProofsThread1D ProofsValid ProofsValid1D
  ProofsExch1D ProofsRef1D SpecBounds.
Import ListNotations.
Local Open Scope Z_scope.

(** allocation boxes; [two]: n_iters > 2 *)
Definition al1 (o : fl) (two : bool) (a : arr) : option ext3 :=
  let C := Some (bx (halo o) (halo o)) in
  let F := Some (bx (halo o) (halo o - 1)) in
  match a with
  | Psi _ => C
  | GC DX | Flux DX => F
  | Cor b DX => if b || two then F else None
  | Mono DX => if fct o then F else None
  | PsiMin | PsiMax | BetaUp | BetaDn => if fct o then C else None
  | Gf => if nug o then C else None
  | NdtGC DX | NdttGC DX => if div3 o || div3dt o then F else None
  | Khn k => if khn o && (0 <=? k) && (k <? 3) then C else None
  | _ => None
  end.
Definition scal (a : arr) : bool :=
  match a with Psi _ | PsiMin | PsiMax | BetaUp | BetaDn | Gf | Khn _ => true | _ => false end.

Definition ain (A : arr -> option ext3) (E : ext3) (ao : arr * idx) : bool :=
  match A (fst ao) with Some B => ext3_leb E (snd ao) B | None => false end.
Definition isS {T} (x : option T) : bool := match x with Some _ => true | None => false end.
Definition bok (A : arr -> option ext3) (i : minstr) : bool :=
  match i with
  | MDo s => slab_okb true (t_x s) && match s_ext s with
             | Some E => ain A E (t_arr s, izero) && forallb (ain A E) (leaves (t_exp s))
             | None => false
             end
  | MBar => true
  | MXS a _ => scal a && isS (A a)
  | MXVA v _ => negb (scal (v DX)) && isS (A (v DX))
  | MXVN _ _ | MXF _ => false
  end.

Definition bounds1_check (o : fl) : bool :=
  forallb (fun two =>
    let A := al1 o two in
    forallb (bok A) (ante1 o) &&
    forallb (fun b =>
      forallb (bok A) (MXS (Psi b) 0 :: fct_init1 o (canon1 o) (Psi b) ++ upstream1 o (canon1 o) (Psi b) (Psi (negb b))) &&
      forallb (fun k => forallb (fun l =>
        negb two && match k with None => false | _ => true end ||
        forallb (bok A) (MXS (Psi b) 0 :: corrective1 o (canon1 o) (Psi b) (Psi (negb b)) (unco_of k) (Cor (corr_of k)) l))
        bools) kopts) bools) bools.
Lemma bounds1_check_all : all_flv bounds1_check = true.
Proof. vm_compute. reflexivity. Qed.

Lemma in_bools (b : bool) : In b bools.
Proof. destruct b; cbn; auto. Qed.

Section Bounds.
  Variables (r : run1) (n : nat).
  Hypothesis RK : run_ok r.
  Hypothesis NE : (0 < n_eqns (r_cfg r))%nat.
  Hypothesis Hn : (0 < n)%nat.
  Hypothesis Hs : Z.of_nat n <= r_hi r - r_lo r + 1.
  Notation g := (geom1 (r_lo r) (r_hi r) n).
  Notation ex := (expand1 (r_halo r) (r_hi r - r_lo r) (r_bl r) (r_br r)).
  Notation o := (r_o r).
  Let OK : geom_ok g := geom1_ok _ _ _ Hn Hs.
  Notation two := (Nat.ltb 2 (r_nit r)).
  Notation A := (al1 o two).

  Lemma checks_b : bounds1_check o = true.
  Proof. exact (all_flv_sound _ bounds1_check_all o). Qed.

  Lemma bok_cov x y : mcov x y -> bok A y = true -> bok A x = true.
  Proof.
    intros M. destruct M as [s s' (E1 & E2 & E3 & E4 & L)|]; auto. cbn [bok].
    unfold s_ext. rewrite E1, E2, E3, E4. destruct (slab_okb true (t_x s')); auto. cbn [andb]. destruct (gext (t_x s')), (gext (t_y s')), (gext (t_z s')); auto.
    rewrite !andb_true_iff, !forallb_forall. intuition.
  Qed.
  Lemma boks_cov p q : Forall2 mcov p q -> forallb (bok A) q = true -> forallb (bok A) p = true.
  Proof.
    induction 1; cbn; auto. rewrite !andb_true_iff. intros [H1 H2]. split; eauto using bok_cov.
  Qed.

  Lemma ante_b : forallb (bok A) (ante1 o) = true.
  Proof.
    pose proof checks_b as C. unfold bounds1_check in C. rewrite forallb_forall in C.
    specialize (C two (in_bools _)). cbv zeta in C. apply andb_true_iff in C. apply C.
  Qed.
  Lemma up_b b : forallb (bok A) (MXS (Psi b) 0 :: fct_init1 o (r_forms r) (Psi b) ++
                   upstream1 o (r_forms r) (Psi b) (Psi (negb b))) = true.
  Proof.
    pose proof checks_b as C. unfold bounds1_check in C. rewrite forallb_forall in C.
    specialize (C two (in_bools _)). cbv zeta in C. apply andb_true_iff in C. destruct C as [_ C].
    rewrite forallb_forall in C. specialize (C b (in_bools _)). apply andb_true_iff in C. destruct C as [C _].
    revert C. apply boks_cov. constructor; [apply mcov_refl|]. apply Forall2_app.
    - apply fct_init1_cov. exact (forms1_cov o (r_sp r) (r_tp r) (ok_fl _ RK)).
    - apply upstream1_cov. exact (forms1_cov o (r_sp r) (r_tp r) (ok_fl _ RK)).
  Qed.
  Lemma co_b b j l : (0 < j < r_nit r)%nat ->
    forallb (bok A) (MXS (Psi b) 0 :: corrective1 o (r_forms r) (Psi b) (Psi (negb b)) (GC_unco j) (GC_corr j) l) = true.
  Proof.
    intros Hj. pose proof checks_b as C. unfold bounds1_check in C. rewrite forallb_forall in C.
    specialize (C two (in_bools _)). cbv zeta in C. apply andb_true_iff in C. destruct C as [_ C].
    rewrite forallb_forall in C. specialize (C b (in_bools _)). apply andb_true_iff in C. destruct C as [_ C].
    set (k := if Nat.eqb j 1 then None else Some (negb (Nat.odd j))).
    rewrite forallb_forall in C. specialize (C k).
    assert (Hk : In k kopts) by (unfold k; destruct (Nat.eqb j 1), (Nat.odd j); cbn; auto).
    specialize (C Hk). rewrite forallb_forall in C. specialize (C l (in_bools _)).
    apply orb_true_iff in C. destruct C as [C|C].
    { exfalso. unfold k in C. destruct (Nat.eqb_spec j 1); [rewrite andb_false_r in C; discriminate|].
      rewrite andb_true_r in C. apply negb_true_iff, Nat.ltb_ge in C. lia. }
    assert (EU : unco_of k = GC_unco j /\ Cor (corr_of k) = GC_corr j).
    { unfold unco_of, corr_of, k, GC_unco, GC_corr. destruct (Nat.eqb_spec j 1) as [->|]; [auto|].
      rewrite negb_involutive. auto. }
    destruct EU as [-> ->] in C. revert C. apply boks_cov. constructor; [apply mcov_refl|].
    apply corrective1_cov; [exact (forms1_cov o (r_sp r) (r_tp r) (ok_fl _ RK))| |]; unfold GC_unco, GC_corr;
      destruct (Nat.eqb j 1), (Nat.odd j); cbn; auto 10.
  Qed.

  Lemma scale_b b k : forallb (bok A) (scale1 (Psi b) k) = true.
  Proof.
    pose proof (halo_pos o).
    assert (E : ain A ((0,0),(0,0),(0,0)) (Psi b, izero) = true).
    { unfold ain. cbn. lia. }
    unfold scale1. destruct (k =? 0); [reflexivity|].
    destruct (0 <? k); cbn [forallb bok slab_okb s_ext at1 t_x t_y t_z rI Ext gext t_arr t_exp leaves app]; rewrite E; reflexivity.
  Qed.
  Lemma cyc_b l : forallb (bok A) (cyc_bars l) = true.
  Proof. destruct l; reflexivity. Qed.

  Lemma lev_neg b j : lev b (S j) = negb (lev b j).
  Proof. apply lev_S. Qed.
  Lemma passes_b lq b more : forall j, (0 < j)%nat -> (j + more <= r_nit r)%nat ->
    forallb (bok A) (passes1 o (r_forms r) (r_nit r) lq b j more) = true.
  Proof.
    induction more as [|m IH]; intros j Hj Hm; [reflexivity|]. cbn [passes1].
    rewrite !forallb_app, cyc_b, IH by lia. rewrite lev_neg.
    pose proof (co_b (lev b j) j (Nat.eqb (S j) (r_nit r)) ltac:(lia)) as C.
    cbn [forallb] in C. apply andb_true_iff in C. destruct C as [C1 C2].
    cbn [forallb andb]. rewrite C1, C2. reflexivity.
  Qed.

  Lemma body_b k ex0 lq b : (0 < k <= r_nit r)%nat ->
    forallb (bok A) (body1 o (r_forms r) (r_nit r) k ex0 lq b) = true.
  Proof.
    intros Hk. unfold body1. rewrite !forallb_app, !scale_b, cyc_b, passes_b by lia.
    rewrite (lev_neg b 0). replace (lev b 0) with b by (unfold lev; cbn; destruct b; reflexivity).
    pose proof (up_b b) as C. cbn [forallb] in C. rewrite forallb_app in C.
    apply andb_true_iff in C. destruct C as [C1 C]. apply andb_true_iff in C. destruct C as [C2 C3].
    cbn [forallb andb]. rewrite C1, C2, C3. destruct lq; reflexivity.
  Qed.

  Lemma passes_le ts : (0 < passes (r_nit r) (r_freq r) ts <= r_nit r)%nat.
  Proof. unfold passes. destruct RK as [_ H _]. destruct (_ && _); lia. Qed.

  Lemma macro_b nt : forall e p, In (e, p) (run_macro r nt) -> (e < n_eqns (r_cfg r))%nat /\ forallb (bok A) p = true.
  Proof.
    assert (E : forall k es lv e p, (0 < k <= r_nit r)%nat -> (forall x, In x es -> (x < n_eqns (r_cfg r))%nat) ->
              In (e, p) (eqs_macro r k es lv) -> (e < n_eqns (r_cfg r))%nat /\ forallb (bok A) p = true).
    { intros k es. induction es as [|x es IH]; intros lv e p Hk He H; [destruct H|].
      destruct H as [H|H].
      - inversion H; subst. split; [apply He; left; auto|]. apply body_b; auto.
      - eapply IH; eauto. intros y Hy. apply He. right. auto. }
    assert (T : forall m ts lv e p, In (e, p) (steps_macro r m ts lv) ->
              (e < n_eqns (r_cfg r))%nat /\ forallb (bok A) p = true).
    { induction m as [|m IH]; intros ts lv e p H; [destruct H|].
      cbn [steps_macro] in H. destruct H as [H|H]; [inversion H; subst; auto|].
      apply in_app_iff in H. destruct H as [H|H]; [|eauto].
      eapply E; [apply passes_le| |exact H]. intros x Hx.
      unfold eq_order, plain_eqns, delayed_eqns, eqns in Hx. rewrite in_app_iff, !filter_In, !in_seq in Hx. lia. }
    intros e p H. unfold run_macro in H. destruct H as [H|H].
    - inversion H; subst. split; auto. apply ante_b.
    - apply in_app_iff in H. destruct H as [H|[H|[]]]; [eauto|]. inversion H; subst; auto.
  Qed.

  (** from boxes to locations *)
  Lemma al_sound e a B i : (e < n_eqns (r_cfg r))%nat -> A a = Some B -> in_box g B i -> allocated1 r (tag e a, i).
  Proof.
    intros He HA Hi. destruct i as [[x y] z]. unfold allocated1.
    destruct a as [b|d|b d|d|d| | | | | |d|d|k|k]; cbn [al1] in HA; try discriminate; cbn [tag];
      try (destruct d; try discriminate);
      repeat match type of HA with context [if ?c then _ else _] => destruct c eqn:?; try discriminate end;
      inversion HA; subst; apply in_bx in Hi; auto; cbn [comp fst snd] in Hi;
      destruct Hi as (Hx & -> & ->); repeat split; auto; try lia.
  Qed.

  Lemma ext3_box E off B i : ext3_leb E off B = true -> in_box g E i -> in_box g B (iadd i off).
  Proof.
    intros L H d. unfold ext3_leb in L. rewrite forallb_forall in L.
    specialize (L d ltac:(destruct d; cbn; auto)). specialize (H d). rewrite comp_iadd. lia.
  Qed.

  Lemma ain_sound e E ao i : (e < n_eqns (r_cfg r))%nat -> ain A E ao = true -> in_box g E i ->
    allocated1 r (tag e (fst ao), iadd i (snd ao)).
  Proof.
    intros He H Hi. unfold ain in H. destruct (A (fst ao)) as [B|] eqn:EB; [|discriminate].
    eapply al_sound; eauto. eapply ext3_box; eauto.
  Qed.

  Definition okst (s : stmt loc) : Prop := forall t l, (t < n)%nat -> In l (s_el s t) ->
    allocated1 r l /\ forall x, In x (leaves (s_rhs s l)) -> allocated1 r x.

  Lemma iadd0 i : iadd i izero = i.
  Proof. destruct i as [[x y] z]. unfold iadd, izero. cbn. rewrite !Z.add_0_r. reflexivity. Qed.

  Lemma okst_of e s E : (e < n_eqns (r_cfg r))%nat ->
    (forall t i, (t < n)%nat -> In (tag e (t_arr s), i) (s_el (stmt_of g (inst e s)) t) -> in_box g E i) ->
    ain A E (t_arr s, izero) = true -> forallb (ain A E) (leaves (t_exp s)) = true -> okst (stmt_of g (inst e s)).
  Proof.
    intros He HE H1 H2 t [b i] Ht Hl.
    assert (b = tag e (t_arr s)).
    { cbn in Hl. apply in_map_iff in Hl. destruct Hl as (j & Hj & _). inversion Hj; auto. }
    subst b. specialize (HE t i Ht Hl). split.
    - pose proof (ain_sound e E (t_arr s, izero) i He H1 HE) as X. cbn [fst snd] in X. rewrite iadd0 in X. exact X.
    - intros x Hx. cbn [stmt_of s_rhs] in Hx. rewrite leaves_emap in Hx. apply in_map_iff in Hx.
      destruct Hx as (ao & <- & Hao). rewrite leaves_inst in Hao. apply in_map_iff in Hao.
      destruct Hao as (ao' & <- & Hao). unfold sh. cbn [fst snd]. apply (ain_sound e E); auto.
      rewrite forallb_forall in H2. auto.
  Qed.

  Lemma el_in_box e s E t i : s_ext s = Some E -> slab_okb true (t_x s) = true -> (t < n)%nat ->
    In (tag e (t_arr s), i) (s_el (stmt_of g (inst e s)) t) -> in_box g E i.
  Proof.
    intros HE SK Ht Hl. assert (SK' : slab_ok g (inst e s)) by (unfold slab_ok; rewrite d_r_inst; exact SK).
    apply (s_ext_gbox g e s E i HE). apply (el_union g OK (inst e s) (tag e (t_arr s), i) SK').
    exists t. split; auto.
  Qed.

  Lemma fill_ok e a x y k U : (e < n_eqns (r_cfg r))%nat -> A a = Some (bx (halo o) U) ->
    forall d, (d = AtFirst x y /\ - halo o <= x /\ - halo o <= x + k /\
               r_lo r + y <= r_hi r + U /\ r_lo r + y + k <= r_hi r + U \/
               d = AtLast x y /\ r_lo r - halo o <= r_hi r + x /\ r_lo r - halo o <= r_hi r + x + k /\
               y <= U /\ y + k <= U) ->
    okst (stmt_of g (inst e (at1 a d (Leaf (a, x1 k))))).
  Proof.
    intros He HA d Hd.
    set (E := bx (r_lo r - first (grng (r_lo r) (r_hi r) d)) (last (grng (r_lo r) (r_hi r) d) - r_hi r)).
    apply (okst_of e _ E); auto.
    - intros t i Ht Hl. cbn [t_arr at1] in *.
      assert (SK : slab_ok g (inst e (at1 a d (Leaf (a, x1 k))))).
      { unfold slab_ok. rewrite d_r_inst. cbn. destruct Hd as [[-> _]|[-> _]]; reflexivity. }
      pose proof (proj1 (el_union g OK _ (tag e a, i) SK) (ex_intro _ t (conj Ht Hl))) as [_ H].
      apply in_bx; auto. cbn [snd] in H. pose proof (H DX) as X. pose proof (H DY) as Y. pose proof (H DZ) as Z0.
      rewrite lo1, hi1, d_r_inst in * by auto. unfold in_rng in *. cbn [t_r at1 t_x t_y t_z Ext] in *.
      unfold first, last in *. unfold Ext in Y, Z0. cbn [grng fst snd] in Y, Z0. lia.
    - unfold ain. cbn [fst snd at1 t_arr]. rewrite HA. unfold E, ext3_leb, bx, first, last, izero, x1. cbn [forallb e_d comp fst snd].
      destruct Hd as [[-> H]|[-> H]]; cbn [grng fst snd]; lia.
    - cbn [t_exp at1 leaves forallb]. rewrite andb_true_r.
      unfold ain. cbn [fst snd at1 t_arr]. rewrite HA. unfold E, ext3_leb, bx, first, last, izero, x1. cbn [forallb e_d comp fst snd].
      destruct Hd as [[-> H]|[-> H]]; cbn [grng fst snd]; lia.
  Qed.

  Lemma al_scal a : scal a = true -> isS (A a) = true -> A a = Some (bx (halo o) (halo o)).
  Proof.
    destruct a as [b|d|b d|d|d| | | | | |d|d|k|k]; cbn; try discriminate; intros _;
      repeat match goal with |- context [if ?c then _ else _] => destruct c end; cbn; auto; discriminate.
  Qed.
  Lemma al_face a : scal a = false -> isS (A a) = true -> A a = Some (bx (halo o) (halo o - 1)).
  Proof.
    destruct a as [b|d|b d|d|d| | | | | |d|d|k|k]; cbn [scal]; try discriminate; intros _; cbn;
      try (destruct d);
      repeat match goal with |- context [if ?c then _ else _] => destruct c end; cbn; auto; discriminate.
  Qed.

  Lemma expand_ok e x t : (e < n_eqns (r_cfg r))%nat -> bok A x = true -> In (TDo t) (ex x) ->
    okst (stmt_of g (inst e t)).
  Proof.
    intros He Hb Hin. pose proof (halo_pos o) as HP. destruct RK as [_ _ HG].
    destruct x as [s| |a q0|v ad|v q0|v]; cbn [expand1 bok] in *.
    - destruct Hin as [H|[]]. inversion H; subst. apply andb_true_iff in Hb. destruct Hb as [Sk Hb].
      destruct (s_ext t) as [E|] eqn:EE; [|discriminate]. apply andb_true_iff in Hb. destruct Hb.
      apply (okst_of e t E); auto. intros u i Hu Hl. eapply el_in_box; eauto.
    - destruct Hin as [H|[]]. discriminate.
    - apply andb_true_iff in Hb. destruct Hb as [Hb1 Hb2]. pose proof (al_scal a Hb1 Hb2) as HA.
      unfold exchange1 in Hin. rewrite !in_app_iff, !in_map_iff in Hin.
      destruct Hin as [[|[]]|[(s & Es & Hin)|[[|[]]|[(s & Es & Hin)|[|[|[]]]]]]]; try discriminate;
        inversion Es; subst s; clear Es; unfold fill_sclr_left, fill_sclr_rght, r_halo in Hin.
      + destruct (r_br r).
        * destruct Hin as [<-|[]]. apply (fill_ok e a 1 (halo o) _ (halo o)); auto. right. split; [reflexivity|lia].
        * apply in_map_iff in Hin. destruct Hin as (k & <- & Hk). apply in_zseq in Hk.
          unfold in_rng, first, last in Hk. cbn [fst snd] in Hk.
          apply (fill_ok e a k k _ (halo o)); auto. right. split; [reflexivity|lia].
      + destruct (r_bl r).
        * destruct Hin as [<-|[]]. apply (fill_ok e a (- halo o) (-1) _ (halo o)); auto. left. split; [reflexivity|lia].
        * apply in_map_iff in Hin. destruct Hin as (k & <- & Hk). apply in_zseq in Hk.
          unfold in_rng, first, last in Hk. cbn [fst snd] in Hk.
          apply (fill_ok e a k k _ (halo o)); auto. left. split; [reflexivity|lia].
    - apply andb_true_iff in Hb. destruct Hb as [Hb1 Hb2]. apply negb_true_iff in Hb1.
      pose proof (al_face (v DX) Hb1 Hb2) as HA.
      unfold exchange1 in Hin. rewrite !in_app_iff, !in_map_iff in Hin.
      destruct Hin as [[|[]]|[(s & Es & Hin)|[[|[]]|[(s & Es & Hin)|[|[|[]]]]]]]; try discriminate;
        inversion Es; subst s; clear Es; unfold fill_vctr_left, fill_vctr_rght, r_halo in Hin.
      + destruct (r_br r).
        * destruct Hin as [<-|[]]. apply (fill_ok e (v DX) 0 (halo o - 1) _ (halo o - 1)); auto. right. split; [reflexivity|lia].
        * apply in_map_iff in Hin. destruct Hin as (k & <- & Hk). apply in_zseq in Hk.
          unfold in_rng, first, last in Hk. cbn [fst snd] in Hk.
          apply (fill_ok e (v DX) k k _ (halo o - 1)); auto. right. split; [reflexivity|destruct ad; lia].
      + destruct (r_bl r).
        * destruct Hin as [<-|[]]. apply (fill_ok e (v DX) (- halo o) (-1) _ (halo o - 1)); auto. left. split; [reflexivity|lia].
        * apply in_map_iff in Hin. destruct Hin as (k & <- & Hk). apply in_zseq in Hk.
          unfold in_rng, first, last in Hk. cbn [fst snd] in Hk.
          apply (fill_ok e (v DX) k k _ (halo o - 1)); auto. left. split; [reflexivity|destruct ad; lia].
    - discriminate.
    - discriminate.
  Qed.

  Theorem bounds1 nt : accesses_in (allocated1 r) n (program1 r n nt).
  Proof.
    intros s t l Hs0 Ht Hl. unfold program1, prog_of in Hs0. apply in_map_iff in Hs0.
    destruct Hs0 as (i & Ei & Hi). rewrite run_expands in Hi. unfold expands in Hi.
    apply in_flat_map in Hi. destruct Hi as ([e p] & Hep & Hi). cbn [fst snd] in Hi.
    destruct (macro_b nt e p Hep) as [He Hp]. unfold expand_eq in Hi. apply in_map_iff in Hi.
    destruct Hi as (ti & Et & Hi). apply in_flat_map in Hi. destruct Hi as (x & Hx & Hi).
    destruct ti as [td|]; subst i; [|discriminate]. cbn in Ei. inversion Ei; subst s.
    rewrite forallb_forall in Hp. apply (expand_ok e x td He (Hp x Hx) Hi t l Ht Hl).
  Qed.
End Bounds.
