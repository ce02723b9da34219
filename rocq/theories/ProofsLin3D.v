(** Multiples, sums, change of sign, [hint_scale] and indifferent options for
    whole runs of the 3D solver. *)
From Coq Require Import ZArith List Bool Lia ZifyBool Reals Lra.
From Verif Require Import ModelRun Lang ProofsLang Stencil FormCommon Form3D Solver1D Solver3D Fun1D FunN Arith SpecReal
  SpecThreads SpecFields3 SpecNum3 SpecRun3 SpecSym3 ProofsGeom3D ProofsThread3D ProofsValid3D ProofsCyclic3D
  ProofsReal1D ProofsAnti1D ProofsNum1D ProofsSign1D ProofsSym1D
  ProofsFunN ProofsPerN ProofsNumN ProofsSymN ProofsLinN ProofsReal3D ProofsAnti3D ProofsNum3D ProofsMirror3D ProofsFun3D
  ProofsResults3D ProofsSymRun3D.
Import ListNotations.
Local Open Scope R_scope.

(** ** Antidiffusive velocities *)
Section Anti.
  Variables (o : fl) (sp : sptl) (tp : tmprl) (tiny : R).
  Notation loc3 := (Z -> Z -> Z -> R).
  Section Mul.
    Variable mu : R.
    Variables G p n p' n' a b c na nb nc ta : loc3.
    Hypothesis NI : iga o = false.
    Hypothesis Hmu : 0 < mu.
    Hypothesis Hfr : pfc o = true \/ mu = 1.
    Hypothesis Hp : forall i j k, paR o (p' i j k) = mu * paR o (p i j k).
    Hypothesis Hn : forall i j k, paR o (n' i j k) = mu * paR o (n i j k).
    Lemma frac_mul3 u v u' v' : u' = mu * u -> v' = mu * v -> fracR o tiny u' v' = fracR o tiny u v.
    Proof.
      intros -> ->. unfold fracR. destruct (pfc o).
      - destruct (Req_EM_T v 0) as [->|H].
        + rewrite Rmult_0_r. destruct (Req_EM_T 0 0); [reflexivity|contradiction].
        + destruct (Req_EM_T (mu * v) 0) as [E|E].
          * exfalso. apply Rmult_integral in E. destruct E; lra.
          * field. split; auto; lra.
      - destruct Hfr as [H|H]; [discriminate|]. rewrite H, !Rmult_1_l. reflexivity.
    Qed.
    Ltac fr := match goal with
      | |- _ * fracR ?o ?t ?x' ?y' = _ * fracR ?o ?t ?x ?y => rewrite (frac_mul3 x y x' y') by (unfold Rdiv; ring); reflexivity
      | |- fracR ?o ?t ?x' ?y' = fracR ?o ?t ?x ?y => rewrite (frac_mul3 x y x' y') by (unfold Rdiv; ring); reflexivity
      end.
    Lemma u_pp i j k : pp o p' i j k = mu * pp o p i j k. Proof. apply Hp. Qed.
    Lemma u_pn i j k : pp o n' i j k = mu * pp o n i j k. Proof. apply Hn. Qed.
    Ltac li := rewrite ?u_pp, ?u_pn; unfold Rdiv; ring.
    Lemma u_pbx i j k : pbx o p' i j k = mu * pbx o p i j k. Proof. unfold pbx. li. Qed.
    Lemma u_pby i j k : pby o p' i j k = mu * pby o p i j k. Proof. unfold pby. li. Qed.
    Lemma u_pbz i j k : pbz o p' i j k = mu * pbz o p i j k. Proof. unfold pbz. li. Qed.
    Lemma u_pbxy i j k : pbxy o p' i j k = mu * pbxy o p i j k. Proof. unfold pbxy. li. Qed.
    Lemma u_pbxz i j k : pbxz o p' i j k = mu * pbxz o p i j k. Proof. unfold pbxz. li. Qed.
    Lemma u_pbxyz i j k : pbxyz o p' i j k = mu * pbxyz o p i j k. Proof. unfold pbxyz. li. Qed.
    Lemma u_pbxyn i j k : pbxy o n' i j k = mu * pbxy o n i j k. Proof. unfold pbxy. li. Qed.
    Lemma u_pbxzn i j k : pbxz o n' i j k = mu * pbxz o n i j k. Proof. unfold pbxz. li. Qed.
    Lemma u_ten i j k : Ten o p' i j k = mu * Ten o p i j k. Proof. unfold Ten. li. Qed.
    Lemma u_tenn i j k : Ten o n' i j k = mu * Ten o n i j k. Proof. unfold Ten. li. Qed.
    Lemma u_twelve i j k : Twelve o p' i j k = mu * Twelve o p i j k. Proof. unfold Twelve. li. Qed.
    Lemma u_ndx i j k : Ndx o tiny p' i j k = Ndx o tiny p i j k. Proof. unfold Ndx. rewrite NI, !u_pp. fr. Qed.
    Lemma u_ndy i j k : Ndy o tiny p' i j k = Ndy o tiny p i j k. Proof. unfold Ndy. rewrite NI, !u_pp. fr. Qed.
    Lemma u_ndz i j k : Ndz o tiny p' i j k = Ndz o tiny p i j k. Proof. unfold Ndz. rewrite NI, !u_pp. fr. Qed.
    Lemma u_ndxx i j k : Ndxx o tiny p' i j k = Ndxx o tiny p i j k. Proof. unfold Ndxx. rewrite NI, !u_pp. fr. Qed.
    Lemma u_ndxy i j k : Ndxy o tiny p' i j k = Ndxy o tiny p i j k. Proof. unfold Ndxy. rewrite NI, !u_pp. fr. Qed.
    Lemma u_ndxz i j k : Ndxz o tiny p' i j k = Ndxz o tiny p i j k. Proof. unfold Ndxz. rewrite NI, !u_pp. fr. Qed.
    Lemma u_ndyz i j k : Ndyz o tiny p' i j k = Ndyz o tiny p i j k. Proof. unfold Ndyz. cbv zeta. rewrite NI, !u_pp. fr. Qed.
    Lemma u_fcen i j k : Fcen o G p' a b c i j k = mu * Fcen o G p a b c i j k.
    Proof. unfold Fcen. rewrite !u_pbx, !u_pby, !u_pbz. unfold Rdiv. ring. Qed.
    Lemma u_fcxy i j k : Fcxy o G p' a b c i j k = mu * Fcxy o G p a b c i j k.
    Proof. unfold Fcxy. rewrite !u_pbx, !u_pby, !u_pbxyz. unfold Rdiv. ring. Qed.
    Lemma u_fcxz i j k : Fcxz o G p' a b c i j k = mu * Fcxz o G p a b c i j k.
    Proof. unfold Fcxz. rewrite !u_pbx, !u_pbz, !u_pbxyz. unfold Rdiv. ring. Qed.
    Lemma u_nfd d e f i j k : Nfd o tiny G p' d e f i j k = Nfd o tiny G p d e f i j k.
    Proof. unfold Nfd. cbv zeta. rewrite NI, !u_pp, !u_pbxy, !u_pbxz, u_ten. fr. Qed.
    Lemma u_nff i j k : Nff o tiny G p' a b c i j k = Nff o tiny G p a b c i j k.
    Proof. unfold Nff. cbv zeta. rewrite NI, !u_fcen, !u_fcxy, !u_fcxz, u_twelve. fr. Qed.
    Lemma u_nxf i j k : Nxf o tiny G p' a b c i j k = Nxf o tiny G p a b c i j k.
    Proof. unfold Nxf. cbv zeta. rewrite NI, !u_fcen, u_twelve. fr. Qed.
    Lemma u_nfdt i j k : Nfdt o tiny G p' n' a b c i j k = Nfdt o tiny G p n a b c i j k.
    Proof. unfold Nfdt. cbv zeta. rewrite NI, !u_pp, !u_pn, !u_pbxy, !u_pbxyn, !u_pbxz, !u_pbxzn, u_ten, u_tenn. fr. Qed.
    Lemma u_ntx i j k : Ntx o tiny p' n' i j k = Ntx o tiny p n i j k. Proof. unfold Ntx. rewrite NI, !u_pp, !u_pn. fr. Qed.
    Lemma u_nt i j k : Nt o tiny p' n' i j k = Nt o tiny p n i j k. Proof. unfold Nt. rewrite NI, !u_pp, !u_pn. fr. Qed.
    Lemma anti_mul : A3 o sp tp tiny G p' n' a b c na nb nc ta = A3 o sp tp tiny G p n a b c na nb nc ta.
    Proof.
      unfold A3, D3, Tot, Dfl, U3, D2, S3, Sp, Tp, Nxxa, Ntt. cbv zeta.
      rewrite !u_ndx, !u_ndy, !u_ndz, !u_ndxx, !u_ndxy, !u_ndxz, !u_ndyz, !u_nfd, !u_nff, !u_nxf, !u_nfdt, !u_ntx, !u_nt, NI. reflexivity.
    Qed.
  End Mul.

  Section LinA.
    Variables la lb : R.
    Variables G p n q m r s a b c na nb nc ta : loc3.
    Hypothesis IG : iga o = true.
    Hypothesis NA : oabs o = false.
    Hypothesis Hp : forall i j k, r i j k = la * p i j k + lb * q i j k.
    Hypothesis Hn : forall i j k, s i j k = la * n i j k + lb * m i j k.
    Lemma w_pp i j k : pp o r i j k = la * pp o p i j k + lb * pp o q i j k. Proof. unfold pp, paR. rewrite NA. apply Hp. Qed.
    Lemma w_pn i j k : pp o s i j k = la * pp o n i j k + lb * pp o m i j k. Proof. unfold pp, paR. rewrite NA. apply Hn. Qed.
    Ltac li := rewrite ?IG, ?w_pp, ?w_pn, ?Hp, ?Hn; unfold Rdiv; ring.
    Lemma w_pbx i j k : pbx o r i j k = la * pbx o p i j k + lb * pbx o q i j k. Proof. unfold pbx. li. Qed.
    Lemma w_pby i j k : pby o r i j k = la * pby o p i j k + lb * pby o q i j k. Proof. unfold pby. li. Qed.
    Lemma w_pbz i j k : pbz o r i j k = la * pbz o p i j k + lb * pbz o q i j k. Proof. unfold pbz. li. Qed.
    Lemma w_pbxy i j k : pbxy o r i j k = la * pbxy o p i j k + lb * pbxy o q i j k. Proof. unfold pbxy. li. Qed.
    Lemma w_pbxz i j k : pbxz o r i j k = la * pbxz o p i j k + lb * pbxz o q i j k. Proof. unfold pbxz. li. Qed.
    Lemma w_pbxyz i j k : pbxyz o r i j k = la * pbxyz o p i j k + lb * pbxyz o q i j k. Proof. unfold pbxyz. li. Qed.
    Lemma w_pbxyn i j k : pbxy o s i j k = la * pbxy o n i j k + lb * pbxy o m i j k. Proof. unfold pbxy. li. Qed.
    Lemma w_pbxzn i j k : pbxz o s i j k = la * pbxz o n i j k + lb * pbxz o m i j k. Proof. unfold pbxz. li. Qed.
    Lemma w_fcen i j k : Fcen o G r a b c i j k = la * Fcen o G p a b c i j k + lb * Fcen o G q a b c i j k.
    Proof. unfold Fcen. rewrite !w_pbx, !w_pby, !w_pbz. unfold Rdiv. ring. Qed.
    Lemma w_fcxy i j k : Fcxy o G r a b c i j k = la * Fcxy o G p a b c i j k + lb * Fcxy o G q a b c i j k.
    Proof. unfold Fcxy. rewrite !w_pbx, !w_pby, !w_pbxyz. unfold Rdiv. ring. Qed.
    Lemma w_fcxz i j k : Fcxz o G r a b c i j k = la * Fcxz o G p a b c i j k + lb * Fcxz o G q a b c i j k.
    Proof. unfold Fcxz. rewrite !w_pbx, !w_pbz, !w_pbxyz. unfold Rdiv. ring. Qed.
    Lemma w_nfd d e f i j k : Nfd o tiny G r d e f i j k = la * Nfd o tiny G p d e f i j k + lb * Nfd o tiny G q d e f i j k.
    Proof. unfold Nfd. cbv zeta. rewrite IG, !w_pp, !w_pbxy, !w_pbxz. unfold Rdiv. ring. Qed.
    Lemma w_nff i j k : Nff o tiny G r a b c i j k = la * Nff o tiny G p a b c i j k + lb * Nff o tiny G q a b c i j k.
    Proof. unfold Nff. cbv zeta. rewrite IG, !w_fcen, !w_fcxy, !w_fcxz. unfold Rdiv. ring. Qed.
    Lemma w_nxf i j k : Nxf o tiny G r a b c i j k = la * Nxf o tiny G p a b c i j k + lb * Nxf o tiny G q a b c i j k.
    Proof. unfold Nxf. cbv zeta. rewrite IG, !w_fcen. ring. Qed.
    Lemma w_nfdt i j k : Nfdt o tiny G r s a b c i j k = la * Nfdt o tiny G p n a b c i j k + lb * Nfdt o tiny G q m a b c i j k.
    Proof. unfold Nfdt. cbv zeta. rewrite IG, !w_pp, !w_pn, !w_pbxy, !w_pbxyn, !w_pbxz, !w_pbxzn. unfold Rdiv. ring. Qed.
    Lemma w_ndx i j k : Ndx o tiny r i j k = la * Ndx o tiny p i j k + lb * Ndx o tiny q i j k. Proof. unfold Ndx. li. Qed.
    Lemma w_ndy i j k : Ndy o tiny r i j k = la * Ndy o tiny p i j k + lb * Ndy o tiny q i j k. Proof. unfold Ndy. li. Qed.
    Lemma w_ndz i j k : Ndz o tiny r i j k = la * Ndz o tiny p i j k + lb * Ndz o tiny q i j k. Proof. unfold Ndz. li. Qed.
    Lemma w_ndxx i j k : Ndxx o tiny r i j k = la * Ndxx o tiny p i j k + lb * Ndxx o tiny q i j k. Proof. unfold Ndxx. li. Qed.
    Lemma w_ndxy i j k : Ndxy o tiny r i j k = la * Ndxy o tiny p i j k + lb * Ndxy o tiny q i j k. Proof. unfold Ndxy. li. Qed.
    Lemma w_ndxz i j k : Ndxz o tiny r i j k = la * Ndxz o tiny p i j k + lb * Ndxz o tiny q i j k. Proof. unfold Ndxz. li. Qed.
    Lemma w_ndyz i j k : Ndyz o tiny r i j k = la * Ndyz o tiny p i j k + lb * Ndyz o tiny q i j k. Proof. unfold Ndyz. cbv zeta. li. Qed.
    Lemma w_ntx i j k : Ntx o tiny r s i j k = la * Ntx o tiny p n i j k + lb * Ntx o tiny q m i j k. Proof. unfold Ntx. li. Qed.
    Lemma w_nt i j k : Nt o tiny r s i j k = la * Nt o tiny p n i j k + lb * Nt o tiny q m i j k. Proof. unfold Nt. li. Qed.
    Lemma w_tot : Tot o tiny G r a b c = la * Tot o tiny G p a b c + lb * Tot o tiny G q a b c.
    Proof.
      unfold Tot. destruct (tot o); [|ring]. rewrite w_ndxx, w_ndxy, w_ndxz, w_ndyz.
      match goal with |- _ * ?A + _ * ?B + _ * ?C + _ * ?D = _ => generalize A B C D end. intros. ring.
    Qed.
    Lemma w_dfl : Dfl o G r a b c = la * Dfl o G p a b c + lb * Dfl o G q a b c.
    Proof. unfold Dfl. cbv zeta. rewrite IG. destruct (dfl o); [|ring]. rewrite w_pbx. match goal with |- ?A * _ = _ => generalize A end. intros. ring. Qed.
    Lemma w_d2 : D2 o tiny G r a b c = la * D2 o tiny G p a b c + lb * D2 o tiny G q a b c.
    Proof. unfold D2. rewrite w_ndx, w_nfd. unfold Rdiv. ring. Qed.
    Lemma w_s3 : S3 o sp tiny r a = la * S3 o sp tiny p a + lb * S3 o sp tiny q a.
    Proof. unfold S3, Sp, Nxxa. cbv zeta. rewrite IG, w_ndx, w_ndxx, w_pbx. destruct sp; unfold Rdiv; ring. Qed.
    Lemma w_ntt : Ntt o r ta = la * Ntt o p ta + lb * Ntt o q ta.
    Proof. unfold Ntt. rewrite IG, w_pbx. ring. Qed.
    Lemma w_tp : Tp o tp r ta = la * Tp o tp p ta + lb * Tp o tp q ta.
    Proof. unfold Tp. rewrite w_ntt. destruct tp; ring. Qed.
    Lemma w_d3 : D3 o sp tp tiny G r s a b c na nb nc ta =
      la * D3 o sp tp tiny G p n a b c na nb nc ta + lb * D3 o sp tp tiny G q m a b c na nb nc ta.
    Proof.
      unfold D3, U3. rewrite IG, !w_s3, !w_tp, !w_nff, !w_nxf, !w_nfd, !w_ntx, !w_nt, !w_nfdt.
      destruct (div3 o); [unfold Rdiv; ring|]. destruct (div3dt o); unfold Rdiv; ring.
    Qed.
    Lemma anti_lin : A3 o sp tp tiny G r s a b c na nb nc ta =
      la * A3 o sp tp tiny G p n a b c na nb nc ta + lb * A3 o sp tp tiny G q m a b c na nb nc ta.
    Proof.
      unfold A3. rewrite w_d2, w_d3, w_tot, w_dfl, w_ndx, w_ndy, w_ndz. destruct (div2 o); [ring|unfold Rdiv; ring].
    Qed.
  End LinA.
End Anti.

(** ** The functions of FunN.v *)
Section Fun.
  Variables eps tiny : R.
  Notation AR := (arithR eps tiny).
  Variables (o : fl) (sp : sptl) (tp : tmprl).
  Notation F := (forms3 o sp tp).
  Variable X : fixedN AR.
  Lemma lin3 la lb : oabs o = false -> iga o = true -> forall p pn q qn r rn C, lin la lb p q r -> lin la lb pn qn rn ->
    linv ds3 la lb (corrN AR F X p pn C) (corrN AR F X q qn C) (corrN AR F X r rn C).
  Proof. intros NA IG p pn q qn r rn C H H' d x Hd. rewrite !corr3. apply anti_lin; auto; intros; unfold lc3; auto. Qed.
  Lemma veq_all (C C' : dim -> idx -> R) d : veq ds3 C C' -> forall x, C' d x = C d x.
  Proof. intros H x. apply H, in_ds. Qed.
  Lemma unit_free3 : unit_free eps tiny o F ds3 X.
  Proof.
    intros NI mu p pn p' pn' C C' Hm Hf Hp Hn HC d x Hd. rewrite !corr3.
    etransitivity; [|apply (anti_mul o sp tp tiny mu) with (p' := lc3 d x p') (n' := lc3 d x pn'); auto; intros; unfold lc3; auto].
    apply A3_ext; auto; intros; unfold lc3; auto; apply veq_all; auto.
  Qed.
  Lemma neg3 : iga o = negb (oabs o) -> forall p pn q qn C C', negN p q -> negN pn qn -> veq ds3 C C' ->
    cnegN o ds3 (corrN AR F X p pn C) (corrN AR F X q qn C').
  Proof.
    intros IA p pn q qn C C' H H' HC d x Hd. destruct (iga o) eqn:Ei.
    - rewrite !corr3.
      rewrite (A3_ext o sp tp tiny (lc3 d x (nG AR X)) (lc3 d x (nG AR X)) (lc3 d x q) (lc3 d x q) (lc3 d x qn) (lc3 d x qn)
         (lc3 d x (C d)) (lc3 d x (C' d)) (lc3 d x (C (dp d))) (lc3 d x (C' (dp d))) (lc3 d x (C (dm d))) (lc3 d x (C' (dm d)))
         (lc3 d x (nN AR X d)) (lc3 d x (nN AR X d)) (lc3 d x (nN AR X (dp d))) (lc3 d x (nN AR X (dp d)))
         (lc3 d x (nN AR X (dm d))) (lc3 d x (nN AR X (dm d))) (lc3 d x (nT AR X d)));
        auto; try (intros; unfold lc3; auto; apply (veq_all C C'); auto).
      rewrite (anti_lin o sp tp tiny (-1) 0 (lc3 d x (nG AR X)) (lc3 d x p) (lc3 d x pn) (lc3 d x p) (lc3 d x pn)); auto; [match goal with |- _ * ?A + _ = _ => change (-1 * A + 0 * A = - A) end; ring|..].
      + destruct (oabs o); auto; cbn in IA; discriminate IA.
      + intros. unfold lc3. rewrite H. ring.
      + intros. unfold lc3. rewrite H'. ring.
    - apply (unit_free3 Ei 1); auto; try lra.
      + intros y. rewrite H. unfold paR. destruct (oabs o); [|cbn in IA; discriminate IA]. rewrite Rabs_Ropp. ring.
      + intros y. rewrite H'. unfold paR. destruct (oabs o); [|cbn in IA; discriminate IA]. rewrite Rabs_Ropp. ring.
  Qed.
  (** other fixed fields with the same values; indifferent options *)
  Variable o' : fl.
  Hypothesis E : o' = mkfl (fct o) (oabs o) (tot o) (pfc o) (npa o') (iga o) (nug o) (dfl o) (khn o') (div2 o) (div3 o) (div3dt o) (fot o').
  Variable X' : fixedN AR.
  Hypothesis EC : veq ds3 (nC AR X) (nC AR X').
  Hypothesis EG : nug o = true -> forall x, nG AR X' x = nG AR X x.
  Hypothesis EN : veq ds3 (nN AR X) (nN AR X').
  Hypothesis ET : veq ds3 (nT AR X) (nT AR X').
  Lemma same3 nit freq ex nt ts (psi psi' : idx -> R) : (forall x, psi' x = psi x) -> forall x,
    stepsN AR o' (forms3 o' sp tp) X' nit freq ex nt ts psi' x = stepsN AR o F X nit freq ex nt ts psi x.
  Proof.
    intros HP.
    assert (F1 : fct o' = fct o) by (rewrite E; reflexivity).
    assert (F2 : iga o' = iga o) by (rewrite E; reflexivity).
    assert (F3 : oabs o' = oabs o) by (rewrite E; reflexivity).
    assert (F4 : nug o' = nug o) by (rewrite E; reflexivity).
    refine (y_steps eps tiny o o' F (forms3 o' sp tp) ds3 (closed3 eps tiny o sp tp) (closed3 eps tiny o' sp tp) F1 F2 F3 F4
      (fun x => x) (fun d => d) (fun _ => false) (fun _ x => x) _ _ _ _ _ _ X X' _ _ _ nit freq ex nt ts psi psi' HP); auto.
    - intros d Hd. eauto.
    - intros p pn p' pn' C C' H H' HC d x Hd. rewrite !corr3.
      transitivity (A3 o sp tp tiny (lc3 d x (nG AR X')) (lc3 d x p') (lc3 d x pn') (lc3 d x (C' d)) (lc3 d x (C' (dp d))) (lc3 d x (C' (dm d)))
         (lc3 d x (nN AR X' d)) (lc3 d x (nN AR X' (dp d))) (lc3 d x (nN AR X' (dm d))) (lc3 d x (nT AR X' d))).
      + rewrite E. reflexivity.
      + unfold sg. pose proof (in_ds (dp d)). pose proof (in_ds (dm d)).
        apply A3_ext; auto; intros; unfold lc3; auto; first [apply EG; assumption|apply H|apply H'|apply HC; assumption|apply EN; assumption|apply ET; assumption].
  Qed.
End Fun.

(** ** Runs *)
Section Runs.
  Variables eps tiny : R.
  Notation AR := (arithR eps tiny).
  Variable r : run3.
  Notation lo := (s3_lo r).
  Notation hi := (s3_hi r).
  Notation o := (s3_o r).
  Notation F := (forms3 o (s3_sp r) (s3_tp r)).
  Notation w := (wrap3 lo hi).

  Section Two.
    Variables (n1 n2 nt : nat) (m1 m2 m1' m2' : loc -> R).
    Hypothesis E1 : cyclic_end3 AR r n1 nt m1 m1'.
    Hypothesis E2 : cyclic_end3 AR r n2 nt m2 m2'.
    Hypothesis SF : same_flow3 r m1 m2.
    Lemma run_ins x : inside lo hi (w x).
    Proof. exact (w_ins eps tiny r n1 nt m1 m1' E1 x). Qed.
    Lemma flow_C : veq ds3 (nC AR (cycX3 r AR m1)) (nC AR (cycX3 r AR m2)).
    Proof. destruct SF as (H1 & _). intros d x _. apply (H1 d). apply (w_inner eps tiny r n1 nt m1 m1' E1). Qed.
    Lemma flow_G : nug o = true -> forall x, nG AR (cycX3 r AR m2) x = nG AR (cycX3 r AR m1) x.
    Proof. destruct SF as (_ & H3). intros Ng x. apply H3; auto. apply run_ins. Qed.
    (** the second run in the fixed fields of the first *)
    Lemma run_flow e : (e < n_eqns (s3_cfg r))%nat -> forall i, inside lo hi i -> cell3 m2' e (newest3 r nt) i =
      stepsN AR o F (cycX3 r AR m1) (s3_nit r) (s3_freq r) (s3_scale r e) nt 0 (fun x => m2 ((e, Psi false), w x)) i.
    Proof.
      intros He i Hi. refine (eq_trans (run3_fun eps tiny r n2 nt m2 m2' E2 e He i Hi) _).
      apply (same3 eps tiny o (s3_sp r) (s3_tp r) (cycX3 r AR m1) o); auto using flow_C, flow_G.
      - destruct o; reflexivity.
      - intros d x _. reflexivity.
      - intros d x _. reflexivity.
    Qed.
    Variable e : nat.
    Hypothesis He : (e < n_eqns (s3_cfg r))%nat.
    Lemma abs_ok3 : iga o = true -> oabs o = false.
    Proof.
      intros I. pose proof (ok3_fl r (c3_ok _ _ _ _ _ _ E1)) as K. unfold fl_ok3, fl_ok in K. rewrite I in K.
      destruct (oabs o); auto; discriminate.
    Qed.

    Theorem multiple3 lam : fct o = false -> pfc o = true -> iga o = false -> 0 < lam \/ oabs o = true /\ lam <> 0 ->
      (forall i, inside lo hi i -> cell3 m2 e false i = lam * cell3 m1 e false i) ->
      forall i, inside lo hi i -> cell3 m2' e (newest3 r nt) i = lam * cell3 m1' e (newest3 r nt) i.
    Proof.
      intros NF HP NI HL HM i Hi. rewrite run_flow by auto.
      refine (eq_trans _ (eq_sym (f_equal (Rmult lam) (run3_fun eps tiny r n1 nt m1 m1' E1 e He i Hi)))).
      apply (mulN_steps eps tiny o F ds3 (closed3 eps tiny o _ _) (cycX3 r AR m1) lam); auto.
      - apply unit_free3.
      - intros x. apply HM, run_ins.
    Qed.
    Theorem negated3 : iga o = negb (oabs o) -> (iga o = true -> (s3_nit r <= 2)%nat) -> 0 < eps ->
      (forall i, inside lo hi i -> 0 < G3of (nug o) m1 i) ->
      (forall i, inside lo hi i -> cell3 m2 e false i = - cell3 m1 e false i) ->
      forall i, inside lo hi i -> cell3 m2' e (newest3 r nt) i = - cell3 m1' e (newest3 r nt) i.
    Proof.
      intros IA HN Hp HG HM i Hi. rewrite run_flow by auto.
      refine (eq_trans _ (eq_sym (f_equal Ropp (run3_fun eps tiny r n1 nt m1 m1' E1 e He i Hi)))).
      apply (negN_steps eps tiny o F ds3 (closed3 eps tiny o _ _) (cycX3 r AR m1)); auto.
      - intros x. rewrite (cyc_g eps tiny r). apply HG, run_ins.
      - intros. apply neg3; auto.
      - intros x. apply HM, run_ins.
    Qed.
  End Two.

  Theorem superpose3 n1 n2 n3 nt m1 m2 m3 m1' m2' m3' e la lb : (e < n_eqns (s3_cfg r))%nat ->
    cyclic_end3 AR r n1 nt m1 m1' -> cyclic_end3 AR r n2 nt m2 m2' -> cyclic_end3 AR r n3 nt m3 m3' ->
    same_flow3 r m1 m2 -> same_flow3 r m1 m3 ->
    s3_nit r = 1%nat \/ iga o = true /\ fct o = false /\ (s3_nit r <= 2)%nat ->
    (forall i, inside lo hi i -> cell3 m3 e false i = la * cell3 m1 e false i + lb * cell3 m2 e false i) ->
    forall i, inside lo hi i ->
      cell3 m3' e (newest3 r nt) i = la * cell3 m1' e (newest3 r nt) i + lb * cell3 m2' e (newest3 r nt) i.
  Proof.
    intros He E1 E2 E3 S2 S3 Opt HM i Hi.
    refine (eq_trans (run_flow n1 n3 nt m1 m3 m1' m3' E1 E3 S3 e He i Hi) _).
    refine (eq_trans _ (eq_sym (f_equal2 (fun a b => la * a + lb * b) (run3_fun eps tiny r n1 nt m1 m1' E1 e He i Hi)
      (run_flow n1 n2 nt m1 m2 m1' m2' E1 E2 S2 e He i Hi)))).
    apply (linN_steps eps tiny o F ds3 (closed3 eps tiny o _ _) (cycX3 r AR m1) la lb); auto.
    - intros IG. apply lin3; auto. eapply abs_ok3; eauto.
    - intros x. apply HM. eapply run_ins; eauto.
  Qed.

  Theorem hint_scale3 s n1 n2 nt m m1' m2' e : (e < n_eqns (s3_cfg r))%nat ->
    cyclic_end3 AR r n1 nt m m1' -> cyclic_end3 AR (with_scale3 r s) n2 nt m m2' ->
    s3_nit r = 1%nat \/ fct o = false /\ (iga o = false /\ pfc o = true \/ iga o = true /\ (s3_nit r <= 2)%nat) ->
    forall i, inside lo hi i -> cell3 m2' e (newest3 r nt) i = cell3 m1' e (newest3 r nt) i.
  Proof.
    intros He E1 E2 Opt i Hi.
    refine (eq_trans (run3_fun eps tiny (with_scale3 r s) n2 nt m m2' E2 e He i Hi) _).
    refine (eq_trans _ (eq_sym (run3_fun eps tiny r n1 nt m m1' E1 e He i Hi))).
    refine (f_equal (fun f => f i) _).
    apply (stepsN_hint eps tiny o F ds3 (closed3 eps tiny o _ _) (cycX3 r AR m)).
    - intros la lb IG. apply lin3; auto. eapply abs_ok3; eauto.
    - apply unit_free3.
    - destruct Opt as [H|[H [[]|[]]]]; [left|right..]; auto.
  Qed.

  Theorem toggles3 a b f n1 n2 nt m m1' m2' e : (e < n_eqns (s3_cfg r))%nat ->
    cyclic_end3 AR r n1 nt m m1' -> cyclic_end3 AR (with_toggles3 r a b f) n2 nt m m2' ->
    forall i, inside lo hi i -> cell3 m2' e (newest3 r nt) i = cell3 m1' e (newest3 r nt) i.
  Proof.
    intros He E1 E2 i Hi.
    refine (eq_trans (run3_fun eps tiny (with_toggles3 r a b f) n2 nt m m2' E2 e He i Hi) _).
    refine (eq_trans _ (eq_sym (run3_fun eps tiny r n1 nt m m1' E1 e He i Hi))).
    apply (same3 eps tiny o (s3_sp r) (s3_tp r) (cycX3 r AR m) (s3_o (with_toggles3 r a b f)) eq_refl); auto;
      intros d x _; reflexivity.
  Qed.
End Runs.
