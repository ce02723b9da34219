(** Multiples, sums, change of sign, [hint_scale] and indifferent options for
    whole runs of the 2D solver. *)
From Coq Require Import ZArith List Bool Lia ZifyBool Reals Lra.
From Verif Require Import ModelRun Lang ProofsLang Stencil FormCommon Form2D Solver1D Solver2D Fun1D FunN Arith SpecReal
  SpecThreads SpecFields2 SpecNum2 SpecRun2 SpecSym2 ProofsThread2D ProofsOne2D ProofsValid2D ProofsCyclic2D
  ProofsReal1D ProofsAnti1D ProofsNum1D ProofsSign1D ProofsSym1D
  ProofsFunN ProofsPerN ProofsNumN ProofsSymN ProofsLinN ProofsReal2D ProofsAnti2D ProofsNum2D ProofsMirror2D ProofsFun2D
  ProofsResults2D ProofsSymRun2D.
Import ListNotations.
Local Open Scope R_scope.

(** ** Antidiffusive velocities *)
Section Anti.
  Variables (o : fl) (sp : sptl) (tp : tmprl) (tiny : R).
  Notation loc2 := (Z -> Z -> R).
  Section Mul.
    Variable mu : R.
    Variables G p n p' n' a b na nb ta : loc2.
    Hypothesis NI : iga o = false.
    Hypothesis NFt : fot o = false.
    Hypothesis Hmu : 0 < mu.
    Hypothesis Hfr : pfc o = true \/ mu = 1.
    Hypothesis Hp : forall i j, paR o (p' i j) = mu * paR o (p i j).
    Hypothesis Hn : forall i j, paR o (n' i j) = mu * paR o (n i j).
    Lemma frac_mul2 u v u' v' : u' = mu * u -> v' = mu * v -> fracR o tiny u' v' = fracR o tiny u v.
    Proof.
      intros -> ->. unfold fracR. destruct (pfc o).
      - destruct (Req_EM_T v 0) as [->|H].
        + rewrite Rmult_0_r. destruct (Req_EM_T 0 0); [reflexivity|contradiction].
        + destruct (Req_EM_T (mu * v) 0) as [E|E].
          * exfalso. apply Rmult_integral in E. destruct E; lra.
          * field. split; auto; lra.
      - destruct Hfr as [H|H]; [discriminate|]. rewrite H, !Rmult_1_l. reflexivity.
    Qed.
    Ltac fr := match goal with
      | |- _ * fracR ?o ?t ?x' ?y' = _ * fracR ?o ?t ?x ?y => rewrite (frac_mul2 x y x' y') by (unfold Rdiv; ring); reflexivity
      | |- fracR ?o ?t ?x' ?y' = fracR ?o ?t ?x ?y => rewrite (frac_mul2 x y x' y') by (unfold Rdiv; ring); reflexivity
      end.
    Lemma u_pp i j : pp o p' i j = mu * pp o p i j. Proof. apply Hp. Qed.
    Lemma u_pn i j : pp o n' i j = mu * pp o n i j. Proof. apply Hn. Qed.
    Lemma u_pbx i j : pbx o p' i j = mu * pbx o p i j. Proof. unfold pbx. rewrite !u_pp. unfold Rdiv. ring. Qed.
    Lemma u_pby i j : pby o p' i j = mu * pby o p i j. Proof. unfold pby. rewrite !u_pp. unfold Rdiv. ring. Qed.
    Lemma u_pbxy i j : pbxy o p' i j = mu * pbxy o p i j. Proof. unfold pbxy. rewrite !u_pp. unfold Rdiv. ring. Qed.
    Lemma u_pbxyn i j : pbxy o n' i j = mu * pbxy o n i j. Proof. unfold pbxy. rewrite !u_pn. unfold Rdiv. ring. Qed.
    Lemma u_six i j : Six o p' i j = mu * Six o p i j. Proof. unfold Six. rewrite !u_pp. ring. Qed.
    Lemma u_sixn i j : Six o n' i j = mu * Six o n i j. Proof. unfold Six. rewrite !u_pn. ring. Qed.
    Lemma u_eight i j : Eight o p' i j = mu * Eight o p i j. Proof. unfold Eight. rewrite !u_pp. ring. Qed.
    Lemma u_ndx i j : Ndx o tiny p' i j = Ndx o tiny p i j. Proof. unfold Ndx. rewrite NI, !u_pp. fr. Qed.
    Lemma u_ndy i j : Ndy o tiny p' i j = Ndy o tiny p i j. Proof. unfold Ndy. rewrite NI, !u_pp. fr. Qed.
    Lemma u_ndxx i j : Ndxx o tiny p' i j = Ndxx o tiny p i j. Proof. unfold Ndxx. rewrite NI, !u_pp. fr. Qed.
    Lemma u_ndxy i j : Ndxy o tiny p' i j = Ndxy o tiny p i j. Proof. unfold Ndxy. rewrite NI, !u_pp. fr. Qed.
    Lemma u_fcen i j : Fcen o G p' a b i j = mu * Fcen o G p a b i j. Proof. unfold Fcen. rewrite !u_pbx, !u_pby. unfold Rdiv. ring. Qed.
    Lemma u_fcor i j : Fcor o G p' a b i j = mu * Fcor o G p a b i j. Proof. unfold Fcor. rewrite !u_pbx, !u_pby. unfold Rdiv. ring. Qed.
    Lemma u_nfd c d i j : Nfd o tiny G p' c d i j = Nfd o tiny G p c d i j. Proof. unfold Nfd. cbv zeta. rewrite NI, !u_pp, !u_pbxy, u_six. fr. Qed.
    Lemma u_nff i j : Nff o tiny G p' a b i j = Nff o tiny G p a b i j. Proof. unfold Nff. cbv zeta. rewrite NI, !u_fcen, !u_fcor, u_eight. fr. Qed.
    Lemma u_nxf i j : Nxf o tiny G p' a b i j = Nxf o tiny G p a b i j. Proof. unfold Nxf. cbv zeta. rewrite NI, !u_fcen, u_eight. fr. Qed.
    Lemma u_nfdt i j : Nfdt o tiny G p' n' a b i j = Nfdt o tiny G p n a b i j.
    Proof. unfold Nfdt. cbv zeta. rewrite NI, !u_pp, !u_pn, !u_pbxy, !u_pbxyn, u_six, u_sixn. fr. Qed.
    Lemma u_ntx i j : Ntx o tiny p' n' i j = Ntx o tiny p n i j. Proof. unfold Ntx. rewrite NI, !u_pp, !u_pn. fr. Qed.
    Lemma u_nt i j : Nt o tiny p' n' i j = Nt o tiny p n i j. Proof. unfold Nt. rewrite NI, !u_pp, !u_pn. fr. Qed.
    Lemma anti_mul : A2 o sp tp tiny G p' n' a b na nb ta = A2 o sp tp tiny G p n a b na nb ta.
    Proof.
      unfold A2, D2, D3, Fot, Tot, Dfl, U3, D2, S3, Sp, Tp, Nxxa, Ntt. cbv zeta.
      rewrite !u_ndx, !u_ndy, !u_ndxx, !u_ndxy, !u_nfd, !u_nff, !u_nxf, !u_nfdt, !u_ntx, !u_nt, NI, NFt. reflexivity.
    Qed.
  End Mul.

  Section LinA.
    Variables la lb : R.
    Variables G p n q k r s a b na nb ta : loc2.
    Hypothesis IG : iga o = true.
    Hypothesis NA : oabs o = false.
    Hypothesis Hp : forall i j, r i j = la * p i j + lb * q i j.
    Hypothesis Hn : forall i j, s i j = la * n i j + lb * k i j.
    Lemma w_pp i j : pp o r i j = la * pp o p i j + lb * pp o q i j. Proof. unfold pp, paR. rewrite NA. apply Hp. Qed.
    Lemma w_pn i j : pp o s i j = la * pp o n i j + lb * pp o k i j. Proof. unfold pp, paR. rewrite NA. apply Hn. Qed.
    Lemma w_fcen i j : Fcen o G r a b i j = la * Fcen o G p a b i j + lb * Fcen o G q a b i j.
    Proof. unfold Fcen, pbx, pby. rewrite !w_pp. unfold Rdiv. ring. Qed.
    Lemma w_fcor i j : Fcor o G r a b i j = la * Fcor o G p a b i j + lb * Fcor o G q a b i j.
    Proof. unfold Fcor, pbx, pby. rewrite !w_pp. unfold Rdiv. ring. Qed.
    Lemma w_nfd c d i j : Nfd o tiny G r c d i j = la * Nfd o tiny G p c d i j + lb * Nfd o tiny G q c d i j.
    Proof. unfold Nfd, pbxy. cbv zeta. rewrite IG, !w_pp. unfold Rdiv. ring. Qed.
    Lemma w_nff i j : Nff o tiny G r a b i j = la * Nff o tiny G p a b i j + lb * Nff o tiny G q a b i j.
    Proof. unfold Nff. cbv zeta. rewrite IG, !w_fcen, !w_fcor. unfold Rdiv. ring. Qed.
    Lemma w_nxf i j : Nxf o tiny G r a b i j = la * Nxf o tiny G p a b i j + lb * Nxf o tiny G q a b i j.
    Proof. unfold Nxf. cbv zeta. rewrite IG, !w_fcen. ring. Qed.
    Lemma w_nfdt i j : Nfdt o tiny G r s a b i j = la * Nfdt o tiny G p n a b i j + lb * Nfdt o tiny G q k a b i j.
    Proof. unfold Nfdt, pbxy. cbv zeta. rewrite IG, !w_pp, !w_pn. unfold Rdiv. ring. Qed.
    Lemma w_ndx i j : Ndx o tiny r i j = la * Ndx o tiny p i j + lb * Ndx o tiny q i j.
    Proof. unfold Ndx. rewrite IG, !Hp. ring. Qed.
    Lemma w_ndy i j : Ndy o tiny r i j = la * Ndy o tiny p i j + lb * Ndy o tiny q i j.
    Proof. unfold Ndy. rewrite IG, !Hp. unfold Rdiv. ring. Qed.
    Lemma w_ndxx i j : Ndxx o tiny r i j = la * Ndxx o tiny p i j + lb * Ndxx o tiny q i j.
    Proof. unfold Ndxx. rewrite IG, !Hp. unfold Rdiv. ring. Qed.
    Lemma w_ndxy i j : Ndxy o tiny r i j = la * Ndxy o tiny p i j + lb * Ndxy o tiny q i j.
    Proof. unfold Ndxy. rewrite IG, !Hp. unfold Rdiv. ring. Qed.
    Lemma w_ndxxx i j : Ndxxx r i j = la * Ndxxx p i j + lb * Ndxxx q i j.
    Proof. unfold Ndxxx. rewrite !Hp. unfold Rdiv. ring. Qed.
    Lemma w_ndxxy i j : Ndxxy r i j = la * Ndxxy p i j + lb * Ndxxy q i j.
    Proof. unfold Ndxxy. rewrite !Hp. unfold Rdiv. ring. Qed.
    Lemma w_ndxyy i j : Ndxyy r i j = la * Ndxyy p i j + lb * Ndxyy q i j.
    Proof. unfold Ndxyy. rewrite !Hp. unfold Rdiv. ring. Qed.
    Lemma w_pbx i j : pbx o r i j = la * pbx o p i j + lb * pbx o q i j.
    Proof. unfold pbx. rewrite !w_pp. unfold Rdiv. ring. Qed.
    Lemma w_ntx i j : Ntx o tiny r s i j = la * Ntx o tiny p n i j + lb * Ntx o tiny q k i j.
    Proof. unfold Ntx. rewrite IG, !Hp, !Hn. ring. Qed.
    Lemma w_nt i j : Nt o tiny r s i j = la * Nt o tiny p n i j + lb * Nt o tiny q k i j.
    Proof. unfold Nt. rewrite IG, !Hp, !Hn. unfold Rdiv. ring. Qed.
    Lemma w_tot : Tot o tiny G r a b = la * Tot o tiny G p a b + lb * Tot o tiny G q a b.
    Proof. unfold Tot. destruct (tot o); [|ring]. rewrite w_ndxx, w_ndxy. unfold Rdiv. ring. Qed.
    Lemma w_fot : Fot o G r a b = la * Fot o G p a b + lb * Fot o G q a b.
    Proof.
      unfold Fot. destruct (fot o); [|ring]. rewrite w_ndxxx, w_ndxxy, w_ndxyy.
      match goal with |- _ * ?A + _ * ?B + _ * ?C = _ => generalize A B C end. intros. ring.
    Qed.
    Lemma w_dfl : Dfl o G r a b = la * Dfl o G p a b + lb * Dfl o G q a b.
    Proof. unfold Dfl. cbv zeta. rewrite IG. destruct (dfl o); [|ring]. rewrite w_pbx. match goal with |- ?A * _ = _ => generalize A end. intros. ring. Qed.
    Lemma w_d2 : D2 o tiny G r a b = la * D2 o tiny G p a b + lb * D2 o tiny G q a b.
    Proof. unfold D2. rewrite w_ndx, w_nfd. unfold Rdiv. ring. Qed.
    Lemma w_s3 : S3 o sp tiny r a = la * S3 o sp tiny p a + lb * S3 o sp tiny q a.
    Proof. unfold S3, Sp, Nxxa. cbv zeta. rewrite IG, w_ndx, w_ndxx, w_pbx. destruct sp; unfold Rdiv; ring. Qed.
    Lemma w_ntt : Ntt o r ta = la * Ntt o p ta + lb * Ntt o q ta.
    Proof. unfold Ntt. rewrite IG, w_pbx. ring. Qed.
    Lemma w_tp : Tp o tp r ta = la * Tp o tp p ta + lb * Tp o tp q ta.
    Proof. unfold Tp. rewrite w_ntt. destruct tp; ring. Qed.
    Lemma w_d3 : D3 o sp tp tiny G r s a b na nb ta = la * D3 o sp tp tiny G p n a b na nb ta + lb * D3 o sp tp tiny G q k a b na nb ta.
    Proof.
      unfold D3, U3. rewrite IG, !w_s3, !w_tp, !w_ntt, !w_nff, !w_nxf, !w_nfd, !w_ntx, !w_nt, !w_nfdt.
      destruct (div3 o); [unfold Rdiv; ring|]. destruct (div3dt o); unfold Rdiv; ring.
    Qed.
    Lemma anti_lin : A2 o sp tp tiny G r s a b na nb ta =
      la * A2 o sp tp tiny G p n a b na nb ta + lb * A2 o sp tp tiny G q k a b na nb ta.
    Proof.
      unfold A2. rewrite w_d2, w_d3, w_fot, w_tot, w_dfl, w_ndx, w_ndy. destruct (div2 o); [ring|unfold Rdiv; ring].
    Qed.
  End LinA.
End Anti.

(** ** The functions of FunN.v *)
Section Fun.
  Variables eps tiny : R.
  Notation AR := (arithR eps tiny).
  Variables (o : fl) (sp : sptl) (tp : tmprl).
  Notation F := (forms2 o sp tp).
  Variable X : fixedN AR.
  Lemma lin2 la lb : oabs o = false -> iga o = true -> forall p pn q qn r rn C, lin la lb p q r -> lin la lb pn qn rn ->
    linv ds2 la lb (corrN AR F X p pn C) (corrN AR F X q qn C) (corrN AR F X r rn C).
  Proof. intros NA IG p pn q qn r rn C H H' d x Hd. rewrite !corr2. apply anti_lin; auto; intros; unfold lc; auto. Qed.
  Lemma veq_in (C C' : dim -> idx -> R) d : veq ds2 C C' -> In d ds2 -> forall x, C' (od d) x = C (od d) x.
  Proof. intros H Hd x. apply H. two_dims Hd; cbn; auto. Qed.
  Lemma unit_free2 : (iga o = false -> fot o = false) -> unit_free eps tiny o F ds2 X.
  Proof.
    intros FO NI mu p pn p' pn' C C' Hm Hf Hp Hn HC d x Hd. rewrite !corr2.
    etransitivity; [|apply (anti_mul o sp tp tiny mu) with (p' := lc d x p') (n' := lc d x pn'); auto; intros; unfold lc; auto].
    apply A2_ext; auto; intros; unfold lc; auto. apply veq_in; auto.
  Qed.
  Lemma neg2 : (iga o = false -> fot o = false) -> iga o = negb (oabs o) -> forall p pn q qn C C', negN p q -> negN pn qn -> veq ds2 C C' ->
    cnegN o ds2 (corrN AR F X p pn C) (corrN AR F X q qn C').
  Proof.
    intros FO IA p pn q qn C C' H H' HC d x Hd. destruct (iga o) eqn:Ei.
    - rewrite !corr2.
      rewrite (A2_ext o sp tp tiny (lc d x (nG AR X)) (lc d x (nG AR X)) (lc d x q) (lc d x q) (lc d x qn) (lc d x qn)
         (lc d x (C d)) (lc d x (C' d)) (lc d x (C (od d))) (lc d x (C' (od d)))
         (lc d x (nN AR X d)) (lc d x (nN AR X d)) (lc d x (nN AR X (od d))) (lc d x (nN AR X (od d))) (lc d x (nT AR X d)));
        auto; try (intros; unfold lc; auto; apply (veq_in C C'); auto).
      rewrite (anti_lin o sp tp tiny (-1) 0 (lc d x (nG AR X)) (lc d x p) (lc d x pn) (lc d x p) (lc d x pn)); auto; [match goal with |- _ * ?A + _ = _ => change (-1 * A + 0 * A = - A) end; ring|..].
      + destruct (oabs o); auto; cbn in IA; discriminate IA.
      + intros. unfold lc. rewrite H. ring.
      + intros. unfold lc. rewrite H'. ring.
    - apply (unit_free2 (fun _ => FO eq_refl) Ei 1); auto; try lra.
      + intros y. rewrite H. unfold paR. destruct (oabs o); [|cbn in IA; discriminate IA]. rewrite Rabs_Ropp. ring.
      + intros y. rewrite H'. unfold paR. destruct (oabs o); [|cbn in IA; discriminate IA]. rewrite Rabs_Ropp. ring.
  Qed.
  (** other fixed fields with the same values; indifferent options *)
  Variable o' : fl.
  Hypothesis E : o' = mkfl (fct o) (oabs o) (tot o) (pfc o) (npa o') (iga o) (nug o) (dfl o) (khn o') (div2 o) (div3 o) (div3dt o) (fot o).
  Variable X' : fixedN AR.
  Hypothesis EC : veq ds2 (nC AR X) (nC AR X').
  Hypothesis EG : nug o = true -> forall x, nG AR X' x = nG AR X x.
  Hypothesis EN : veq ds2 (nN AR X) (nN AR X').
  Hypothesis ET : veq ds2 (nT AR X) (nT AR X').
  Lemma same2 nit freq ex nt ts (psi psi' : idx -> R) : (forall x, psi' x = psi x) -> forall x,
    stepsN AR o' (forms2 o' sp tp) X' nit freq ex nt ts psi' x = stepsN AR o F X nit freq ex nt ts psi x.
  Proof.
    intros HP.
    assert (F1 : fct o' = fct o) by (rewrite E; reflexivity).
    assert (F2 : iga o' = iga o) by (rewrite E; reflexivity).
    assert (F3 : oabs o' = oabs o) by (rewrite E; reflexivity).
    assert (F4 : nug o' = nug o) by (rewrite E; reflexivity).
    refine (y_steps eps tiny o o' F (forms2 o' sp tp) ds2 (closed2 eps tiny o sp tp) (closed2 eps tiny o' sp tp) F1 F2 F3 F4
      (fun x => x) (fun d => d) (fun _ => false) (fun _ x => x) _ _ _ _ _ _ X X' _ _ _ nit freq ex nt ts psi psi' HP); auto.
    - intros d Hd. eauto.
    - intros p pn p' pn' C C' H H' HC d x Hd. rewrite !corr2.
      transitivity (A2 o sp tp tiny (lc d x (nG AR X')) (lc d x p') (lc d x pn') (lc d x (C' d)) (lc d x (C' (od d)))
         (lc d x (nN AR X' d)) (lc d x (nN AR X' (od d))) (lc d x (nT AR X' d))).
      + rewrite E. reflexivity.
      + unfold sg. assert (Ho : In (od d) ds2) by (two_dims Hd; cbn; auto).
        apply A2_ext; auto; intros; unfold lc; auto; first [apply EG; assumption|apply H|apply H'|apply HC; assumption|apply EN; assumption|apply ET; assumption].
  Qed.
End Fun.

(** ** Runs *)
Section Runs.
  Variables eps tiny : R.
  Notation AR := (arithR eps tiny).
  Variable r : run2.
  Notation lo := (s_lo r).
  Notation hi := (s_hi r).
  Notation o := (s_o r).
  Notation F := (forms2 o (s_sp r) (s_tp r)).

  Section Two.
    Variables (n1 n2 nt : nat) (m1 m2 m1' m2' : loc -> R).
    Hypothesis E1 : cyclic_end2 AR r n1 nt m1 m1'.
    Hypothesis E2 : cyclic_end2 AR r n2 nt m2 m2'.
    Hypothesis SF : same_flow2 r m1 m2.
    Lemma run_ins x : inside lo hi (wrap2 lo hi DX (comp DX x)) (wrap2 lo hi DY (comp DY x)).
    Proof. exact (w_ins eps tiny r n1 nt m1 m1' E1 x). Qed.
    Lemma flow_C : veq ds2 (nC AR (cycX2 r AR m1)) (nC AR (cycX2 r AR m2)).
    Proof.
      destruct SF as (H1 & H2 & _). intros d x Hd. destruct (run_ins x) as [A B].
      two_dims Hd; [apply H1|apply H2]; lia.
    Qed.
    Lemma flow_G : nug o = true -> forall x, nG AR (cycX2 r AR m2) x = nG AR (cycX2 r AR m1) x.
    Proof. destruct SF as (_ & _ & H3). intros Ng x. destruct (run_ins x) as [A B]. apply H3; auto; lia. Qed.
    (** the second run in the fixed fields of the first *)
    Lemma run_flow e : (e < n_eqns (s_cfg r))%nat -> forall i j, on_grid lo hi i j -> cell2 m2' e (newest2 r nt) i j =
      stepsN AR o F (cycX2 r AR m1) (s_nit r) (s_freq r) (s_scale r e) nt 0 (fun x => m2 ((e, Psi false), wx r x)) (i, j, 0%Z).
    Proof.
      intros He i j Hij. refine (eq_trans (run2_fun eps tiny r n2 nt m2 m2' E2 e He i j Hij) _).
      apply (same2 eps tiny o (s_sp r) (s_tp r) (cycX2 r AR m1) o); auto using flow_C, flow_G.
      - destruct o; reflexivity.
      - intros d x _. reflexivity.
      - intros d x _. reflexivity.
    Qed.
    Variable e : nat.
    Hypothesis He : (e < n_eqns (s_cfg r))%nat.
    Lemma fot_ok : iga o = false -> fot o = false.
    Proof.
      intros NI. pose proof (ok2_fl r (ce_ok _ _ _ _ _ _ E1)) as K. unfold fl_ok2 in K. rewrite NI in K.
      destruct (fot o); auto. rewrite !andb_true_iff in K. destruct K as [_ K]. rewrite andb_false_r in K. discriminate.
    Qed.
    Lemma abs_ok : iga o = true -> oabs o = false.
    Proof.
      intros I. pose proof (ok2_fl r (ce_ok _ _ _ _ _ _ E1)) as K. unfold fl_ok2, fl_ok in K. rewrite I in K.
      destruct (oabs o); auto; discriminate.
    Qed.

    Theorem multiple2 lam : fct o = false -> pfc o = true -> iga o = false -> 0 < lam \/ oabs o = true /\ lam <> 0 ->
      (forall i j, inside lo hi i j -> cell2 m2 e false i j = lam * cell2 m1 e false i j) ->
      forall i j, on_grid lo hi i j -> cell2 m2' e (newest2 r nt) i j = lam * cell2 m1' e (newest2 r nt) i j.
    Proof.
      intros NF HP NI HL HM i j Hij. rewrite run_flow by auto.
      refine (eq_trans _ (eq_sym (f_equal (Rmult lam) (run2_fun eps tiny r n1 nt m1 m1' E1 e He i j Hij)))).
      apply (mulN_steps eps tiny o F ds2 (closed2 eps tiny o _ _) (cycX2 r AR m1) lam); auto.
      - apply unit_free2, fot_ok.
      - intros x. apply HM, run_ins.
    Qed.
    Theorem negated2 : iga o = negb (oabs o) -> (iga o = true -> (s_nit r <= 2)%nat) -> 0 < eps ->
      (forall i j, inside lo hi i j -> 0 < G2of (nug o) m1 i j) ->
      (forall i j, inside lo hi i j -> cell2 m2 e false i j = - cell2 m1 e false i j) ->
      forall i j, on_grid lo hi i j -> cell2 m2' e (newest2 r nt) i j = - cell2 m1' e (newest2 r nt) i j.
    Proof.
      intros IA HN Hp HG HM i j Hij. rewrite run_flow by auto.
      refine (eq_trans _ (eq_sym (f_equal Ropp (run2_fun eps tiny r n1 nt m1 m1' E1 e He i j Hij)))).
      apply (negN_steps eps tiny o F ds2 (closed2 eps tiny o _ _) (cycX2 r AR m1)); auto.
      - intros x. rewrite (cyc_g eps tiny r). apply HG, run_ins.
      - intros. apply neg2; auto using fot_ok.
      - intros x. apply HM, run_ins.
    Qed.
  End Two.

  Theorem superpose2 n1 n2 n3 nt m1 m2 m3 m1' m2' m3' e la lb : (e < n_eqns (s_cfg r))%nat ->
    cyclic_end2 AR r n1 nt m1 m1' -> cyclic_end2 AR r n2 nt m2 m2' -> cyclic_end2 AR r n3 nt m3 m3' ->
    same_flow2 r m1 m2 -> same_flow2 r m1 m3 ->
    s_nit r = 1%nat \/ iga o = true /\ fct o = false /\ (s_nit r <= 2)%nat ->
    (forall i j, inside lo hi i j -> cell2 m3 e false i j = la * cell2 m1 e false i j + lb * cell2 m2 e false i j) ->
    forall i j, on_grid lo hi i j ->
      cell2 m3' e (newest2 r nt) i j = la * cell2 m1' e (newest2 r nt) i j + lb * cell2 m2' e (newest2 r nt) i j.
  Proof.
    intros He E1 E2 E3 S2 S3 Opt HM i j Hij.
    refine (eq_trans (run_flow n1 n3 nt m1 m3 m1' m3' E1 E3 S3 e He i j Hij) _).
    refine (eq_trans _ (eq_sym (f_equal2 (fun a b => la * a + lb * b) (run2_fun eps tiny r n1 nt m1 m1' E1 e He i j Hij)
      (run_flow n1 n2 nt m1 m2 m1' m2' E1 E2 S2 e He i j Hij)))).
    apply (linN_steps eps tiny o F ds2 (closed2 eps tiny o _ _) (cycX2 r AR m1) la lb); auto.
    - intros IG. apply lin2; auto. eapply abs_ok; eauto.
    - intros x. apply HM. eapply run_ins; eauto.
  Qed.

  Theorem hint_scale2 s n1 n2 nt m m1' m2' e : (e < n_eqns (s_cfg r))%nat ->
    cyclic_end2 AR r n1 nt m m1' -> cyclic_end2 AR (with_scale2 r s) n2 nt m m2' ->
    s_nit r = 1%nat \/ fct o = false /\ (iga o = false /\ pfc o = true \/ iga o = true /\ (s_nit r <= 2)%nat) ->
    forall i j, on_grid lo hi i j -> cell2 m2' e (newest2 r nt) i j = cell2 m1' e (newest2 r nt) i j.
  Proof.
    intros He E1 E2 Opt i j Hij.
    refine (eq_trans (run2_fun eps tiny (with_scale2 r s) n2 nt m m2' E2 e He i j Hij) _).
    refine (eq_trans _ (eq_sym (run2_fun eps tiny r n1 nt m m1' E1 e He i j Hij))).
    refine (f_equal (fun f => f (i, j, 0%Z)) _).
    apply (stepsN_hint eps tiny o F ds2 (closed2 eps tiny o _ _) (cycX2 r AR m)).
    - intros la lb IG. apply lin2; auto. eapply abs_ok; eauto.
    - apply unit_free2. eapply fot_ok; eauto.
    - destruct Opt as [H|[H [[]|[]]]]; [left|right..]; auto.
  Qed.

  Theorem toggles2 a b n1 n2 nt m m1' m2' e : (e < n_eqns (s_cfg r))%nat ->
    cyclic_end2 AR r n1 nt m m1' -> cyclic_end2 AR (with_toggles2 r a b) n2 nt m m2' ->
    forall i j, on_grid lo hi i j -> cell2 m2' e (newest2 r nt) i j = cell2 m1' e (newest2 r nt) i j.
  Proof.
    intros He E1 E2 i j Hij.
    refine (eq_trans (run2_fun eps tiny (with_toggles2 r a b) n2 nt m m2' E2 e He i j Hij) _).
    refine (eq_trans _ (eq_sym (run2_fun eps tiny r n1 nt m m1' E1 e He i j Hij))).
    apply (same2 eps tiny o (s_sp r) (s_tp r) (cycX2 r AR m) (s_o (with_toggles2 r a b)) eq_refl); auto;
      intros d x _; reflexivity.
  Qed.
End Runs.
