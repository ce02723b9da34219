(** Numerical properties of whole runs of the 1D solver. *)
From Coq Require Import ZArith List Bool Lia ZifyBool Reals Lra.
From Verif Require Import SpecIndex ModelIndex ProofsIndex ModelRun Lang ProofsLang Stencil ProofsStencil
  FormCommon Form1D Solver1D Macro ProofsMacro Foot1D Proofs1D ProofsThread1D ProofsValid ProofsValid1D
  ProofsExch1D ProofsRef1D Lattice ProofsLattice ProofsLattice1D SpecThreads SpecFields SpecNum ProofsCyclic1D
  Fun1D ProofsFun1D ProofsFold1D ProofsPer1D ProofsDom1D Arith SpecReal ProofsReal1D ProofsAnti1D ProofsCons1D
  ProofsNum1D ProofsSign1D ProofsSym1D ProofsScale1D.
Import ListNotations.
Local Open Scope R_scope.

Section Res.
  Variable r : run1.
  Hypothesis RK : run_ok r.
  Notation lo := (r_lo r).
  Notation hi := (r_hi r).
  Notation o := (r_o r).
  Variable n : nat.
  Hypothesis Hn : (0 < n)%nat.
  Hypothesis Hs : (Z.of_nat n <= hi - lo + 1)%Z.
  Variables eps tiny : R.
  Notation AR := (arithR eps tiny).
  Notation mem := (loc -> R).
  Hypothesis NS : no_stale o (r_nit r) = true.
  Variable nt : nat.
  Variables m m' : mem.
  Hypothesis CE : can_end loc_eq_dec AR n (program1 r n nt) m m'.
  Variable e : nat.
  Hypothesis He : (e < n_eqns (r_cfg r))%nat.
  Notation G := (Gof (nug o) m).
  Notation DD := (fun i : Z => (lo <= i <= hi)%Z).
  Notation D i := (lo <= i <= hi)%Z.
  Notation X := (domX r AR m).

  Lemma dom_g i : gR o (xG AR X) i = G (dom_rs r i).
  Proof. unfold gR, Gof. destruct (nug o); reflexivity. Qed.
  Lemma dom_in i : D (dom_rs r i).
  Proof. exact (rs_in r RK i). Qed.
  Lemma rs_left : dom_rs r (lo - 1) = match r_bl r with Cyclic => (hi - 1)%Z | Open => lo end.
  Proof.
    pose proof (halo_le r RK) as [H1 H2]. unfold dom_rs, src_s, clamp.
    replace (Z.max _ _) with (lo - 1)%Z by lia. replace (lo - 1 <? lo)%Z with true by lia. destruct (r_bl r); lia.
  Qed.
  Lemma rs_rght : dom_rs r (hi + 1) = match r_br r with Cyclic => (lo + 1)%Z | Open => hi end.
  Proof.
    pose proof (halo_le r RK) as [H1 H2]. unfold dom_rs, src_s, clamp.
    replace (Z.max _ _) with (hi + 1)%Z by lia. replace (hi + 1 <? lo)%Z with false by lia.
    replace (hi <? hi + 1)%Z with true by lia. destruct (r_br r); lia.
  Qed.
  Lemma rv_left : dom_rv r false (lo - 1) = match r_bl r with Cyclic => (hi - 1)%Z | Open => lo end.
  Proof.
    pose proof (halo_le r RK) as [H1 H2]. unfold dom_rv, src_v, clamp.
    replace (Z.max _ _) with (lo - 1)%Z by lia. replace (lo - 1 <? lo)%Z with true by lia. destruct (r_bl r); lia.
  Qed.
  Lemma rv_rght : dom_rv r false hi = match r_br r with Cyclic => lo | Open => (hi - r_halo r)%Z end.
  Proof.
    pose proof (halo_le r RK) as [H1 H2]. unfold dom_rv, src_v, clamp.
    replace (Z.max _ _) with hi by lia. replace (hi <? lo)%Z with false by lia.
    replace (hi - 1 <? hi)%Z with true by lia. destruct (r_br r); lia.
  Qed.
  Notation CL := (Cleft (r_bl r) lo hi m).
  Notation CR := (Crght (r_br r) lo hi (r_halo r) m).
  Lemma dom_left i : D i -> xC AR X (i - 1)%Z = CL i.
  Proof.
    intros Hi. cbn [xC domX]. unfold Cleft. destruct (Z.eqb_spec i lo) as [->|Ne].
    - rewrite rv_left. destruct (r_bl r); reflexivity.
    - rewrite (rv_id r RK) by lia. reflexivity.
  Qed.
  Lemma dom_rght i : D i -> xC AR X i = CR i.
  Proof.
    intros Hi. cbn [xC domX]. unfold Crght. destruct (Z.eqb_spec i hi) as [->|Ne].
    - rewrite rv_rght. destruct (r_br r); reflexivity.
    - rewrite (rv_id r RK) by lia. reflexivity.
  Qed.
  Lemma dom_run i : D i -> cell m' e (newest r nt) i =
    stepsF AR o (r_sp r) (r_tp r) (dom_rs r) (dom_rv r) X (r_nit r) (r_freq r) (r_scale r e) nt 0 (cell m e false) i.
  Proof. intros Hi. exact (dom_fun r RK n Hn Hs AR nt m m' NS CE e i He Hi). Qed.

  Lemma dom_N i : xN AR X i = 0.
  Proof. unfold domX. cbn [xN]. cbv [arithR acst Rcst]. apply div1. Qed.
  Lemma dom_T i : xT AR X i = 0.
  Proof. unfold domX. cbn [xT]. cbv [arithR acst Rcst]. apply div1. Qed.

  (** only the values in the domain matter *)
  Lemma dom_only k : forall ts psi psi', (forall x, D x -> psi x = psi' x) -> forall x, D x ->
    stepsF AR o (r_sp r) (r_tp r) (dom_rs r) (dom_rv r) X (r_nit r) (r_freq r) (r_scale r e) k ts psi x =
    stepsF AR o (r_sp r) (r_tp r) (dom_rs r) (dom_rv r) X (r_nit r) (r_freq r) (r_scale r e) k ts psi' x.
  Proof.
    induction k as [|k IH]; intros ts psi psi' H x Hx; [auto|].
    cbn [stepsF]. apply IH; auto. intros y _. unfold stepF. apply scaleF_ext.
    assert (Q : forall z, scaleF AR (r_scale r e) psi (dom_rs r z) = scaleF AR (r_scale r e) psi' (dom_rs r z)).
    { intros z. rewrite !scaleF_R. rewrite (H _ (rs_in r RK z)). reflexivity. }
    apply passesF_ext; [intros _; apply minF_ext; exact Q|intros _; apply maxF_ext; exact Q|apply upF_ext; exact Q|reflexivity].
  Qed.
  Lemma dom_run' i : D i -> cell m' e (newest r nt) i =
    stepsF AR o (r_sp r) (r_tp r) (dom_rs r) (dom_rv r) X (r_nit r) (r_freq r) (r_scale r e) nt 0
      (fun x => cell m e false (dom_rs r x)) i.
  Proof.
    intros Hi. rewrite dom_run by auto. apply dom_only; auto. intros x Hx. rewrite (rs_id r RK x Hx). reflexivity.
  Qed.

  (** *** Sign *)
  Lemma safe_g : outflow_ok (r_bl r) (r_br r) lo hi (r_halo r) (nug o) m ->
    (forall i, 0 < gR o (xG AR X) i) /\ (forall i, D i -> outflow (xC AR X) i <= gR o (xG AR X) i).
  Proof.
    intros H. split.
    - intros i. rewrite dom_g. apply H. apply dom_in.
    - intros i Hi. unfold outflow. pose proof (dom_left i Hi) as EL. pose proof (dom_rght i Hi) as ER.
      change (car AR) with R in *. rewrite EL, ER, dom_g, (rs_id r RK i Hi). apply H. exact Hi.
  Qed.
  Lemma run_sign : outflow_ok (r_bl r) (r_br r) lo hi (r_halo r) (nug o) m ->
    sign_safe eps tiny o X DD (r_nit r) ->
    (forall i, D i -> 0 <= cell m e false i) -> forall i, D i -> 0 <= cell m' e (newest r nt) i.
  Proof.
    intros H S Hp i Hi. rewrite dom_run by auto. destruct (safe_g H) as [G1 G2].
    apply steps_sign with (D := DD); auto using dom_in.
  Qed.
  Lemma upwind_sign : r_nit r = 1%nat ->
    outflow_ok (r_bl r) (r_br r) lo hi (r_halo r) (nug o) m ->
    (forall i, D i -> 0 <= cell m e false i) -> forall i, D i -> 0 <= cell m' e (newest r nt) i.
  Proof. intros Hk H. apply run_sign; auto. left. exact Hk. Qed.
  Lemma fct_sign : fct o = true -> 0 < eps ->
    outflow_ok (r_bl r) (r_br r) lo hi (r_halo r) (nug o) m ->
    (forall i, D i -> 0 <= cell m e false i) -> forall i, D i -> 0 <= cell m' e (newest r nt) i.
  Proof. intros Hf He' H. apply run_sign; auto. right. left. auto. Qed.
  Lemma gb_val i : gbR o (xG AR X) i = (G (dom_rs r (i + 1)) + G (dom_rs r i)) / 2.
  Proof. unfold gbR, Gof. destruct (nug o); [reflexivity|field]. Qed.
  Lemma G_left i : D i -> G (dom_rs r (i - 1)) = Gleft (r_bl r) lo hi (nug o) m i.
  Proof.
    intros Hi. unfold Gleft. destruct (Z.eqb_spec i lo) as [->|Ne].
    - rewrite rs_left. destruct (r_bl r); reflexivity.
    - rewrite (rs_id r RK) by lia. reflexivity.
  Qed.
  Lemma G_rght i : D i -> G (dom_rs r (i + 1)) = Grght (r_br r) lo hi (nug o) m i.
  Proof.
    intros Hi. unfold Grght. destruct (Z.eqb_spec i hi) as [->|Ne].
    - rewrite rs_rght. destruct (r_br r); reflexivity.
    - rewrite (rs_id r RK) by lia. reflexivity.
  Qed.
  Lemma basic_sign : iga o = false -> fct o = false -> div2 o = false -> tot o = false -> dfl o = false ->
    pfc o = true \/ 0 < tiny ->
    outflow_ok (r_bl r) (r_br r) lo hi (r_halo r) (nug o) m ->
    courant_ok (r_bl r) (r_br r) lo hi (r_halo r) (nug o) m ->
    smooth_G (r_bl r) (r_br r) lo hi (nug o) m ->
    (forall i, D i -> 0 <= cell m e false i) -> forall i, D i -> 0 <= cell m' e (newest r nt) i.
  Proof.
    intros O1 O2 O3 O4 O5 Ht H HC HS. apply run_sign; auto. right. right.
    repeat (split; [assumption|]). split.
    - intros i Hi. rewrite !gb_val, dom_g. replace (i - 1 + 1)%Z with i by lia.
      rewrite (rs_id r RK i Hi), G_left, G_rght by auto. specialize (HS i Hi). lra.
    - intros i [Hi|Hi].
      + pose proof (dom_rght i Hi) as ER. change (car AR) with R in *. rewrite ER, gb_val, (rs_id r RK i Hi), G_rght by auto.
        destruct (HC i Hi) as [_ B]. lra.
      + pose proof (dom_left (i + 1) Hi) as EL. pose proof (G_left (i + 1) Hi) as GL.
        replace (i + 1 - 1)%Z with i in * by lia. change (car AR) with R in *.
        rewrite EL, gb_val, (rs_id r RK _ Hi), GL. destruct (HC _ Hi) as [B _]. lra.
  Qed.

  (** *** Uniform flow *)
  Variable kc : R.
  Hypothesis U : forall i, (lo <= i < hi)%Z -> face m i = kc.
  Lemma uni_C i : xC AR X i = kc.
  Proof. cbn [xC domX]. apply U. apply (rv_in r RK). Qed.
  Lemma uni_bounds a b : uniform lo hi (nug o) m kc ->
    r_nit r = 1%nat \/ fct o = true /\ 0 < eps /\ (iga o = true \/ oabs o = true \/ 0 <= a) ->
    (forall i, D i -> a <= cell m e false i <= b) -> forall i, D i -> a <= cell m' e (newest r nt) i <= b.
  Proof.
    intros [_ UG] S Hp i Hi. rewrite dom_run' by auto.
    assert (G1 : forall x, 0 < gR o (xG AR X) x) by (intros x; rewrite dom_g; apply UG, dom_in).
    assert (G2 : forall x, Rabs kc <= gR o (xG AR X) x) by (intros x; rewrite dom_g; apply UG, dom_in).
    apply steps_within with (kc := kc) (a := a) (b := b); auto using uni_C.
    intros x. apply Hp, dom_in.
  Qed.
  Lemma constants c : (forall i, D i -> cell m e false i = c) -> forall i, D i -> cell m' e (newest r nt) i = c.
  Proof.
    intros Hp i Hi. rewrite dom_run' by auto.
    apply steps_const with (kc := kc); auto using uni_C, dom_N, dom_T. intros x. apply Hp, dom_in.
  Qed.
End Res.

(** ** Cyclic domains *)
Section Cyc.
  Variable r : run1.
  Hypothesis RK : run_ok r.
  Notation lo := (r_lo r).
  Notation hi := (r_hi r).
  Notation o := (r_o r).
  Variables eps tiny : R.
  Notation AR := (arithR eps tiny).
  Notation mem := (loc -> R).
  Hypothesis NS : no_stale o (r_nit r) = true.
  Hypothesis BL : r_bl r = Cyclic.
  Hypothesis BR : r_br r = Cyclic.
  Variable nt : nat.
  Variable e : nat.
  Hypothesis He : (e < n_eqns (r_cfg r))%nat.
  Notation D i := (lo <= i <= hi)%Z.
  Notation cyc m := (cyclic_data lo hi (n_eqns (r_cfg r)) (nug o) m).
  Notation ends n m m' := (can_end loc_eq_dec AR n (program1 r n nt) m m').
  Notation X m := (cycX r AR m).

  Lemma cyc_N m i : xN AR (X m) i = 0.
  Proof. unfold cycX. cbn [xN]. cbv [arithR acst Rcst]. apply div1. Qed.
  Lemma cyc_T m i : xT AR (X m) i = 0.
  Proof. unfold cycX. cbn [xT]. cbv [arithR acst Rcst]. apply div1. Qed.
  Lemma wrap_in i : (lo <= wrap lo hi i < hi)%Z.
  Proof. pose proof (lo_hi r RK). unfold wrap. pose proof (Z.mod_pos_bound (i - lo) (hi - lo)). lia. Qed.

  Lemma unit_courant n m m' (k : Z) : (0 < n)%nat -> (Z.of_nat n <= hi - lo + 1)%Z ->
    cyc m -> ends n m m' -> nug o = false -> (k = 0 \/ k = 1 \/ k = -1)%Z ->
    (forall i, (lo <= i < hi)%Z -> face m i = IZR k) ->
    forall i, D i -> cell m' e (newest r nt) i = cell m e false (wrap lo hi (i - k * Z.of_nat nt)).
  Proof.
    intros Hn Hs CD CE NU HK HC i Hi.
    transitivity (stepsF AR o (r_sp r) (r_tp r) (fun x => x) (fun _ x => x) (X m)
        (r_nit r) (r_freq r) (r_scale r e) nt 0 (fun x => cell m e false (wrap lo hi x)) i).
    - exact (cyclic_fun r n RK Hn Hs BL BR AR nt m m' NS CD CE e i He Hi).
    - rewrite steps_unit with (k := k); auto using cyc_N, cyc_T.
      + pose proof (ok_fl r RK) as F. unfold fl_ok in F. destruct (iga o), (oabs o); auto; discriminate.
      + intros x. unfold cycX. cbn [xC]. apply HC. apply wrap_in.
  Qed.

  Lemma cyc_run n m m' : (0 < n)%nat -> (Z.of_nat n <= hi - lo + 1)%Z -> cyc m -> ends n m m' ->
    forall i, D i -> cell m' e (newest r nt) i =
      stepsF AR o (r_sp r) (r_tp r) (fun x => x) (fun _ x => x) (X m)
        (r_nit r) (r_freq r) (r_scale r e) nt 0 (fun x => cell m e false (wrap lo hi x)) i.
  Proof. intros Hn Hs CD CE i Hi. exact (cyclic_fun r n RK Hn Hs BL BR AR nt m m' NS CD CE e i He Hi). Qed.

  Lemma wrap_sum (a b : Z) : (a + b = lo + hi)%Z ->
    (wrap lo hi a + wrap lo hi b = lo + hi \/ wrap lo hi a = lo /\ wrap lo hi b = lo)%Z.
  Proof.
    intros E. pose proof (lo_hi r RK) as L. unfold wrap. set (P := (hi - lo)%Z).
    replace (b - lo)%Z with (- (a - lo) + 1 * P)%Z by lia. rewrite Z_mod_plus_full.
    destruct (Z.eq_dec ((a - lo) mod P) 0) as [Z0|NZ].
    - right. rewrite Z0, Z_mod_zero_opp_full by auto. lia.
    - left. rewrite Z_mod_nz_opp_full by auto. lia.
  Qed.
  Lemma wrap_sum1 (a b : Z) : (a + b = lo + hi - 1)%Z -> (wrap lo hi a + wrap lo hi b = lo + hi - 1)%Z.
  Proof.
    intros E. pose proof (lo_hi r RK) as L. unfold wrap. set (P := (hi - lo)%Z).
    pose proof (Z.mod_pos_bound (a - lo) P ltac:(lia)) as B. pose proof (Z.div_mod (a - lo) P ltac:(lia)) as E1.
    replace (b - lo)%Z with ((P - 1 - (a - lo) mod P) + (- ((a - lo) / P)) * P)%Z by lia.
    rewrite Z_mod_plus_full, (Z.mod_small (P - 1 - _)) by lia. lia.
  Qed.
  Lemma mirror_cyc n1 n2 m1 m2 m1' m2' :
    (0 < n1)%nat -> (Z.of_nat n1 <= hi - lo + 1)%Z -> (0 < n2)%nat -> (Z.of_nat n2 <= hi - lo + 1)%Z ->
    cyc m1 -> mirrored Ropp lo hi (n_eqns (r_cfg r)) (nug o) m1 m2 -> ends n1 m1 m1' -> ends n2 m2 m2' ->
    forall i, D i -> cell m2' e (newest r nt) i = cell m1' e (newest r nt) (lo + hi - i)%Z.
  Proof.
    intros P1 S1 P2 S2 CD (M1 & M2 & M3) E1 E2 i Hi. pose proof (lo_hi r RK) as L.
    assert (CD2 : cyc m2).
    { destruct CD as [C1 C2]. split.
      - intros e' He'. rewrite !M1 by (auto; lia). replace (lo + hi - hi)%Z with lo by lia. replace (lo + hi - lo)%Z with hi by lia.
        symmetry. apply C1. auto.
      - intros Hg. rewrite !M3 by (auto; lia). replace (lo + hi - hi)%Z with lo by lia. replace (lo + hi - lo)%Z with hi by lia.
        symmetry. apply C2. auto. }
    assert (CellM : forall e', (e' < n_eqns (r_cfg r))%nat -> forall a b, (a + b = lo + hi)%Z ->
      cell m2 e' false (wrap lo hi a) = cell m1 e' false (wrap lo hi b)).
    { intros e' He' a b E. pose proof (wrap_in a). pose proof (wrap_in b). destruct (wrap_sum a b E) as [W|[W1 W2]].
      - rewrite M1 by (auto; lia). f_equal. lia.
      - rewrite W1, W2, M1 by (auto; lia). replace (lo + hi - lo)%Z with hi by lia. apply CD. auto. }
    rewrite (cyc_run n2 m2 m2'), (cyc_run n1 m1 m1') by (auto; lia).
    destruct (nug o) eqn:NU.
    - apply m_steps with (S := (lo + hi)%Z); auto; try lia.
      + intros a b E. unfold cycX. cbn [xC]. pose proof (wrap_in a). rewrite M2 by lia.
        change (- face m1 (lo + hi - 1 - wrap lo hi a)%Z = - face m1 (wrap lo hi b)). do 2 f_equal. pose proof (wrap_sum1 a b E). lia.
      + intros a b E. unfold cycX. cbn [xG]. pose proof (wrap_in a). pose proof (wrap_in b). destruct (wrap_sum a b E) as [W|[W1 W2]].
        * rewrite M3 by (auto; lia). replace (wrap lo hi b) with (lo + hi - wrap lo hi a)%Z by lia. reflexivity.
        * rewrite W1, W2, M3 by (auto; lia). replace (lo + hi - lo)%Z with hi by lia. apply CD. auto.
      + intros a b E. rewrite !cyc_N. toR; ring.
      + intros a b E. rewrite !cyc_T. toR; ring.
      + intros a b E. apply CellM; auto.
    - set (X2 := {| xC := xC AR (X m2); xG := fun x => xG AR (X m1) (lo + hi - x)%Z; xN := xN AR (X m2); xT := xT AR (X m2) |}).
      transitivity (stepsF AR o (r_sp r) (r_tp r) (fun x => x) (fun _ x => x) X2
        (r_nit r) (r_freq r) (r_scale r e) nt 0 (fun x => cell m2 e false (wrap lo hi x)) i).
      { apply stepsF_X; auto; try (intros x; reflexivity). intros Hf. congruence. }
      apply m_steps with (S := (lo + hi)%Z); auto; try lia.
      + intros a b E. unfold X2, cycX. cbn [xC]. pose proof (wrap_in a). rewrite M2 by lia.
        change (- face m1 (lo + hi - 1 - wrap lo hi a)%Z = - face m1 (wrap lo hi b)). do 2 f_equal. pose proof (wrap_sum1 a b E). lia.
      + intros a b E. unfold X2. cbn [xG]. f_equal. lia.
      + intros a b E. unfold X2. cbn [xN]. rewrite !cyc_N. toR; ring.
      + intros a b E. unfold X2. cbn [xT]. rewrite !cyc_T. toR; ring.
      + intros a b E. apply CellM; auto.
  Qed.
End Cyc.

(** one step on a cyclic domain with uniform flow: local bounds *)
Lemma local_bounds r eps tiny n m m' e kc : run_ok r -> no_stale (r_o r) (r_nit r) = true ->
  r_bl r = Cyclic -> r_br r = Cyclic -> (e < n_eqns (r_cfg r))%nat ->
  (0 < n)%nat -> (Z.of_nat n <= r_hi r - r_lo r + 1)%Z ->
  cyclic_data (r_lo r) (r_hi r) (n_eqns (r_cfg r)) (nug (r_o r)) m ->
  uniform (r_lo r) (r_hi r) (nug (r_o r)) m kc ->
  can_end loc_eq_dec (arithR eps tiny) n (program1 r n 1) m m' ->
  r_nit r = 1%nat \/ fct (r_o r) = true /\ 0 < eps /\
    (iga (r_o r) = true \/ oabs (r_o r) = true \/ forall i, (r_lo r <= i <= r_hi r)%Z -> 0 <= cell m e false i) ->
  forall i a b, (r_lo r <= i <= r_hi r)%Z ->
  (forall d, (Z.abs d <= Z.of_nat (r_nit r))%Z -> a <= cell m e false (wrap (r_lo r) (r_hi r) (i + d)) <= b) ->
  a <= cell m' e (newest r 1) i <= b.
Proof.
  intros RK NS BL BR He Hn Hs CD [U1 U2] CE S i a b Hi N.
  rewrite (cyc_run r RK eps tiny NS BL BR 1 e He n m m' Hn Hs CD CE i Hi). cbn [stepsF].
  pose proof (wrap_in r RK NS e He) as W.
  apply step_near with (kc := kc); auto.
  - intros x. unfold gR, cycX. cbn [xG]. pose proof (W x). destruct (U2 (wrap (r_lo r) (r_hi r) x)) as [A _]; [lia|]. exact A.
  - intros x. unfold cycX. cbn [xC]. apply U1. apply W.
  - intros x. unfold gR, cycX. cbn [xG]. pose proof (W x). destruct (U2 (wrap (r_lo r) (r_hi r) x)) as [_ A]; [lia|]. exact A.
  - apply (ok_nit r RK).
  - destruct S as [S|(F & E & S)]; [left; auto|right]. repeat split; auto. destruct S as [S|[S|S]]; [left|right; left|right; right]; auto.
    intros x. apply S. pose proof (W x). lia.
  - apply passes_cases.
Qed.

(** ** Runs on related data *)
Section Two.
  Variable r : run1.
  Hypothesis RK : run_ok r.
  Notation lo := (r_lo r).
  Notation hi := (r_hi r).
  Notation o := (r_o r).
  Variables eps tiny : R.
  Notation AR := (arithR eps tiny).
  Notation mem := (loc -> R).
  Hypothesis NS : no_stale o (r_nit r) = true.
  Variable nt : nat.
  Variable e : nat.
  Hypothesis He : (e < n_eqns (r_cfg r))%nat.
  Notation D i := (lo <= i <= hi)%Z.
  Notation ends n m m' := (can_end loc_eq_dec AR n (program1 r n nt) m m').
  (** same velocities and G factor *)
  Definition same_flow (m1 m2 : mem) : Prop :=
    (forall i, (lo <= i < hi)%Z -> face m2 i = face m1 i) /\
    (nug o = true -> forall i, D i -> gfac m2 i = gfac m1 i).

  Lemma flow_run n m1 m2 m2' : (0 < n)%nat -> (Z.of_nat n <= hi - lo + 1)%Z -> same_flow m1 m2 -> ends n m2 m2' ->
    forall i, D i -> cell m2' e (newest r nt) i =
      stepsF AR o (r_sp r) (r_tp r) (dom_rs r) (dom_rv r) (domX r AR m1) (r_nit r) (r_freq r) (r_scale r e) nt 0
        (fun x => cell m2 e false (dom_rs r x)) i.
  Proof.
    intros Hn Hs [F1 F2] CE i Hi. etransitivity; [exact (dom_run' r RK n Hn Hs eps tiny NS nt m2 m2' CE e He i Hi)|].
    apply stepsF_X; try (intros x; reflexivity).
    - intros x. cbn [xC domX]. apply F1. apply (rv_in r RK).
    - intros Hg x. cbn [xG domX]. apply F2; auto. apply (rs_in r RK).
  Qed.

  Variables n1 n2 n3 : nat.
  Hypothesis P1 : (0 < n1)%nat.
  Hypothesis S1 : (Z.of_nat n1 <= hi - lo + 1)%Z.
  Hypothesis P2 : (0 < n2)%nat.
  Hypothesis S2 : (Z.of_nat n2 <= hi - lo + 1)%Z.
  Hypothesis P3 : (0 < n3)%nat.
  Hypothesis S3 : (Z.of_nat n3 <= hi - lo + 1)%Z.
  Variables m1 m2 m3 m1' m2' m3' : mem.
  Hypothesis E1 : ends n1 m1 m1'.
  Hypothesis E2 : ends n2 m2 m2'.
  Hypothesis E3 : ends n3 m3 m3'.
  Hypothesis SF2 : same_flow m1 m2.
  Lemma same_flow_refl : same_flow m1 m1.
  Proof. split; reflexivity. Qed.

  Lemma run_multiple lam : fct o = false -> pfc o = true -> iga o = false -> 0 < lam \/ oabs o = true /\ lam <> 0 ->
    (forall i, D i -> cell m2 e false i = lam * cell m1 e false i) ->
    forall i, D i -> cell m2' e (newest r nt) i = lam * cell m1' e (newest r nt) i.
  Proof.
    intros NF PF NI HL H i Hi. rewrite (flow_run n2 m1 m2 m2'), (flow_run n1 m1 m1 m1') by auto using same_flow_refl.
    apply (mul_steps eps tiny o (r_sp r) (r_tp r) (domX r AR m1) (dom_rs r) (dom_rv r) lam (Rabs lam)); auto.
    - apply Rabs_pos_lt. destruct HL as [HL|[_ HL]]; lra.
    - intros x. unfold paR. destruct (oabs o) eqn:Ea; [apply Rabs_mult|]. destruct HL as [HL|[HL _]]; [|discriminate].
      rewrite Rabs_right by lra. reflexivity.
    - intros x. apply H. apply (rs_in r RK).
  Qed.
  Lemma run_negated : iga o = negb (oabs o) -> (iga o = true -> (r_nit r <= 2)%nat) -> 0 < eps ->
    (forall i, D i -> 0 < Gof (nug o) m1 i) ->
    (forall i, D i -> cell m2 e false i = - cell m1 e false i) ->
    forall i, D i -> cell m2' e (newest r nt) i = - cell m1' e (newest r nt) i.
  Proof.
    intros IA HI Hep HG H i Hi. rewrite (flow_run n2 m1 m2 m2'), (flow_run n1 m1 m1 m1') by auto using same_flow_refl.
    apply neg_steps; auto.
    - intros x. rewrite (dom_g r eps tiny m1). apply HG. apply (rs_in r RK).
    - intros x. apply H. apply (rs_in r RK).
  Qed.
  Hypothesis SF3 : same_flow m1 m3.
  Lemma run_sum la lb : r_nit r = 1%nat \/ iga o = true /\ fct o = false /\ (r_nit r <= 2)%nat ->
    (forall i, D i -> cell m3 e false i = la * cell m1 e false i + lb * cell m2 e false i) ->
    forall i, D i -> cell m3' e (newest r nt) i = la * cell m1' e (newest r nt) i + lb * cell m2' e (newest r nt) i.
  Proof.
    intros L H i Hi. rewrite (flow_run n3 m1 m3 m3'), (flow_run n2 m1 m2 m2'), (flow_run n1 m1 m1 m1') by auto using same_flow_refl.
    apply lin_steps.
    - destruct L as [L|(A & B & C)]; [left; auto|right]. repeat split; auto.
      pose proof (ok_fl r RK) as F. unfold fl_ok in F. rewrite A in F. destruct (oabs o); auto; discriminate.
    - intros x. apply H. apply (rs_in r RK).
  Qed.
End Two.

(** ** Open domains with a halo of one cell *)
Lemma open_rs r : run_ok r -> r_bl r = Open -> r_br r = Open ->
  forall a b, (a + b = r_lo r + r_hi r -> dom_rs r a + dom_rs r b = r_lo r + r_hi r)%Z.
Proof.
  intros RK BL BR a b E. pose proof (halo_le r RK) as [H1 H2]. pose proof (lo_hi r RK) as L. unfold dom_rs, src_s, clamp. rewrite BL, BR.
  set (x := Z.max (r_lo r - r_halo r) (Z.min (r_hi r + r_halo r) a)).
  set (y := Z.max (r_lo r - r_halo r) (Z.min (r_hi r + r_halo r) b)).
  destruct (x <? r_lo r)%Z eqn:C1, (r_hi r <? x)%Z eqn:C2, (y <? r_lo r)%Z eqn:C3, (r_hi r <? y)%Z eqn:C4; lia.
Qed.
Lemma open_rv r : run_ok r -> r_bl r = Open -> r_br r = Open -> r_halo r = 1%Z ->
  forall ad a b, (a + b = r_lo r + r_hi r - 1 -> dom_rv r ad a + dom_rv r ad b = r_lo r + r_hi r - 1)%Z.
Proof.
  intros RK BL BR HH ad a b E. pose proof (halo_le r RK) as [H1 H2]. pose proof (lo_hi r RK) as L. unfold dom_rv, src_v, clamp. rewrite BL, BR, HH.
  set (x := Z.max (r_lo r - 1) (Z.min (r_hi r + 1 - 1) a)).
  set (y := Z.max (r_lo r - 1) (Z.min (r_hi r + 1 - 1) b)).
  destruct ad, (x <? r_lo r)%Z eqn:C1, (r_hi r - 1 <? x)%Z eqn:C2, (y <? r_lo r)%Z eqn:C3, (r_hi r - 1 <? y)%Z eqn:C4,
    (x =? r_lo r - 1)%Z eqn:C5, (y =? r_lo r - 1)%Z eqn:C6, (x =? r_hi r)%Z eqn:C7, (y =? r_hi r)%Z eqn:C8; lia.
Qed.
Lemma mirror_open r eps tiny nt e n1 n2 m1 m2 m1' m2' : run_ok r -> no_stale (r_o r) (r_nit r) = true ->
  r_bl r = Open -> r_br r = Open -> r_halo r = 1%Z -> (e < n_eqns (r_cfg r))%nat ->
  (0 < n1)%nat -> (Z.of_nat n1 <= r_hi r - r_lo r + 1)%Z -> (0 < n2)%nat -> (Z.of_nat n2 <= r_hi r - r_lo r + 1)%Z ->
  mirrored Ropp (r_lo r) (r_hi r) (n_eqns (r_cfg r)) (nug (r_o r)) m1 m2 ->
  can_end loc_eq_dec (arithR eps tiny) n1 (program1 r n1 nt) m1 m1' ->
  can_end loc_eq_dec (arithR eps tiny) n2 (program1 r n2 nt) m2 m2' ->
  forall i, (r_lo r <= i <= r_hi r)%Z ->
    cell m2' e (newest r nt) i = cell m1' e (newest r nt) (r_lo r + r_hi r - i)%Z.
Proof.
  intros RK NS BL BR HH He P1 S1 P2 S2 (M1 & M2 & M3) E1 E2 i Hi.
  refine (eq_trans (dom_run' r RK n2 P2 S2 eps tiny NS nt m2 m2' E2 e He i Hi) _).
  refine (eq_trans _ (eq_sym (dom_run' r RK n1 P1 S1 eps tiny NS nt m1 m1' E1 e He _ _))); [|lia].
  pose proof (open_rs r RK BL BR) as RS. pose proof (open_rv r RK BL BR HH) as RV.
  pose proof (rs_in r RK) as RI. pose proof (rv_in r RK) as VI.
  set (X2 := {| xC := xC _ (domX r (arithR eps tiny) m2);
                xG := fun x => xG _ (domX r (arithR eps tiny) m1) (r_lo r + r_hi r - x)%Z;
                xN := xN _ (domX r (arithR eps tiny) m2); xT := xT _ (domX r (arithR eps tiny) m2) |}).
  transitivity (stepsF (arithR eps tiny) (r_o r) (r_sp r) (r_tp r) (dom_rs r) (dom_rv r) X2
        (r_nit r) (r_freq r) (r_scale r e) nt 0 (fun x => cell m2 e false (dom_rs r x)) i).
  { apply (stepsF_X (arithR eps tiny)); try (intros x; reflexivity). intros Hg x. unfold X2. cbn [xG domX].
    refine (eq_trans (M3 Hg _ (RI x)) _). pose proof (RS x (r_lo r + r_hi r - x)%Z ltac:(lia)) as E.
    replace (dom_rs r (r_lo r + r_hi r - x)) with (r_lo r + r_hi r - dom_rs r x)%Z by lia. reflexivity. }
  apply m_steps with (S := (r_lo r + r_hi r)%Z); auto; try lia.
  - intros a b E. unfold X2. cbn [xC domX]. refine (eq_trans (M2 _ (VI a)) _). pose proof (RV false a b E) as E'.
    replace (dom_rv r false b) with (r_lo r + r_hi r - 1 - dom_rv r false a)%Z by lia. reflexivity.
  - intros a b E. unfold X2. cbn [xG]. replace b with (r_lo r + r_hi r - a)%Z by lia. reflexivity.
  - intros a b E. unfold X2. cbn [xN]. rewrite !dom_N. toR; ring.
  - intros a b E. unfold X2. cbn [xT]. rewrite !dom_T. toR; ring.
  - intros a b E. refine (eq_trans (M1 e _ He (RI a)) _). pose proof (RS a b E) as E'.
    replace (dom_rs r b) with (r_lo r + r_hi r - dom_rs r a)%Z by lia. reflexivity.
Qed.

(** ** Options and hints *)
Definition with_toggles (r : run1) (a b : bool) : run1 :=
  let o := r_o r in
  {| r_o := mkfl (fct o) (oabs o) (tot o) (pfc o) a (iga o) (nug o) (dfl o) b (div2 o) (div3 o) (div3dt o) (fot o);
     r_sp := r_sp r; r_tp := r_tp r; r_cfg := r_cfg r; r_nit := r_nit r; r_freq := r_freq r; r_scale := r_scale r;
     r_bl := r_bl r; r_br := r_br r; r_lo := r_lo r; r_hi := r_hi r |}.
Definition with_scale (r : run1) (s : nat -> Z) : run1 :=
  {| r_o := r_o r; r_sp := r_sp r; r_tp := r_tp r; r_cfg := r_cfg r; r_nit := r_nit r; r_freq := r_freq r; r_scale := s;
     r_bl := r_bl r; r_br := r_br r; r_lo := r_lo r; r_hi := r_hi r |}.

Lemma toggles_agree r a b eps tiny nt e n1 n2 m m1' m2' : run_ok r -> no_stale (r_o r) (r_nit r) = true ->
  (e < n_eqns (r_cfg r))%nat ->
  (0 < n1)%nat -> (Z.of_nat n1 <= r_hi r - r_lo r + 1)%Z -> (0 < n2)%nat -> (Z.of_nat n2 <= r_hi r - r_lo r + 1)%Z ->
  can_end loc_eq_dec (arithR eps tiny) n1 (program1 r n1 nt) m m1' ->
  can_end loc_eq_dec (arithR eps tiny) n2 (program1 (with_toggles r a b) n2 nt) m m2' ->
  forall i, (r_lo r <= i <= r_hi r)%Z -> cell m2' e (newest r nt) i = cell m1' e (newest r nt) i.
Proof.
  intros RK NS He P1 S1 P2 S2 E1 E2 i Hi. set (r' := with_toggles r a b) in *.
  assert (RK' : run_ok r').
  { destruct RK as [A B C]. constructor; auto. }
  refine (eq_trans (dom_run' r' RK' n2 P2 S2 eps tiny NS nt m m2' E2 e He i Hi) _).
  refine (eq_trans _ (eq_sym (dom_run' r RK n1 P1 S1 eps tiny NS nt m m1' E1 e He i Hi))).
  apply (t_steps eps tiny (r_o r) (r_o r') (r_sp r) (r_tp r) (domX r (arithR eps tiny) m) (dom_rs r) (dom_rv r)); reflexivity.
Qed.

Section Hint.
  Variables eps tiny : R.
  Notation AR := (arithR eps tiny).
  Variables (o : fl) (sp : sptl) (tp : tmprl).
  Variable X : fixed AR.
  Variables (rs : Z -> Z) (rv : bool -> Z -> Z).
  Notation stepF := (stepF AR o sp tp rs rv X).
  Lemma step_scaled nit k ex psi i :
    stepF nit k ex psi i = sc (- ex) * stepF nit k 0 (fun x => sc ex * psi x) i.
  Proof.
    unfold Fun1D.stepF. rewrite scaleF_R. change (scaleF AR (- 0)) with (scaleF AR 0). unfold scaleF at 6. cbn [Z.eqb]. f_equal.
    assert (Q : forall y, scaleF AR ex psi (rs y) = scaleF AR 0 (fun x => sc ex * psi x) (rs y)).
    { intros y. rewrite (scaleF_R _ _ ex). reflexivity. }
    apply passesF_ext.
    - intros _. apply minF_ext. exact Q.
    - intros _. apply maxF_ext. exact Q.
    - apply upF_ext. exact Q.
    - intros ?; reflexivity.
  Qed.
  Definition scale_free (nit : nat) : Prop :=
    nit = 1%nat \/ fct o = false /\ (pfc o = true /\ iga o = false \/ iga o = true /\ oabs o = false /\ (nit <= 2)%nat).
  Lemma step_hint nit k ex psi : scale_free nit -> (k = nit \/ k = 1%nat) -> forall i, stepF nit k ex psi i = stepF nit k 0 psi i.
  Proof.
    intros S HK i. rewrite step_scaled.
    assert (E : stepF nit k 0 (fun x => sc ex * psi x) i = sc ex * stepF nit k 0 psi i).
    { assert (Lin : linear_opts o nit \/ fct o = false /\ pfc o = true /\ iga o = false).
      { destruct S as [S|[F [[A B]|(A & B & C)]]]; [left; left; auto|right; auto|left; right; auto]. }
      destruct Lin as [L|(A & B & C)].
      - rewrite (lin_step eps tiny o sp tp X rs rv (sc ex) 0 nit k 0 psi psi (fun x => sc ex * psi x) L HK); [toR; ring|].
        intros x. ring.
      - apply (mul_step eps tiny o sp tp X rs rv (sc ex) (sc ex)); auto using sc_pos.
        + intros x. unfold paR. destruct (oabs o); auto. rewrite Rabs_mult, Rabs_right; auto. left. apply sc_pos.
        + intros x. reflexivity. }
    rewrite E, <- Rmult_assoc, sc_inv. toR; ring.
  Qed.
  Lemma steps_hint nit freq ex1 ex2 nt : scale_free nit -> forall ts psi,
    stepsF AR o sp tp rs rv X nit freq ex1 nt ts psi == stepsF AR o sp tp rs rv X nit freq ex2 nt ts psi.
  Proof.
    intros S. induction nt as [|n IH]; intros ts psi i; cbn [stepsF]; [reflexivity|].
    rewrite IH. apply stepsF_X; try (intros ?; reflexivity); auto; try (intros _ ?; reflexivity).
    intros x. rewrite (step_hint nit _ ex1), (step_hint nit _ ex2); auto using passes_cases.
  Qed.
End Hint.
Lemma hint_scale_agree r s eps tiny nt e n1 n2 m m1' m2' : run_ok r ->
  (e < n_eqns (r_cfg r))%nat -> no_stale (r_o r) (r_nit r) = true ->
  r_nit r = 1%nat \/ fct (r_o r) = false /\ (iga (r_o r) = false /\ pfc (r_o r) = true \/ iga (r_o r) = true /\ (r_nit r <= 2)%nat) ->
  (0 < n1)%nat -> (Z.of_nat n1 <= r_hi r - r_lo r + 1)%Z -> (0 < n2)%nat -> (Z.of_nat n2 <= r_hi r - r_lo r + 1)%Z ->
  can_end loc_eq_dec (arithR eps tiny) n1 (program1 r n1 nt) m m1' ->
  can_end loc_eq_dec (arithR eps tiny) n2 (program1 (with_scale r s) n2 nt) m m2' ->
  forall i, (r_lo r <= i <= r_hi r)%Z -> cell m2' e (newest r nt) i = cell m1' e (newest r nt) i.
Proof.
  intros RK He NS O P1 S1 P2 S2 E1 E2 i Hi. set (r' := with_scale r s) in *.
  assert (RK' : run_ok r') by (destruct RK; constructor; auto).
  refine (eq_trans (dom_run' r' RK' n2 P2 S2 eps tiny NS nt m m2' E2 e He i Hi) _).
  refine (eq_trans _ (eq_sym (dom_run' r RK n1 P1 S1 eps tiny NS nt m m1' E1 e He i Hi))).
  apply (steps_hint eps tiny (r_o r) (r_sp r) (r_tp r) (domX r (arithR eps tiny) m) (dom_rs r) (dom_rv r) (r_nit r) (r_freq r) (s e) (r_scale r e) nt).
  destruct O as [O|[A [[B C]|[B C]]]]; [left; auto|right..]; split; auto.
  right. repeat split; auto. pose proof (ok_fl r RK) as F. unfold fl_ok in F. rewrite B in F. destruct (oabs (r_o r)); auto; discriminate.
Qed.
