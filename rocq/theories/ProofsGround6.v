(** Proofs on surface drag: values outside of the domain, mean winds, reversed winds. *)
From Coq Require Import ZArith Reals Lra Lia Bool FunctionalExtensionality.
From Verif Require Import Stencil SpecReal SpecStress ModelStress ModelHeat SpecHeat ModelGround SpecGround ProofsGround ProofsGround2 ProofsGround3.
Local Open Scope R_scope.

Ltac lvl := match goal with |- context [(?a =? ?b)%Z] => destruct (Z.eqb_spec a b) end.

Section Inside2.
  Variables (dx : nat -> R) (nug : bool) (G G' : idx -> R) (nz : Z) (cd : R) (v v' : fields).
  Hypothesis Hz : (3 <= nz)%Z.
  Hypothesis HG : forall x y z, (0 <= y < nz)%Z -> G (x, y, z) = G' (x, y, z).
  Hypothesis Hv : forall c x y z, (0 <= y < nz)%Z -> v c (x, y, z) = v' c (x, y, z).
  Definition raw2 (t t' : fields) := forall x y z,
    ((0 <= y < nz)%Z -> t 0%nat (x, y, z) = t' 0%nat (x, y, z)) /\
    ((0 <= y < nz - 1)%Z -> t 1%nat (x, y, z) = t' 1%nat (x, y, z) /\ t 2%nat (x, y, z) = t' 2%nat (x, y, z)).
  Definition full2 (t t' : fields) := forall x y z,
    ((0 <= y < nz)%Z -> t 0%nat (x, y, z) = t' 0%nat (x, y, z)) /\
    ((-1 <= y < nz)%Z -> t 1%nat (x, y, z) = t' 1%nat (x, y, z) /\ t 2%nat (x, y, z) = t' 2%nat (x, y, z)).
  Lemma gop2 x y z : (0 <= y < nz)%Z -> Gop nug G (x, y, z) = Gop nug G' (x, y, z).
  Proof. intros. unfold Gop. destruct nug; auto. Qed.
  Lemma div2 x y z : (0 <= y < nz - 1)%Z -> calc_vip_div_cmpct dx nug G two v (x, y, z) = calc_vip_div_cmpct dx nug G' two v' (x, y, z).
  Proof. intros. unfold calc_vip_div_cmpct. destruct nug; [|reflexivity]. rewrite !Hv, !HG by lia. reflexivity. Qed.
  Lemma fdiv2 x y z : (-1 <= y < nz)%Z ->
    fill_div two nz (calc_vip_div_cmpct dx nug G two v) (x, y, z) = fill_div two nz (calc_vip_div_cmpct dx nug G' two v') (x, y, z).
  Proof. intros. unfold fill_div. cbn [lev vax ax]. lvl; [|lvl]; rewrite !div2 by lia; reflexivity. Qed.
  Lemma drag2 c x z : calc_drag_cmpct two nug G cd v c (x, 0%Z, z) = calc_drag_cmpct two nug G' cd v' c (x, 0%Z, z).
  Proof. unfold calc_drag_cmpct, Gv. cbn [ax]. rewrite !Hv by lia. destruct nug; rewrite ?HG by lia; reflexivity. Qed.
  Lemma fill2 w w' dv dv' b b' t t' : (forall x y z, (0 <= y < nz)%Z -> w (x, y, z) = w' (x, y, z)) ->
    (forall x y z, (-1 <= y < nz)%Z -> dv (x, y, z) = dv' (x, y, z)) ->
    (forall x z, b 0%nat (x, 0%Z, z) = b' 0%nat (x, 0%Z, z)) -> raw2 t t' ->
    full2 (fill_tnsr two dx nz w dv b t) (fill_tnsr two dx nz w' dv' b' t').
  Proof.
    intros Ew Ed Eb R x y z. unfold fill_tnsr. cbn [offdiag vax lev ax Nat.eqb].
    split; [intros; apply R; lia|]. intros Hy. split; lvl; try subst y; try lvl.
    - rewrite !Ew, Ed by lia. reflexivity.
    - rewrite !(fun x y z H => proj1 (proj2 (R x y z) H)) by lia. reflexivity.
    - apply R; lia.
    - rewrite !(fun x y z H => proj2 (proj2 (R x y z) H)) by lia. change (-1 + 1)%Z with 0%Z. rewrite Eb. reflexivity.
    - rewrite !(fun x y z H => proj2 (proj2 (R x y z) H)) by lia. reflexivity.
    - apply R; lia.
  Qed.
  Lemma deform2 dv dv' : (forall x y z, (-1 <= y < nz)%Z -> dv (x, y, z) = dv' (x, y, z)) ->
    raw2 (calc_deform_cmpct dx two v dv) (calc_deform_cmpct dx two v' dv').
  Proof.
    intros Ed x y z. cbn [calc_deform_cmpct calc_deform_cmpct2].
    split; [intros; rewrite !Hv, !Ed by lia; reflexivity|]. intros. split; rewrite !Hv, ?Ed by lia; reflexivity.
  Qed.
  Lemma visc2 cl t t' : full2 t t' -> raw2 (multiply_sgs_visc dx nug G two compact cl t) (multiply_sgs_visc dx nug G' two compact cl t').
  Proof.
    intros F.
    assert (F0 : forall x y z, (0 <= y < nz)%Z -> t 0%nat (x, y, z) = t' 0%nat (x, y, z)) by (intros; apply F; lia).
    assert (F1 : forall x y z, (-1 <= y < nz)%Z -> t 1%nat (x, y, z) = t' 1%nat (x, y, z)) by (intros; apply F; lia).
    assert (F2 : forall x y z, (-1 <= y < nz)%Z -> t 2%nat (x, y, z) = t' 2%nat (x, y, z)) by (intros; apply F; lia).
    assert (T : forall x y z, (0 <= y < nz)%Z -> tdef_sq_cmpct two t (x, y, z) = tdef_sq_cmpct two t' (x, y, z)).
    { intros. cbn [tdef_sq_cmpct calc_tdef_sq_cmpct2]. rewrite !F0, !F1, !F2 by lia. reflexivity. }
    assert (K : forall x y z, (0 <= y < nz)%Z ->
      fst (ModelStress.k_m dx two cl (tdef_sq_cmpct two t)) (x, y, z) = fst (ModelStress.k_m dx two cl (tdef_sq_cmpct two t')) (x, y, z) /\
      snd (ModelStress.k_m dx two cl (tdef_sq_cmpct two t)) (x, y, z) = snd (ModelStress.k_m dx two cl (tdef_sq_cmpct two t')) (x, y, z)).
    { intros. destruct cl; cbn [ModelStress.k_m fst snd]; rewrite ?T by lia; split; reflexivity. }
    assert (M : raw2 (multiply_tnsr_cmpct nug G two t (ModelStress.k_m dx two cl (tdef_sq_cmpct two t)))
                     (multiply_tnsr_cmpct nug G' two t' (ModelStress.k_m dx two cl (tdef_sq_cmpct two t')))).
    { revert K. generalize (ModelStress.k_m dx two cl (tdef_sq_cmpct two t)) (ModelStress.k_m dx two cl (tdef_sq_cmpct two t')).
      intros [kh kv] [kh' kv'] K. cbn [fst snd] in K.
      assert (K1 : forall x y z, (0 <= y < nz)%Z -> kh (x, y, z) = kh' (x, y, z)) by (intros; apply K; lia).
      assert (K2 : forall x y z, (0 <= y < nz)%Z -> kv (x, y, z) = kv' (x, y, z)) by (intros; apply K; lia).
      intros x y z. cbn [multiply_tnsr_cmpct multiply_tnsr_cmpct2 fst snd].
      split; [intros; rewrite !F0, !K1, !gop2 by lia; reflexivity|].
      intros; split; [rewrite !F1, !K1, !gop2 by lia|rewrite !F2, !K2, !gop2 by lia]; reflexivity. }
    destruct cl; cbn [multiply_sgs_visc]; [|exact M|exact M].
    intros x y z. unfold multiply_tnsr_const. split; [intros; rewrite F0 by lia; reflexivity|]. intros; split; rewrite ?F1, ?F2 by lia; reflexivity.
  Qed.
  Lemma inside2 cl rhs c x y z : (0 <= y < nz)%Z ->
    ground_rhs two dx nug G nz cd cl v rhs c (x, y, z) = ground_rhs two dx nug G' nz cd cl v' rhs c (x, y, z).
  Proof.
    intros Hy. unfold ground_rhs. cbv zeta.
    match goal with |- calc_stress_rhs_cmpct _ _ _ _ _ ?a _ _ _ = calc_stress_rhs_cmpct _ _ _ _ _ ?b _ _ _ => assert (F : full2 a b); [|generalize dependent a; generalize dependent b] end.
    { apply fill2; auto using fdiv2, drag2. apply visc2. apply fill2; auto using fdiv2, drag2. apply deform2, fdiv2. }
    intros t' t F.
    assert (F0 : forall x y z, (0 <= y < nz)%Z -> t 0%nat (x, y, z) = t' 0%nat (x, y, z)) by (intros; apply F; lia).
    assert (F1 : forall x y z, (-1 <= y < nz)%Z -> t 1%nat (x, y, z) = t' 1%nat (x, y, z)) by (intros; apply F; lia).
    assert (F2 : forall x y z, (-1 <= y < nz)%Z -> t 2%nat (x, y, z) = t' 2%nat (x, y, z)) by (intros; apply F; lia).
    destruct c as [|[|c]]; cbn [calc_stress_rhs_cmpct calc_stress_rhs_cmpct2]; rewrite ?F0, ?F1, ?F2, ?gop2 by lia; reflexivity.
  Qed.
End Inside2.

Section Inside3.
  Variables (dx : nat -> R) (nug : bool) (G G' : idx -> R) (nz : Z) (cd : R) (v v' : fields).
  Hypothesis Hz : (3 <= nz)%Z.
  Hypothesis HG : forall x y z, (0 <= z < nz)%Z -> G (x, y, z) = G' (x, y, z).
  Hypothesis Hv : forall c x y z, (0 <= z < nz)%Z -> v c (x, y, z) = v' c (x, y, z).
  Definition ags (lo hi : Z) (f f' : field) := forall x y z, (lo <= z < hi)%Z -> f (x, y, z) = f' (x, y, z).
  Definition raw3 (t t' : fields) :=
    (ags 0 nz (t 0%nat) (t' 0%nat) /\ ags 0 nz (t 1%nat) (t' 1%nat) /\ ags 0 nz (t 3%nat) (t' 3%nat)) /\
    ags 0 (nz - 1) (t 2%nat) (t' 2%nat) /\ ags 0 (nz - 1) (t 4%nat) (t' 4%nat) /\ ags 0 (nz - 1) (t 5%nat) (t' 5%nat).
  Definition full3 (t t' : fields) :=
    (ags 0 nz (t 0%nat) (t' 0%nat) /\ ags 0 nz (t 1%nat) (t' 1%nat) /\ ags 0 nz (t 3%nat) (t' 3%nat)) /\
    ags (-1) nz (t 2%nat) (t' 2%nat) /\ ags (-1) nz (t 4%nat) (t' 4%nat) /\ ags (-1) nz (t 5%nat) (t' 5%nat).
  Lemma gop3 x y z : (0 <= z < nz)%Z -> Gop nug G (x, y, z) = Gop nug G' (x, y, z).
  Proof. intros. unfold Gop. destruct nug; auto. Qed.
  Lemma div3 x y z : (0 <= z < nz - 1)%Z -> calc_vip_div_cmpct dx nug G three v (x, y, z) = calc_vip_div_cmpct dx nug G' three v' (x, y, z).
  Proof. intros. unfold calc_vip_div_cmpct. destruct nug; [|reflexivity]. rewrite !Hv, !HG by lia. reflexivity. Qed.
  Lemma fdiv3 : ags (-1) nz (fill_div three nz (calc_vip_div_cmpct dx nug G three v)) (fill_div three nz (calc_vip_div_cmpct dx nug G' three v')).
  Proof. intros x y z H. unfold fill_div. cbn [lev vax ax]. lvl; [|lvl]; rewrite !div3 by lia; reflexivity. Qed.
  Lemma drag3 c x y : calc_drag_cmpct three nug G cd v c (x, y, 0%Z) = calc_drag_cmpct three nug G' cd v' c (x, y, 0%Z) \/ (2 <= c)%nat.
  Proof.
    destruct c as [|[|c]]; [left|left|right; lia]; unfold calc_drag_cmpct, Gv; cbn [ax]; rewrite !Hv by lia; destruct nug; rewrite ?HG by lia; reflexivity.
  Qed.
  Lemma fill3 w w' dv dv' b b' t t' : ags 0 nz w w' -> ags (-1) nz dv dv' ->
    (forall c x y, (c < 2)%nat -> b c (x, y, 0%Z) = b' c (x, y, 0%Z)) -> raw3 t t' ->
    full3 (fill_tnsr three dx nz w dv b t) (fill_tnsr three dx nz w' dv' b' t').
  Proof.
    intros Ew Ed Eb ((R0 & R1 & R3) & R2 & R4 & R5). split; [repeat split; assumption|].
    repeat split; intros x y z H; unfold fill_tnsr; cbn [offdiag vax lev ax Nat.eqb]; lvl; try subst z; try lvl.
    - rewrite !Ew, Ed by lia. reflexivity.
    - rewrite !R2 by lia. reflexivity.
    - apply R2; lia.
    - rewrite R4 by lia. change (-1 + 1)%Z with 0%Z. rewrite Eb by lia. reflexivity.
    - rewrite R4 by lia. reflexivity.
    - apply R4; lia.
    - rewrite R5 by lia. change (-1 + 1)%Z with 0%Z. rewrite Eb by lia. reflexivity.
    - rewrite R5 by lia. reflexivity.
    - apply R5; lia.
  Qed.
  Lemma deform3 dv dv' : ags (-1) nz dv dv' -> raw3 (calc_deform_cmpct dx three v dv) (calc_deform_cmpct dx three v' dv').
  Proof.
    intros Ed. repeat split; intros x y z H; cbn [calc_deform_cmpct calc_deform_cmpct3]; rewrite !Hv, ?Ed by lia; reflexivity.
  Qed.
  Lemma visc3 cl t t' : full3 t t' -> raw3 (multiply_sgs_visc dx nug G three compact cl t) (multiply_sgs_visc dx nug G' three compact cl t').
  Proof.
    intros ((F0 & F1 & F3) & F2 & F4 & F5).
    assert (T : ags 0 nz (tdef_sq_cmpct three t) (tdef_sq_cmpct three t')).
    { intros x y z H. cbn [tdef_sq_cmpct calc_tdef_sq_cmpct3]. rewrite !F0, !F1, !F2, !F3, !F4, !F5 by lia. reflexivity. }
    assert (K : ags 0 nz (fst (ModelStress.k_m dx three cl (tdef_sq_cmpct three t))) (fst (ModelStress.k_m dx three cl (tdef_sq_cmpct three t'))) /\
      ags 0 nz (snd (ModelStress.k_m dx three cl (tdef_sq_cmpct three t))) (snd (ModelStress.k_m dx three cl (tdef_sq_cmpct three t')))).
    { split; intros x y z H; destruct cl; cbn [ModelStress.k_m fst snd]; rewrite ?T by lia; reflexivity. }
    assert (M : raw3 (multiply_tnsr_cmpct nug G three t (ModelStress.k_m dx three cl (tdef_sq_cmpct three t)))
                     (multiply_tnsr_cmpct nug G' three t' (ModelStress.k_m dx three cl (tdef_sq_cmpct three t')))).
    { revert K. generalize (ModelStress.k_m dx three cl (tdef_sq_cmpct three t)) (ModelStress.k_m dx three cl (tdef_sq_cmpct three t')).
      intros [kh kv] [kh' kv'] [K1 K2]. cbn [fst snd] in K1, K2.
      repeat split; intros x y z H; cbn [multiply_tnsr_cmpct multiply_tnsr_cmpct3 fst snd];
        rewrite ?F0, ?F1, ?F2, ?F3, ?F4, ?F5, ?K1, ?K2, !gop3 by lia; reflexivity. }
    destruct cl; cbn [multiply_sgs_visc]; [|exact M|exact M].
    repeat split; intros x y z H; unfold multiply_tnsr_const; rewrite ?F0, ?F1, ?F2, ?F3, ?F4, ?F5 by lia; reflexivity.
  Qed.
  Lemma inside3 cl rhs c x y z : (0 <= z < nz)%Z ->
    ground_rhs three dx nug G nz cd cl v rhs c (x, y, z) = ground_rhs three dx nug G' nz cd cl v' rhs c (x, y, z).
  Proof.
    intros Hy. unfold ground_rhs. cbv zeta.
    assert (DR : forall c x y, (c < 2)%nat -> calc_drag_cmpct three nug G cd v c (x, y, 0%Z) = calc_drag_cmpct three nug G' cd v' c (x, y, 0%Z)).
    { intros e p q He. destruct (drag3 e p q); [assumption|lia]. }
    assert (W : ags 0 nz (v 2%nat) (v' 2%nat)) by (intros p q r Hr; apply Hv, Hr).
    match goal with |- calc_stress_rhs_cmpct _ _ _ _ _ ?a _ _ _ = calc_stress_rhs_cmpct _ _ _ _ _ ?b _ _ _ => assert (F : full3 a b); [|generalize dependent a; generalize dependent b] end.
    { apply fill3; auto using fdiv3. apply visc3. apply fill3; auto using fdiv3. apply deform3, fdiv3. }
    intros t' t ((F0 & F1 & F3) & F2 & F4 & F5).
    destruct c as [|[|[|c]]]; cbn [calc_stress_rhs_cmpct calc_stress_rhs_cmpct3]; rewrite ?F0, ?F1, ?F2, ?F3, ?F4, ?F5, ?gop3 by lia; reflexivity.
  Qed.
End Inside3.

Lemma inside nd dx nug G G' nz cd cl v v' rhs : (3 <= nz)%Z -> same_inside nd nz G G' -> (forall c, same_inside nd nz (v c) (v' c)) ->
  forall c, same_inside nd nz (ground_rhs nd dx nug G nz cd cl v rhs c) (ground_rhs nd dx nug G' nz cd cl v' rhs c).
Proof.
  intros Hz HG Hv c [[x y] z] Hi. destruct nd; cbn in Hi.
  - apply inside2; [exact Hz|intros p q r H; apply HG; exact H|intros e p q r H; apply Hv; exact H|exact Hi].
  - apply inside3; [exact Hz|intros p q r H; apply HG; exact H|intros e p q r H; apply Hv; exact H|exact Hi].
Qed.

(** mean winds *)
Lemma faster_same nd dx nug G nz cl v rhs a : (forall d, dx d <> 0) ->
  ground_rhs nd dx nug G nz 0 cl (faster nd a v) rhs = ground_rhs nd dx nug G nz 0 cl v rhs.
Proof.
  intros Hd. unfold ground_rhs. cbv zeta. rewrite !drag_none.
  assert (W : faster nd a v (vax nd) = v (vax nd)) by (destruct nd; reflexivity). rewrite W.
  assert (D : calc_vip_div_cmpct dx nug G nd (faster nd a v) = calc_vip_div_cmpct dx nug G nd v).
  { extensionality i. destruct i as [[x y] z], nd; reflexivity. }
  rewrite D.
  assert (E : forall dv, calc_deform_cmpct dx nd (faster nd a v) dv = calc_deform_cmpct dx nd v dv).
  { intros dv. extensionality c. extensionality i. destruct i as [[x y] z]. pose proof (Hd 0%nat). pose proof (Hd 1%nat). pose proof (Hd 2%nat).
    destruct nd; cbn [calc_deform_cmpct]; [destruct c as [|[|c]]|destruct c as [|[|[|[|[|c]]]]]];
      cbn [calc_deform_cmpct2 calc_deform_cmpct3]; unfold faster; cbn; field; auto. }
  rewrite E. reflexivity.
Qed.

(** reversed winds *)
Definition neg (v : fields) : fields := fun c i => - v c i.
Lemma neg_back nd dx nug G nz cd cl v rhs c i : (c < ndn nd)%nat ->
  ground_rhs nd dx nug G nz cd cl (fun c i => - v c i) rhs c i - rhs c i = - (ground_rhs nd dx nug G nz cd cl v rhs c i - rhs c i).
Proof.
  intros Hc. unfold ground_rhs. cbv zeta.
  assert (DR : calc_drag_cmpct nd nug G cd (neg v) = neg (calc_drag_cmpct nd nug G cd v)).
  { extensionality e. extensionality j. unfold neg, calc_drag_cmpct. destruct nd.
    - replace (- v 0%nat (ax 0 1 j) + - v 0%nat j) with (- (v 0%nat (ax 0 1 j) + v 0%nat j)) by ring. rewrite Rabs_Ropp. ring.
    - replace (pow2 (- v 0%nat (ax e 1 j) + - v 0%nat j) + pow2 (- v 1%nat (ax e 1 j) + - v 1%nat j))
        with (pow2 (v 0%nat (ax e 1 j) + v 0%nat j) + pow2 (v 1%nat (ax e 1 j) + v 1%nat j)) by (unfold pow2; ring). ring. }
  assert (DV : fill_div nd nz (calc_vip_div_cmpct dx nug G nd (neg v)) = fun j => - fill_div nd nz (calc_vip_div_cmpct dx nug G nd v) j).
  { assert (E : forall j, calc_vip_div_cmpct dx nug G nd (neg v) j = - calc_vip_div_cmpct dx nug G nd v j).
    { intros [[x y] z]. unfold calc_vip_div_cmpct, neg, Rdiv. destruct nug, nd; ring. }
    extensionality j. unfold fill_div. rewrite !E. lvl; [ring|]. lvl; ring. }
  assert (FL : forall dv t, fill_tnsr nd dx nz (neg v (vax nd)) (fun j => - dv j) (neg (calc_drag_cmpct nd nug G cd v)) (neg t) =
    neg (fill_tnsr nd dx nz (v (vax nd)) dv (calc_drag_cmpct nd nug G cd v) t)).
  { intros dv t. extensionality e. extensionality j. unfold fill_tnsr, neg, Rdiv.
    destruct (offdiag nd e); [lvl; [ring|]; lvl; ring|]. destruct (Nat.eqb e (vax nd)); [|ring]. lvl; [ring|]. lvl; ring. }
  assert (DF : forall dv, calc_deform_cmpct dx nd (neg v) (fun j => - dv j) = neg (calc_deform_cmpct dx nd v dv)).
  { intros dv. extensionality e. extensionality j. destruct j as [[x y] z].
    destruct nd; cbn [calc_deform_cmpct]; [destruct e as [|[|e]]|destruct e as [|[|[|[|[|e]]]]]];
      unfold neg; cbn [calc_deform_cmpct2 calc_deform_cmpct3]; unfold Rdiv; ring. }
  assert (VS : forall t, multiply_sgs_visc dx nug G nd compact cl (neg t) = neg (multiply_sgs_visc dx nug G nd compact cl t)).
  { intros t. assert (T : tdef_sq_cmpct nd (neg t) = tdef_sq_cmpct nd t).
    { assert (P : forall e j, pow2 (neg t e j) = pow2 (t e j)) by (intros; unfold neg, pow2; ring).
      extensionality j. destruct j as [[x y] z]. destruct nd; cbn [tdef_sq_cmpct calc_tdef_sq_cmpct2 calc_tdef_sq_cmpct3]; rewrite !P; reflexivity. }
    assert (M : forall k, multiply_tnsr_cmpct nug G nd (neg t) k = neg (multiply_tnsr_cmpct nug G nd t k)).
    { intros k. extensionality e. extensionality j. destruct j as [[x y] z].
      destruct nd; cbn [multiply_tnsr_cmpct]; [destruct e as [|[|e]]|destruct e as [|[|[|[|[|e]]]]]];
        unfold neg; cbn [multiply_tnsr_cmpct2 multiply_tnsr_cmpct3]; ring. }
    destruct cl; cbn [multiply_sgs_visc]; [extensionality e; extensionality j; unfold multiply_tnsr_const, neg; ring|rewrite T; apply M|rewrite T; apply M]. }
  change (fun c i => - v c i) with (neg v).
  rewrite DR, DV. rewrite DF, FL, VS, FL.
  match goal with |- context [neg ?a] => generalize a end. intros t.
  destruct i as [[x y] z]. destruct nd; cbn [calc_stress_rhs_cmpct]; [destruct c as [|[|c]]|destruct c as [|[|[|c]]]]; cbn in Hc; try lia;
    unfold neg; cbn [calc_stress_rhs_cmpct2 calc_stress_rhs_cmpct3]; unfold Rdiv; ring.
Qed.
