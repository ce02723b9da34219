(** Proofs on surface drag: mirror images and interchanged axes. *)
From Coq Require Import ZArith Reals Lra Lia Bool.
From Verif Require Import Stencil SpecReal SpecStress ModelStress ModelHeat SpecHeat ModelGround SpecGround ProofsGround6.
Local Open Scope R_scope.

Section Num.
  Variable x : Z.
  Lemma n1 : (- (x + 1) = -1 - x)%Z. Proof. lia. Qed.
  Lemma n2 : (- (x - 1) = 1 - x)%Z. Proof. lia. Qed.
  Lemma n3 : (-1 - (x + 1) = -2 - x)%Z. Proof. lia. Qed.
  Lemma n4 : (-1 - (x - 1) = - x)%Z. Proof. lia. Qed.
  Lemma n5 : (-1 - x + 1 = - x)%Z. Proof. lia. Qed.
  Lemma n6 : (- x + 1 = 1 - x)%Z. Proof. lia. Qed.
  Lemma n7 : (- x - 1 = -1 - x)%Z. Proof. lia. Qed.
  Lemma n8 : (-1 - x - 1 = -2 - x)%Z. Proof. lia. Qed.
End Num.
Ltac nz := rewrite ?n1, ?n2, ?n3, ?n4, ?n5, ?n6, ?n7, ?n8.
Lemma pow2_opp a : pow2 (- a) = pow2 a. Proof. unfold pow2. ring. Qed.
Lemma max4_h a b c d : max4 b a d c = max4 a b c d.
Proof. unfold max4. rewrite (Rmax_comm b a), (Rmax_comm d c). reflexivity. Qed.
Lemma max4_t a b c d : max4 a c b d = max4 a b c d.
Proof. unfold max4. rewrite <- !Rmax_assoc. f_equal. rewrite !Rmax_assoc, (Rmax_comm c b). reflexivity. Qed.

(** images of tensors: [even] cells along x, [face] faces along x, [odd] the same with the sign changed *)
Definition even (f f' : field) := forall x y z, f' (x, y, z) = f ((- x)%Z, y, z).
Definition facee (f f' : field) := forall x y z, f' (x, y, z) = f ((-1 - x)%Z, y, z).
Definition odd (f f' : field) := forall x y z, f' (x, y, z) = - f ((-1 - x)%Z, y, z).

Section Mirror.
  Variables (dx : nat -> R) (nug : bool) (G : idx -> R) (nz : Z) (cd : R) (v rhs : fields).
  Notation G' := (fun i => G (mirror_idx i)).
  Notation v' := (mirror_vel v).
  Lemma gop_m : even (Gop nug G) (Gop nug G'). Proof. intros x y z. unfold Gop. destruct nug; reflexivity. Qed.
  Lemma div_m nd : even (calc_vip_div_cmpct dx nug G nd v) (calc_vip_div_cmpct dx nug G' nd v').
  Proof. intros x y z. unfold calc_vip_div_cmpct, mirror_vel, mirror_idx. destruct nug, nd; reflexivity. Qed.
  Lemma fdiv_m nd : even (fill_div nd nz (calc_vip_div_cmpct dx nug G nd v)) (fill_div nd nz (calc_vip_div_cmpct dx nug G' nd v')).
  Proof. intros x y z. unfold fill_div. destruct nd; cbn [lev vax ax]; rewrite !div_m; reflexivity. Qed.
  Lemma drag_m0 nd : odd (calc_drag_cmpct nd nug G cd v 0) (calc_drag_cmpct nd nug G' cd v' 0).
  Proof.
    intros x y z. destruct nd; unfold calc_drag_cmpct, Gv; cbn [ax]; unfold mirror_vel, mirror_idx; nz.
    - replace (- v 0%nat ((-1 - x)%Z, y, z) + - v 0%nat ((- x)%Z, y, z)) with (- (v 0%nat ((- x)%Z, y, z) + v 0%nat ((-1 - x)%Z, y, z))) by ring.
      rewrite Rabs_Ropp. destruct nug; ring.
    - match goal with |- _ / 8 * sqrt ?a * _ * _ = - (_ / 8 * sqrt ?b * _ * _) => replace a with b by (unfold pow2; ring) end. destruct nug; ring.
  Qed.
  Lemma drag_m1 : even (calc_drag_cmpct three nug G cd v 1) (calc_drag_cmpct three nug G' cd v' 1).
  Proof.
    intros x y z. unfold calc_drag_cmpct, Gv; cbn [ax]; unfold mirror_vel, mirror_idx.
    match goal with |- _ / 8 * sqrt ?a * _ * _ = (_ / 8 * sqrt ?b * _ * _) => replace a with b by (unfold pow2; ring) end. reflexivity.
  Qed.
  Definition img nd (t t' : fields) : Prop :=
    match nd with
    | two => facee (t 0%nat) (t' 0%nat) /\ even (t 1%nat) (t' 1%nat) /\ odd (t 2%nat) (t' 2%nat)
    | three => facee (t 0%nat) (t' 0%nat) /\ even (t 1%nat) (t' 1%nat) /\ even (t 2%nat) (t' 2%nat) /\
               odd (t 3%nat) (t' 3%nat) /\ odd (t 4%nat) (t' 4%nat) /\ even (t 5%nat) (t' 5%nat)
    end.
  Lemma fill_m nd t t' dv dv' : even dv dv' -> img nd t t' ->
    img nd (fill_tnsr nd dx nz (v (vax nd)) dv (calc_drag_cmpct nd nug G cd v) t) (fill_tnsr nd dx nz (v' (vax nd)) dv' (calc_drag_cmpct nd nug G' cd v') t').
  Proof.
    intros Ed. assert (W : even (v (vax nd)) (v' (vax nd))) by (intros x y z; destruct nd; reflexivity).
    destruct nd; cbn [img].
    - intros (A & B & C). repeat split; intros x y z; unfold fill_tnsr; cbn [offdiag vax lev ax Nat.eqb] in *; rewrite ?A, ?B, ?C, ?W, ?Ed, ?drag_m0; try reflexivity.
      lvl; [ring|]. lvl; ring.
    - intros (A & B & C & D & E & F). repeat split; intros x y z; unfold fill_tnsr; cbn [offdiag vax lev ax Nat.eqb] in *;
        rewrite ?A, ?B, ?C, ?D, ?E, ?F, ?W, ?Ed, ?drag_m0, ?drag_m1; try reflexivity.
      lvl; [ring|]. lvl; ring.
  Qed.
  Lemma deform_m nd dv dv' : even dv dv' -> img nd (calc_deform_cmpct dx nd v dv) (calc_deform_cmpct dx nd v' dv').
  Proof.
    intros Ed. destruct nd; repeat split; intros x y z; cbn [calc_deform_cmpct calc_deform_cmpct2 calc_deform_cmpct3];
      rewrite ?Ed; unfold mirror_vel, mirror_idx; nz; unfold Rdiv; ring.
  Qed.
  Lemma tdef_m nd t t' : img nd t t' -> even (tdef_sq_cmpct nd t) (tdef_sq_cmpct nd t').
  Proof.
    destruct nd; cbn [img].
    - intros (A & B & C) x y z. cbn [tdef_sq_cmpct calc_tdef_sq_cmpct2]. rewrite !A, !B, !C, !pow2_opp. nz.
      rewrite max4_h, Rmax_comm. unfold Rdiv. ring.
    - intros (A & B & C & D & E & F) x y z. cbn [tdef_sq_cmpct calc_tdef_sq_cmpct3]. rewrite !A, !B, !C, !D, !E, !F, !pow2_opp. nz.
      rewrite (Rmax_comm (pow2 (t 0%nat ((-1 - x)%Z, y, z)))).
      rewrite (max4_h (pow2 (t 3%nat ((- x)%Z, y, z)))), (max4_h (pow2 (t 4%nat ((- x)%Z, y, z)))). unfold Rdiv. ring.
  Qed.
  Lemma visc_m nd cl t t' : img nd t t' -> img nd (multiply_sgs_visc dx nug G nd compact cl t) (multiply_sgs_visc dx nug G' nd compact cl t').
  Proof.
    intros I. pose proof (tdef_m nd t t' I) as T.
    assert (K : even (fst (ModelStress.k_m dx nd cl (tdef_sq_cmpct nd t))) (fst (ModelStress.k_m dx nd cl (tdef_sq_cmpct nd t'))) /\
      even (snd (ModelStress.k_m dx nd cl (tdef_sq_cmpct nd t))) (snd (ModelStress.k_m dx nd cl (tdef_sq_cmpct nd t')))).
    { split; intros x y z; destruct cl; cbn [ModelStress.k_m fst snd]; rewrite ?T; reflexivity. }
    assert (M : img nd (multiply_tnsr_cmpct nug G nd t (ModelStress.k_m dx nd cl (tdef_sq_cmpct nd t)))
                     (multiply_tnsr_cmpct nug G' nd t' (ModelStress.k_m dx nd cl (tdef_sq_cmpct nd t')))).
    { revert K. generalize (ModelStress.k_m dx nd cl (tdef_sq_cmpct nd t)) (ModelStress.k_m dx nd cl (tdef_sq_cmpct nd t')).
      intros [kh kv] [kh' kv'] [K1 K2]. cbn [fst snd] in K1, K2. pose proof gop_m as GM.
      destruct nd; cbn [img] in I; [destruct I as (A & B & C)|destruct I as (A & B & C & D & E & F)];
        repeat split; intros x y z; cbn [multiply_tnsr_cmpct multiply_tnsr_cmpct2 multiply_tnsr_cmpct3 fst snd];
        rewrite ?A, ?B, ?C, ?K1, ?K2, ?GM; try rewrite !D; try rewrite !E; try rewrite !F; nz; ring. }
    destruct cl; cbn [multiply_sgs_visc]; [|exact M|exact M]. unfold multiply_tnsr_const.
    destruct nd; cbn [img] in *; [destruct I as (A & B & C)|destruct I as (A & B & C & D & E & F)];
      repeat split; intros x y z; first [rewrite A|rewrite B|rewrite C|rewrite D|rewrite E|rewrite F]; ring.
  Qed.
  Lemma mirror_force nd cl c i : (c < ndn nd)%nat ->
    ground_rhs nd dx nug G' nz cd cl v' (mirror_vel rhs) c i = mirror_vel (ground_rhs nd dx nug G nz cd cl v rhs) c i.
  Proof.
    intros Hc. unfold ground_rhs. cbv zeta.
    match goal with |- calc_stress_rhs_cmpct _ _ _ _ _ ?a _ _ _ = mirror_vel (calc_stress_rhs_cmpct _ _ _ _ _ ?b _) _ _ => assert (I : img nd b a); [|generalize dependent a; generalize dependent b] end.
    { apply fill_m; [apply fdiv_m|]. apply visc_m. apply fill_m; [apply fdiv_m|]. apply deform_m, fdiv_m. }
    intros t t' I. destruct i as [[x y] z]. pose proof gop_m as GM.
    destruct nd; cbn [img] in I; [destruct I as (A & B & C); destruct c as [|[|c]]|destruct I as (A & B & C & D & E & F); destruct c as [|[|[|c]]]];
      cbn in Hc; try lia; cbn [calc_stress_rhs_cmpct]; unfold mirror_vel; cbn [mirror_idx calc_stress_rhs_cmpct2 calc_stress_rhs_cmpct3];
      rewrite ?A, ?B, ?C, GM; try rewrite !D; try rewrite !E; try rewrite !F; nz; unfold Rdiv; ring.
  Qed.
End Mirror.

Section Swap.
  Variables (dx : nat -> R) (nug : bool) (G : idx -> R) (nz : Z) (cd : R) (v rhs : fields).
  Notation dx' := (fun d => dx (swap_axis d)).
  Notation G' := (fun i => G (swap_idx i)).
  Notation v' := (swap_vel v).
  Definition sw (f f' : field) := forall x y z, f' (x, y, z) = f (y, x, z).
  Definition swt (t t' : fields) := sw (t 0%nat) (t' 1%nat) /\ sw (t 1%nat) (t' 0%nat) /\ sw (t 2%nat) (t' 2%nat) /\
    sw (t 3%nat) (t' 3%nat) /\ sw (t 4%nat) (t' 5%nat) /\ sw (t 5%nat) (t' 4%nat).
  Lemma gop_s : sw (Gop nug G) (Gop nug G'). Proof. intros x y z. unfold Gop. destruct nug; reflexivity. Qed.
  Lemma div_s : sw (calc_vip_div_cmpct dx nug G three v) (calc_vip_div_cmpct dx' nug G' three v').
  Proof. intros x y z. unfold calc_vip_div_cmpct, swap_vel, swap_idx, swap_axis. destruct nug; reflexivity. Qed.
  Lemma fdiv_s : sw (fill_div three nz (calc_vip_div_cmpct dx nug G three v)) (fill_div three nz (calc_vip_div_cmpct dx' nug G' three v')).
  Proof. intros x y z. unfold fill_div. cbn [lev vax ax]; rewrite !div_s; reflexivity. Qed.
  Lemma drag_s c : (c < 2)%nat -> sw (calc_drag_cmpct three nug G cd v c) (calc_drag_cmpct three nug G' cd v' (swap_axis c)).
  Proof.
    intros Hc x y z. destruct c as [|[|c]]; [| |lia]; unfold calc_drag_cmpct, Gv, swap_vel; cbn [swap_axis swap_idx ax];
      match goal with |- _ / 8 * sqrt ?a * _ * _ = (_ / 8 * sqrt ?b * _ * _) => replace a with b by (unfold pow2; ring) end; reflexivity.
  Qed.
  Lemma fill_s t t' dv dv' : sw dv dv' -> swt t t' ->
    swt (fill_tnsr three dx nz (v 2%nat) dv (calc_drag_cmpct three nug G cd v) t) (fill_tnsr three dx' nz (v' 2%nat) dv' (calc_drag_cmpct three nug G' cd v') t').
  Proof.
    intros Ed (A & B & C & D & E & F). assert (W : sw (v 2%nat) (v' 2%nat)) by (intros x y z; reflexivity).
    pose proof (drag_s 0 ltac:(lia)) as D0. pose proof (drag_s 1 ltac:(lia)) as D1. cbn [swap_axis] in D0, D1.
    repeat split; intros x y z; unfold fill_tnsr; cbn [offdiag vax lev ax Nat.eqb swap_axis]; rewrite ?A, ?B, ?C, ?D, ?E, ?F, ?W, ?Ed, ?D0, ?D1; reflexivity.
  Qed.
  Lemma deform_s dv dv' : sw dv dv' -> swt (calc_deform_cmpct dx three v dv) (calc_deform_cmpct dx' three v' dv').
  Proof.
    intros Ed. repeat split; intros x y z; cbn [calc_deform_cmpct calc_deform_cmpct3 swap_axis];
      rewrite ?Ed; unfold swap_vel; cbn [swap_axis swap_idx]; unfold Rdiv; ring.
  Qed.
  Lemma tdef_s t t' : swt t t' -> sw (tdef_sq_cmpct three t) (tdef_sq_cmpct three t').
  Proof.
    intros (A & B & C & D & E & F) x y z. cbn [tdef_sq_cmpct calc_tdef_sq_cmpct3]. rewrite !A, !B, !C, !D, !E, !F.
    rewrite (max4_t (pow2 (t 3%nat (y, x, z)))). unfold Rdiv. ring.
  Qed.
  Lemma visc_s cl t t' : swt t t' -> swt (multiply_sgs_visc dx nug G three compact cl t) (multiply_sgs_visc dx' nug G' three compact cl t').
  Proof.
    intros I. pose proof (tdef_s t t' I) as T.
    assert (K : sw (fst (ModelStress.k_m dx three cl (tdef_sq_cmpct three t))) (fst (ModelStress.k_m dx' three cl (tdef_sq_cmpct three t'))) /\
      sw (snd (ModelStress.k_m dx three cl (tdef_sq_cmpct three t))) (snd (ModelStress.k_m dx' three cl (tdef_sq_cmpct three t')))).
    { assert (L : dlta dx' three = dlta dx three) by (unfold dlta; cbn [swap_axis]; unfold Rdiv; ring).
      assert (L' : dlta_h dx' three = dlta_h dx three) by (unfold dlta_h; cbn [swap_axis]; unfold Rdiv; ring).
      split; intros x y z; destruct cl; cbn [ModelStress.k_m fst snd]; rewrite ?T, ?L, ?L'; reflexivity. }
    destruct I as (A & B & C & D & E & F).
    assert (M : swt (multiply_tnsr_cmpct nug G three t (ModelStress.k_m dx three cl (tdef_sq_cmpct three t)))
                     (multiply_tnsr_cmpct nug G' three t' (ModelStress.k_m dx' three cl (tdef_sq_cmpct three t')))).
    { revert K. generalize (ModelStress.k_m dx three cl (tdef_sq_cmpct three t)) (ModelStress.k_m dx' three cl (tdef_sq_cmpct three t')).
      intros [kh kv] [kh' kv'] [K1 K2]. cbn [fst snd] in K1, K2. pose proof gop_s as GM.
      repeat split; intros x y z; cbn [multiply_tnsr_cmpct multiply_tnsr_cmpct3 fst snd];
        rewrite ?A, ?B, ?C, ?D, ?E, ?F, ?K1, ?K2, ?GM; ring. }
    destruct cl; cbn [multiply_sgs_visc]; [|exact M|exact M]. unfold multiply_tnsr_const.
    repeat split; intros x y z; first [rewrite A|rewrite B|rewrite C|rewrite D|rewrite E|rewrite F]; ring.
  Qed.
  Lemma swap_force cl c i : (c < 3)%nat ->
    ground_rhs three dx' nug G' nz cd cl v' (swap_vel rhs) c i = swap_vel (ground_rhs three dx nug G nz cd cl v rhs) c i.
  Proof.
    intros Hc. unfold ground_rhs. cbv zeta. cbn [vax].
    match goal with |- calc_stress_rhs_cmpct _ _ _ _ _ ?a _ _ _ = swap_vel (calc_stress_rhs_cmpct _ _ _ _ _ ?b _) _ _ => assert (I : swt b a); [|generalize dependent a; generalize dependent b] end.
    { apply fill_s; [apply fdiv_s|]. apply visc_s. apply fill_s; [apply fdiv_s|]. apply deform_s, fdiv_s. }
    intros t t' (A & B & C & D & E & F). destruct i as [[x y] z]. pose proof gop_s as GM.
    destruct c as [|[|[|c]]]; try lia; cbn [calc_stress_rhs_cmpct]; unfold swap_vel; cbn [swap_axis swap_idx calc_stress_rhs_cmpct3];
      rewrite ?A, ?B, ?C, ?D, ?E, ?F, GM; unfold Rdiv; ring.
  Qed.
End Swap.
