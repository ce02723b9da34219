(** Soundness of the validity analysis of Macro.v.

    One side is a program run on a grid; the other side ("reference") is
    anything that executes the same statements at least on the boxes where the
    program does.  Two references are used: the same program on other memory,
    and execution on the infinite lattice. *)
From Coq Require Import ZArith List Bool Lia ZifyBool.
From Verif Require Import ModelIndex Lang ProofsLang Stencil ProofsStencil FormCommon Macro ProofsMacro.
Import ListNotations.
Local Open Scope Z_scope.

Section Valid.
  Variable g : geom.
  Hypothesis OK : geom_ok g.
  Variable ar : arith.
  Variable e : nat.
  Variable ex : minstr -> list tinstr.
  Hypothesis ex_do : forall s, ex (MDo s) = [TDo s].
  Hypothesis ex_bar : ex MBar = [TBar].

  Definition in_box (E : ext3) (i : idx) : Prop :=
    forall d, lo_of g d - fst (e_d E d) <= comp d i <= hi_of g d + snd (e_d E d).

  Lemma in_box_leb A o B i : ext3_leb A o B = true -> in_box A i -> in_box B (iadd i o).
  Proof.
    unfold ext3_leb. rewrite forallb_forall. intros H HA d.
    specialize (H d). specialize (HA d). rewrite comp_iadd.
    assert (HIn : In d [DX; DY; DZ]) by (destruct d; cbn; auto). specialize (H HIn). lia.
  Qed.
  Lemma in_box_sub A B i : ext3_leb A izero B = true -> in_box A i -> in_box B i.
  Proof. intros H HA. rewrite <- (iadd_0_r i). eapply in_box_leb; eauto. Qed.

  Lemma s_ext_gbox s E i : s_ext s = Some E -> (in_gbox g (inst e s) i <-> in_box E i).
  Proof.
    unfold s_ext. destruct (gext (t_x s)) eqn:Ex; [|discriminate]. destruct (gext (t_y s)) eqn:Ey; [|discriminate].
    destruct (gext (t_z s)) eqn:Ez; [|discriminate]. intros H; inversion H; subst.
    unfold in_gbox, in_box.
    assert (K : forall d, grng (lo_of g d) (hi_of g d) (d_r (inst e s) d) =
                (lo_of g d - fst (e_d (p, p0, p1) d), hi_of g d + snd (e_d (p, p0, p1) d))).
    { intros [| |]; rewrite d_r_inst; cbn [t_r e_d fst snd].
      - destruct (t_x s); inversion Ex; reflexivity.
      - destruct (t_y s); inversion Ey; reflexivity.
      - destruct (t_z s); inversion Ez; reflexivity. }
    setoid_rewrite K. unfold in_rng; cbn. tauto.
  Qed.

  Definition mem := loc -> car ar.
  Notation runp p := (run_prog loc_eq_dec ar (g_n g) (prog_of g (expand ex e p))).

  (** agreement on the valid boxes *)
  Definition agree (V : vmap) (m m' : mem) : Prop :=
    forall a E i, V a = Some E -> in_box E i -> m (tag e a, i) = m' (tag e a, i).

  (** a reference execution of statement [s] *)
  Definition ref_do (s : tdesc) (m m' : mem) : Prop :=
    (forall E i, s_ext s = Some E -> in_box E i ->
       m' (tag e (t_arr s), i) = ev ar (fun ao => m (sh i ao)) (d_exp (inst e s))) /\
    (forall a i, a <> tag e (t_arr s) -> m' (a, i) = m (a, i)).

  Lemma run_ref s m : slab_okb true (t_r s (g_dd g)) = true ->
    ref_do s m (run_stmt loc_eq_dec ar (g_n g) (stmt_of g (inst e s)) m).
  Proof.
    intros Hs. assert (SK : slab_ok g (inst e s)) by (unfold slab_ok; rewrite d_r_inst; auto). split.
    - intros E i HE Hi. apply run_in; auto. apply (s_ext_gbox s E i HE). auto.
    - intros a i Ha. apply run_out; auto.
  Qed.

  Lemma vdo_agree s V V' m m' m1 m1' : vdo s V = Some V' -> agree V m m' ->
    ref_do s m m1 -> ref_do s m' m1' -> agree V' m1 m1'.
  Proof.
    unfold vdo. intros HV A [R1 R2] [R1' R2']. destruct (s_ext s) as [E|] eqn:HE; [|discriminate].
    destruct (forallb (vget V E) (leaves (t_exp s))) eqn:C; [|discriminate]. inversion HV; subst. clear HV.
    intros a B i Ha Hi. unfold vset in Ha. destruct (arr_eqb a (t_arr s)) eqn:Ea.
    - apply arr_eqb_eq in Ea. subst a. inversion Ha; subst. rewrite (R1 _ _ eq_refl Hi), (R1' _ _ eq_refl Hi).
      apply ev_ext. intros ao Hao. rewrite leaves_inst in Hao. apply in_map_iff in Hao.
      destruct Hao as (bo & <- & Hbo). rewrite forallb_forall in C. specialize (C _ Hbo).
      unfold vget in C. destruct (V (fst bo)) as [B'|] eqn:EB; [|discriminate].
      unfold sh. cbn [fst snd]. eapply A; eauto. eapply in_box_leb; eauto.
    - assert (NE : tag e a <> tag e (t_arr s)).
      { intros H. apply tag_inj in H. apply arr_eqb_eq in H. congruence. }
      rewrite R2, R2' by auto. eapply A; eauto.
  Qed.

  (** *** Whole programs *)
  Variable vx : minstr -> vmap -> option vmap.
  Variable refx : minstr -> mem -> mem.      (* reference execution of an exchange *)
  Variable refd : tdesc -> mem -> mem.
  Hypothesis refd_ok : forall s m, slab_okb true (t_r s (g_dd g)) = true -> ref_do s m (refd s m).
  Variable good : mem -> Prop.               (* invariant of the reference *)
  Hypothesis good_do : forall s m, good m -> good (refd s m).
  Hypothesis good_x : forall x m, is_exch x = true -> good m -> good (refx x m).
  Hypothesis vx_ok : forall x V V' m m', is_exch x = true -> vx x V = Some V' -> agree V m m' -> good m' ->
    agree V' (runp [x] m) (refx x m').

  Definition ref_instr (i : minstr) (m : mem) : mem :=
    match i with MDo s => refd s m | MBar => m | x => refx x m end.
  Definition ref_run (p : list minstr) (m : mem) : mem := fold_left (fun m i => ref_instr i m) p m.

  Lemma runp_cons i p m : runp (i :: p) m = runp p (runp [i] m).
  Proof.
    change (i :: p) with ([i] ++ p). rewrite (expand_app ex e). unfold prog_of. rewrite map_app.
    apply run_prog_app.
  Qed.

  Lemma vrun_agree p : forall V V' m m', mslab_check (g_dd g) p = true ->
    vrun vx p V = Some V' -> agree V m m' -> good m' ->
    agree V' (runp p m) (ref_run p m') /\ good (ref_run p m').
  Proof.
    induction p as [|i p IH]; intros V V' m m' Hs HV A G.
    - cbn in HV. inversion HV; subst. cbn. auto.
    - cbn [mslab_check forallb] in Hs. unfold mslab_check in Hs. cbn [forallb] in Hs.
      apply andb_true_iff in Hs. destruct Hs as [Hi Hs].
      rewrite runp_cons. cbn [ref_run fold_left]. fold (ref_run p (ref_instr i m')).
      assert (X : forall V1, agree V1 (runp [i] m) (ref_instr i m') -> good (ref_instr i m') ->
                 vrun vx p V1 = Some V' -> agree V' (runp p (runp [i] m)) (ref_run p (ref_instr i m')) /\
                 good (ref_run p (ref_instr i m'))).
      { intros V1 A1 G1 H1. eapply IH; eauto. }
      destruct i as [s| |a ext|v ad|v ext|v]; cbn [vrun] in HV.
      + destruct (vdo s V) as [V1|] eqn:E1; [|discriminate]. apply (X V1); auto.
        * cbn [ref_instr]. eapply vdo_agree; eauto.
          unfold expand. cbn [flat_map]. rewrite ex_do. cbn [app map inst_i prog_of instr_of run_prog fold_left run_instr].
          apply run_ref; auto.
        * cbn. auto.
      + apply (X V); auto. unfold expand. cbn [flat_map]. rewrite ex_bar. exact A.
      + destruct (vx (MXS a ext) V) as [V1|] eqn:E1; [|discriminate]. apply (X V1); auto.
        * apply (vx_ok (MXS a ext) V V1 m m'); auto.
        * cbn; apply good_x; auto.
      + destruct (vx (MXVA v ad) V) as [V1|] eqn:E1; [|discriminate]. apply (X V1); auto.
        * apply (vx_ok (MXVA v ad) V V1 m m'); auto.
        * cbn; apply good_x; auto.
      + destruct (vx (MXVN v ext) V) as [V1|] eqn:E1; [|discriminate]. apply (X V1); auto.
        * apply (vx_ok (MXVN v ext) V V1 m m'); auto.
        * cbn; apply good_x; auto.
      + destruct (vx (MXF v) V) as [V1|] eqn:E1; [|discriminate]. apply (X V1); auto.
        * apply (vx_ok (MXF v) V V1 m m'); auto.
        * cbn; apply good_x; auto.
  Qed.

  Lemma agree_covers l V W m m' : (forall a, W a <> None -> In a l) ->
    vcovers V W l = true -> agree V m m' -> agree W m m'.
  Proof.
    intros Hl C A a E i Ha Hi. unfold vcovers in C. rewrite forallb_forall in C.
    specialize (C a (Hl a ltac:(congruence))). rewrite Ha in C. destruct (V a) as [B|] eqn:EB; [|discriminate].
    eapply A; eauto. eapply in_box_sub; eauto.
  Qed.
End Valid.
