(** Soundness of the analysis of Boxes.v. *)
From Coq Require Import ZArith List Bool Lia ZifyBool.
From Verif Require Import ModelIndex Lang ProofsLang Stencil ProofsStencil FormCommon Macro ProofsMacro ProofsValid Boxes.
Import ListNotations.
Local Open Scope Z_scope.

Lemma some_inj {A} (x y : A) : Some x = Some y -> x = y.
Proof. congruence. Qed.

(** monotone in the coverage of leaves, up to a larger result *)
Definition bincl (V W : bmap) : Prop := forall a, incl (V a) (W a).
Lemma bget_incl V W E ao : bincl V W -> bget V E ao = true -> bget W E ao = true.
Proof.
  intros H. unfold bget. rewrite !existsb_exists. intros (B & HB & L). exists B. split; auto. apply H. exact HB.
Qed.
Lemma bdo2_cov s s' V W V' : tcov s s' -> bincl V W -> bdo2 s' V = Some V' ->
  exists W', bdo2 s W = Some W' /\ bincl V' W'.
Proof.
  intros C H. unfold bdo2. rewrite (s_ext_cov _ _ C). destruct (s_ext s') as [E|]; [|discriminate].
  intros K. apply some_inj in K. subst V'. eexists. split; [reflexivity|].
  destruct C as (EA & _ & _ & _ & IL). intros a B. unfold bset. rewrite EA.
  destruct (arr_eqb a (t_arr s')); [|apply H].
  intros K. apply filter_In in K. destruct K as [HB L]. apply filter_In. split; auto. rewrite forallb_forall in *. intros ao Hao.
  eapply bget_incl; eauto.
Qed.

Section Valid.
  Variable g : geom.
  Hypothesis OK : geom_ok g.
  Variable ar : arith.
  Variable e : nat.
  Variable ex : minstr -> list tinstr.
  Hypothesis ex_do : forall s, ex (MDo s) = [TDo s].
  Hypothesis ex_bar : ex MBar = [TBar].
  Notation mem := (loc -> car ar).
  Notation runp p := (run_prog loc_eq_dec ar (g_n g) (prog_of g (expand ex e p))).
  Notation in_box := (in_box g).

  Definition bagree (V : bmap) (m m' : mem) : Prop :=
    forall a E i, In E (V a) -> in_box E i -> m (tag e a, i) = m' (tag e a, i).
  Lemma bagree_incl V W m m' : bincl V W -> bagree W m m' -> bagree V m m'.
  Proof. intros H A a E i HE. apply A with (E := E). apply H. exact HE. Qed.

  Lemma in_cands E B i : In B (cands E) -> in_box B i -> in_box E i.
  Proof.
    unfold cands. cbn [In]. intros [<-|[<-|[<-|[]]]] H; auto; intros d; specialize (H d);
      destruct d; cbn [shrink e_d fst snd] in *; lia.
  Qed.

  Lemma bdo2_agree s V V' m m' m1 m1' : bdo2 s V = Some V' -> bagree V m m' ->
    ref_do g ar e s m m1 -> ref_do g ar e s m' m1' -> bagree V' m1 m1'.
  Proof.
    unfold bdo2. intros HV A [R1 R2] [R1' R2']. destruct (s_ext s) as [E|] eqn:HE; [|discriminate].
    apply some_inj in HV. subst V'. intros a B i Ha Hi. unfold bset in Ha. destruct (arr_eqb a (t_arr s)) eqn:Ea.
    - apply arr_eqb_eq in Ea. subst a. apply filter_In in Ha. destruct Ha as [HB C].
      pose proof (in_cands E B i HB Hi) as HEi. rewrite (R1 _ _ eq_refl HEi), (R1' _ _ eq_refl HEi).
      apply ev_ext. intros ao Hao. rewrite leaves_inst in Hao. apply in_map_iff in Hao.
      destruct Hao as (bo & <- & Hbo). rewrite forallb_forall in C. specialize (C _ Hbo).
      unfold bget in C. apply existsb_exists in C. destruct C as (B' & HB' & L).
      unfold sh. cbn [fst snd]. eapply A; eauto. eapply in_box_leb; eauto.
    - assert (NE : tag e a <> tag e (t_arr s)).
      { intros H. apply tag_inj in H. apply arr_eqb_eq in H. congruence. }
      rewrite R2, R2' by auto. eapply A; eauto.
  Qed.

  Variable vx : minstr -> bmap -> option bmap.
  Variable refx : minstr -> mem -> mem.
  Variable refd : tdesc -> mem -> mem.
  Hypothesis refd_ok : forall s m, slab_okb true (t_r s (g_dd g)) = true -> ref_do g ar e s m (refd s m).
  Variable good : mem -> Prop.
  Hypothesis good_do : forall s m, good m -> good (refd s m).
  Hypothesis good_x : forall x m, is_exch x = true -> good m -> good (refx x m).
  Hypothesis vx_ok : forall x V V' m m', is_exch x = true -> vx x V = Some V' -> bagree V m m' -> good m' ->
    bagree V' (runp [x] m) (refx x m').

  Notation ref_run := (ref_run ar refx refd).

  Lemma bxrun_agree p p' : Forall2 mcov p p' -> forall V V' m m', mslab_check (g_dd g) p = true ->
    bxrun vx p' V = Some V' -> bagree V m m' -> good m' ->
    bagree V' (runp p m) (ref_run p m') /\ good (ref_run p m').
  Proof.
    induction 1 as [|i i' p p' Hc F IH]; intros V V' m m' Hs HV A G.
    - cbn in HV. inversion HV; subst. cbn. auto.
    - unfold mslab_check in Hs. cbn [forallb] in Hs. apply andb_true_iff in Hs. destruct Hs as [Hi Hs].
      assert (RC : runp (i :: p) m = runp p (runp [i] m)).
      { change (i :: p) with ([i] ++ p). rewrite (expand_app ex e). unfold prog_of. rewrite map_app. apply run_prog_app. }
      rewrite RC. unfold ref_run. cbn [fold_left]. fold (ref_run p (ref_instr ar refx refd i m')).
      assert (X : forall V1, bagree V1 (runp [i] m) (ref_instr ar refx refd i m') -> good (ref_instr ar refx refd i m') ->
                 bxrun vx p' V1 = Some V' -> bagree V' (runp p (runp [i] m)) (ref_run p (ref_instr ar refx refd i m')) /\
                 good (ref_run p (ref_instr ar refx refd i m'))).
      { intros V1 A1 G1 H1. eapply IH; eauto. }
      assert (DO : forall s, i = MDo s -> slab_okb true (t_r s (g_dd g)) = true ->
                ref_do g ar e s m (runp [i] m)).
      { intros s -> S0. unfold expand. cbn [flat_map]. rewrite ex_do.
        cbn [app map inst_i prog_of instr_of run_prog fold_left run_instr]. apply run_ref; auto. }
      destruct Hc as [s s' Hc|i].
      + cbn [bxrun] in HV. destruct (bdo2 s' V) as [V1|] eqn:E1; [|discriminate].
        destruct (bdo2_cov s s' V V V1 Hc ltac:(intros a; apply incl_refl) E1) as (W & EW & IW).
        apply (X V1); auto; [|cbn; auto].
        apply (bagree_incl V1 W); auto. cbn [ref_instr]. eapply bdo2_agree; eauto.
      + destruct i as [s| |a ext|v ad|v ext|v]; cbn [bxrun] in HV.
        * destruct (bdo2 s V) as [V1|] eqn:E1; [|discriminate]. apply (X V1); auto; [|cbn; auto].
          cbn [ref_instr]. eapply bdo2_agree; eauto.
        * apply (X V); auto. unfold expand. cbn [flat_map]. rewrite ex_bar. exact A.
        * destruct (vx (MXS a ext) V) as [V1|] eqn:E1; [|discriminate]. apply (X V1); auto.
          -- apply (vx_ok (MXS a ext) V V1 m m'); auto.
          -- cbn; apply good_x; auto.
        * destruct (vx (MXVA v ad) V) as [V1|] eqn:E1; [|discriminate]. apply (X V1); auto.
          -- apply (vx_ok (MXVA v ad) V V1 m m'); auto.
          -- cbn; apply good_x; auto.
        * destruct (vx (MXVN v ext) V) as [V1|] eqn:E1; [|discriminate]. apply (X V1); auto.
          -- apply (vx_ok (MXVN v ext) V V1 m m'); auto.
          -- cbn; apply good_x; auto.
        * destruct (vx (MXF v) V) as [V1|] eqn:E1; [|discriminate]. apply (X V1); auto.
          -- apply (vx_ok (MXF v) V V1 m m'); auto.
          -- cbn; apply good_x; auto.
  Qed.

  Lemma bagree_covers l V W m m' : (forall a, W a <> [] -> In a l) ->
    bcovers V W l = true -> bagree V m m' -> bagree W m m'.
  Proof.
    intros Hl C A a E i Ha Hi. unfold bcovers in C. rewrite forallb_forall in C.
    assert (NN : W a <> []) by (intros H; rewrite H in Ha; destruct Ha).
    specialize (C a (Hl a NN)). rewrite forallb_forall in C. specialize (C E Ha).
    apply existsb_exists in C. destruct C as (B & HB & L). eapply A; eauto. eapply in_box_sub; eauto.
  Qed.
End Valid.
