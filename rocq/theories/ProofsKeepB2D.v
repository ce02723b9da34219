(** Steps of the 2D solver in a box closed by rigid walls keep fields mirrored at the
    walls (as ProofsImages2D.v). *)
From Coq Require Import ZArith List Bool Lia ZifyBool Reals Lra.
From Verif Require Import SpecIndex ModelIndex ProofsIndex ModelRun Lang ProofsLang Stencil ProofsStencil FormCommon Form2D Solver1D Solver2D Macro ProofsMacro
  Foot1D Foot2D Proofs1D Proofs2D ProofsThread1D ProofsThread2D ProofsOne2D Arith SpecReal SpecThreads SpecFields2 SpecNum2 SpecBcond SpecChannel2
  ProofsValid ProofsValid1D Boxes ProofsBoxes ProofsValid2D ProofsValidC2D ProofsValidI2D ProofsExch2D ProofsRef1D ProofsRef2D ProofsRefC2D ProofsRefI2D ProofsExchC2D Lattice ProofsLattice
  ProofsCyclic2D ProofsStale2D ProofsChannel2D ProofsChannelRun
  Fun1D ProofsFun1D ProofsFold1D FunN ProofsFunN ProofsFun2D ProofsReal1D ProofsNumN ProofsSymN ProofsSymRun2D ProofsImgPt ProofsImages2D ProofsImgPtX ProofsValidB2D ProofsExchB2D.
Import ListNotations.
Local Open Scope Z_scope.

Section Keep.
  Variables eps tiny : R.
  Notation AR := (arithR eps tiny).
  Variable r : run2.
  Hypothesis RK : run2_ok r.
  Notation mem := (loc -> R).
  Notation o := (s_o r).
  Notation F := (s_forms r).
  Notation symB := (symB r eps tiny).

  (** ** Programs that keepB fields mirrored, with exchanges of mirrored fields only *)
  Fixpoint along (e : nat) (p : list minstr) (f : mem) : Prop :=
    match p with
    | [] => True
    | x :: q => (is_exch x = true -> x_okB x /\ symB f) /\ along e q (lat_instr AR e x f)
    end.
  Definition keepB (e : nat) (p : list minstr) : Prop := forall f, symB f -> along e p f /\ symB (lat_prog AR e p f).
  Lemma along_app e p : forall q f, along e p f -> along e q (lat_prog AR e p f) -> along e (p ++ q) f.
  Proof.
    induction p as [|x p IH]; intros q f Hp Hq; [exact Hq|]. cbn [along app] in *. destruct Hp as [H1 H2]. split; [exact H1|].
    apply IH; auto.
  Qed.
  Lemma keepB_app e p q : keepB e p -> keepB e q -> keepB e (p ++ q).
  Proof.
    intros Kp Kq f HM. destruct (Kp f HM) as [E1 M1]. destruct (Kq _ M1) as [E2 M2]. rewrite lat_prog_app. split; [|exact M2].
    apply along_app; auto.
  Qed.
  Lemma keepB_nil e : keepB e []. Proof. intros f HM. split; [exact I|exact HM]. Qed.
  Lemma keepB_x e x : x_okB x -> keepB e [x].
  Proof.
    intros Hx f HM. assert (E : lat_prog AR e [x] f = f) by (destruct x; try (exfalso; exact Hx); reflexivity). rewrite E. split; [|exact HM].
    cbn [along]. auto.
  Qed.
  Lemma keepB_bar e : keepB e [MBar].
  Proof. intros f HM. split; [|exact HM]. cbn [along]. split; [discriminate|exact I]. Qed.
  Lemma keepB_do e p : Forall (fun x => is_exch x = false) p ->
    (forall S g, symS S g -> symS S (ln_prog AR (ess p) g)) -> (forall S g, symSx S g -> symSx S (ln_prog AR (ess p) g)) -> keepB e p.
  Proof.
    intros NX K KX f [HM HX]. split.
    - clear K KX HM HX. revert f. induction NX as [|x p Hx NX IH]; intros f; cbn [along]; [exact I|]. split; [congruence|]. apply IH.
    - assert (V : forall S, symS S (viewN AR e f) -> symS S (viewN AR e (lat_prog AR e p f))).
      { intros S H. apply (symS_ext S _ (ln_prog AR (ess p) (viewN AR e f))); [intros a x; apply (viewN_prog AR e p f)|]. apply K. exact H. }
      assert (VX : forall S, symSx S (viewN AR e f) -> symSx S (viewN AR e (lat_prog AR e p f))).
      { intros S H. apply (symS_extx S _ (ln_prog AR (ess p) (viewN AR e f))); [intros a x; apply (viewN_prog AR e p f)|]. apply KX. exact H. }
      split; intros e'; (destruct (Nat.eq_dec e' e) as [->|NE]; [destruct (HM e), (HX e); split; auto|]).
      + assert (W : forall S, symS S (viewN AR e f) -> symS S (viewN AR e' f) -> symS S (viewN AR e' (lat_prog AR e p f))).
        { intros S H H' a. destruct a; try (exact (V S H _)).
          apply (symA_ext S (Psi b) _ (viewN AR e' f (Psi b))); [|apply H']. intros x. apply (frame_prog AR). auto. }
        destruct (HM e), (HM e'). split; apply W; auto.
      + assert (W : forall S, symSx S (viewN AR e f) -> symSx S (viewN AR e' f) -> symSx S (viewN AR e' (lat_prog AR e p f))).
        { intros S H H' a. destruct a; try (exact (VX S H _)).
          apply (symA_extx S (Psi b) _ (viewN AR e' f (Psi b))); [|apply H']. intros x. apply (frame_prog AR). auto. }
        destruct (HX e), (HX e'). split; apply W; auto.
  Qed.

  Lemma no_xb ts : Forall (fun x => is_exch x = false) (map MDo ts).
  Proof. apply Forall_forall. intros x Hx. apply in_map_iff in Hx. destruct Hx as (s & <- & _). reflexivity. Qed.
  Ltac ap a b := first [apply a | apply b].
  Ltac apz v := match goal with S : Z |- _ => first [apply (sym_zero _ _ S v) | apply (sym_zerox _ _ S v)] end.
  Let OK : fl_ok2 o = true := ok2_fl r RK.
  Notation sp := (s_sp r).
  Notation tp := (s_tp r).

  Ltac nox := repeat (constructor; try reflexivity).
  Lemma keepB_scale e b ex : keepB e (scale2 (Psi b) ex).
  Proof.
    apply keepB_do.
    - unfold scale2. destruct (ex =? 0); [constructor|]. destruct (0 <? ex); nox.
    - intros S g H. rewrite ess_scale2. apply sym_scale; auto.
    - intros S g H. rewrite ess_scale2. apply sym_scalex; auto.
  Qed.
  Lemma keepB_init e b : keepB e (fct_init2 o F (Psi b)).
  Proof.
    unfold fct_init2. destruct (fct o); [|apply keepB_nil]. apply keepB_do; [nox| |].
     all: intros S g H.  all: cbn [ess flat_map app at2 t_arr t_exp ln_prog fold_left].  all: ap sym_max sym_maxx; auto.  all: ap sym_min sym_minx; auto.
  Qed.
  Lemma keepB_flux2 e b v rx ry rx' ry' : In v vecs -> keepB e [MDo (at2 (Flux DX) rx ry (f_flux F DX (Psi b) (v DX))); MDo (at2 (Flux DY) rx' ry' (f_flux F DY (Psi b) (v DY)))].
  Proof.
    intros Hv. apply keepB_do; [nox| |]. all: intros S g H.  all: cbn [ess flat_map app at2 t_arr t_exp ln_prog fold_left].
     all: ap sym_flux sym_fluxx; [exact OK|exact Hv|cbn; auto|].  all: ap sym_flux sym_fluxx; [exact OK|exact Hv|cbn; auto|exact H].
  Qed.
  Lemma keepB_sum e b v : In v [GC; Flux; Mono; Cor true; Cor false] -> keepB e (sum2 o F (Psi b) (Psi (negb b)) v).
  Proof.
    intros Hv. apply keepB_do.
    - unfold sum2. destruct (khn o); [apply no_xb|nox].
    - intros S g H. rewrite ess_sum2. apply sym_sum; auto.
    - intros S g H. rewrite ess_sum2. apply sym_sumx; auto.
  Qed.
  Lemma vec_parB v : In v vecs -> par (v DY) = Some true /\ parx (v DX) = Some true.
  Proof. unfold vecs. cbn [In]. intros Hv. repeat match goal with H : _ \/ _ |- _ => destruct H as [<-|H] | H : False |- _ => destruct H end; split; reflexivity. Qed.
  Lemma keepB_up e b : keepB e (upstream2 o F (Psi b) (Psi (negb b))).
  Proof.
    unfold upstream2. apply keepB_app; [apply (keepB_flux2 e b GC); cbn; auto|]. apply keepB_app; [apply keepB_x; split; reflexivity|].
    apply keepB_sum. cbn; auto.
  Qed.
  Lemma keepB_fct e b c : keepB e (fct_adjust2 o F (Psi b) (Cor c)).
  Proof.
    unfold fct_adjust2. destruct (fct o); [|apply keepB_nil].
    assert (Hc : In (Cor c) vecs) by (destruct c; cbn; auto 10).
    apply keepB_app; [change [MXVA (Cor c) true; MXVN (Cor c) 0] with ([MXVA (Cor c) true] ++ [MXVN (Cor c) 0]); apply keepB_app; apply keepB_x; split; reflexivity|].
    apply keepB_app; [destruct (iga o); [apply keepB_nil|apply (keepB_flux2 e b (Cor c)); auto]|]. cbv zeta.
    apply keepB_app; [|apply keepB_app; [destruct (iga o); [apply keepB_nil|apply keepB_bar]|]].
    - assert (Hf : In (if iga o then Cor c else Flux) vecs) by (destruct (iga o); [exact Hc|cbn; auto]).
      apply keepB_do; [nox| |]. all: intros S g H.  all: cbn [ess flat_map app at2 t_arr t_exp ln_prog fold_left].
       all: ap sym_bdn sym_bdnx; auto.  all: ap sym_bup sym_bupx; auto.
    - apply keepB_do; [nox| |]. all: intros S g H.  all: cbn [ess flat_map app at2 t_arr t_exp ln_prog fold_left].
       all: ap sym_mono sym_monox; [exact OK|exact Hc|cbn; auto|].  all: ap sym_mono sym_monox; [exact OK|exact Hc|cbn; auto|exact H].
  Qed.
  Lemma keepB_corr e b u c last : In u vecs -> keepB e (corrective2 o F (Psi b) (Psi (negb b)) u (Cor c) last).
  Proof.
    intros Hu. unfold corrective2. apply keepB_app.
    - apply keepB_do; [nox| |]. all: intros S g H.  all: cbn [ess flat_map app at2 t_arr t_exp ln_prog fold_left].
       all: ap sym_anti sym_antix; [exact OK|exact Hu|cbn; auto|].  all: ap sym_anti sym_antix; [exact OK|exact Hu|cbn; auto|exact H].
    - apply keepB_app; [destruct (div3dt o); [apply keepB_bar|apply keepB_nil]|].
      apply keepB_app; [destruct (negb (fct o) && negb last); [apply keepB_app; [apply keepB_x; split; reflexivity|destruct (dfl o); [apply keepB_x; split; reflexivity|apply keepB_nil]]|apply keepB_nil]|].
      apply keepB_app; [apply keepB_fct|]. cbv zeta.
      set (v := if fct o then Mono else Cor c).
      assert (Hv : In v [GC; Flux; Mono; Cor true; Cor false]) by (unfold v; destruct (fct o), c; cbn; auto 10).
      assert (Hv' : In v vecs) by (unfold v; destruct (fct o), c; cbn; auto 10).
      destruct (iga o).
      + apply keepB_app; [apply keepB_x; apply (vec_parB v Hv')|]. apply keepB_sum. exact Hv.
      + apply keepB_app; [apply (keepB_flux2 e b v); exact Hv'|]. apply keepB_app; [apply keepB_x; split; reflexivity|]. apply keepB_sum. cbn; auto.
  Qed.
  Lemma keepB_bars e le : keepB e (cyc_bars le).
  Proof. destruct le; cbn [cyc_bars]; [|apply keepB_nil || apply keepB_bar]; first [apply keepB_bar | apply keepB_nil | (apply (keepB_app e [MBar] [MBar]); apply keepB_bar)]. Qed.
  Lemma lev_Sb b j : lev b (S j) = negb (lev b j).
  Proof. apply lev_S. Qed.
  Lemma keepB_passes e nit le b more : forall j, keepB e (passes2 o F nit le b j more).
  Proof.
    induction more as [|k IH]; intros j; [apply keepB_nil|]. cbn [passes2].
    apply keepB_app; [apply keepB_bars|]. apply keepB_app; [apply keepB_x; split; reflexivity|]. apply keepB_app; [|apply IH].
    rewrite lev_Sb. unfold GC_corr. apply keepB_corr. unfold GC_unco. destruct (Nat.eqb j 1); [cbn; auto|]. unfold GC_corr; match goal with |- context [Nat.odd ?q] => destruct (Nat.odd q) end; cbn; auto 10.
  Qed.
  Lemma keepB_body e nit k ex le b : keepB e (body2 o F nit k ex le b).
  Proof.
    unfold body2. apply keepB_app; [apply keepB_scale|]. apply keepB_app; [apply keepB_x; split; reflexivity|]. apply keepB_app; [apply keepB_init|].
    apply keepB_app; [rewrite (lev_Sb b 0); replace (lev b 0) with b by (destruct b; reflexivity); apply keepB_up|].
    apply keepB_app; [apply keepB_passes|]. apply keepB_app; [destruct le; [apply keepB_nil|apply keepB_bar]|]. apply keepB_app; [apply keepB_bars|apply keepB_scale].
  Qed.
  Lemma keepB_ante e : keepB e (ante2 o).
  Proof.
    unfold ante2. apply keepB_app; [apply (keepB_app e [MBar] [MXVA GC false]); [apply keepB_bar|apply keepB_x; split; reflexivity]|].
    apply keepB_app; [destruct (nug o); [apply keepB_x; split; reflexivity|apply keepB_nil]|]. apply keepB_app; [apply keepB_x; split; reflexivity|].
    apply keepB_app; [|apply keepB_bar]. destruct (div3dt o || div3 o); [|apply keepB_nil].
    match goal with |- keepB e (?a :: ?b :: ?c :: ?d :: ?x :: ?y :: ?z :: [?w]) =>
      apply (keepB_app e [a; b; c; d] ([x] ++ [y] ++ [z] ++ [w])) end.
    - apply keepB_do; [nox| |]. all: intros S g H.  all: cbn [ess flat_map app at2 t_arr t_exp ln_prog fold_left].
       all: apz NdttGC; [cbn; auto 10|cbn; auto|].  all: apz NdttGC; [cbn; auto 10|cbn; auto|].
       all: apz NdtGC; [cbn; auto 10|cbn; auto|].  all: apz NdtGC; [cbn; auto 10|cbn; auto|].  all: exact H.
    - repeat apply keepB_app; apply keepB_x; split; reflexivity.
  Qed.

  (** *** Whole runs *)
  Definition keepBs (l : list (nat * list minstr)) : Prop := Forall (fun ep => keepB (fst ep) (snd ep)) l.
  Lemma keepBs_eqs k es : forall lv, keepBs (eqs_macro2 r k es lv).
  Proof. induction es as [|e es IH]; intros lv; [constructor|]. cbn [eqs_macro2]. constructor; [apply keepB_body|apply IH]. Qed.
  Lemma keepBs_steps nt : forall ts lv, keepBs (steps_macro2 r nt ts lv).
  Proof.
    induction nt as [|k IH]; intros ts lv; [constructor|]. cbn [steps_macro2]. constructor; [apply keepB_bar|].
    apply Forall_app. split; [apply keepBs_eqs|apply IH].
  Qed.
  Lemma keepBs_run nt : keepBs (run_macro2 r nt).
  Proof.
    unfold run_macro2. constructor; [apply keepB_ante|]. apply Forall_app. split; [apply keepBs_steps|]. constructor; [apply keepB_bar|constructor].
  Qed.
End Keep.
