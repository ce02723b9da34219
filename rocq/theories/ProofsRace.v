(** Data races of the 2D and 3D solvers in the sense of the C++ memory model. *)
From Coq Require Import ZArith List Bool Lia ZifyBool.
From Verif Require Import SpecIndex ModelIndex ProofsIndex ModelRun Lang ProofsLang Stencil ProofsStencil
  FormCommon Form2D Solver1D Solver2D Macro ProofsMacro ProofsFill Foot1D Foot2D Proofs1D Proofs2D SpecThreads
  ProofsThread1D ProofsThread2D.
Import ListNotations.
Local Open Scope Z_scope.

(** ** Programs in which every statement gives different elements to different threads *)
Definition solob (r : rdesc) : bool := match r with Slab _ a b _ => a + b <=? 0 | _ => true end.
Definition solo_d (dd : dim) (i : dinstr) : Prop := match i with DDo s => solob (d_r s dd) = true | DBar => True end.
Definition solo_t (dd : dim) (i : tinstr) : Prop := match i with TDo s => solob (t_r s dd) = true | TBar => True end.

Lemma solo_apart r : solob r = true -> apart r 0 r = true.
Proof. destruct r; cbn; lia. Qed.

Lemma in_dphases_inv s p ph : In ph (dphases p) -> In s ph -> In (DDo s) p.
Proof.
  revert ph. induction p as [|i p IH]; intros ph; cbn [dphases].
  - intros [<-|[]] [].
  - destruct i as [s'|].
    + destruct (dphases p) as [|p0 rest] eqn:E.
      * intros [<-|[]] [->|[]]. left; reflexivity.
      * intros [<-|H] Hs.
        -- destruct Hs as [->|Hs]; [left; reflexivity|]. right. eapply IH; [left; reflexivity|exact Hs].
        -- right. eapply IH; [right; exact H|exact Hs].
    + intros [<-|H] Hs; [destruct Hs|]. right. eapply IH; eauto.
Qed.

Lemma solo_race_free g p : geom_ok g -> dprog_ok g p -> Forall (solo_d (g_dd g)) p ->
  forall ph, In ph (phases (prog_of g p)) -> ~ race (g_n g) ph.
Proof.
  intros OK DP SP ph Hph. rewrite phases_prog_of in Hph. apply in_map_iff in Hph. destruct Hph as (dph & <- & Hd).
  pose proof (DP dph Hd) as [R W _].
  assert (SOLO : forall k s t t' l, (t < g_n g)%nat -> (t' < g_n g)%nat -> nth_error (map (stmt_of g) dph) k = Some s ->
    In l (s_el s t) -> In l (s_el s t') -> t = t').
  { intros k s t t' l Ht Ht' N H1 H2. apply nth_error_In in N. apply in_map_iff in N. destruct N as (d & <- & Hin).
    pose proof (in_dphases_inv d p dph Hd Hin) as Hp. rewrite Forall_forall in SP. specialize (SP _ Hp). cbn in SP.
    apply in_el in H1. apply in_el in H2. destruct H1 as [_ H1], H2 as [_ H2].
    apply (apart_threads g OK d izero d t t' (snd l)); auto.
    - apply solo_apart in SP. destruct (g_dd g); exact SP.
    - intros d0. replace (iadd (snd l) izero) with (snd l); [apply H2|].
      destruct (snd l) as [[x y] z]. unfold iadd, izero. cbn. f_equal; [f_equal|]; lia. }
  intros (k & j & sk & sj & t & t' & l & Ht & Ht' & NE & Nk & Nj & Hl & [H|(l2 & Hl2 & Hr)]).
  - assert (k = j) by (apply (W k j sk sj t t' l); auto). subst j. rewrite Nk in Nj. inversion Nj; subst sj.
    apply NE. eapply SOLO; eauto.
  - destruct (R j k sj sk t' t l2 l Ht' Ht Nj Nk Hl2 Hr Hl) as [[E _]|[_ H]]; [congruence|].
    apply NE. apply (SOLO k sk t t' l); auto.
Qed.

(** ** Two dimensions, without the flux limiter *)
Section Two.
  Variable r : run2.
  Hypothesis NF : fct (s_o r) = false.
  Notation ex := (expand2 (s_halo r) (s_per r) (s_bl r) (s_br r)).
  Definition msolo (i : minstr) : Prop := match i with MDo s => solob (t_r s DX) = true | _ => True end.

  Lemma solo_map (f : Z -> tdesc) ks : (forall k, solob (t_r (f k) DX) = true) -> Forall (solo_t DX) (ph (map f ks)).
  Proof. intros H. unfold ph. rewrite map_map. apply Forall_forall. intros i Hi. apply in_map_iff in Hi. destruct Hi as (k & <- & _). apply H. Qed.
  Lemma ph_app a b : ph (a ++ b) = ph a ++ ph b.
  Proof. unfold ph. apply map_app. Qed.

  Lemma fill_solo hl per bl br d a ro : d <> DZ -> solob ro = true ->
    Forall (solo_t DX) (ph (fs_left hl per bl d a ro)) /\ Forall (solo_t DX) (ph (fs_rght hl per br d a ro)) /\
    Forall (solo_t DX) (ph (fn_left hl per bl d a ro)) /\ Forall (solo_t DX) (ph (fn_rght hl per br d a ro)) /\
    Forall (solo_t DX) (ph (ff_left bl d a ro)) /\ Forall (solo_t DX) (ph (ff_rght br d a ro)).
  Proof.
    intros Hd Ho. unfold fn_left, fn_rght, fs_left, fs_rght, ff_left, ff_rght.
    repeat split; destruct (bl d), (br d); try (apply solo_map; intros; destruct d; try congruence; cbn; auto);
      repeat constructor; destruct d; try congruence; cbn; auto.
  Qed.
  Lemma fillv_solo hl per bl br d v ad ro : d <> DZ -> solob ro = true ->
    Forall (solo_t DX) (ph (fv_left hl per bl d v ad ro)) /\ Forall (solo_t DX) (ph (fv_rght hl per br d v ad ro)).
  Proof.
    intros Hd Ho. unfold fv_left, fv_rght.
    split; destruct (bl d), (br d); rewrite ?ph_app; try apply Forall_app; try split;
      try (apply solo_map; intros; destruct d; try congruence; cbn; auto);
      destruct d; try congruence; repeat constructor; cbn; auto.
  Qed.

  Lemma expand_solo i : msolo i -> Forall (solo_t DX) (ex i).
  Proof.
    intros H. destruct i as [s| |a e|v ad|v e|v]; cbn [expand2].
    - repeat constructor. exact H.
    - repeat constructor.
    - destruct (fill_solo (s_halo r) (s_per r) (s_bl r) (s_br r) DY a (Own e e)) as (A & B & _); [easy|reflexivity|].
      rewrite ph_app. repeat (apply Forall_app; split); try (repeat constructor); auto.
      + unfold fs_rght. destruct (s_br r DX); [repeat constructor|apply solo_map|apply solo_map]; intros; reflexivity.
      + unfold fs_left. destruct (s_bl r DX); [repeat constructor|apply solo_map|apply solo_map]; intros; reflexivity.
    - destruct (fillv_solo (s_halo r) (s_per r) (s_bl r) (s_br r) DY v ad xI) as (A & B); [easy|reflexivity|].
      destruct (fillv_solo (s_halo r) (s_per r) (s_bl r) (s_br r) DX v ad yJ) as (A' & B'); [easy|reflexivity|].
      rewrite ph_app. repeat (apply Forall_app; split); try (repeat constructor); auto.
    - destruct (fill_solo (s_halo r) (s_per r) (s_bl r) (s_br r) DY (v DX) (Own (e + 1) e)) as (_ & _ & A & B & _); [easy|reflexivity|].
      rewrite !ph_app. repeat (apply Forall_app; split); try (repeat constructor); auto.
      + unfold fn_rght, fs_rght. destruct (s_br r DX); [repeat constructor|apply solo_map|apply solo_map]; intros; reflexivity.
      + unfold fn_left, fs_left. destruct (s_bl r DX); [repeat constructor|apply solo_map|apply solo_map]; intros; reflexivity.
    - destruct (fill_solo (s_halo r) (s_per r) (s_bl r) (s_br r) DY (v DY) xI) as (_ & _ & _ & _ & A & B); [easy|reflexivity|].
      destruct (fill_solo (s_halo r) (s_per r) (s_bl r) (s_br r) DX (v DX) yJ) as (_ & _ & _ & _ & A' & B'); [easy|reflexivity|].
      rewrite ph_app. repeat (apply Forall_app; split); try (repeat constructor); auto.
  Qed.

  Lemma expand_eq_solo e p : Forall msolo p -> Forall (solo_d DX) (expand_eq2 r e p).
  Proof.
    intros H. unfold expand_eq2. apply Forall_forall. intros i Hi. apply in_map_iff in Hi. destruct Hi as (t & <- & Ht).
    apply in_flat_map in Ht. destruct Ht as (m & Hm & Ht). rewrite Forall_forall in H. pose proof (expand_solo m (H m Hm)) as X.
    rewrite Forall_forall in X. specialize (X t Ht). destruct t as [s|]; [|exact I]. destruct s; exact X.
  Qed.

  Lemma sum_solo F psi psi' flx : Forall msolo (sum2 (s_o r) F psi psi' flx).
  Proof.
    unfold sum2. destruct (khn (s_o r)); [|repeat constructor].
    apply Forall_forall. intros i Hi. apply in_map_iff in Hi. destruct Hi as (s & <- & Hs).
    cbn [msolo]. apply in_app_iff in Hs. destruct Hs as [Hs|Hs].
    - unfold kahan_zro in Hs. cbn in Hs. intuition (subst; reflexivity).
    - apply in_flat_map in Hs. destruct Hs as (t & _ & Hs). unfold kahan_add in Hs. cbn in Hs. intuition (subst; reflexivity).
  Qed.
  Lemma flux_solo F psi gc : Forall msolo (flux2 F psi gc).
  Proof. repeat constructor. Qed.
  Lemma scale_solo psi e : Forall msolo (scale2 psi e).
  Proof. unfold scale2. destruct (e =? 0); [constructor|]. destruct (0 <? e); repeat constructor. Qed.
  Lemma bars_solo b : Forall msolo (cyc_bars b).
  Proof. unfold cyc_bars. destruct b; repeat constructor. Qed.
  Lemma corrective_solo F psi psi' unco corr last : Forall msolo (corrective2 (s_o r) F psi psi' unco corr last).
  Proof.
    unfold corrective2, fct_adjust2. rewrite NF. cbn [negb andb].
    repeat (apply Forall_app; split); try (destruct (div3dt (s_o r)); repeat constructor);
      try (destruct last, (dfl (s_o r)); repeat constructor);
      try (destruct (iga (s_o r)); repeat (apply Forall_app; split); try apply sum_solo; try apply flux_solo; repeat constructor).
  Qed.
  Lemma passes_solo F nit lasteq b more : forall j, Forall msolo (passes2 (s_o r) F nit lasteq b j more).
  Proof.
    induction more as [|m IH]; intros j; cbn [passes2]; [constructor|].
    apply Forall_app. split; [apply bars_solo|]. apply Forall_app. split; [repeat constructor|].
    apply Forall_app. split; [apply corrective_solo|apply IH].
  Qed.
  Lemma body_solo F nit k e lasteq b : Forall msolo (body2 (s_o r) F nit k e lasteq b).
  Proof.
    unfold body2, upstream2, fct_init2. rewrite NF.
    repeat (apply Forall_app; split); auto using bars_solo, passes_solo, scale_solo, sum_solo, flux_solo;
      try (destruct lasteq); repeat constructor.
  Qed.
  Lemma ante_solo : Forall msolo (ante2 (s_o r)).
  Proof.
    unfold ante2. repeat (apply Forall_app; split); try (destruct (nug (s_o r))); try (destruct (div3dt (s_o r) || div3 (s_o r)));
      repeat constructor.
  Qed.
  Lemma eqs_solo k es : forall lv, Forall (solo_d DX) (eqs_prog2 r k es lv).
  Proof.
    induction es as [|e es IH]; intros lv; cbn [eqs_prog2]; [constructor|]. apply Forall_app. split; auto.
    apply expand_eq_solo, body_solo.
  Qed.
  Lemma steps_solo nt : forall ts lv, Forall (solo_d DX) (steps_prog2 r nt ts lv).
  Proof.
    induction nt as [|n IH]; intros ts lv; cbn [steps_prog2]; [constructor|].
    repeat (apply Forall_app; split); auto using eqs_solo. repeat constructor.
  Qed.
  Lemma run_solo nt : Forall (solo_d DX) (run_prog2 r nt).
  Proof.
    unfold run_prog2. repeat (apply Forall_app; split); auto using steps_solo, expand_eq_solo, ante_solo. repeat constructor.
  Qed.
End Two.

Lemma race_free2 r n nt : run2_ok r -> fct (s_o r) = false -> (0 < n)%nat -> Z.of_nat n <= s_hi r DX - s_lo r DX + 1 ->
  forall ph, In ph (phases (program2 r n nt)) -> ~ race n ph.
Proof.
  intros RK NF Hn Hs. assert (F2 : fct (s_o r) && negb (iga (s_o r)) = false) by (rewrite NF; reflexivity).
  destruct (run2_fine r n RK F2 Hn Hs nt) as [A _].
  exact (solo_race_free (geom2 r n) _ (geom2_ok r n RK Hn Hs) A (run_solo r NF nt)).
Qed.
