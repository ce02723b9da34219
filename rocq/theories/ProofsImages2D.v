(** Runs in a channel are runs on a lattice mirrored at both walls. *)
From Coq Require Import ZArith List Bool Lia ZifyBool Reals Lra.
From Verif Require Import SpecIndex ModelIndex ProofsIndex ModelRun Lang ProofsLang Stencil ProofsStencil FormCommon Form2D Solver1D Solver2D Macro ProofsMacro
  Foot1D Foot2D Proofs1D Proofs2D ProofsThread1D ProofsThread2D ProofsOne2D Arith SpecReal SpecThreads SpecFields2 SpecNum2 SpecBcond SpecChannel2
  ProofsValid ProofsValid1D Boxes ProofsBoxes ProofsValid2D ProofsValidC2D ProofsValidI2D ProofsExch2D ProofsRef1D ProofsRef2D ProofsRefC2D ProofsRefI2D ProofsExchC2D Lattice ProofsLattice
  ProofsCyclic2D ProofsStale2D ProofsChannel2D ProofsChannelRun
  Fun1D ProofsFun1D ProofsFold1D FunN ProofsFunN ProofsFun2D ProofsReal1D ProofsNumN ProofsSymN ProofsSymRun2D ProofsImgPt.
Import ListNotations.
Local Open Scope Z_scope.

(** ** Fills that mirror, also of antidiffusive velocities at the right wall *)
Definition img_rght (r : run2) (a : arr) : list tdesc :=
  map (fun k => at2d DY a (AtLast k k) xI (- Leaf (a, x2 DY (- (1 + k) - k) 0))%s) (zseq (1, s_halo r - 1)).
Definition wall_imgs (r : run2) (x : minstr) : list tdesc :=
  match x with
  | MXVA v true => fv_left (s_halo r) (s_per r) (s_bl r) DY v true xI ++ img_rght r (v DY)
  | _ => wall_fills r x
  end.
Definition imx (ar : arith) (r : run2) (e : nat) (x : minstr) (f : loc -> car ar) : loc -> car ar :=
  fold_left (fun f s => row_do ar (s_lo r DY) (s_hi r DY) e s f) (wall_imgs r x) f.

Lemma imx_periodic ar r e x f p : periodic ar (p, 0, 0) f -> periodic ar (p, 0, 0) (imx ar r e x f).
Proof.
  unfold imx. revert f. induction (wall_imgs r x) as [|s l IH]; intros f P; [exact P|].
  cbn [fold_left]. apply IH. apply row_do_periodic. exact P.
Qed.
Lemma imx_frame ar r e x f e' b i : e' <> e -> imx ar r e x f (e', Psi b, i) = f (e', Psi b, i).
Proof.
  intros NE. unfold imx. revert f. induction (wall_imgs r x) as [|s l IH]; intros f; [reflexivity|]. cbn [fold_left].
  rewrite IH. apply row_do_other. intros E. destruct (t_arr s); cbn in E; congruence.
Qed.
Lemma rows_skip ar lo hi e l b i : (forall s, In s l -> b = tag e (t_arr s) -> ~ in_row lo hi (t_y s) (comp DY i)) ->
  forall f, fold_left (fun f s => row_do ar lo hi e s f) l f (b, i) = f (b, i).
Proof.
  induction l as [|s l IH]; intros H f; [reflexivity|]. cbn [fold_left]. rewrite IH by (intros s0 Hs0; apply H; right; auto).
  unfold row_do. cbn [fst snd]. destruct (garr_eqb b (tag e (t_arr s))) eqn:E; [|reflexivity]. apply garr_eqb_eq in E.
  destruct (in_rowb lo hi (t_y s) (comp DY i)) eqn:R; [|reflexivity]. apply in_rowb_iff in R. destruct (H s (or_introl eq_refl) E R).
Qed.
Lemma imx_chx ar r e v f b i : s_br r DY = Rigid2 -> (b = tag e (v DY) -> comp DY i <= s_hi r DY) ->
  imx ar r e (MXVA v true) f (b, i) = chx ar r e (MXVA v true) f (b, i).
Proof.
  intros BR H. unfold imx, chx. cbn [wall_imgs wall_fills]. rewrite !fold_left_app. etransitivity; [apply rows_skip|symmetry; apply rows_skip].
  - intros s Hs E. unfold img_rght in Hs. apply in_map_iff in Hs. destruct Hs as (k & <- & Hk).
    apply in_zseq in Hk. unfold in_rng, first, last in Hk. cbn [fst snd] in Hk. cbn [at2d at2 t_arr t_y] in *. unfold in_row. cbn [grng fst snd]. specialize (H E). lia.
  - intros s Hs E. unfold fv_rght in Hs. rewrite BR in Hs. apply in_map_iff in Hs. destruct Hs as (k & <- & Hk).
    apply in_zseq in Hk. unfold in_rng, first, last in Hk. cbn [fst snd] in Hk. cbn [at2d at2 t_arr t_y] in *. unfold in_row. cbn [grng fst snd]. specialize (H E). lia.
Qed.

Section Exch.
  Variables (r : run2) (n : nat).
  Hypothesis RK : run2_ok r.
  Hypothesis Hn : (0 < n)%nat.
  Hypothesis Hs : Z.of_nat n <= s_hi r DX - s_lo r DX + 1.
  Hypothesis CLX : s_bl r DX = Cyclic2.
  Hypothesis CRX : s_br r DX = Cyclic2.
  Hypothesis CLY : s_bl r DY = Rigid2.
  Hypothesis CRY : s_br r DY = Rigid2.
  Variable ar : arith.
  Notation g := (geom2 r n).
  Notation ex := (expand2 (s_halo r) (s_per r) (s_bl r) (s_br r)).
  Notation runp e p := (run_prog loc_eq_dec ar n (prog_of g (expand ex e p))).

  Lemma img_vx2 e x V V' (m f : loc -> car ar) : is_exch x = true -> vxi2 (s_halo r) x V = Some V' ->
    bagree g ar e V m f -> periodic ar (s_per r DX, 0, 0) f -> bagree g ar e V' (runp e [x] m) (imx ar r e x f).
  Proof.
    intros Hx HV A P. pose proof (chan_vx2 r n RK Hn Hs ar CLX CRX CLY CRY e x V) as CV.
    destruct x as [s| |a ext|v ad|v ext|v]; try discriminate; try exact (CV V' m f Hx HV A P).
    destruct ad; [|exact (CV V' m f Hx HV A P)].
    cbn [vxi2] in HV. cbn [vxc2] in CV. destruct (_ && _) eqn:C; [|discriminate]. injection HV as <-.
    specialize (CV _ m f Hx eq_refl A P). pose proof (halo_pos (s_o r)) as HP. fold (s_halo r) in HP.
    intros a E i Ha Hi. apply bset_cases in Ha. destruct Ha as [[-> Ha]|[NE Ha]].
    - assert (K : comp DY i <= s_hi r DY /\ runp e [MXVA v true] m (tag e (v DY), i) = chx ar r e (MXVA v true) f (tag e (v DY), i)).
      { destruct Ha as [<-|Ha].
        - apply (in_b2 r n Hn Hs) in Hi. split; [lia|].
          apply (CV (v DY) (b2 0 0 (s_halo r) (s_halo r - 1)) i).
          + unfold bset. rewrite arr_eqb_refl. left. reflexivity.
          + apply (in_b2 r n Hn Hs). lia.
        - apply filter_In in Ha. destruct Ha as [Ha L]. split.
          + pose proof (Hi DY) as Y. rewrite hi2 in Y by auto. destruct E as [[[xa xb] [ya yb]] zz]. cbn [low] in L. cbn [e_d fst snd] in Y. lia.
          + apply (CV (v DY) E i); auto. unfold bset. rewrite arr_eqb_refl. right. exact Ha. }
      destruct K as [K1 K2]. rewrite imx_chx by auto. exact K2.
    - rewrite imx_chx; [|exact CRY|intros Q; destruct (tag_ne e _ _ NE Q)].
      apply (CV a E i); auto. unfold bset at 1. rewrite arr_eqb_ne by auto. exact Ha.
  Qed.
End Exch.

(** ** Mirrored fields *)
Section Img.
  Variables eps tiny : R.
  Notation AR := (arithR eps tiny).
  Variable r : run2.
  Hypothesis RK : run2_ok r.
  Hypothesis CLY : s_bl r DY = Rigid2.
  Hypothesis CRY : s_br r DY = Rigid2.
  Notation mem := (loc -> R).
  Notation lo := (s_lo r DY).
  Notation hi := (s_hi r DY).
  Notation o := (s_o r).
  Notation F := (s_forms r).
  Definition symM (f : mem) : Prop := forall e, symS (2 * lo) (viewN AR e f) /\ symS (2 * hi) (viewN AR e f).
  Notation rowd e s f := (row_do AR lo hi e s f).

  Lemma rowd_ext e s (f f' : mem) : (forall l, f l = f' l) -> forall l, rowd e s f l = rowd e s f' l.
  Proof. intros H l. unfold row_do. destruct (_ && _); [|apply H]. apply ev_ext. intros. apply H. Qed.
  Lemma rowl_ext e l : forall f f' : mem, (forall x, f x = f' x) -> forall x, fold_left (fun f s => rowd e s f) l f x = fold_left (fun f s => rowd e s f) l f' x.
  Proof. induction l as [|s l IH]; intros f f' H; [exact H|]. cbn [fold_left]. apply IH. apply rowd_ext. exact H. Qed.
  Lemma rowl_id e (f : mem) l : Forall (fun s => forall x, rowd e s f x = f x) l -> forall x, fold_left (fun f s => rowd e s f) l f x = f x.
  Proof.
    induction 1 as [|s l H HF IH]; intros x; [reflexivity|]. cbn [fold_left]. rewrite (rowl_ext e l _ f H). apply IH.
  Qed.
  (** a row that mirrors *)
  Lemma row_even e a rx ry k (f : mem) : (forall y, in_row lo hi ry y -> 2 * y + k = 2 * lo \/ 2 * y + k = 2 * hi) ->
    scal a -> symM f -> forall x, rowd e (at2 a rx ry (Leaf (a, x2 DY k 0))) f x = f x.
  Proof.
    intros HY Sa HM [b [[i j] z]]. unfold row_do. cbn [fst snd at2 t_arr t_y t_exp comp].
    destruct (garr_eqb b (tag e a)) eqn:Eb; [|reflexivity]. apply garr_eqb_eq in Eb. subst b.
    destruct (in_rowb lo hi ry j) eqn:Er; [|reflexivity]. apply in_rowb_iff in Er.
    destruct (z =? 0); [|reflexivity]. cbn [ev fst snd x2 iadd andb].
    destruct (HM e) as [M1 M2]. destruct (HY j Er) as [Q|Q].
    - pose proof (of_scal (2 * lo) a _ Sa M1 (i, j, z)) as W. unfold viewN, mh in W. cbn [fst snd] in W.
      etransitivity; [|symmetry; exact W]. f_equal. f_equal. unfold x2, iadd. cbn [fst snd]. ixs.
    - pose proof (of_scal (2 * hi) a _ Sa M2 (i, j, z)) as W. unfold viewN, mh in W. cbn [fst snd] in W.
      etransitivity; [|symmetry; exact W]. f_equal. f_equal. unfold x2, iadd. cbn [fst snd]. ixs.
  Qed.

  Lemma row_odd e a rx ry k (f : mem) : (forall y, in_row lo hi ry y -> 2 * y + k + 1 = 2 * lo \/ 2 * y + k + 1 = 2 * hi) ->
    par a = Some true -> symM f -> forall x, rowd e (at2 a rx ry (- Leaf (a, x2 DY k 0))%s) f x = f x.
  Proof.
    intros HY Sa HM [b [[i j] z]]. unfold row_do. cbn [fst snd at2 t_arr t_y t_exp comp].
    destruct (garr_eqb b (tag e a)) eqn:Eb; [|reflexivity]. apply garr_eqb_eq in Eb. subst b.
    destruct (in_rowb lo hi ry j) eqn:Er; [|reflexivity]. apply in_rowb_iff in Er.
    destruct (z =? 0); [|reflexivity]. cbn [ev fst snd x2 iadd andb].
    destruct (HM e) as [M1 M2]. destruct (HY j Er) as [Q|Q].
    - pose proof (M1 a) as W. unfold symA in W. rewrite Sa in W. specialize (W (i, j, z)). unfold viewN, mh, pv, un, iadd in W. cbn [fst snd] in W.
      etransitivity; [|symmetry; exact W]. cbn [arithR aun]. f_equal. f_equal. f_equal. unfold x2, iadd. cbn [fst snd]. ixs.
    - pose proof (M2 a) as W. unfold symA in W. rewrite Sa in W. specialize (W (i, j, z)). unfold viewN, mh, pv, un, iadd in W. cbn [fst snd] in W.
      etransitivity; [|symmetry; exact W]. cbn [arithR aun]. f_equal. f_equal. f_equal. unfold x2, iadd. cbn [fst snd]. ixs.
  Qed.

  (** exchanges of the arrays they are meant for *)
  Definition x_ok (x : minstr) : Prop :=
    match x with
    | MXS a _ => scal a
    | MXVA v _ | MXF v => par (v DY) = Some true
    | MXVN v _ => scal (v DX)
    | _ => False
    end.
  Lemma imx_id e x (f : mem) : x_ok x -> symM f -> forall l, imx AR r e x f l = f l.
  Proof.
    intros Hx HM. apply rowl_id. apply Forall_forall. intros s Hs.
    assert (ZS : forall a b k, In k (zseq (a, b)) -> a <= k <= b).
    { intros a b k Hk. apply in_zseq in Hk. exact Hk. }
    assert (SC : forall a ro, scal a -> In s (fs_left (s_halo r) (s_per r) (s_bl r) DY a ro ++ fs_rght (s_halo r) (s_per r) (s_br r) DY a ro) ->
      forall l, rowd e s f l = f l).
    { clear Hs. intros a ro Ha Hs. unfold fs_left, fs_rght in Hs. rewrite CLY, CRY in Hs. apply in_app_or in Hs.
      destruct Hs as [Hs|Hs]; apply in_map_iff in Hs; destruct Hs as (k & <- & Hk); apply row_even; auto; unfold in_row; cbn [grng fst snd]; intros; lia. }
    assert (VL : forall v ad ro, par (v DY) = Some true -> In s (fv_left (s_halo r) (s_per r) (s_bl r) DY v ad ro) -> forall l, rowd e s f l = f l).
    { clear Hs. intros v ad ro Ha Hs. unfold fv_left in Hs. rewrite CLY in Hs. apply in_map_iff in Hs; destruct Hs as (k & <- & Hk).
      apply row_odd; auto; unfold in_row; cbn [grng fst snd]; intros; lia. }
    destruct x as [s0| |a ext|v ad|v ext|v]; try (exfalso; exact Hx); cbn [wall_imgs wall_fills x_ok] in *.
    - apply (SC a (Own ext ext)); auto.
    - destruct ad; apply in_app_or in Hs; (destruct Hs as [Hs|Hs]; [eapply VL; eauto|]).
      + unfold img_rght in Hs. apply in_map_iff in Hs. destruct Hs as (k & <- & Hk).
        apply row_odd; auto; unfold in_row; cbn [grng fst snd]; intros; lia.
      + unfold fv_rght in Hs. rewrite CRY in Hs. apply in_map_iff in Hs. destruct Hs as (k & <- & Hk).
        apply row_odd; auto; unfold in_row; cbn [grng fst snd]; intros; lia.
    - apply (SC (v DX) (Own (ext + 1) ext)); auto. unfold fn_left, fn_rght in Hs. rewrite CLY, CRY in Hs. exact Hs.
    - unfold ff_left, ff_rght in Hs. rewrite CLY, CRY in Hs. destruct Hs as [<-|[<-|[]]]; apply row_odd; auto; unfold in_row; cbn [grng fst snd]; intros; lia.
  Qed.

  (** ** Programs that keep fields mirrored and whose exchanges do nothing then *)
  Notation rrun e p f := (ref_run AR (imx AR r e) (lat_do AR e) p f).
  Definition keep (e : nat) (p : list minstr) : Prop :=
    forall f, symM f -> (forall l, rrun e p f l = lat_prog AR e p f l) /\ symM (lat_prog AR e p f).
  Lemma rrun_ext e p : forall f f' : mem, (forall l, f l = f' l) -> forall l, rrun e p f l = rrun e p f' l.
  Proof.
    induction p as [|x p IH]; intros f f' H; [exact H|]. cbn [ref_run fold_left]. apply IH.
    destruct x; try (apply rowl_ext; exact H); [cbn [ref_instr]; apply (lat_do_ext AR); exact H|exact H].
  Qed.
  Lemma keep_app e p q : keep e p -> keep e q -> keep e (p ++ q).
  Proof.
    intros Kp Kq f HM. destruct (Kp f HM) as [E1 M1]. destruct (Kq _ M1) as [E2 M2]. rewrite lat_prog_app. split; [|exact M2].
    intros l. unfold ref_run. rewrite fold_left_app. change (rrun e q (rrun e p f) l = lat_prog AR e q (lat_prog AR e p f) l).
    rewrite (rrun_ext e q _ (lat_prog AR e p f) E1). apply E2.
  Qed.
  Lemma keep_nil e : keep e []. Proof. intros f HM. split; auto. Qed.
  Lemma keep_x e x : x_ok x -> keep e [x].
  Proof.
    intros Hx f HM. assert (E : lat_prog AR e [x] f = f) by (destruct x; try (exfalso; exact Hx); reflexivity). rewrite E. split; [|exact HM].
    destruct x; try (exfalso; exact Hx); apply (imx_id e); auto.
  Qed.
  Lemma keep_bar e : keep e [MBar].
  Proof. intros f HM. split; auto. Qed.
  Lemma symM_ext (f f' : mem) : (forall l, f l = f' l) -> symM f' -> symM f.
  Proof.
    intros E H e. destruct (H e) as [H1 H2]. split; [apply (symS_ext _ _ (viewN AR e f'))|apply (symS_ext _ _ (viewN AR e f'))]; auto; intros a x; apply E.
  Qed.
  Lemma keep_do e p : Forall (fun x => is_exch x = false) p ->
    (forall S g, symS S g -> symS S (ln_prog AR (ess p) g)) -> keep e p.
  Proof.
    intros NX K f HM. split.
    - clear K HM. revert f. induction NX as [|x p Hx NX IH]; intros f l; [reflexivity|]. cbn [ref_run lat_prog fold_left].
      etransitivity; [apply IH|]. destruct x; try discriminate; reflexivity.
    - assert (V : forall S, symS S (viewN AR e f) -> symS S (viewN AR e (lat_prog AR e p f))).
      { intros S H. apply (symS_ext S _ (ln_prog AR (ess p) (viewN AR e f))); [intros a x; apply (viewN_prog AR e p f)|]. apply K. exact H. }
      intros e'. destruct (Nat.eq_dec e' e) as [->|NE]; [destruct (HM e); split; apply V; auto|].
      assert (W : forall S, symS S (viewN AR e f) -> symS S (viewN AR e' f) -> symS S (viewN AR e' (lat_prog AR e p f))).
      { intros S H H' a. destruct a; try (exact (V S H _)).
        apply (symA_ext S (Psi b) _ (viewN AR e' f (Psi b))); [|apply H']. intros x. apply (frame_prog AR). auto. }
      destruct (HM e), (HM e'). split; apply W; auto.
  Qed.

  Lemma no_x ts : Forall (fun x => is_exch x = false) (map MDo ts).
  Proof. apply Forall_forall. intros x Hx. apply in_map_iff in Hx. destruct Hx as (s & <- & _). reflexivity. Qed.
  Let OK : fl_ok2 o = true := ok2_fl r RK.
  Notation sp := (s_sp r).
  Notation tp := (s_tp r).

  Ltac nox := repeat (constructor; try reflexivity).
  Lemma keep_scale e b ex : keep e (scale2 (Psi b) ex).
  Proof.
    apply keep_do.
    - unfold scale2. destruct (ex =? 0); [constructor|]. destruct (0 <? ex); nox.
    - intros S g H. rewrite ess_scale2. apply sym_scale; auto.
  Qed.
  Lemma keep_init e b : keep e (fct_init2 o F (Psi b)).
  Proof.
    unfold fct_init2. destruct (fct o); [|apply keep_nil]. apply keep_do; [nox|].
    intros S g H. cbn [ess flat_map app at2 t_arr t_exp ln_prog fold_left]. apply sym_max; auto. apply sym_min; auto.
  Qed.
  Lemma keep_flux2 e b v rx ry rx' ry' : In v vecs -> keep e [MDo (at2 (Flux DX) rx ry (f_flux F DX (Psi b) (v DX))); MDo (at2 (Flux DY) rx' ry' (f_flux F DY (Psi b) (v DY)))].
  Proof.
    intros Hv. apply keep_do; [nox|]. intros S g H. cbn [ess flat_map app at2 t_arr t_exp ln_prog fold_left].
    apply sym_flux; [exact OK|exact Hv|cbn; auto|]. apply sym_flux; [exact OK|exact Hv|cbn; auto|exact H].
  Qed.
  Lemma keep_sum e b v : In v [GC; Flux; Mono; Cor true; Cor false] -> keep e (sum2 o F (Psi b) (Psi (negb b)) v).
  Proof.
    intros Hv. apply keep_do.
    - unfold sum2. destruct (khn o); [apply no_x|nox].
    - intros S g H. rewrite ess_sum2. apply sym_sum; auto.
  Qed.
  Lemma vec_par v : In v vecs -> par (v DY) = Some true /\ scal (v DX).
  Proof. unfold vecs. cbn [In]. intros Hv. repeat match goal with H : _ \/ _ |- _ => destruct H as [<-|H] | H : False |- _ => destruct H end; split; reflexivity. Qed.
  Lemma keep_up e b : keep e (upstream2 o F (Psi b) (Psi (negb b))).
  Proof.
    unfold upstream2. apply keep_app; [apply (keep_flux2 e b GC); cbn; auto|]. apply keep_app; [apply keep_x; reflexivity|].
    apply keep_sum. cbn; auto.
  Qed.
  Lemma keep_fct e b c : keep e (fct_adjust2 o F (Psi b) (Cor c)).
  Proof.
    unfold fct_adjust2. destruct (fct o); [|apply keep_nil].
    assert (Hc : In (Cor c) vecs) by (destruct c; cbn; auto 10).
    apply keep_app; [change [MXVA (Cor c) true; MXVN (Cor c) 0] with ([MXVA (Cor c) true] ++ [MXVN (Cor c) 0]); apply keep_app; apply keep_x; reflexivity|].
    apply keep_app; [destruct (iga o); [apply keep_nil|apply (keep_flux2 e b (Cor c)); auto]|]. cbv zeta.
    apply keep_app; [|apply keep_app; [destruct (iga o); [apply keep_nil|apply keep_bar]|]].
    - assert (Hf : In (if iga o then Cor c else Flux) vecs) by (destruct (iga o); [exact Hc|cbn; auto]).
      apply keep_do; [nox|]. intros S g H. cbn [ess flat_map app at2 t_arr t_exp ln_prog fold_left].
      apply sym_bdn; auto. apply sym_bup; auto.
    - apply keep_do; [nox|]. intros S g H. cbn [ess flat_map app at2 t_arr t_exp ln_prog fold_left].
      apply sym_mono; [exact OK|exact Hc|cbn; auto|]. apply sym_mono; [exact OK|exact Hc|cbn; auto|exact H].
  Qed.
  Lemma keep_corr e b u c last : In u vecs -> keep e (corrective2 o F (Psi b) (Psi (negb b)) u (Cor c) last).
  Proof.
    intros Hu. unfold corrective2. apply keep_app.
    - apply keep_do; [nox|]. intros S g H. cbn [ess flat_map app at2 t_arr t_exp ln_prog fold_left].
      apply sym_anti; [exact OK|exact Hu|cbn; auto|]. apply sym_anti; [exact OK|exact Hu|cbn; auto|exact H].
    - apply keep_app; [destruct (div3dt o); [apply keep_bar|apply keep_nil]|].
      apply keep_app; [destruct (negb (fct o) && negb last); [apply keep_app; [apply keep_x; reflexivity|destruct (dfl o); [apply keep_x; reflexivity|apply keep_nil]]|apply keep_nil]|].
      apply keep_app; [apply keep_fct|]. cbv zeta.
      set (v := if fct o then Mono else Cor c).
      assert (Hv : In v [GC; Flux; Mono; Cor true; Cor false]) by (unfold v; destruct (fct o), c; cbn; auto 10).
      assert (Hv' : In v vecs) by (unfold v; destruct (fct o), c; cbn; auto 10).
      destruct (iga o).
      + apply keep_app; [apply keep_x; apply (proj1 (vec_par v Hv'))|]. apply keep_sum. exact Hv.
      + apply keep_app; [apply (keep_flux2 e b v); exact Hv'|]. apply keep_app; [apply keep_x; reflexivity|]. apply keep_sum. cbn; auto.
  Qed.
  Lemma keep_bars e le : keep e (cyc_bars le).
  Proof. destruct le; cbn [cyc_bars]; [|apply keep_nil || apply keep_bar]; first [apply keep_bar | apply keep_nil | (apply (keep_app e [MBar] [MBar]); apply keep_bar)]. Qed.
  Lemma lev_S' b j : lev b (S j) = negb (lev b j).
  Proof. apply lev_S. Qed.
  Lemma keep_passes e nit le b more : forall j, keep e (passes2 o F nit le b j more).
  Proof.
    induction more as [|k IH]; intros j; [apply keep_nil|]. cbn [passes2].
    apply keep_app; [apply keep_bars|]. apply keep_app; [apply keep_x; reflexivity|]. apply keep_app; [|apply IH].
    rewrite lev_S'. unfold GC_corr. apply keep_corr. unfold GC_unco. destruct (Nat.eqb j 1); [cbn; auto|]. unfold GC_corr; match goal with |- context [Nat.odd ?q] => destruct (Nat.odd q) end; cbn; auto 10.
  Qed.
  Lemma keep_body e nit k ex le b : keep e (body2 o F nit k ex le b).
  Proof.
    unfold body2. apply keep_app; [apply keep_scale|]. apply keep_app; [apply keep_x; reflexivity|]. apply keep_app; [apply keep_init|].
    apply keep_app; [rewrite (lev_S' b 0); replace (lev b 0) with b by (destruct b; reflexivity); apply keep_up|].
    apply keep_app; [apply keep_passes|]. apply keep_app; [destruct le; [apply keep_nil|apply keep_bar]|]. apply keep_app; [apply keep_bars|apply keep_scale].
  Qed.
  Lemma keep_ante e : keep e (ante2 o).
  Proof.
    unfold ante2. apply keep_app; [apply (keep_app e [MBar] [MXVA GC false]); [apply keep_bar|apply keep_x; reflexivity]|].
    apply keep_app; [destruct (nug o); [apply keep_x; reflexivity|apply keep_nil]|]. apply keep_app; [apply keep_x; reflexivity|].
    apply keep_app; [|apply keep_bar]. destruct (div3dt o || div3 o); [|apply keep_nil].
    match goal with |- keep e (?a :: ?b :: ?c :: ?d :: ?x :: ?y :: ?z :: [?w]) =>
      apply (keep_app e [a; b; c; d] ([x] ++ [y] ++ [z] ++ [w])) end.
    - apply keep_do; [nox|]. intros S g H. cbn [ess flat_map app at2 t_arr t_exp ln_prog fold_left].
      apply (sym_zero _ _ S NdttGC); [cbn; auto 10|cbn; auto|]. apply (sym_zero _ _ S NdttGC); [cbn; auto 10|cbn; auto|].
      apply (sym_zero _ _ S NdtGC); [cbn; auto 10|cbn; auto|]. apply (sym_zero _ _ S NdtGC); [cbn; auto 10|cbn; auto|]. exact H.
    - repeat apply keep_app; apply keep_x; reflexivity.
  Qed.

  (** *** Whole runs *)
  Definition keeps (l : list (nat * list minstr)) : Prop := Forall (fun ep => keep (fst ep) (snd ep)) l.
  Lemma keeps_eqs k es : forall lv, keeps (eqs_macro2 r k es lv).
  Proof. induction es as [|e es IH]; intros lv; [constructor|]. cbn [eqs_macro2]. constructor; [apply keep_body|apply IH]. Qed.
  Lemma keeps_steps nt : forall ts lv, keeps (steps_macro2 r nt ts lv).
  Proof.
    induction nt as [|k IH]; intros ts lv; [constructor|]. cbn [steps_macro2]. constructor; [apply keep_bar|].
    apply Forall_app. split; [apply keeps_eqs|apply IH].
  Qed.
  Lemma keeps_run nt : keeps (run_macro2 r nt).
  Proof.
    unfold run_macro2. constructor; [apply keep_ante|]. apply Forall_app. split; [apply keeps_steps|]. constructor; [apply keep_bar|constructor].
  Qed.
  Definition imref (l : list (nat * list minstr)) (f : mem) : mem := rruns2 AR (fun e s => lat_do AR e s) (imx AR r) l f.
  Lemma imref_ext l : forall f f' : mem, (forall x, f x = f' x) -> forall x, imref l f x = imref l f' x.
  Proof. induction l as [|[e p] l IH]; intros f f' H; [exact H|]. apply IH. cbn [fst snd]. apply rrun_ext. exact H. Qed.
  Lemma imref_lat l : keeps l -> forall f, symM f -> (forall x, imref l f x = lat_progs AR l f x) /\ symM (lat_progs AR l f).
  Proof.
    induction 1 as [|[e p] l K KS IH]; intros f HM; [split; auto|]. cbn [fst snd] in K. destruct (K f HM) as [E M].
    destruct (IH _ M) as [E1 M1]. split; [|exact M1]. intros x. cbn [imref rruns2 lat_progs fold_left fst snd].
    change (imref l (rrun e p f) x = lat_progs AR l (lat_prog AR e p f) x). rewrite (imref_ext l _ _ E). apply E1.
  Qed.
End Img.
