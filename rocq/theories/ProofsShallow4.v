(** The shallow-water solver: concrete cases; dry cells. *)
From Coq Require Import ZArith List Bool Lia ZifyBool Reals Lra.
From Verif Require Import ModelRun Lang ProofsLang Stencil FormCommon Form2D Solver1D Solver2D Fun1D FunN Arith SpecReal SpecSym2
  ProofsReal1D ProofsAnti1D ProofsNum1D ProofsSign1D ProofsSym1D ProofsFunN ProofsPerN ProofsNumN ProofsSymN ProofsReal2D ProofsAnti2D
  ProofsNum2D ProofsMirror2D ProofsFun2D ProofsResults2D ProofsSymRun2D ProofsLinN ProofsLin2D ModelVip ModelShallow SpecShallow
  ProofsShallow ProofsShallow2 ProofsShallow3.
Import ListNotations.
Local Open Scope R_scope.

(** fields that depend on the first index modulo four *)
Definition tab (a0 a1 a2 a3 : R) (x : idx) : R :=
  let r := (fst (fst x) mod 4)%Z in if (r =? 0)%Z then a0 else if (r =? 1)%Z then a1 else if (r =? 2)%Z then a2 else a3.
Lemma tab_next a0 a1 a2 a3 x : tab a0 a1 a2 a3 (nx DX x) = tab a1 a2 a3 a0 x.
Proof.
  destruct x as [[i j] k]. unfold tab, nx, iadd, uv. cbn [fst snd]. pose proof (Z.mod_pos_bound i 4 ltac:(lia)).
  assert (((i + 1) mod 4 = i mod 4 + 1 /\ i mod 4 < 3 \/ (i + 1) mod 4 = 0 /\ i mod 4 = 3)%Z) by (Z.div_mod_to_equations; lia).
  repeat match goal with |- context [(?a =? ?b)%Z] => destruct (Z.eqb_spec a b) end; auto; lia.
Qed.
Lemma tab_prev a0 a1 a2 a3 x : tab a0 a1 a2 a3 (pv DX x) = tab a3 a0 a1 a2 x.
Proof. rewrite <- (tab_next a3 a0 a1 a2 (pv DX x)), nx_pv. reflexivity. Qed.
Lemma tab_y a0 a1 a2 a3 x : tab a0 a1 a2 a3 (nx DY x) = tab a0 a1 a2 a3 x /\ tab a0 a1 a2 a3 (pv DY x) = tab a0 a1 a2 a3 x.
Proof. destruct x as [[i j] k]. unfold tab, nx, pv, iadd, uv, un. cbn [fst snd]. rewrite Z.add_0_r. auto. Qed.
Lemma tab_per a0 a1 a2 a3 ny : same_after (box 4 ny) (tab a0 a1 a2 a3).
Proof.
  intros v [<-|[<-|[]]] [[i j] k]; unfold tab, iadd; cbn [fst snd]; [|rewrite Z.add_0_r; reflexivity].
  replace ((i + 4) mod 4)%Z with (i mod 4)%Z; [reflexivity|]. Z.div_mod_to_equations; lia.
Qed.
Lemma tab_all (P : R -> Prop) a0 a1 a2 a3 x : P a0 -> P a1 -> P a2 -> P a3 -> P (tab a0 a1 a2 a3 x).
Proof. intros. unfold tab. repeat match goal with |- context [(?a =? ?b)%Z] => destruct (a =? b)%Z end; auto. Qed.

Lemma always_runs p : w_veps p <> 0 -> forall n s, exists t, sw_run p n s t.
Proof. intros H n s. induction n as [|n (t & R)]; [exists s; constructor|]. exists (sw_step p t). constructor; auto. Qed.

(** upstream transport in closed form *)
Lemma advect_one p C ts psi x : w_nit p = 1%nat -> nug (w_o p) = false ->
  advect p C ts 0 psi x = psi x - (donN psi C DX x - donN psi C DX (pv DX x) + (donN psi C DY x - donN psi C DY (pv DY x))).
Proof.
  intros H N. unfold advect. rewrite (passes_one p ts H). unfold stepN. cbn [Nat.sub passesN]. rewrite scaleN_R.
  assert (S1 : sc (- 0) = 1) by reflexivity. rewrite S1. unfold upN. rewrite (cl_sum _ _ _ _ _ (closed2 _ _ _ _ _)).
  unfold gN. rewrite N.
  rewrite (divN_ext xy _ (donN psi C)).
  - unfold divN. cbn [dsum]. change (scaleN (arithR (w_eps p) (w_tiny p)) 0 psi x) with (psi x). cbn [fixed_by nC]. toR; field.
  - intros d z Hd. rewrite (cl_flux _ _ _ _ _ (closed2 _ _ _ _ _)) by auto. reflexivity.
Qed.

Definition plain : fl := mkfl false false false false false false false false false false false false false.
Definition pool (g e : R) : shallow :=
  {| w_eps := 1; w_tiny := 1; w_o := plain; w_sp := exact; w_tp := noextrp; w_nit := 1; w_freq := 0; w_scq := fun _ => 0%Z; w_sch := 0%Z;
     w_dt := 1; w_di := fun _ => 1; w_grav := g; w_veps := e; w_G := fun _ => 1 |}.

(** ** Water that stops on becoming shallow is thrown back *)
Definition jet (d : dim) : lattice := match d with DX => tab 2 0 0 0 | _ => fun _ => 0 end.
Definition blob : lattice := tab 2 0 0 0.
Notation dry := (pool 0 1).
Definition first : water := sw_step dry (sw_start dry jet blob).
Definition second : water := sw_step dry first.
Ltac num := unfold Rmax, Rmin; repeat (destruct Rle_dec; try lra).
Lemma vel0 e h : vel_of e (Some h) 0 = 0.
Proof. unfold vel_of, Rdiv. rewrite Rmult_0_l. destruct Req_EM_T; auto; destruct Rlt_dec; reflexivity. Qed.
Lemma ext_y0 s x : q_ s DY x = 0 -> stash_ s DY x = 0 -> extrapolated dry s DY x = 0.
Proof. intros H1 H2. unfold extrapolated, velocity. rewrite H1, H2, vel0. ring. Qed.
Lemma adv_y0 s : (forall x, q_ s DY x = 0) -> (forall x, stash_ s DY x = 0) -> forall x, advector dry s DY x = 0.
Proof. intros H1 H2 x. unfold advector, intrp. cbn [dry w_o plain nug]. rewrite !ext_y0 by auto. unfold Rdiv. ring. Qed.
Lemma no_rhs h d x : update_rhs dry h d x = 0.
Proof. unfold update_rhs. cbn [dry w_grav]. ring. Qed.
Lemma vel_blob e q h : e <> 0 -> vel_of e (Some h) q = if Rlt_dec e h then q / h else 0.
Proof. intros. unfold vel_of. destruct Req_EM_T; [contradiction|reflexivity]. Qed.
Lemma tab_case x : exists r, (forall a0 a1 a2 a3, tab a0 a1 a2 a3 x = match r with 0%nat => a0 | 1%nat => a1 | 2%nat => a2 | _ => a3 end).
Proof.
  unfold tab. exists (if (fst (fst x) mod 4 =? 0)%Z then 0%nat else if (fst (fst x) mod 4 =? 1)%Z then 1%nat else if (fst (fst x) mod 4 =? 2)%Z then 2%nat else 3%nat).
  intros. repeat match goal with |- context [(?a =? ?b)%Z] => destruct (a =? b)%Z end; reflexivity.
Qed.
Lemma adv1 x : advector dry (sw_start dry jet blob) DX x = tab (1 / 2) 0 0 (1 / 2) x.
Proof.
  unfold advector, intrp. cbn [dry w_o plain nug w_dt w_di]. unfold extrapolated, velocity. cbn [sw_start q_ h_ stash_ dts_ dry w_veps jet]. unfold blob.
  rewrite step_nx, !tab_next. destruct (Rlt_dec 0 0); [lra|]. rewrite !vel_blob by lra.
  destruct (tab_case x) as [[|[|[|r]]] E]; rewrite !E; repeat (destruct Rlt_dec; try lra).
Qed.
Lemma one1 psi x : (forall y, psi y = tab 2 0 0 0 y) ->
  advect dry (advector dry (sw_start dry jet blob)) 0 0 psi x = tab 1 1 0 0 x.
Proof.
  intros H. rewrite advect_one by reflexivity. unfold donN. rewrite !adv1, !adv_y0 by reflexivity. rewrite !H, nx_pv, !tab_prev, !tab_next.
  destruct (tab_case x) as [[|[|[|r]]] E]; rewrite !E; num.
Qed.
Lemma h1 x : h_ first x = tab 1 1 0 0 x.
Proof. apply one1. reflexivity. Qed.
Lemma q1x x : q_ first DX x = tab 1 1 0 0 x.
Proof.
  unfold first. cbn [sw_step q_]. unfold apply_rhs at 1. rewrite no_rhs. change (w_scq dry DX) with 0%Z. cbn [sw_start step_].
  rewrite one1; [ring|]. intros y. unfold apply_rhs. cbn [rhs_ q_ sw_start]. rewrite no_rhs. cbn [jet]. ring.
Qed.
Lemma q1y x : q_ first DY x = 0.
Proof.
  unfold first. cbn [sw_step q_]. unfold apply_rhs at 1. rewrite no_rhs. rewrite zero_step; auto; [ring|].
  intros y. unfold apply_rhs. cbn [rhs_ q_ sw_start]. rewrite no_rhs. cbn [jet]. ring.
Qed.
Lemma s1x x : stash_ first DX x = tab 1 0 0 0 x.
Proof.
  unfold first. cbn [sw_step stash_ sw_start q_ h_ jet]. unfold velocity, blob. cbn [dry w_veps]. rewrite !vel_blob by lra.
  destruct (tab_case x) as [[|[|[|r]]] E]; rewrite !E; repeat (destruct Rlt_dec; try lra).
Qed.
Lemma s1y x : stash_ first DY x = 0.
Proof. unfold first. cbn [sw_step stash_ sw_start q_ h_ jet]. unfold velocity. apply vel0. Qed.
Lemma adv2 x : advector dry first DX x = tab (- (1 / 4)) 0 0 (- (1 / 4)) x.
Proof.
  unfold advector, intrp. cbn [dry w_o plain nug w_dt w_di].
  assert (E : forall y, extrapolated dry first DX y = tab (- (1 / 2)) 0 0 0 y).
  { intros y. unfold extrapolated, velocity. rewrite h1, q1x, s1x. change (dts_ first) with 1. cbn [dry w_veps w_dt].
    destruct (Rlt_dec 0 1); [|lra]. rewrite !vel_blob by lra.
    destruct (tab_case y) as [[|[|[|q]]] E]; rewrite !E; repeat (destruct Rlt_dec; try lra). }
  rewrite step_nx, !E, tab_next. destruct (tab_case x) as [[|[|[|q]]] E']; rewrite !E'; lra.
Qed.
Lemma h2 x : h_ second x = tab 1 (3 / 4) 0 (1 / 4) x.
Proof.
  change (advect dry (advector dry first) (step_ first) 0 (h_ first) x = tab 1 (3 / 4) 0 (1 / 4) x).
  rewrite advect_one by reflexivity. unfold donN. rewrite !adv2, !(adv_y0 first q1y s1y), !h1, nx_pv, !tab_prev, !tab_next.
  destruct (tab_case x) as [[|[|[|r]]] E]; rewrite !E; num.
Qed.
Lemma run1 : sw_run dry 1 (sw_start dry jet blob) first.
Proof. constructor; [constructor|]. cbn. lra. Qed.
Lemma run2 : sw_run dry 2 (sw_start dry jet blob) second.
Proof. constructor; [apply run1|]. cbn. lra. Qed.

(** ** A case for the other theorems: waves in a pool *)
Notation waves := (pool 1 (1 / 2)).
Definition drift (d : dim) : lattice := match d with DX => tab (1 / 4) 0 0 0 | _ => fun _ => 0 end.
Definition bump : lattice := tab 2 1 1 1.
Lemma waves_run n : exists t, sw_run waves n (sw_start waves drift bump) t.
Proof. apply always_runs. cbn. lra. Qed.
Lemma waves_blind : second_order waves /\ sign_blind waves /\ unit_blind waves /\ keeps_sign waves.
Proof. repeat split; left; reflexivity. Qed.
Lemma waves_G x : G_of waves x = 1. Proof. reflexivity. Qed.
Lemma waves_start : (forall d, same_after (box 4 5) (drift d)) /\ same_after (box 4 5) bump /\ same_after [(0, 1, 0)%Z] bump /\
  (forall d, same_after [(0, 1, 0)%Z] (drift d)) /\ forall x, drift DY x = 0.
Proof.
  assert (Y : forall a b c d, same_after [(0, 1, 0)%Z] (tab a b c d)).
  { intros a b c d v [<-|[]] x. apply (tab_y a b c d x). }
  split; [|split; [apply tab_per|split; [apply Y|split]]].
  - intros []; cbn [drift]; [apply tab_per|intros v _ x; reflexivity|intros v _ x; reflexivity].
  - intros []; cbn [drift]; [apply Y|intros v _ x; reflexivity|intros v _ x; reflexivity].
  - reflexivity.
Qed.
(** it does move: depth and momentum after one step *)
Lemma waves_adv x : advector waves (sw_start waves drift bump) DX x = tab (1 / 16) 0 0 (1 / 16) x.
Proof.
  unfold advector, intrp. cbn [pool w_o plain nug w_dt w_di]. unfold extrapolated, velocity. cbn [sw_start q_ h_ stash_ dts_ pool w_veps drift]. unfold bump.
  rewrite step_nx, !tab_next. destruct (Rlt_dec 0 0); [lra|]. rewrite !vel_blob by lra.
  destruct (tab_case x) as [[|[|[|r]]] E]; rewrite !E; repeat (destruct Rlt_dec; try lra).
Qed.
Lemma waves_adv_y x : advector waves (sw_start waves drift bump) DY x = 0.
Proof.
  unfold advector, intrp, extrapolated, velocity. cbn [pool w_o plain nug w_dt w_di sw_start q_ h_ stash_ dts_ w_veps drift]. rewrite !vel0. unfold Rdiv. ring.
Qed.
Lemma waves_depth x : h_ (sw_step waves (sw_start waves drift bump)) x = tab (31 / 16) (9 / 8) 1 (15 / 16) x.
Proof.
  change (advect waves (advector waves (sw_start waves drift bump)) 0 0 bump x = tab (31 / 16) (9 / 8) 1 (15 / 16) x).
  rewrite advect_one by reflexivity. unfold donN. rewrite !waves_adv, !waves_adv_y. unfold bump. rewrite nx_pv, !tab_prev, !tab_next.
  destruct (tab_case x) as [[|[|[|r]]] E]; rewrite !E; num.
Qed.
Lemma waves_outflow x : outflow (advector waves (sw_start waves drift bump)) x <= G_of waves x.
Proof.
  unfold outflow. rewrite !step_pv, !waves_adv, !waves_adv_y, tab_prev, waves_G. destruct (tab_case x) as [[|[|[|r]]] E]; rewrite !E; num.
Qed.

(** the same with two passes *)
Definition waves2 : shallow :=
  {| w_eps := 1; w_tiny := 1; w_o := plain; w_sp := exact; w_tp := noextrp; w_nit := 2; w_freq := 0; w_scq := fun _ => 0%Z; w_sch := 0%Z;
     w_dt := 1; w_di := fun _ => 1; w_grav := 1; w_veps := 1 / 2; w_G := fun _ => 1 |}.
Lemma waves2_basic : basic waves2. Proof. repeat split. right. cbn. lra. Qed.
Lemma waves2_gentle : gentle_flow 1 (advector waves2 (sw_start waves2 drift bump)).
Proof.
  exists (1 / 16), 0. split; [lra|]. intros x.
  change (advector waves2 (sw_start waves2 drift bump)) with (advector waves (sw_start waves drift bump)).
  rewrite waves_adv, waves_adv_y, Rabs_R0. split; [|lra]. apply (tab_all (fun r => Rabs r <= 1 / 16 * 1)); rewrite ?Rabs_R0; try lra; rewrite Rabs_right; lra.
Qed.

Theorem backward : exists p q h s t, w_grav p = 0 /\ keeps_sign p /\ 0 < w_veps p /\
  same_after (box 4 4) (q DX) /\ same_after (box 4 4) h /\
  (forall x, 0 <= h x /\ 0 <= q DX x /\ q DY x = 0) /\
  sw_run p 1 (sw_start p q h) s /\ (forall x, 0 <= h_ s x /\ 0 <= q_ s DX x /\ q_ s DY x = 0) /\
  sw_run p 2 (sw_start p q h) t /\
  (forall j, h_ s (2, j, 0)%Z = 0 /\ h_ s (3, j, 0)%Z = 0 /\ h_ t (3, j, 0)%Z = 1 / 4).
Proof.
  exists dry, jet, blob, first, second. split; [reflexivity|]. split; [left; reflexivity|]. split; [cbn; lra|].
  split; [apply tab_per|]. split; [apply tab_per|]. split.
  { intros x. unfold blob, jet. split; [|split; [|reflexivity]]; apply (tab_all (fun r => 0 <= r)); lra. }
  split; [exact run1|]. split.
  { intros x. rewrite h1, q1x, q1y. split; [|split; [|reflexivity]]; apply (tab_all (fun r => 0 <= r)); lra. }
  split; [exact run2|]. intros j. rewrite !h1, h2. unfold tab. cbn. auto.
Qed.
