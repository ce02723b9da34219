(** Boussinesq solvers: consequences for runs. *)
From Coq Require Import ZArith List Bool Reals Lra FunctionalExtensionality Lia.
From Verif Require Import Stencil ModelVip ModelStress ModelBouss ProofsBouss SpecStress SpecBouss.
Import ListNotations.
Local Open Scope R_scope.

Lemma step_w nd k i : step_in (wdim nd) k i = step (match nd with two => 1%nat | three => 2%nat end) k i.
Proof. destruct i as [[x y] z], nd; unfold step_in, iadd, step; cbn; rewrite ?Z.add_0_r; reflexivity. Qed.

Lemma profile_eq c : dtht_e (c_nd c) (c_dz c) (c_e c) = profile c.
Proof. extensionality i. unfold dtht_e, profile. now rewrite !step_w. Qed.
Lemma smooth_eq c : filtered (c_nd c) (c_filter c) = smooth (phys_of c).
Proof.
  unfold filtered, phys_of; cbn [smooth]. destruct (c_filter c); [|reflexivity].
  extensionality f; extensionality i. unfold filter. rewrite !step_w. field.
Qed.
Lemma phys_eq c : ProofsBouss.phys_of (c_nd c) (c_ab c) (c_dz c) (c_g c) (c_T c) (c_e c) (c_abs c) (c_coeff c) (c_relax c) (c_filter c) = phys_of c.
Proof. unfold ProofsBouss.phys_of. rewrite profile_eq, smooth_eq. unfold phys_of, wd. reflexivity. Qed.
Lemma rate_eq c : ProofsBouss.rate (c_impl c) (c_nd c) (c_ab c) (c_dz c) (c_g c) (c_T c) (c_e c) (c_abs c) (c_coeff c) (c_relax c) (c_filter c) = rate c.
Proof. unfold ProofsBouss.rate, rate. rewrite phys_eq. reflexivity. Qed.

Lemma heating_eq c n u : hfx (after c n u) = heating c n u.
Proof.
  unfold heating. destruct n as [|n].
  - unfold after, run, ante_loop, update_rhs, start; cbn. destruct (c_sgs c); reflexivity.
  - unfold after. cbn [run]. fold (after c n u). unfold ModelBouss.step, post_step, tht_fnlz, prs_fnlz, advect, ante_step, expl_calc.
    destruct (c_impl c); cbn; destruct (c_sgs c) eqn:E; cbn; try reflexivity.
    all: change (hfx (after c n u) = c_heat c); induction n as [|n IH];
      [unfold after, run, ante_loop, update_rhs, start; cbn; now rewrite E
      |unfold after; cbn [run]; fold (after c n u); unfold ModelBouss.step, post_step, tht_fnlz, prs_fnlz, advect, ante_step, expl_calc;
       destruct (c_impl c); cbn; rewrite E; cbn; exact IH].
Qed.

Theorem every_step c n u : solvable c ->
  trapezoidal (c_dt c) (c_adv c n) (state c n u) (state c (S n) u)
    (rate c (heating c n u) (p_force c n u) (state c n u))
    (rate c (heating c (S n) u) (p_force c (S n) u) (state c (S n) u)) (ahead c n u).
Proof.
  intros (Hdt & HT & Ha & Hn & Hs).
  pose proof (run_trapezoidal (c_impl c) (c_nd c) (c_ab c) (c_dt c) (c_dz c) (c_g c) (c_T c) (c_e c) (c_abs c) (c_coeff c) (c_relax c)
      (c_filter c) (c_adv c) (c_prs c) (c_ini c) (c_sgs c) (c_heat c) Hdt HT Ha) as H.
  assert (H1 : forall i, c_ab c = Impl -> 1 + c_dt c / 2 * c_coeff c i <> 0).
  { intros i E. specialize (Hn i). unfold phys_of in Hn; cbn in Hn. now rewrite E in Hn. }
  specialize (H H1). rewrite profile_eq in H.
  assert (H2 : forall i, c_impl c = true -> (1 + c_dt c / 2 * match c_ab c with Impl => c_coeff c i | _ => 0 end) *
      (1 + c_dt c / 2 * c_abs c i) + c_dt c / 2 * (c_dt c / 2) * (c_g c / c_T c) * profile c i <> 0).
  { intros i E. specialize (Hs i E). unfold phys_of in Hs; cbn in Hs. destruct (c_ab c); exact Hs. }
  specialize (H H2 n u). clear H1 H2. rewrite rate_eq in H.
  change (run _ _ _ _ _ _ _ _ _ _ _ _ _ _ _ _ _ n u) with (after c n u) in H.
  change (run _ _ _ _ _ _ _ _ _ _ _ _ _ _ _ _ _ (S n) u) with (after c (S n) u) in H.
  rewrite !heating_eq in H.
  replace (ahead c n u) with (ProofsBouss.ahead (c_ab c) (c_coeff c) (c_relax c) (c_sgs c) n (after c n u)); [exact H|].
  unfold ProofsBouss.ahead, ahead. f_equal. extensionality d; extensionality i. unfold state, flow_of; cbn [fst snd].
  f_equal. destruct (c_sgs c); [field | reflexivity].
Qed.

(** ** Energy *)

Lemma soc a L f : sum_over (a :: L) f = f a + sum_over L f.
Proof. reflexivity. Qed.
Lemma sum_over_ext L f h : (forall i, In i L -> f i = h i) -> sum_over L f = sum_over L h.
Proof. induction L as [|a L IH]; intros H; [reflexivity|]. rewrite !soc, (H a) by auto with datatypes. f_equal. apply IH. auto with datatypes. Qed.
Lemma sum_over_lin L a b f h : sum_over L (fun i => a * f i + b * h i) = a * sum_over L f + b * sum_over L h.
Proof. induction L as [|x L IH]; [cbn; ring|]. rewrite !soc, IH. ring. Qed.
Lemma sum_over_le L f h : (forall i, In i L -> f i <= h i) -> sum_over L f <= sum_over L h.
Proof.
  induction L as [|a L IH]; intros H; [cbn; lra|]. rewrite !soc.
  assert (f a <= h a) by (apply H; auto with datatypes). assert (sum_over L f <= sum_over L h) by (apply IH; auto with datatypes). lra.
Qed.

Section Energy.
  Variables (c : case) (u : flow).
  Hypothesis Hs : solvable c.
  Hypothesis Hi : c_impl c = true.
  Hypothesis Hx : c_ab c <> Expl.
  Hypothesis Hsg : c_sgs c = None.
  Hypothesis Hh : forall i, c_heat c i = 0.
  Hypothesis Ha : forall n s, c_adv c n s = s.
  Hypothesis Hr : forall d i, c_relax c d i = 0.

  Lemma energy_balance n i : profile c i <> 0 ->
    energy (ndn (c_nd c)) (phys_of c) (state c (S n) u) i =
    energy (ndn (c_nd c)) (phys_of c) (state c n u) i - c_dt c / 2 * (drain c u n i + p_work c u n i).
  Proof.
    intros Hp. pose proof (every_step c n u Hs) as H. unfold trapezoidal in H. rewrite Ha in H.
    unfold heating in H. rewrite Hsg in H.
    assert (HT := f_equal (fun s => snd s i) H). assert (HV := fun d => f_equal (fun s => fst s d i) H). clear H. cbv beta in HT, HV.
    unfold rate in HT, HV. rewrite Hi in HT, HV. unfold rate_dev, plus, ahead in HT, HV. cbn [fst snd] in HT, HV.
    rewrite Hsg in HV. rewrite Hh in HT.
    assert (HV' : forall d, fst (state c (S n) u) d i = fst (state c n u) d i +
       c_dt c / 2 * ((if Nat.eqb d (up (phys_of c)) then gT (phys_of c) * (snd (state c n u) i + snd (state c (S n) u) i) else 0)
       - nu (phys_of c) i * (fst (state c n u) d i + fst (state c (S n) u) d i) - (p_force c n u d i + p_force c (S n) u d i))).
    { intros d. etransitivity; [apply HV|]. unfold phys_of; cbn [rel]. rewrite Hr.
      destruct (c_ab c); try congruence; destruct (Nat.eqb _ _); ring. }
    assert (HT' : snd (state c (S n) u) i = snd (state c n u) i + c_dt c / 2 *
       (- (fst (state c n u) (up (phys_of c)) i + fst (state c (S n) u) (up (phys_of c)) i) * profile c i
        - c_abs c i * (snd (state c n u) i + snd (state c (S n) u) i))).
    { etransitivity; [exact HT|]. unfold phys_of; cbn [damb al]. ring. }
    clear HV HT. unfold energy, drain, p_work. unfold phys_of in *; cbn [up gT damb nu al] in *.
    set (nu0 := match c_ab c with Impl => c_coeff c | _ => fun _ => 0 end i) in *. clearbody nu0.
    set (x := state c n u) in *. set (y := state c (S n) u) in *. clearbody x y.
    set (p := p_force c n u) in *. set (q := p_force c (S n) u) in *. clearbody p q. clear Hs Ha.
    set (t := snd x i) in *. set (t' := snd y i) in *. clearbody t t'.
    set (pr := profile c i) in *. clearbody pr. set (gg := c_g c / c_T c) in *. clearbody gg. set (a := c_abs c i) in *. clearbody a. set (hd := c_dt c / 2) in *. clearbody hd.
    destruct (c_nd c); cbn [axes ndn] in *;
    assert (V0 := HV' 0%nat); assert (V1 := HV' 1%nat); assert (V2 := HV' 2%nat); clear HV'; cbn [Nat.eqb] in *;
    set (x0 := fst x 0%nat i) in *; set (y0 := fst y 0%nat i) in *; set (x1 := fst x 1%nat i) in *; set (y1 := fst y 1%nat i) in *;
    set (x2 := fst x 2%nat i) in *; set (y2 := fst y 2%nat i) in *; clearbody x0 y0 x1 y1 x2 y2;
    assert (K : forall e0 e1, e1 * e1 = e0 * e0 + (e1 - e0) * (e0 + e1)) by (intros; ring).
    - assert (E0 : y0 - x0 = hd * (0 - nu0 * (x0 + y0) - (p 0%nat i + q 0%nat i))) by lra.
      assert (E1 : y1 - x1 = hd * (gg * (t + t') - nu0 * (x1 + y1) - (p 1%nat i + q 1%nat i))) by lra.
      assert (ET : t' - t = hd * (- (x1 + y1) * pr - a * (t + t'))) by lra.
      rewrite (K x0 y0), (K x1 y1), (K t t'), E0, E1, ET. field. exact Hp.
    - assert (E0 : y0 - x0 = hd * (0 - nu0 * (x0 + y0) - (p 0%nat i + q 0%nat i))) by lra.
      assert (E1 : y1 - x1 = hd * (0 - nu0 * (x1 + y1) - (p 1%nat i + q 1%nat i))) by lra.
      assert (E2 : y2 - x2 = hd * (gg * (t + t') - nu0 * (x2 + y2) - (p 2%nat i + q 2%nat i))) by lra.
      assert (ET : t' - t = hd * (- (x2 + y2) * pr - a * (t + t'))) by lra.
      rewrite (K x0 y0), (K x1 y1), (K x2 y2), (K t t'), E0, E1, E2, ET. field. exact Hp.
  Qed.

  Variable L : list idx.
  Hypothesis Hp : forall i, In i L -> 0 < profile c i.

  Lemma energy_sum n : sum_over L (p_work c u n) = 0 ->
    sum_over L (energy (ndn (c_nd c)) (phys_of c) (state c (S n) u)) =
    sum_over L (energy (ndn (c_nd c)) (phys_of c) (state c n u)) - c_dt c / 2 * sum_over L (drain c u n).
  Proof.
    intros Hw.
    rewrite (sum_over_ext L _ (fun i => 1 * energy (ndn (c_nd c)) (phys_of c) (state c n u) i + - (c_dt c / 2) * (1 * drain c u n i + 1 * p_work c u n i))).
    2:{ intros i I. rewrite energy_balance; [ring|]. specialize (Hp i I). lra. }
    rewrite sum_over_lin, sum_over_lin, Hw. ring.
  Qed.

  Theorem energy_never_grows n :
    0 < c_dt c -> 0 < c_g c / c_T c -> (forall i, In i L -> 0 <= c_abs c i) -> (forall i, In i L -> 0 <= c_coeff c i) ->
    (forall m, (m < n)%nat -> sum_over L (p_work c u m) = 0) ->
    sum_over L (energy (ndn (c_nd c)) (phys_of c) (state c n u)) <= sum_over L (energy (ndn (c_nd c)) (phys_of c) (state c 0 u)).
  Proof.
    intros Hd Hg H1 H2. induction n as [|n IH]; intros Hw; [lra|]. rewrite energy_sum by (apply Hw; lia).
    assert (IH' := IH (fun m h => Hw m (Nat.lt_lt_succ_r _ _ h))).
    assert (D : 0 <= sum_over L (drain c u n)).
    { apply (Rle_trans _ (sum_over L (fun i => 0 * 0 + 0 * 0))); [rewrite sum_over_lin; lra|]. apply sum_over_le. intros i I. unfold drain.
      specialize (Hp i I). specialize (H1 i I). specialize (H2 i I).
      assert (N : 0 <= nu (phys_of c) i) by (unfold phys_of; cbn [nu]; destruct (c_ab c); lra).
      assert (Q : forall z, 0 <= nu (phys_of c) i * z ^ 2) by (intros; apply Rmult_le_pos; [exact N | apply pow2_ge_0]).
      assert (T : 0 <= gT (phys_of c) / profile c i * (c_abs c i * (snd (state c n u) i + snd (state c (S n) u) i) ^ 2)).
      { apply Rmult_le_pos; [|apply Rmult_le_pos; [exact H1 | apply pow2_ge_0]].
        apply Rlt_le, Rdiv_lt_0_compat; [exact Hg | exact Hp]. }
      destruct (c_nd c); cbn [ndn axes]; repeat match goal with |- context [nu ?P i * ?z ^ 2] => lazymatch goal with H : 0 <= nu P i * z ^ 2 |- _ => fail | _ => pose proof (Q z) end end; lra. }
    assert (0 <= c_dt c / 2 * sum_over L (drain c u n)) by (apply Rmult_le_pos; lra). lra.
  Qed.

  Theorem energy_kept n :
    (forall i, In i L -> c_abs c i = 0) -> (forall i, In i L -> c_coeff c i = 0) ->
    (forall m, (m < n)%nat -> sum_over L (p_work c u m) = 0) ->
    sum_over L (energy (ndn (c_nd c)) (phys_of c) (state c n u)) = sum_over L (energy (ndn (c_nd c)) (phys_of c) (state c 0 u)).
  Proof.
    intros H1 H2. induction n as [|n IH]; intros Hw; [reflexivity|]. rewrite energy_sum by (apply Hw; lia).
    rewrite (IH (fun m h => Hw m (Nat.lt_lt_succ_r _ _ h))).
    rewrite (sum_over_ext L (drain c u n) (fun i => 0 * 0 + 0 * 0)); [rewrite sum_over_lin; ring|].
    intros i I. unfold drain. rewrite (H1 i I).
    assert (N : nu (phys_of c) i = 0) by (unfold phys_of; cbn [nu]; destruct (c_ab c); auto).
    rewrite N. destruct (c_nd c); cbn; ring.
  Qed.
End Energy.
