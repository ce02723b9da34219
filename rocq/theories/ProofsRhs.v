From Coq Require Import ZArith List Bool Lia FunctionalExtensionality.
From Verif Require Import SpecRun ModelIndex ModelRun ProofsRun Lang ModelRhs SpecRhs.
Import ListNotations.
Local Open Scope Z_scope.

(** ** Invariants of histories of advance() calls *)
Section Inv.
  Context {U : Type}.
  Variables (c : cfg) (h : hooks U).
  Hypothesis NP : forall u, h_panic h u = false.
  Variables (P : U -> Prop) (I : Z -> U -> Prop).
  Hypothesis Hante : forall nt u, P u -> I 0 (h_ante_loop h 0 nt u).
  Hypothesis Hback : forall u, I 0 u -> P u.
  Hypothesis Hstep : forall ts u, 0 <= ts -> I ts u -> I (ts + 1) (snd (one_step c h (ts, u))).

  Lemma iter_inv k : forall ts u, 0 <= ts -> I ts u ->
    let s := iter_steps c h k (ts, u) in I (fst s) (snd s).
  Proof.
    induction k as [|k IH]; intros ts u Ht H; cbn [iter_steps]; [exact H|].
    destruct (one_step c h (ts, u)) as [ts' u'] eqn:E.
    assert (ts' = ts + 1) by (pose proof (one_step_ts c h (ts, u)) as F; rewrite E in F; exact F). subst ts'.
    apply IH; [lia|]. pose proof (Hstep ts u Ht H) as F. rewrite E in F. exact F.
  Qed.

  Lemma advances_inv calls : forall ts u, Forall (fun n => 0 <= n) calls -> 0 <= ts -> ts + total calls <= int_max ->
    (ts = 0 -> P u) -> (0 < ts \/ calls = [] -> I ts u) ->
    exists u', advances c h calls (ts, u) = Some (ts + total calls, u') /\ I (ts + total calls) u'.
  Proof.
    induction calls as [|n calls IH]; intros ts u HF Ht Hr HP HI.
    - cbn. exists u. rewrite Z.add_0_r. split; [reflexivity|]. apply HI. auto.
    - inversion HF; subst. assert (0 <= total calls) by (apply total_nonneg; assumption).
      cbn [advances]. rewrite total_cons in *.
      rewrite solve_nopanic by (try exact NP; unfold int_min, int_max in *; cbn [fst]; lia).
      set (s := ante h (n + fst (ts, u)) (ts, u)).
      assert (Es : s = (ts, snd s)) by (unfold s, ante; cbn [fst snd]; destruct (ts =? 0); reflexivity).
      assert (Hs : I ts (snd s)).
      { unfold s, ante. cbn [fst snd]. destruct (Z.eqb_spec ts 0) as [->|N]; cbn [snd]; [apply Hante; auto|apply HI; lia]. }
      pose proof (iter_inv (Z.to_nat n) ts (snd s) Ht Hs) as K. cbv zeta in K.
      pose proof (iter_steps_ts c h (Z.to_nat n) s) as T. rewrite Es in T. cbn [fst] in T.
      rewrite Es. destruct (iter_steps c h (Z.to_nat n) (ts, snd s)) as [ts' u'] eqn:E. cbn [fst snd] in *.
      subst ts'. replace (ts + Z.of_nat (Z.to_nat n)) with (ts + n) in * by lia.
      destruct (IH (ts + n) u') as (u2 & E2 & I2); auto; try lia.
      + intros Z0. apply Hback. rewrite Z0 in K. exact K.
      + exists u2. replace (ts + (n + total calls)) with (ts + n + total calls) by lia. auto.
  Qed.
End Inv.

Section R.
  Variable ar : arith.
  Notation V := (car ar).
  Variable X : Type.
  Notation st := (fields ar X).
  Variables (c : cfg) (mask : opts_t) (dt half_dt : V).
  Variable adv : Z -> nat -> st -> X -> V.
  Variable user_rhs : V -> bool -> st -> st -> st.
  (** the user's forcing of the equations that have one does not depend on the
      unused arrays of the others *)
  Hypothesis frame : forall d b s r r', (forall e, norhs mask e = false -> r e = r' e) ->
    forall e, norhs mask e = false -> user_rhs d b s r e = user_rhs d b s r' e.

  Notation hk sch := (rhs_hooks ar X sch mask dt half_dt adv user_rhs).
  Definition zero : st := fun _ _ => acst ar (CQ 0 1).
  Definition forced (e : nat) : bool := negb (norhs mask e).
  Notation R d := (fun b s => user_rhs d b s zero).
  Notation ADV := (advect ar X c adv).

  Lemma adv_fold ts l : forall s r,
    fold_left (fun u e => h_adv (hk Trapez) ts e u) l (s, r) =
    (fold_left (fun s e => fun e' => if Nat.eqb e' e then adv ts e s else s e') l s, r).
  Proof. induction l as [|e l IH]; intros; cbn [fold_left]; [reflexivity|]. rewrite <- IH. reflexivity. Qed.

  Lemma step_is sch ts s r :
    one_step c (hk sch) (ts, (s, r)) =
    (ts + 1, let u := rhs_ante_step ar X sch mask dt half_dt user_rhs (s, r) in
             rhs_post_step ar X sch mask dt half_dt user_rhs (ADV ts (fst u), snd u)).
  Proof.
    unfold one_step. cbn [rhs_hooks h_calc_gc h_ante_step h_ante_delayed h_post_step].
    destruct (rhs_ante_step ar X sch mask dt half_dt user_rhs (s, r)) as [s1 r1]. cbn [fst snd].
    pose proof adv_fold as A. cbn [rhs_hooks h_adv] in *. rewrite A, A. unfold advect. rewrite fold_left_app. reflexivity.
  Qed.

  Lemma apply_is d s r r' : (forall e, norhs mask e = false -> r e = r' e) ->
    fst (apply_rhs ar X mask d (s, r)) = plus_forcing ar X forced d s r'.
  Proof.
    intros H. unfold apply_rhs, plus_forcing, forced. cbn [fst]. extensionality e. extensionality x.
    destruct (norhs mask e) eqn:E; cbn [negb]; [reflexivity|]. rewrite H by auto. reflexivity.
  Qed.
  Lemma update_is d b s r e : norhs mask e = false -> snd (update_rhs ar X mask user_rhs d b (s, r)) e = user_rhs d b s zero e.
  Proof.
    intros E. unfold update_rhs. cbn [snd]. apply frame; auto. intros e' E'. rewrite E'. reflexivity.
  Qed.

  (** state and (for the trapezoidal scheme) forcing after [k] steps *)
  Definition after (sch : scheme) (s0 : st) (k : nat) : st :=
    match sch with
    | EulerA => euler_a ar X forced ADV (R dt) dt k s0
    | EulerB => euler_b ar X forced ADV (R dt) dt k s0
    | Trapez => fst (trapez ar X forced ADV (R half_dt) half_dt k s0)
    end.

  Definition inv (sch : scheme) (s0 : st) (ts : Z) (u : st * st) : Prop :=
    0 <= ts /\ fst u = after sch s0 (Z.to_nat ts) /\
    (sch = Trapez -> forall e, norhs mask e = false ->
       snd u e = snd (trapez ar X forced ADV (R half_dt) half_dt (Z.to_nat ts) s0) e).

  Lemma inv_step sch s0 ts u : 0 <= ts -> inv sch s0 ts u -> inv sch s0 (ts + 1) (snd (one_step c (hk sch) (ts, u))).
  Proof.
    intros Ht (_ & Hs & Hr). destruct u as [s r]. rewrite step_is. cbn [fst snd] in *.
    unfold inv. split; [lia|]. replace (Z.to_nat (ts + 1)) with (S (Z.to_nat ts)) by lia.
    destruct sch; cbn [rhs_ante_step rhs_post_step after] in *.
    - split; [|discriminate]. cbn [update_rhs fst snd].
      rewrite (apply_is dt _ _ (user_rhs dt false s zero)).
      + subst s. cbn [euler_a]. rewrite Z2Nat.id by lia. reflexivity.
      + intros e E. exact (update_is dt false s r e E).
    - split; [|discriminate]. cbn [fst]. cbn [euler_b]. rewrite Z2Nat.id by lia.
      pose proof (update_is dt false s r) as U. cbn [update_rhs snd] in U.
      assert (A := apply_is dt s _ _ U). rewrite <- Hs. exact (f_equal (ADV ts) A).
    - specialize (Hr eq_refl). cbn [apply_rhs fst snd].
      assert (A := apply_is half_dt s r _ Hr). cbn [apply_rhs fst] in A. 
      cbn [trapez]. destruct (trapez ar X forced ADV (R half_dt) half_dt (Z.to_nat ts) s0) as [s1 r1]. cbn [fst snd] in *.
      rewrite Z2Nat.id by lia. rewrite A. rewrite Hs. 
      set (a := ADV ts (plus_forcing ar X forced half_dt s1 r1)).
      pose proof (update_is half_dt true a r) as U. cbn [update_rhs snd] in U.
      assert (B := apply_is half_dt a _ _ U). cbn [update_rhs]. split.
      + exact B.
      + intros _ e E. cbn [apply_rhs snd]. apply U. exact E.
  Qed.

  Theorem schemes sch calls s0 r0 : Forall (fun n => 0 <= n) calls -> calls <> [] -> total calls <= int_max ->
    exists r, advances c (hk sch) calls (0, (s0, r0)) = Some (total calls, (after sch s0 (Z.to_nat (total calls)), r)).
  Proof.
    intros HF HN HT.
    destruct (advances_inv c (hk sch) (fun _ => eq_refl) (fun u => fst u = s0) (inv sch s0)) with (calls := calls) (ts := 0) (u := (s0, r0))
      as ([s r] & E & I); auto; try lia.
    - intros nt [s r] Hs. cbn [fst] in Hs. subst s. cbn [rhs_hooks h_ante_loop]. unfold inv. split; [lia|].
      change (Z.to_nat 0) with O. destruct sch; cbn [rhs_ante_loop after euler_a euler_b trapez fst update_rhs];
        (split; [reflexivity|]); try discriminate.
      intros _ e Ee. exact (update_is half_dt false s0 r e Ee).
    - intros [s r] (_ & H & _). cbn [fst] in *. rewrite H. destruct sch; reflexivity.
    - intros ts u Ht. apply inv_step. exact Ht.
    - intros [H|H]; [lia|contradiction].
    - cbn [Z.add] in *. destruct I as (_ & Hs & _). cbn [fst] in Hs. exists r. etransitivity; [exact E|]. rewrite Hs. reflexivity.
  Qed.
End R.
