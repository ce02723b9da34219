From Coq Require Import ZArith List Bool Reals Lra Lia Psatz FunctionalExtensionality.
From Verif Require Import Stencil ModelVip SpecVip.
Import ListNotations.
Local Open Scope R_scope.

Lemma setz_same : forall f k v, setz f k v k = v.
Proof. intros; unfold setz; rewrite Z.eqb_refl; reflexivity. Qed.
Lemma setz_other : forall f k v j, j <> k -> setz f k v j = f j.
Proof. intros; unfold setz. destruct (Z.eqb_spec j k); congruence. Qed.

Lemma vel_of_is : forall eps den q, velocity_is eps den q (vel_of eps den q).
Proof.
  intros eps [r|] q; unfold velocity_is, vel_of; [|reflexivity].
  destruct (Req_EM_T eps 0); [repeat split; intros; try reflexivity; contradiction|].
  destruct (Rlt_dec eps r); repeat split; intros; try reflexivity; try contradiction; lra.
Qed.

(** ** slots *)
Lemma slot_in_bounds : forall var_dt div3 n t,
  (0 <= n)%Z -> (t = 0 \/ t = -1 \/ (div3 = true /\ t = -2))%Z ->
  (0 <= stash_slot var_dt div3 n t < stash_count var_dt div3)%Z.
Proof.
  intros var_dt div3 n t Hn Ht. unfold stash_slot, stash_count.
  destruct var_dt, div3; cbn [negb andb];
    destruct Ht as [->|[->|[H ->]]]; try discriminate; cbn;
    try destruct (n mod 2 =? 0)%Z; lia.
Qed.

Section Stash.
  Variables (var_dt div3 : bool) (eps : R).
  Notation slot n t := (stash_slot var_dt div3 n t).

  (** slot of the previous state differs from the output slot unless the time
      step is constant and third order is off *)
  Lemma slot_sep : forall n, var_dt || div3 = true -> (slot n (-1) <> slot n 0)%Z.
  Proof.
    intros n H. unfold stash_slot. destruct var_dt, div3; try discriminate; cbn;
      try destruct (n mod 2 =? 0)%Z; lia.
  Qed.
  Lemma slot_sep2 : forall n, div3 = true -> (slot n (-2) <> slot n 0 /\ slot n (-2) <> slot n (-1))%Z.
  Proof.
    intros n H. unfold stash_slot. rewrite H. destruct var_dt; cbn;
      destruct (n mod 2 =? 0)%Z; lia.
  Qed.
  Lemma slot_next : forall n, div3 = true -> (slot (n + 1) (-1) = slot n (-2) /\ slot (n + 1) (-2) = slot n (-1))%Z.
  Proof.
    intros n H. unfold stash_slot. rewrite H.
    rewrite Z.add_mod by lia. pose proof (Z.mod_pos_bound n 2 ltac:(lia)) as Hb.
    assert (n mod 2 = 0 \/ n mod 2 = 1)%Z as [E|E] by lia; rewrite E; destruct var_dt; cbn; lia.
  Qed.
  Lemma slot_const : forall n m t, div3 = false -> slot n t = slot m t.
  Proof. intros n m t H. unfold stash_slot. rewrite H. destruct var_dt; reflexivity. Qed.

  (** ** one attempt and several attempts *)
  Definition beta (s0 dt : R) := if Rlt_dec 0 s0 then dt / (2 * s0) else 0.
  Definition held (s : vst) : R := slots s (slot (v_step s) (-1)%Z).

  Lemma extrp_out : forall dt v s,
    slots (extrp var_dt div3 dt v s) (slot (v_step s) 0%Z) = - beta (stash0 s) dt * held s + (1 + beta (stash0 s) dt) * v.
  Proof.
    intros dt v s. unfold extrp; cbn [slots]. rewrite setz_same. unfold held, beta.
    destruct (negb var_dt && negb div3) eqn:E.
    - rewrite setz_same.
      replace (slot (v_step s) (-1)%Z) with (slot (v_step s) 0%Z)
        by (unfold stash_slot; rewrite E; reflexivity). lra.
    - rewrite setz_same. reflexivity.
  Qed.
  Lemma extrp_keeps : forall dt v s j, j <> slot (v_step s) 0%Z ->
    slots (extrp var_dt div3 dt v s) j = slots s j.
  Proof.
    intros dt v s j Hj. unfold extrp; cbn [slots]. rewrite setz_other by exact Hj.
    destruct (negb var_dt && negb div3); rewrite setz_other by exact Hj; reflexivity.
  Qed.
  Lemma extrp_rest : forall dt v s, v_step (extrp var_dt div3 dt v s) = v_step s
    /\ stash0 (extrp var_dt div3 dt v s) = stash0 s /\ stash1 (extrp var_dt div3 dt v s) = stash1 s.
  Proof. intros; repeat split. Qed.

  Definition try_all (v : R) (dts : list R) (s : vst) : vst :=
    fold_left (fun s dt => extrp var_dt div3 dt v s) dts s.
  Lemma try_all_rest : forall v dts s, v_step (try_all v dts s) = v_step s
    /\ stash0 (try_all v dts s) = stash0 s /\ stash1 (try_all v dts s) = stash1 s
    /\ forall j, j <> slot (v_step s) 0%Z -> slots (try_all v dts s) j = slots s j.
  Proof.
    intros v dts. induction dts as [|d r IH]; intros s; [repeat split|].
    cbn [try_all fold_left]. destruct (IH (extrp var_dt div3 d v s)) as (A & B & C & D).
    unfold try_all in *. rewrite A, B, C.
    destruct (extrp_rest d v s) as (A' & B' & C').
    repeat split; intros; try assumption.
    rewrite D by (rewrite A'; assumption). apply extrp_keeps; assumption.
  Qed.
  Lemma try_all_out : forall v dts dt s, (var_dt || div3 = false -> dts = []) ->
    slots (try_all v (dts ++ [dt]) s) (slot (v_step s) 0%Z)
    = - beta (stash0 s) dt * held s + (1 + beta (stash0 s) dt) * v.
  Proof.
    intros v dts dt s H. unfold try_all. rewrite fold_left_app. cbn [fold_left].
    change (fold_left (fun s0 dt0 => extrp var_dt div3 dt0 v s0) dts s) with (try_all v dts s).
    destruct (try_all_rest v dts s) as (A & B & C & D).
    rewrite <- A at 1. rewrite extrp_out. rewrite B. unfold held. rewrite A.
    destruct (var_dt || div3) eqn:E.
    - rewrite D by (apply slot_sep; exact E). reflexivity.
    - rewrite (H eq_refl). reflexivity.
  Qed.

  (** ** invariant: state before step n, after inputs [xs] *)
  Notation vel x := (vel_of eps (den x) (q x)).
  Definition ok_in (x : vin) : Prop := 0 < dt_used x /\ (var_dt || div3 = false -> tries x = []).

  (** the last input, the one before *)
  Definition last1 (h : list vin) : option vin := match h with a :: _ => Some a | [] => None end.
  Definition last2 (h : list vin) : option vin := match h with _ :: b :: _ => Some b | _ => None end.
  (** [h]: inputs so far, latest first *)
  Definition vinv (h : list vin) (s : vst) : Prop :=
    v_step s = Z.of_nat (length h)
    /\ (match h with a :: _ => stash0 s = dt_used a /\ held s = vel a | [] => stash0 s = 0 /\ held s = 0 end)
    /\ (div3 = true ->
        match h with
        | _ :: b :: _ => stash1 s = dt_used b /\ slots s (slot (v_step s) (-2)%Z) = vel b
        | _ => stash1 s = 0
        end).

  Lemma vinv_init : forall g, vinv [] (vip_init var_dt div3 g).
  Proof.
    intros g. unfold vinv, vip_init, held. cbn [slots v_step stash0 stash1 length Z.of_nat].
    split; [reflexivity|]. split; [split; [reflexivity|]|reflexivity].
    destruct div3 eqn:E3.
    - rewrite setz_other by (pose proof (slot_sep2 0%Z E3) as P; rewrite E3 in P; intros H; apply (proj2 P); symmetry; exact H).
      apply setz_same.
    - apply setz_same.
  Qed.

  Lemma vinv_step : forall h x s, ok_in x -> vinv h s -> vinv (x :: h) (snd (vip_step var_dt div3 eps x s)).
  Proof.
    intros h x s [Hd Ht] (E & H1 & H2).
    unfold vip_step. cbn [snd].
    change (fold_left (fun s0 dt => extrp var_dt div3 dt (vel x) s0) (tries x ++ [dt_used x]) s)
      with (try_all (vel x) (tries x ++ [dt_used x]) s).
    destruct (try_all_rest (vel x) (tries x ++ [dt_used x]) s) as (A & B & C & D).
    unfold vinv, held. cbn [slots v_step stash0 stash1].
    split; [rewrite E; cbn [length]; lia|]. rewrite A.
    split.
    - split; [reflexivity|]. destruct (Bool.bool_dec div3 true) as [E3|E3].
      + replace (if div3 then (-2)%Z else (-1)%Z) with (-2)%Z by (rewrite E3; reflexivity).
        rewrite (proj1 (slot_next (v_step s) E3)). apply setz_same.
      + apply not_true_is_false in E3.
        replace (if div3 then (-2)%Z else (-1)%Z) with (-1)%Z by (rewrite E3; reflexivity).
        rewrite (slot_const (v_step s + 1) (v_step s) (-1) E3). apply setz_same.
    - intros E3. destruct h as [|a r].
      + replace (if div3 then stash0 s else stash1 s) with (stash0 s) by (rewrite E3; reflexivity). exact (proj1 H1).
      + replace (if div3 then stash0 s else stash1 s) with (stash0 s) by (rewrite E3; reflexivity).
        split; [exact (proj1 H1)|].
        replace (if div3 then (-2)%Z else (-1)%Z) with (-2)%Z by (rewrite E3; reflexivity).
        rewrite (proj2 (slot_next (v_step s) E3)).
        rewrite setz_other by (intros H; apply (proj2 (slot_sep2 (v_step s) E3)); symmetry; exact H).
        rewrite D by (apply slot_sep; rewrite E3; apply orb_true_r). exact (proj2 H1).
  Qed.

  (** what one step produces *)
  Definition expect (h : list vin) (x : vin) : R :=
    match h with
    | a :: _ => vel x + (vel x - vel a) * (dt_used x / (2 * dt_used a))
    | [] => vel x
    end.
  Definition expect1 (h : list vin) (x : vin) : option R :=
    if div3 then match h with a :: _ => Some (dt_used x * ((q x - vel a) / dt_used a)) | [] => None end else None.
  Definition expect2 (h : list vin) (x : vin) : option R :=
    if div3 then
      match h with
      | a :: b :: _ => Some (dt_used x * dt_used x * (2 * (((q x - vel a) / dt_used a - (vel a - vel b) / dt_used b) / (dt_used b + dt_used a))))
      | _ => None
      end
    else None.

  Lemma step_out : forall h x s, ok_in x -> Forall ok_in h -> vinv h s ->
    fst (vip_step var_dt div3 eps x s) = (expect h x, (expect1 h x, expect2 h x)).
  Proof.
    intros h x s [Hd Ht] Hh (E & H1 & H2).
    unfold vip_step. cbn [fst].
    change (fold_left (fun s0 dt => extrp var_dt div3 dt (vel x) s0) (tries x ++ [dt_used x]) s)
      with (try_all (vel x) (tries x ++ [dt_used x]) s).
    pose proof (try_all_out (vel x) (tries x) (dt_used x) s Ht) as O.
    destruct (try_all_rest (vel x) (tries x ++ [dt_used x]) s) as (A & B & C & D).
    set (s1 := try_all (vel x) (tries x ++ [dt_used x]) s) in *.
    f_equal.
    - rewrite A, O. unfold expect, beta.
      destruct h as [|a r]; destruct H1 as [P1 P2]; rewrite P1, P2.
      + destruct (Rlt_dec 0 0); [lra|]. lra.
      + inversion Hh as [|? ? [Ha _] _]; subst.
        destruct (Rlt_dec 0 (dt_used a)); [|contradiction]. field. lra.
    - unfold ndt, expect1, expect2. destruct (Bool.bool_dec div3 true) as [E3|E3];
        [|apply not_true_is_false in E3; generalize (eq_refl div3); rewrite E3 at 1; intros G; rewrite <- G; reflexivity].
      rewrite A, B, C.
      rewrite (D (slot (v_step s) (-1)%Z)) by (apply slot_sep; rewrite E3; apply orb_true_r).
      rewrite (D (slot (v_step s) (-2)%Z)) by (apply slot_sep2; exact E3).
      specialize (H2 E3). fold (held s).
      replace div3 with true by (symmetry; exact E3).
      destruct h as [|a r]; destruct H1 as [P1 P2]; rewrite ?P1, ?P2.
      + destruct (Rlt_dec 0 0); [lra|reflexivity].
      + inversion Hh as [|? ? [Ha _] Hr]; subst.
        destruct (Rlt_dec 0 (dt_used a)); [|contradiction].
        destruct r as [|b r].
        * rewrite H2. destruct (Rlt_dec 0 0); [lra|].
          apply f_equal2; [|reflexivity]. apply f_equal. field. lra.
        * inversion Hr as [|? ? [Hb _] _]; subst. destruct H2 as [Q1 Q2].
          rewrite E3 in Q2. unfold held in P2. rewrite Q1.
          replace (slots s (stash_slot var_dt true (v_step s) (-2))) with (vel b)
            by (symmetry; exact Q2).
          destruct (Rlt_dec 0 (dt_used b)); [|contradiction].
          apply f_equal2; apply f_equal; field; lra.
  Qed.

  Lemma run_out : forall xs h s, Forall ok_in xs -> Forall ok_in h -> vinv h s ->
    forall n x, nth_error xs n = Some x ->
    nth_error (vip_run var_dt div3 eps xs s) n =
    Some (expect (rev (firstn n xs) ++ h) x, (expect1 (rev (firstn n xs) ++ h) x, expect2 (rev (firstn n xs) ++ h) x)).
  Proof.
    induction xs as [|x0 r IH]; intros h s Hx Hh I n x E; [destruct n; discriminate|].
    inversion Hx as [|? ? H0 Hr]; subst. cbn [vip_run].
    pose proof (step_out h x0 s H0 Hh I) as O. pose proof (vinv_step h x0 s H0 I) as I'.
    destruct (vip_step var_dt div3 eps x0 s) as [o s'] eqn:V. cbn [fst snd] in *.
    destruct n as [|n].
    - cbn in E |- *. injection E as <-. rewrite O. reflexivity.
    - cbn in E |- *. rewrite (IH (x0 :: h) s' Hr (Forall_cons _ H0 Hh) I' n x E).
      rewrite <- !app_assoc. reflexivity.
  Qed.
End Stash.

Lemma firstn_S_rev : forall (A : Type) n (l : list A) a, nth_error l n = Some a -> rev (firstn (S n) l) = a :: rev (firstn n l).
Proof.
  induction n as [|n IH]; intros [|b l] a E; try discriminate.
  - cbn in E. injection E as <-. reflexivity.
  - cbn in E. change (rev (firstn (S n) l) ++ [b] = a :: rev (firstn n l) ++ [b]).
    rewrite (IH l a E). reflexivity.
Qed.
Lemma nth_dt : forall (xs : list vin) n x, nth_error xs n = Some x -> nth n (map dt_used xs) 0 = dt_used x.
Proof.
  intros xs n x E. apply nth_error_nth. rewrite nth_error_map, E. reflexivity.
Qed.

(** ** Statements in terms of times *)
Section Times.
  Variables (var_dt div3 : bool) (eps : R).
  Notation vel x := (vel_of eps (den x) (q x)).
  Notation T xs n := (start_of (map dt_used xs) n).
  Definition outs xs g := vip_run var_dt div3 eps xs (vip_init var_dt div3 g).

  Lemma ok_pos : forall xs n a, Forall (ok_in var_dt div3) xs -> nth_error xs n = Some a -> 0 < dt_used a.
  Proof.
    intros xs n a H E. apply nth_error_In in E. exact (proj1 (proj1 (Forall_forall _ _) H a E)).
  Qed.

  Lemma first_velocity : forall xs g x, Forall (ok_in var_dt div3) xs -> nth_error xs 0 = Some x ->
    exists d, nth_error (outs xs g) 0 = Some (vel x, d).
  Proof.
    intros xs g x H E. unfold outs.
    rewrite (run_out var_dt div3 eps xs [] _ H (Forall_nil _) (vinv_init var_dt div3 eps g) 0 x E).
    eexists. reflexivity.
  Qed.

  Lemma later_velocity : forall xs g n a x, Forall (ok_in var_dt div3) xs ->
    nth_error xs n = Some a -> nth_error xs (S n) = Some x ->
    exists d, nth_error (outs xs g) (S n) =
      Some (line (T xs n) (vel a) (T xs (S n)) (vel x) (T xs (S n) + dt_used x / 2), d).
  Proof.
    intros xs g n a x H Ea Ex. unfold outs.
    rewrite (run_out var_dt div3 eps xs [] _ H (Forall_nil _) (vinv_init var_dt div3 eps g) (S n) x Ex).
    rewrite (firstn_S_rev _ n xs a Ea). eexists. apply f_equal. apply f_equal2; [|reflexivity].
    cbn [app expect]. unfold line. cbn [start_of]. rewrite (nth_dt xs n a Ea).
    pose proof (ok_pos xs n a H Ea). field. lra.
  Qed.

  Lemma derivatives : forall xs g n a b x, div3 = true -> Forall (ok_in var_dt div3) xs ->
    (forall y, In y xs -> den y = None) ->
    nth_error xs n = Some b -> nth_error xs (S n) = Some a -> nth_error xs (S (S n)) = Some x ->
    exists y, nth_error (outs xs g) (S (S n)) =
      Some (y, (Some (dt_used x * slope (T xs (S n)) (vel a) (T xs (S (S n))) (vel x)),
                Some (dt_used x * dt_used x * curvature (T xs n) (vel b) (T xs (S n)) (vel a) (T xs (S (S n))) (vel x)))).
  Proof.
    intros xs g n a b x E3 H Hd Eb Ea Ex. unfold outs.
    rewrite (run_out var_dt div3 eps xs [] _ H (Forall_nil _) (vinv_init var_dt div3 eps g) (S (S n)) x Ex).
    rewrite (firstn_S_rev _ (S n) xs a Ea), (firstn_S_rev _ n xs b Eb). eexists.
    apply f_equal. apply f_equal2; [reflexivity|].
    unfold expect1, expect2. rewrite E3. cbn [app].
    assert (Dx : den x = None) by (apply Hd; apply nth_error_In in Ex; exact Ex).
    unfold slope, curvature, slope.
    replace (vel x) with (q x) by (unfold vel_of; rewrite Dx; reflexivity).
    cbn [start_of]. rewrite (nth_dt xs n b Eb), (nth_dt xs (S n) a Ea).
    pose proof (ok_pos xs (S n) a H Ea). pose proof (ok_pos xs n b H Eb).
    apply f_equal2; apply f_equal; field; lra.
  Qed.

  Lemma first_derivative : forall xs g a x, div3 = true -> Forall (ok_in var_dt div3) xs ->
    (forall y, In y xs -> den y = None) ->
    nth_error xs 0 = Some a -> nth_error xs 1 = Some x ->
    exists y, nth_error (outs xs g) 1 =
      Some (y, (Some (dt_used x * slope 0 (vel a) (dt_used a) (vel x)), None)).
  Proof.
    intros xs g a x E3 H Hd Ea Ex. unfold outs.
    rewrite (run_out var_dt div3 eps xs [] _ H (Forall_nil _) (vinv_init var_dt div3 eps g) 1 x Ex).
    rewrite (firstn_S_rev _ 0 xs a Ea). eexists.
    apply f_equal. apply f_equal2; [reflexivity|].
    unfold expect1, expect2. rewrite E3. cbn [app firstn rev].
    assert (Dx : den x = None) by (apply Hd; apply nth_error_In in Ex; exact Ex).
    unfold slope.
    replace (vel x) with (q x) by (unfold vel_of; rewrite Dx; reflexivity).
    pose proof (ok_pos xs 0 a H Ea).
    apply f_equal2; [|reflexivity]; apply f_equal; field; lra.
  Qed.
End Times.

Lemma predicted : forall var_dt div3 eps garbage (xs : list vin),
  (forall x, In x xs -> 0 < dt_used x /\ (var_dt || div3 = false -> tries x = [])) ->
  forall vel : nat -> R,
  (forall n x, nth_error xs n = Some x -> velocity_is eps (den x) (q x) (vel n)) ->
  let t := start_of (map dt_used xs) in
  let out := vip_run var_dt div3 eps xs (vip_init var_dt div3 garbage) in
  (forall x, nth_error xs 0 = Some x -> exists d, nth_error out 0 = Some (vel 0%nat, d))
  /\ (forall n x, nth_error xs (S n) = Some x -> exists d,
        nth_error out (S n) = Some (line (t n) (vel n) (t (S n)) (vel (S n)) (t (S n) + dt_used x / 2), d)).
Proof.
  intros var_dt div3 eps g xs H vel Hv t out.
  assert (HF : Forall (ok_in var_dt div3) xs) by (apply Forall_forall; exact H).
  assert (HV : forall n x, nth_error xs n = Some x -> vel_of eps (den x) (q x) = vel n).
  { intros n x E. specialize (Hv n x E). pose proof (vel_of_is eps (den x) (q x)) as P.
    unfold velocity_is in *. destruct (den x) as [r|]; [|congruence].
    destruct (Req_dec eps 0) as [E0|E0].
    - rewrite (proj1 Hv E0), (proj1 P E0). reflexivity.
    - destruct (Rlt_dec eps r) as [L|L].
      + rewrite (proj1 (proj2 Hv) E0 L), (proj1 (proj2 P) E0 L). reflexivity.
      + rewrite (proj2 (proj2 Hv) E0 ltac:(lra)), (proj2 (proj2 P) E0 ltac:(lra)). reflexivity. }
  split.
  - intros x E. destruct (first_velocity var_dt div3 eps xs g x HF E) as [d D].
    exists d. unfold out. rewrite <- (HV 0%nat x E). exact D.
  - intros n x E.
    assert (exists a, nth_error xs n = Some a) as [a Ea].
    { destruct (nth_error xs n) as [a|] eqn:Ea; [eauto|]. apply nth_error_None in Ea.
      assert (nth_error xs (S n) = None) by (apply nth_error_None; lia). congruence. }
    destruct (later_velocity var_dt div3 eps xs g n a x HF Ea E) as [d D].
    exists d. unfold out, t. rewrite <- (HV n a Ea), <- (HV (S n) x E). exact D.
Qed.

Lemma predicted_derivatives : forall var_dt eps garbage (xs : list vin),
  (forall x, In x xs -> 0 < dt_used x /\ den x = None) ->
  let t := start_of (map dt_used xs) in
  let v := fun n => nth n (map q xs) 0 in
  let out := vip_run var_dt true eps xs (vip_init var_dt true garbage) in
  (forall x, nth_error xs 0 = Some x -> exists y, nth_error out 0 = Some (y, (None, None)))
  /\ (forall x, nth_error xs 1 = Some x -> exists y, nth_error out 1 =
       Some (y, (Some (dt_used x * slope (t 0%nat) (v 0%nat) (t 1%nat) (v 1%nat)), None)))
  /\ (forall n x, nth_error xs (S (S n)) = Some x -> exists y, nth_error out (S (S n)) =
       Some (y, (Some (dt_used x * slope (t (S n)) (v (S n)) (t (S (S n))) (v (S (S n)))),
                 Some (dt_used x * dt_used x * curvature (t n) (v n) (t (S n)) (v (S n)) (t (S (S n))) (v (S (S n))))))).
Proof.
  intros var_dt eps g xs H t v out.
  assert (HF : Forall (ok_in var_dt true) xs).
  { apply Forall_forall. intros x Hx. destruct (H x Hx). split; [assumption|].
    rewrite orb_true_r. discriminate. }
  assert (HD : forall y, In y xs -> den y = None) by (intros y Hy; exact (proj2 (H y Hy))).
  assert (HQ : forall n x, nth_error xs n = Some x -> vel_of eps (den x) (q x) = v n).
  { intros n x E. unfold v. rewrite (nth_error_nth (map q xs) n 0 (x := q x)) by (rewrite nth_error_map, E; reflexivity).
    rewrite (HD x (nth_error_In _ _ E)). reflexivity. }
  assert (Hprev : forall n x, nth_error xs (S n) = Some x -> exists a, nth_error xs n = Some a).
  { intros n x E. destruct (nth_error xs n) as [a|] eqn:Ea; [eauto|]. apply nth_error_None in Ea.
    assert (nth_error xs (S n) = None) by (apply nth_error_None; lia). congruence. }
  split; [|split].
  - intros x E. unfold out.
    rewrite (run_out var_dt true eps xs [] _ HF (Forall_nil _) (vinv_init var_dt true eps g) 0 x E).
    eexists. reflexivity.
  - intros x E. destruct (Hprev 0%nat x E) as [a Ea].
    destruct (first_derivative var_dt true eps xs g a x eq_refl HF HD Ea E) as [y D].
    exists y. unfold out, outs in *. rewrite D. rewrite (HQ 0%nat a Ea), (HQ 1%nat x E).
    unfold t. cbn [start_of]. rewrite (nth_dt xs 0 a Ea). rewrite Rplus_0_l. reflexivity.
  - intros n x E. destruct (Hprev (S n) x E) as [a Ea]. destruct (Hprev n a Ea) as [b Eb].
    destruct (derivatives var_dt true eps xs g n a b x eq_refl HF HD Eb Ea E) as [y D].
    exists y. unfold out, outs in *. rewrite D.
    rewrite (HQ n b Eb), (HQ (S n) a Ea), (HQ (S (S n)) x E). reflexivity.
Qed.

Lemma Rabs_le_inv : forall x a, Rabs x <= a -> - a <= x <= a.
Proof. intros x a. unfold Rabs. destruct (Rcase_abs x); lra. Qed.

(** a steady flow with density: non-zero time derivative *)
Definition steady_in : vin := {| q := 2; den := Some 2; tries := []; dt_used := 1 |}.
Lemma density_derivative : exists (xs : list vin),
  (forall x, In x xs -> 0 < dt_used x /\ velocity_is 0 (den x) (q x) 1) /\
  exists y d, nth_error (vip_run false true 0 xs (vip_init false true (fun _ => 0))) 1 = Some (y, (Some d, None)) /\ d <> 0.
Proof.
  exists [steady_in; steady_in]. split.
  - intros x [<-|[<-|[]]]; cbn; (split; [lra|]); repeat split; intros; try lra; contradiction.
  - assert (HF : Forall (ok_in false true) [steady_in; steady_in])
      by (repeat constructor; cbn; try lra; discriminate).
    pose proof (run_out false true 0 _ [] _ HF (Forall_nil _) (vinv_init false true 0 (fun _ => 0)) 1 steady_in eq_refl) as P.
    do 2 eexists. split; [exact P|].
    cbn. destruct (Req_EM_T 0 0); [|contradiction]. lra.
Qed.

(** ** Divergence *)
Lemma step_back : forall d x, step_in d 1 (step_in d (-1) x) = x.
Proof. intros d [[a b] c]. destruct d; unfold step_in, iadd; cbn [fst snd]; repeat match goal with |- (_, _) = (_, _) => apply f_equal2 end; lia. Qed.

Lemma intrp_diff : forall dt di G u d x, di <> 0 ->
  intrp dt di G u d x - intrp dt di G u d (step_in d (-1) x)
  = dt * (((match G with None => u | Some g => fun y => g y * u y end) (step_in d 1 x)
           - (match G with None => u | Some g => fun y => g y * u y end) (step_in d (-1) x)) / di / 2).
Proof.
  intros dt di G u d x Hdi. unfold intrp.
  destruct G as [g|]; rewrite step_back; field; exact Hdi.
Qed.

Lemma advector_divergence : forall dims dt di G (u : dim -> idx -> R) x,
  (forall d, di d <> 0) ->
  vctr_div dims (fun d => intrp dt (di d) G (u d) d) x
  = dt * div dims di (fun d y => match G with None => u d y | Some g => g y * u d y end) x.
Proof.
  intros dims dt di G u x Hdi.
  destruct dims as [|d r]; [cbn; lra|].
  unfold vctr_div, div.
  assert (forall r a b, a = dt * b ->
    fold_left (fun a d => a + (intrp dt (di d) G (u d) d x - intrp dt (di d) G (u d) d (step_in d (-1) x))) r a
    = dt * fold_left (fun a d => a + ((match G with None => u d (step_in d 1 x) | Some g => g (step_in d 1 x) * u d (step_in d 1 x) end)
         - (match G with None => u d (step_in d (-1) x) | Some g => g (step_in d (-1) x) * u d (step_in d (-1) x) end)) / di d / 2) r b).
  { induction r0 as [|d0 r0 IH]; intros a b E; cbn [fold_left]; [exact E|].
    apply IH. rewrite E. rewrite intrp_diff by apply Hdi. destruct G; lra. }
  apply H. rewrite intrp_diff by apply Hdi. destruct G; reflexivity.
Qed.

(** extrapolated velocity: divergence of the advector in terms of the
    divergences of the two velocity fields *)
Lemma div_linear : forall dims di a b (u v w : dim -> idx -> R) x,
  (forall d y, w d y = a * u d y + b * v d y) ->
  div dims di w x = a * div dims di u x + b * div dims di v x.
Proof.
  intros dims di a b u v w x H. destruct dims as [|d r]; [cbn; lra|]. unfold div.
  assert (forall r p q s, s = a * p + b * q ->
    fold_left (fun a d => a + (w d (step_in d 1 x) - w d (step_in d (-1) x)) / di d / 2) r s
    = a * fold_left (fun a d => a + (u d (step_in d 1 x) - u d (step_in d (-1) x)) / di d / 2) r p
    + b * fold_left (fun a d => a + (v d (step_in d 1 x) - v d (step_in d (-1) x)) / di d / 2) r q).
  { induction r0 as [|d0 r0 IH]; intros p q s E; cbn [fold_left]; [exact E|].
    apply IH. rewrite E. rewrite !H. unfold Rdiv. ring. }
  apply H0. rewrite !H. unfold Rdiv. ring.
Qed.
Lemma div_ext : forall dims di (u v : dim -> idx -> R) x, (forall d y, u d y = v d y) -> div dims di u x = div dims di v x.
Proof.
  intros. rewrite (div_linear dims di 1 0 v v u x); [lra|]. intros. rewrite H. lra.
Qed.

Lemma predicted_divergence : forall dims dt di G (u u1 w : dim -> idx -> R) beta tol x,
  (forall d, di d <> 0) -> 0 <= beta -> 0 <= dt ->
  (forall d y, w d y = (1 + beta) * u d y - beta * u1 d y) ->
  let weighted v := fun (d : dim) y => match G with None => v d y | Some g => g y * v d y end : R in
  Rabs (div dims di (weighted u) x) <= tol -> Rabs (div dims di (weighted u1) x) <= tol ->
  Rabs (vctr_div dims (fun d => intrp dt (di d) G (w d) d) x) <= dt * (1 + 2 * beta) * tol.
Proof.
  intros dims dt di G u u1 w beta tol x Hdi Hb Hdt Hw weighted H0 H1.
  rewrite advector_divergence by exact Hdi.
  change (fun (d : dim) y => match G with None => w d y | Some g => g y * w d y end) with (weighted w).
  rewrite (div_linear dims di (1 + beta) (- beta) (weighted u) (weighted u1) (weighted w)).
  - set (A := div dims di (weighted u) x) in *. set (B := div dims di (weighted u1) x) in *.
    rewrite Rabs_mult, (Rabs_pos_eq dt Hdt), Rmult_assoc. apply Rmult_le_compat_l; [exact Hdt|].
    apply Rabs_le. apply Rabs_le_inv in H0. apply Rabs_le_inv in H1.
    destruct H0 as [H0 H0'], H1 as [H1 H1'].
    pose proof (Rmult_le_compat_l beta _ _ Hb H0). pose proof (Rmult_le_compat_l beta _ _ Hb H0').
    pose proof (Rmult_le_compat_l beta _ _ Hb H1). pose proof (Rmult_le_compat_l beta _ _ Hb H1').
    split; lra.
  - intros d y. unfold weighted. destruct G; rewrite Hw; ring.
Qed.

(** ** Absorber *)
Section VabProofs.
  Variable X : Type.
  Variables (coeff relax : X -> R) (adv : (X -> R) -> (X -> R)).
  Notation pull := (pull X coeff relax).

  (** stored forcing after a step *)
  Definition stored (ab : vab) (s : vf X * vf X) : Prop :=
    snd s = match ab with Impl => pull (fst s) | _ => fun _ => 0 end.

  Lemma stored_start : forall ab u, stored ab (vab_start X ab coeff relax u).
  Proof. intros [] u; reflexivity. Qed.

  Definition rule (ab : vab) (dt : R) (u u' : X -> R) : Prop :=
    match ab with
    | NoAb => u' = adv u
    | Expl => forward X coeff relax adv dt u u'
    | Impl => trapezoidal X coeff relax adv dt u u'
    end.

  Lemma vab_step_ok : forall ab dt s, 0 < dt -> (forall x, 0 <= coeff x) -> stored ab s ->
    stored ab (vab_step_dt X ab coeff relax adv dt s) /\ rule ab dt (fst s) (fst (vab_step_dt X ab coeff relax adv dt s)).
  Proof.
    intros ab dt [u rhs] Hdt Hc St. unfold stored in *. cbn [fst snd] in St. subst rhs.
    destruct ab; unfold vab_step_dt, rhs_expl_calc, rhs_apply, rhs_impl_fnlz, rule; cbn [fst snd].
    - split; [reflexivity|]. apply f_equal. extensionality x. lra.
    - split; [reflexivity|]. exists (fun x => u x + dt * pull u x). split; [reflexivity|].
      intros x. assert (E : (fun x0 : X => u x0 + 1 / 2 * dt * (0 + -2 * coeff x0 * (u x0 - relax x0))) = (fun x0 => u x0 + dt * pull u x0))
        by (extensionality y; unfold SpecVip.pull; lra). rewrite E. reflexivity.
    - set (w := fun x : X => u x + 1 / 2 * dt * pull u x).
      set (a := adv w). unfold normalize_vip, add_relax.
      assert (P : forall x, 1 + 1 / 2 * dt * coeff x <> 0) by (intros x; specialize (Hc x); apply Rgt_not_eq; nra).
      split.
      + extensionality x. unfold SpecVip.pull. field. specialize (Hc x). repeat split; apply Rgt_not_eq; nra.
      + exists w. split; [intros x; unfold w; lra|].
        intros x. unfold SpecVip.pull. fold a. field. specialize (Hc x). repeat split; apply Rgt_not_eq; nra.
  Qed.

  Lemma vab_snoc : forall ab dts dt u, vab_run_dts X ab coeff relax adv (dts ++ [dt]) u
    = vab_step_dt X ab coeff relax adv dt (vab_run_dts X ab coeff relax adv dts u).
  Proof. intros. unfold vab_run_dts. rewrite fold_left_app. reflexivity. Qed.

  Lemma vab_stored : forall ab dts u, (forall d, In d dts -> 0 < d) -> (forall x, 0 <= coeff x) ->
    stored ab (vab_run_dts X ab coeff relax adv dts u).
  Proof.
    intros ab dts u Hd Hc. induction dts as [|d r IH] using rev_ind; [apply stored_start|].
    rewrite vab_snoc. apply vab_step_ok; [apply Hd; apply in_or_app; right; left; reflexivity|exact Hc|].
    apply IH. intros e He. apply Hd. apply in_or_app. left; exact He.
  Qed.

  Lemma vab_rule : forall ab dts dt u, (forall d, In d (dts ++ [dt]) -> 0 < d) -> (forall x, 0 <= coeff x) ->
    rule ab dt (fst (vab_run_dts X ab coeff relax adv dts u)) (fst (vab_run_dts X ab coeff relax adv (dts ++ [dt]) u)).
  Proof.
    intros ab dts dt u Hd Hc. rewrite vab_snoc.
    apply (vab_step_ok ab dt); [apply Hd; apply in_or_app; right; left; reflexivity|exact Hc|].
    apply vab_stored; [|exact Hc]. intros e He. apply Hd. apply in_or_app. left; exact He.
  Qed.

  (** the rules imply bounds *)
  Lemma trap_factor : forall dt u u' w x, 0 < dt -> 0 <= coeff x ->
    w x = u x + dt / 2 * pull u x -> forall a, u' x = a + dt / 2 * pull u' x ->
    (1 + dt / 2 * coeff x) * (u' x - relax x) = a - relax x /\ w x - relax x = (1 - dt / 2 * coeff x) * (u x - relax x).
  Proof. intros dt u u' w x Hd Hc Hw a Ha. unfold SpecVip.pull in *. split; nra. Qed.
End VabProofs.

Lemma rabs_ratio : forall k e, 0 <= k -> Rabs ((1 - k) * e) <= (1 + k) * Rabs e.
Proof.
  intros k e Hk. rewrite Rabs_mult. apply Rmult_le_compat_r; [apply Rabs_pos|].
  apply Rabs_le. lra.
Qed.

Lemma implicit_alone : forall X (coeff relax : X -> R) dts u,
  (forall x, 0 <= coeff x) -> (forall d, In d dts -> 0 < d) ->
  forall x, Rabs (fst (vab_run_dts X Impl coeff relax (fun v => v) dts u) x - relax x) <= Rabs (u x - relax x).
Proof.
  intros X coeff relax dts u Hc Hd x. induction dts as [|d r IH] using rev_ind; [apply Rle_refl|].
  pose proof (vab_rule X coeff relax (fun v => v) Impl r d u Hd Hc) as (w & Hw & Hu).
  set (u1 := fst (vab_run_dts X Impl coeff relax (fun v => v) r u)) in *.
  set (u2 := fst (vab_run_dts X Impl coeff relax (fun v => v) (r ++ [d]) u)) in *.
  assert (Hd0 : 0 < d) by (apply Hd, in_or_app; right; left; reflexivity).
  eapply Rle_trans; [|apply IH; intros e He; apply Hd, in_or_app; left; exact He].
  destruct (trap_factor X coeff relax d u1 u2 w x Hd0 (Hc x) (Hw x) (w x) (Hu x)) as [F1 F2].
  rewrite F2 in F1.
  assert (Hk : 0 <= d / 2 * coeff x) by (specialize (Hc x); nra).
  set (k := d / 2 * coeff x) in *. set (e := u2 x - relax x) in *. set (f := u1 x - relax x) in *.
  apply (Rmult_le_reg_l (1 + k)); [lra|].
  replace ((1 + k) * Rabs e) with (Rabs ((1 - k) * f))
    by (rewrite <- F1, Rabs_mult, (Rabs_pos_eq (1 + k)) by lra; reflexivity).
  apply rabs_ratio. exact Hk.
Qed.

(** any advection that does not increase deviations *)
Lemma absorber_bounded : forall X (ab : vab) (coeff relax : X -> R) adv dts u M,
  (forall x, 0 <= coeff x) -> (forall d, In d dts -> 0 < d) ->
  (forall x d, In d dts -> match ab with NoAb => True | Expl => coeff x * d <= 2 | Impl => coeff x * d <= 4 end) ->
  (forall v N, deviation_le X relax v N -> deviation_le X relax (adv v) N) ->
  deviation_le X relax u M ->
  deviation_le X relax (fst (vab_run_dts X ab coeff relax adv dts u)) M.
Proof.
  intros X ab coeff relax adv dts u M Hc Hd Hs Ha H0. induction dts as [|d r IH] using rev_ind; [exact H0|].
  assert (Hd0 : 0 < d) by (apply Hd, in_or_app; right; left; reflexivity).
  assert (Hs0 : forall x, match ab with NoAb => True | Expl => coeff x * d <= 2 | Impl => coeff x * d <= 4 end)
    by (intros x; apply Hs, in_or_app; right; left; reflexivity).
  assert (IH' : deviation_le X relax (fst (vab_run_dts X ab coeff relax adv r u)) M).
  { apply IH; [intros e He; apply Hd, in_or_app; left; exact He
              |intros x e He; apply Hs, in_or_app; left; exact He]. }
  pose proof (vab_rule X coeff relax adv ab r d u Hd Hc) as Ru.
  set (u1 := fst (vab_run_dts X ab coeff relax adv r u)) in *.
  set (u2 := fst (vab_run_dts X ab coeff relax adv (r ++ [d]) u)) in *.
  destruct ab; cbn [rule] in Ru.
  - rewrite Ru. apply Ha, IH'.
  - destruct Ru as (w & Hw & Hu). intros x. rewrite Hu. revert x. apply Ha.
    intros x. rewrite Hw. unfold pull. specialize (IH' x). specialize (Hs0 x). specialize (Hc x).
    replace (u1 x + d * (- coeff x * (u1 x - relax x)) - relax x) with ((1 - coeff x * d) * (u1 x - relax x)) by ring.
    rewrite Rabs_mult. assert (Rabs (1 - coeff x * d) <= 1) by (apply Rabs_le; nra).
    pose proof (Rabs_pos (u1 x - relax x)). pose proof (Rabs_pos (1 - coeff x * d)). nra.
  - destruct Ru as (w & Hw & Hu).
    assert (Hdw : deviation_le X relax w M).
    { intros x. destruct (trap_factor X coeff relax d u1 u2 w x Hd0 (Hc x) (Hw x) _ (Hu x)) as [_ F2].
      rewrite F2, Rabs_mult. specialize (IH' x). specialize (Hs0 x). specialize (Hc x).
      assert (Rabs (1 - d / 2 * coeff x) <= 1) by (apply Rabs_le; nra).
      pose proof (Rabs_pos (u1 x - relax x)). pose proof (Rabs_pos (1 - d / 2 * coeff x)). nra. }
    apply Ha in Hdw. intros x. specialize (Hdw x).
    destruct (trap_factor X coeff relax d u1 u2 w x Hd0 (Hc x) (Hw x) _ (Hu x)) as [F1 _].
    rewrite <- F1, Rabs_mult in Hdw. specialize (Hc x).
    assert (1 <= Rabs (1 + d / 2 * coeff x)) by (rewrite Rabs_pos_eq; nra).
    pose proof (Rabs_pos (u2 x - relax x)). nra.
Qed.

Lemma absorber_fixed : forall X (ab : vab) (coeff relax : X -> R) adv dts,
  (forall x, 0 <= coeff x) -> (forall d, In d dts -> 0 < d) -> adv relax = relax ->
  fst (vab_run_dts X ab coeff relax adv dts relax) = relax.
Proof.
  intros X ab coeff relax adv dts Hc Hd Ha. induction dts as [|d r IH] using rev_ind; [reflexivity|].
  pose proof (vab_rule X coeff relax adv ab r d relax Hd Hc) as Ru.
  rewrite IH in Ru by (intros e He; apply Hd, in_or_app; left; exact He).
  assert (Hd0 : 0 < d) by (apply Hd, in_or_app; right; left; reflexivity).
  destruct ab; cbn [rule] in Ru.
  - congruence.
  - destruct Ru as (w & Hw & Hu). assert (w = relax) by (extensionality x; rewrite Hw; unfold pull; lra).
    subst w. extensionality x. rewrite Hu, Ha. reflexivity.
  - destruct Ru as (w & Hw & Hu). assert (w = relax) by (extensionality x; rewrite Hw; unfold pull; lra).
    subst w. extensionality x. specialize (Hu x). rewrite Ha in Hu. unfold pull in Hu. specialize (Hc x).
    assert (0 <= d / 2 * coeff x) by nra. nra.
Qed.

Lemma absorber_overshoot : forall X (ab : vab) (coeff relax : X -> R) dts d u,
  (forall x, 0 <= coeff x) -> (forall e, In e (dts ++ [d]) -> 0 < e) ->
  (forall x, match ab with NoAb => True | Expl => coeff x * d <= 1 | Impl => coeff x * d <= 2 end) ->
  no_overshoot X relax (fst (vab_run_dts X ab coeff relax (fun v => v) dts u))
                       (fst (vab_run_dts X ab coeff relax (fun v => v) (dts ++ [d]) u)).
Proof.
  intros X ab coeff relax dts d u Hc Hd Hs. intros x. cbv beta.
  pose proof (vab_rule X coeff relax (fun v => v) ab dts d u Hd Hc) as Ru.
  set (u1 := fst (vab_run_dts X ab coeff relax (fun v => v) dts u)) in *.
  set (u2 := fst (vab_run_dts X ab coeff relax (fun v => v) (dts ++ [d]) u)) in *.
  assert (Hd0 : 0 < d) by (apply Hd, in_or_app; right; left; reflexivity).
  specialize (Hs x). destruct ab; cbn [rule] in Ru.
  - unfold no_overshoot. rewrite Ru. apply Rle_0_sqr.
  - destruct Ru as (w & Hw & Hu). rewrite Hu, Hw. unfold pull.
    replace ((u1 x - relax x) * (u1 x + d * (- coeff x * (u1 x - relax x)) - relax x))
      with ((1 - coeff x * d) * ((u1 x - relax x) * (u1 x - relax x))) by ring. apply Rmult_le_pos; [lra|apply Rle_0_sqr].
  - destruct Ru as (w & Hw & Hu).
    destruct (trap_factor X coeff relax d u1 u2 w x Hd0 (Hc x) (Hw x) _ (Hu x)) as [F1 F2].
    rewrite F2 in F1. specialize (Hc x).
    assert (0 <= d / 2 * coeff x) by nra.
    apply (Rmult_le_reg_l (1 + d / 2 * coeff x)); [lra|]. rewrite Rmult_0_r.
    replace ((1 + d / 2 * coeff x) * ((u1 x - relax x) * (u2 x - relax x)))
      with ((u1 x - relax x) * ((1 + d / 2 * coeff x) * (u2 x - relax x))) by ring.
    rewrite F1. replace ((u1 x - relax x) * ((1 - d / 2 * coeff x) * (u1 x - relax x)))
      with ((1 - d / 2 * coeff x) * ((u1 x - relax x) * (u1 x - relax x))) by ring. apply Rmult_le_pos; [lra|apply Rle_0_sqr].
Qed.

(** strong implicit absorber next to an unforced cell, with advection *)
Definition swap (v : bool -> R) : bool -> R := fun x => v (negb x).
Definition strong : bool -> R := fun x => if x then 8 else 0.
Lemma strong_amplifies : exists (coeff relax u : bool -> R) (adv : (bool -> R) -> (bool -> R)),
  (forall x, 0 <= coeff x) /\
  (forall v N, deviation_le bool relax v N -> deviation_le bool relax (adv v) N) /\
  deviation_le bool relax u 1 /\
  ~ deviation_le bool relax (fst (vab_run_dts bool Impl coeff relax adv [1] u)) 1.
Proof.
  exists strong, (fun _ => 0), (fun _ => 1), swap. split; [|split; [|split]].
  - intros x; unfold strong; destruct x; lra.
  - intros v N H x. apply H.
  - intros x. rewrite Rminus_0_r, Rabs_R1. lra.
  - intros H. specialize (H false). revert H.
    cbn. unfold normalize_vip, add_relax, swap. cbn.
    replace ((1 + 1 / 2 * 1 * (- (8) * (1 - 0)) + 1 / 2 * 1 * 0 * 0) / (1 + 1 / 2 * 1 * 0) - 0) with (-3) by field.
    intros H. apply Rabs_le_inv in H. lra.
Qed.
(** an explicit absorber with c dt > 2 blows up *)
Lemma explicit_unstable : exists (coeff relax u : unit -> R),
  (forall x, 0 <= coeff x) /\ deviation_le unit relax u 1 /\
  ~ deviation_le unit relax (fst (vab_run_dts unit Expl coeff relax (fun v => v) [1] u)) 1.
Proof.
  exists (fun _ => 3), (fun _ => 0), (fun _ => 1). split; [|split].
  - intros; lra.
  - intros x. rewrite Rminus_0_r, Rabs_R1. lra.
  - intros H. specialize (H tt). revert H. cbn.
    replace (1 + 1 / 2 * 1 * (0 + -2 * 3 * (1 - 0)) - 0) with (-2) by lra.
    intros H. apply Rabs_le_inv in H. lra.
Qed.

(** ** Examples *)
Lemma vip_example :
  let xs := [ {| q := 1; den := None; tries := []; dt_used := 1 |};
              {| q := 6; den := None; tries := [5]; dt_used := 2 |};
              {| q := 34; den := None; tries := []; dt_used := 1 |} ] in
  (forall x, In x xs -> 0 < dt_used x /\ den x = None)
  /\ nth_error (vip_run true true 0 xs (vip_init true true (fun _ => 7))) 1 = Some (11, (Some 10, None))
  /\ nth_error (vip_run true true 0 xs (vip_init true true (fun _ => 7))) 2 = Some (41, (Some 14, Some 6)).
Proof.
  intros xs.
  assert (H : forall x, In x xs -> 0 < dt_used x /\ den x = None)
    by (intros x [<-|[<-|[<-|[]]]]; cbn; split; try reflexivity; lra).
  split; [exact H|].
  assert (HF : Forall (ok_in true true) xs).
  { apply Forall_forall. intros x Hx. split; [apply H, Hx|discriminate]. }
  pose proof (run_out true true 0 xs [] _ HF (Forall_nil _) (vinv_init true true 0 (fun _ => 7))) as P.
  split.
  - rewrite (P 1%nat _ eq_refl). cbn. apply f_equal. apply f_equal2; [field|].
    apply f_equal2; [|reflexivity]. apply f_equal. field.
  - rewrite (P 2%nat _ eq_refl). cbn. apply f_equal. apply f_equal2; [field|].
    apply f_equal2; apply f_equal; field.
Qed.

Lemma div_example :
  (forall d : dim, (fun _ => 1) d <> 0) /\
  vctr_div [DX; DY] (fun d => intrp (1 / 2) 1 None
     (fun y => match d with DX => IZR (fst (fst y)) | DY => IZR (snd (fst y)) | DZ => 0 end) d) (3, 4, 0)%Z = 1.
Proof. split; [intros; lra|]. cbn. lra. Qed.

Lemma vab_example :
  (forall d, In d [1; 2] -> 0 < d) /\ (forall x : unit, 0 <= (fun _ => 2) x) /\
  fst (vab_run_dts unit Impl (fun _ => 2) (fun _ => 1) (fun v => v) [1 / 2; 2] (fun _ => 7)) tt = 1 - 2 / 3.
Proof.
  split; [intros d [<-|[<-|[]]]; lra|]. split; [intros; lra|].
  cbn. unfold normalize_vip, add_relax. cbn. field.
Qed.
