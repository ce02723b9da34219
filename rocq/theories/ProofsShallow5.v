(** Steps of the shallow-water solver follow the trapezoidal rule. *)
From Coq Require Import ZArith List Bool Lia Reals Lra Field.
From Verif Require Import ModelRun Lang Stencil FormCommon Solver1D Form2D Solver2D Fun1D FunN Arith ModelVip ModelShallow SpecReal SpecSym2 SpecShallow
  ProofsNumN ProofsFunN ProofsLinN ProofsShallow ProofsShallow2 ProofsShallow4.
Import ListNotations.
Local Open Scope R_scope.

Section Step.
  Variable p : shallow.
  Hypothesis Hdi : forall d, In d xy -> w_di p d <> 0.

  Lemma rhs_pull h d x : In d xy -> update_rhs p h d x = pull p h d x.
  Proof. intros Hd. unfold update_rhs, sw_grad, pull. field. exact (Hdi d Hd). Qed.
  Lemma vel_speed q h x : velocity p q h x = speed p (q x) (h x).
  Proof. reflexivity. Qed.
  Lemma intrp_faces u d x : intrp (w_dt p) (w_di p d) (if nug (w_o p) then Some (w_G p) else None) (u d) d x = at_faces p u d x.
  Proof. unfold intrp, at_faces, G_of. destruct (nug (w_o p)); unfold Rdiv; ring. Qed.

  Lemma stays_rhs n q h t : sw_run p n (sw_start p q h) t -> rhs_ t = update_rhs p (h_ t) /\ step_ t = Z.of_nat n /\ (dts_ t = match n with O => 0 | _ => w_dt p end).
  Proof.
    remember (sw_start p q h) as s eqn:E. intros R. induction R as [s|n s s' R IH NZ].
    - subst s. repeat split.
    - destruct (IH E) as (A & B & C). split; [reflexivity|]. split; [|reflexivity]. cbn [sw_step step_]. rewrite B. lia.
  Qed.

  (** velocities half a time step ahead *)
  Lemma first_u q h d x : extrapolated p (sw_start p q h) d x = speed p (q d x) (h x).
  Proof.
    unfold extrapolated. cbn [sw_start dts_ stash_ q_ h_]. destruct (Rlt_dec 0 0) as [L|_]; [lra|]. rewrite vel_speed. ring.
  Qed.
  Lemma next_u s d x : 0 < w_dt p -> extrapolated p (sw_step p s) d x =
    3 / 2 * speed p (q_ (sw_step p s) d x) (h_ (sw_step p s) x) - 1 / 2 * speed p (q_ s d x) (h_ s x).
  Proof.
    intros Hdt. unfold extrapolated. rewrite vel_speed. change (dts_ (sw_step p s)) with (w_dt p).
    change (stash_ (sw_step p s) d x) with (velocity p (q_ s d) (h_ s) x). rewrite vel_speed.
    destruct (Rlt_dec 0 (w_dt p)) as [_|L]; [|contradiction].
    replace (w_dt p / (2 * w_dt p)) with (1 / 2) by (field; lra). lra.
  Qed.
  Lemma advect_ext C C' ts sc psi psi' : (forall d x, In d xy -> C d x = C' d x) -> (forall x, psi x = psi' x) ->
    forall x, advect p C ts sc psi x = advect p C' ts sc psi' x.
  Proof. intros HC HP x. apply advect_same; auto. Qed.

  Lemma trap_step u n s : rhs_ s = update_rhs p (h_ s) -> step_ s = Z.of_nat n -> (forall d x, In d xy -> extrapolated p s d x = u d x) ->
    trapezoid p u n s (sw_step p s).
  Proof.
    intros A B U. assert (F : forall d x, In d xy -> advector p s d x = at_faces p u d x).
    { intros d x Hd. rewrite <- intrp_faces. unfold advector, intrp. destruct (nug (w_o p)); rewrite !U by exact Hd; reflexivity. }
    split.
    - intros x. cbn [sw_step h_]. rewrite B. apply advect_ext; [exact F|reflexivity].
    - intros d x Hd. rewrite <- rhs_pull by exact Hd. cbn [sw_step q_ h_]. unfold apply_rhs at 1.
      f_equal. rewrite B. apply advect_ext; [exact F|]. intros y. unfold apply_rhs. rewrite A, rhs_pull by exact Hd. reflexivity.
  Qed.
End Step.

Lemma one_step p s t : sw_run p 1 s t -> t = sw_step p s.
Proof. intros R. inversion R as [|n a s' R0]; subst. inversion R0; subst. reflexivity. Qed.

Lemma steps_trapezoidal : forall p q h, (forall d, In d xy -> w_di p d <> 0) -> 0 < w_dt p ->
  let v s d x := speed p (q_ s d x) (h_ s x) in
  (forall t, sw_run p 1 (sw_start p q h) t -> trapezoid p (v (sw_start p q h)) 0 (sw_start p q h) t) /\
  (forall n r s t, sw_run p n (sw_start p q h) r -> sw_run p 1 r s -> sw_run p 1 s t ->
     trapezoid p (fun d x => 3 / 2 * v s d x - 1 / 2 * v r d x) (S n) s t).
Proof.
  intros p q h Hdi Hdt v. split.
  - intros t R. apply one_step in R. subst t. apply trap_step; [exact Hdi|reflexivity|reflexivity|].
    intros d x _. apply first_u.
  - intros n r s t R S T. apply one_step in T. subst t. pose proof (one_step _ _ _ S) as E. 
    destruct (stays_rhs p n q h r R) as (A & B & _). subst s.
    apply trap_step; [exact Hdi|reflexivity|cbn [sw_step step_]; rewrite B; lia|].
    intros d x _. apply next_u. exact Hdt.
Qed.

(** a heap of water released from rest *)
Lemma released : let s := sw_start waves (fun _ _ => 0) bump in
  sw_run waves 1 s (sw_step waves s) /\ forall x, h_ (sw_step waves s) x = bump x /\ q_ (sw_step waves s) DX x = tab 0 (1 / 2) 0 (- (1 / 2)) x.
Proof.
  intros s. assert (R : sw_run waves 1 s (sw_step waves s)) by (constructor; [constructor|cbn; intros; lra]). split; [exact R|].
  destruct (steps_trapezoidal waves (fun _ _ => 0) bump) as [T _]; [intros; cbn; lra|cbn; lra|].
  destruct (T _ R) as [A B]. set (C := at_faces waves _) in A, B.
  assert (Z : forall d x, C d x = 0).
  { intros d x. unfold C, at_faces. cbn [q_ h_ sw_start]. 
    assert (V : forall y, speed waves 0 y = 0) by (intros y; unfold speed; destruct Req_EM_T; [|destruct Rlt_dec]; unfold Rdiv; ring).
    cbv beta. rewrite !V, !Rmult_0_r, Rplus_0_r. unfold Rdiv. rewrite Rmult_0_l, Rmult_0_r. reflexivity. }
  assert (K : forall ts psi x, advect waves C ts 0 psi x = psi x).
  { intros ts psi x. rewrite advect_one by reflexivity. unfold donN. rewrite !Z. num. }
  assert (H : forall x, h_ (sw_step waves s) x = bump x) by (intros x; rewrite A; apply K).
  intros x. split; [apply H|]. rewrite (B DX x (or_introl eq_refl)), K. unfold pull. rewrite !H. cbn [q_ h_ s sw_start].
  cbn [w_dt w_di w_grav pool]. unfold bump. rewrite !step_nx, !step_pv, !tab_next, !tab_prev.
  destruct (tab_case x) as [[|[|[|r]]] E]; rewrite !E; lra.
Qed.
