From Coq Require Import ZArith List Bool Reals Lra Lia Psatz FunctionalExtensionality.
From Verif Require Import Stencil ModelVip ModelPrs SpecPrs ProofsVip.
Import ListNotations.
Local Open Scope R_scope.

(** ** Vectors *)
Section V.
  Variable X : Type.
  Variable cells : list X.
  Notation dot := (dot X cells).
  Notation axpy := (axpy X).

  Lemma sumv_ext : forall l (f g : X -> R), (forall x, In x l -> f x = g x) ->
    sumv X l f = sumv X l g.
  Proof.
    induction l; intros; [reflexivity|]. cbn. rewrite (H a) by now left. f_equal. apply IHl. intros. apply H. now right.
  Qed.
  Lemma sumv_lin : forall l a b (f g : X -> R), sumv X l (fun x => a * f x + b * g x) = a * sumv X l f + b * sumv X l g.
  Proof. induction l; intros; cbn; [lra|]. unfold sumv in IHl. rewrite IHl. lra. Qed.
  Lemma sumv_nonneg : forall l (f : X -> R), (forall x, In x l -> 0 <= f x) -> 0 <= sumv X l f.
  Proof.
    induction l; intros; cbn; [lra|]. pose proof (H a (or_introl eq_refl)).
    assert (0 <= sumv X l f) by (apply IHl; intros; apply H; now right). unfold sumv in H1. lra.
  Qed.
  Lemma sumv_le : forall l (f g : X -> R), (forall x, In x l -> f x <= g x) -> sumv X l f <= sumv X l g.
  Proof.
    induction l; intros; cbn; [lra|]. pose proof (H a (or_introl eq_refl)).
    assert (sumv X l f <= sumv X l g) by (apply IHl; intros; apply H; now right). unfold sumv in H1. lra.
  Qed.
  Lemma sumv_const : forall l c, sumv X l (fun _ => c) = INR (length l) * c.
  Proof. induction l; intros; [cbn; lra|]. change (c + sumv X l (fun _ => c) = INR (S (length l)) * c). rewrite IHl, S_INR. lra. Qed.
  Lemma sumv_zero : forall l (f : X -> R), (forall x, In x l -> 0 <= f x) -> sumv X l f = 0 -> forall x, In x l -> f x = 0.
  Proof.
    induction l; intros f H H0 x Hx; [destruct Hx|]. cbn in H0.
    pose proof (H a (or_introl eq_refl)).
    assert (0 <= sumv X l f) by (apply sumv_nonneg; intros; apply H; now right). unfold sumv in H2.
    destruct Hx as [<-|Hx]; [lra|]. apply IHl; auto. { intros; apply H; now right. } unfold sumv. lra.
  Qed.

  Lemma dot_ext : forall u u' v v', (forall x, In x cells -> u x = u' x) -> (forall x, In x cells -> v x = v' x) ->
    dot u v = dot u' v'.
  Proof. intros. unfold ModelPrs.dot. apply sumv_ext. intros. rewrite H, H0; auto. Qed.
  Lemma dot_self_nonneg : forall u, 0 <= dot u u.
  Proof. intros. apply sumv_nonneg. intros. apply Rle_0_sqr. Qed.
  Lemma dot_zero : forall u, dot u u = 0 -> forall x, In x cells -> u x = 0.
  Proof.
    intros u H x Hx. assert (u x * u x = 0).
    { apply (sumv_zero cells (fun x => u x * u x)); auto. intros. apply Rle_0_sqr. }
    apply Rmult_integral in H0. tauto.
  Qed.
  Lemma dot_axpy : forall u a q, dot (axpy u a q) (axpy u a q) = dot u u + 2 * a * dot u q + a * a * dot q q.
  Proof.
    intros. unfold ModelPrs.dot, ModelPrs.axpy.
    rewrite (sumv_ext cells _ (fun x => 1 * (1 * (u x * u x) + (2 * a) * (u x * q x)) + (a * a) * (q x * q x))) by (intros; lra).
    rewrite sumv_lin, sumv_lin. lra.
  Qed.

  (** one minimisation along [q] *)
  Definition step_beta (b0 : R) (e q : X -> R) : R :=
    if is_zero (dot q q) then b0 else - dot e q / dot q q.
  Lemma step_dec : forall b0 e q,
    dot (axpy e (step_beta b0 e q) q) (axpy e (step_beta b0 e q) q) <= dot e e.
  Proof.
    intros. unfold step_beta, is_zero. destruct (Req_EM_T (dot q q) 0) as [Z|N].
    - pose proof (dot_zero _ Z). apply Req_le. apply dot_ext; intros; unfold ModelPrs.axpy; rewrite H by assumption; lra.
    - rewrite dot_axpy. pose proof (dot_self_nonneg q).
      replace (dot e e + 2 * (- dot e q / dot q q) * dot e q + - dot e q / dot q q * (- dot e q / dot q q) * dot q q)
        with (dot e e - dot e q * dot e q / dot q q) by (field; assumption).
      assert (0 <= dot e q * dot e q / dot q q); [|lra].
      apply Rmult_le_pos; [apply Rle_0_sqr|]. apply Rlt_le, Rinv_0_lt_compat. lra.
  Qed.
  Lemma step_strict : forall b0 e q, dot e q <> 0 ->
    dot (axpy e (step_beta b0 e q) q) (axpy e (step_beta b0 e q) q) < dot e e.
  Proof.
    intros. unfold step_beta, is_zero. destruct (Req_EM_T (dot q q) 0) as [Z|N].
    - exfalso. apply H. unfold ModelPrs.dot. rewrite (sumv_ext cells _ (fun _ => 0)).
      + rewrite sumv_const. lra.
      + intros. rewrite (dot_zero _ Z) by assumption. lra.
    - rewrite dot_axpy. pose proof (dot_self_nonneg q).
      replace (dot e e + 2 * (- dot e q / dot q q) * dot e q + - dot e q / dot q q * (- dot e q / dot q q) * dot q q)
        with (dot e e - dot e q * dot e q / dot q q) by (field; assumption).
      assert (0 < dot e q * dot e q / dot q q); [|lra].
      apply Rmult_lt_0_compat; [|apply Rinv_0_lt_compat; lra].
      assert (0 <= dot e q * dot e q) by apply Rle_0_sqr.
      destruct (Req_dec (dot e q * dot e q) 0) as [K|]; [|lra]. apply Rmult_integral in K. tauto.
  Qed.

  (** extrema *)
  Lemma fold_max : forall (u : X -> R) r a, a <= fold_left (fun a x => Rmax a (u x)) r a /\
    forall x, In x r -> u x <= fold_left (fun a x => Rmax a (u x)) r a.
  Proof.
    induction r; intros b; cbn; [split; [lra|tauto]|].
    destruct (IHr (Rmax b (u a))) as [H1 H2]. split.
    - eapply Rle_trans; [apply Rmax_l|exact H1].
    - intros x [<-|H]; auto. eapply Rle_trans; [apply Rmax_r|exact H1].
  Qed.
  Lemma fold_min : forall (u : X -> R) r a, fold_left (fun a x => Rmin a (u x)) r a <= a /\
    forall x, In x r -> fold_left (fun a x => Rmin a (u x)) r a <= u x.
  Proof.
    induction r; intros b; cbn; [split; [lra|tauto]|].
    destruct (IHr (Rmin b (u a))) as [H1 H2]. split.
    - eapply Rle_trans; [exact H1|apply Rmin_l].
    - intros x [<-|H]; auto. eapply Rle_trans; [exact H1|apply Rmin_r].
  Qed.
  Lemma error_bound : forall u t, error_of X cells u <= t -> forall x, In x cells -> Rabs (u x) <= t.
  Proof.
    intros u t H x Hx. unfold error_of in H.
    assert (u x <= maxv X cells u /\ minv X cells u <= u x) as [A B].
    { unfold maxv, minv. destruct cells as [|c r]; [destruct Hx|].
      destruct (fold_max u r (u c)), (fold_min u r (u c)). destruct Hx as [<-|Hx]; auto. }
    pose proof (Rmax_l (Rabs (maxv X cells u)) (Rabs (minv X cells u))).
    pose proof (Rmax_r (Rabs (maxv X cells u)) (Rabs (minv X cells u))).
    pose proof (Rle_abs (maxv X cells u)). pose proof (Rle_abs (- minv X cells u)). rewrite Rabs_Ropp in H3.
    apply Rabs_le. lra.
  Qed.
  Lemma error_zero : forall u, (forall x, In x cells -> u x = 0) -> error_of X cells u = 0.
  Proof.
    intros u H. assert (maxv X cells u = 0 /\ minv X cells u = 0) as [A B].
    { unfold maxv, minv. destruct cells as [|c r]; [auto|].
      rewrite (H c) by now left. assert (forall y, In y r -> u y = 0) by (intros; apply H; now right). clear H.
      induction r; cbn; [auto|]. rewrite (H0 a) by now left.
      rewrite (Rmax_left 0 0), (Rmin_left 0 0) by lra. apply IHr. intros. apply H0. now right. }
    unfold error_of. rewrite A, B, Rabs_R0. apply Rmax_left. lra.
  Qed.
  Lemma le_b_true : forall a b, le_b a b = true <-> a <= b.
  Proof. intros. unfold le_b. destruct (Rle_dec a b); split; auto; discriminate. Qed.
End V.

(** ** The loop *)
Lemma loop_inv : forall (S : Type) (body : S -> S) conv (P : S -> Prop),
  (forall s, P s -> P (body s)) ->
  forall fuel it s r, P s -> prs_loop body conv fuel it s = Some (Done r) -> P r /\ conv r = true.
Proof.
  intros S body conv P HP. induction fuel; intros it s r Hs H; cbn in H.
  - destruct (conv s) eqn:C; [|discriminate]. injection H as <-. auto.
  - destruct (conv s) eqn:C. { injection H as <-. auto. }
    destruct (10000 <? it + 1)%Z; [discriminate|]. eapply IHfuel; [|exact H]. auto.
Qed.
Lemma iter_r : forall (S : Type) (f : S -> S) n x, Nat.iter (Datatypes.S n) f x = Nat.iter n f (f x).
Proof. induction n; intros; [reflexivity|]. exact (f_equal f (IHn x)). Qed.
(** the result is reached by repeating the body fewer than 10001 times *)
Lemma loop_iter : forall (S : Type) (body : S -> S) conv fuel it s r,
  (0 <= it <= 10000)%Z ->
  prs_loop body conv fuel it s = Some (Done r) ->
  exists n : nat, (it + Z.of_nat n <= 10000)%Z /\ r = Nat.iter n body s /\ conv r = true /\
    forall m, (m < n)%nat -> conv (Nat.iter m body s) = false.
Proof.
  intros S body conv. induction fuel; intros it s r Hi H; cbn in H.
  - destruct (conv s) eqn:C; [|discriminate]. injection H as <-. exists O. cbn. repeat split; auto; try lia; intros; lia.
  - destruct (conv s) eqn:C. { injection H as <-. exists O. cbn. repeat split; auto; try lia; intros; lia. }
    destruct (10000 <? it + 1)%Z eqn:E; [discriminate|]. apply Z.ltb_ge in E.
    destruct (IHfuel (it + 1)%Z (body s) r ltac:(lia) H) as (n & A & B & D & F).
    exists (Datatypes.S n). split; [lia|]. rewrite B. split; [|split].
    + rewrite iter_r. reflexivity.
    + rewrite <- B. exact D.
    + intros [|m] Hm; [exact C|]. rewrite iter_r. apply F. lia.
Qed.
Lemma loop_total : forall (S : Type) (body : S -> S) conv fuel it s,
  (10001 - it <= Z.of_nat fuel)%Z -> (it <= 10000)%Z -> prs_loop body conv fuel it s <> None.
Proof.
  intros S body conv. induction fuel; intros it s H Hi; cbn.
  - exfalso. lia.
  - destruct (conv s); [discriminate|]. destruct (10000 <? it + 1)%Z eqn:E; [discriminate|].
    apply Z.ltb_ge in E. apply IHfuel; lia.
Qed.
Lemma loop_stuck : forall (S : Type) (body : S -> S) conv (P : S -> Prop),
  (forall s, P s -> P (body s)) -> (forall s, P s -> conv s = false) ->
  forall fuel it s, P s -> (10001 - it <= Z.of_nat fuel)%Z -> (it <= 10000)%Z ->
  prs_loop body conv fuel it s = Some Stuck.
Proof.
  intros S body conv P HP HC. induction fuel; intros it s Hs H Hi; cbn; [exfalso; lia|].
  rewrite (HC _ Hs). destruct (10000 <? it + 1)%Z eqn:E; [reflexivity|].
  apply Z.ltb_ge in E. apply IHfuel; auto; lia.
Qed.
Lemma loop_first : forall (S : Type) (body : S -> S) conv fuel s,
  fuel = Z.to_nat 10001 -> conv s = false -> conv (body s) = true -> prs_loop body conv fuel 0 s = Some (Done (body s)).
Proof.
  intros S body conv fuel s H C1 C2. assert (exists n, fuel = Datatypes.S n) as [n ->].
  { exists (Z.to_nat 10000). rewrite H, <- Z2Nat.inj_succ by lia. reflexivity. }
  cbn [prs_loop]. rewrite C1. change (10000 <? 0 + 1)%Z with false. cbv iota.
  destruct n; cbn [prs_loop]; rewrite C2; reflexivity.
Qed.
Lemma loop_total_limit : forall (S : Type) (body : S -> S) conv fuel s,
  fuel = Z.to_nat 10001 -> exists r, prs_loop body conv fuel 0 s = Some r.
Proof.
  intros S body conv fuel s H. destruct (prs_loop body conv fuel 0 s) eqn:E; [eauto|]. exfalso. revert E.
  apply loop_total; [|lia]. rewrite H, Z2Nat.id by lia. lia.
Qed.

(** ** Invariants of the bodies *)
Section Inv.
  Variable X : Type.
  Variables (cells : list X) (L A : (X -> R) -> (X -> R)) (tol : R).
  Hypothesis Llin : forall a b u v x, L (fun y => a * u y + b * v y) x = a * L u x + b * L v x.
  Hypothesis Aff : forall u b v x, A (axpy X u b v) x = A u x + b * L v x.

  Definition mr_rel (s : mr_st X) : Prop := forall x, m_err X s x = A (m_phi X s) x.
  Lemma mr_body_rel : forall s, mr_rel s -> mr_rel (mr_body X cells L tol s).
  Proof.
    intros s H x. unfold mr_body, mr_rel in *. cbn [m_err m_phi].
    rewrite Aff, <- H. unfold axpy. reflexivity.
  Qed.
  Lemma mr_body_dec : forall s,
    dot X cells (m_err X (mr_body X cells L tol s)) (m_err X (mr_body X cells L tol s)) <= dot X cells (m_err X s) (m_err X s).
  Proof. intros. apply step_dec. Qed.
  Lemma mr_body_strict : forall s, dot X cells (m_err X s) (L (m_err X s)) <> 0 ->
    dot X cells (m_err X (mr_body X cells L tol s)) (m_err X (mr_body X cells L tol s)) < dot X cells (m_err X s) (m_err X s).
  Proof. intros. apply step_strict. assumption. Qed.
  Definition mr_ok (s : mr_st X) : Prop := m_conv X s = true -> error_of X cells (m_err X s) <= tol.
  (** the flag, false at the start, is only set together with the bound; the
      loop stops as soon as it is set, so no later pass can spoil the bound *)
  Lemma mr_conv_once : forall s, m_conv X s = false -> mr_ok (mr_body X cells L tol s).
  Proof.
    intros s H C. unfold mr_body in *. cbn [m_conv m_err] in *. rewrite H, orb_false_r in C. now apply le_b_true.
  Qed.

  (** generalised conjugate residuals *)
  Definition gc_rel (v : nat) (s : gc_st X) : Prop :=
    (forall x, g_err X s x = A (g_phi X s) x) /\
    (forall j, (j <= v)%nat -> forall x, g_lp X s j x = L (g_p X s j) x).

  Lemma L_axpy : forall u b v x, L (axpy X u b v) x = L u x + b * L v x.
  Proof.
    intros. replace (axpy X u b v) with (fun y => 1 * u y + b * v y).
    - rewrite Llin. lra.
    - apply functional_extensionality. intros. unfold axpy. lra.
  Qed.
  Lemma setv_eq : forall T (f : nat -> T) k v, setv f k v k = v.
  Proof. intros. unfold setv. now rewrite Nat.eqb_refl. Qed.
  Lemma setv_ne : forall T (f : nat -> T) k v j, j <> k -> setv f k v j = f j.
  Proof. intros. unfold setv. apply Nat.eqb_neq in H. now rewrite H. Qed.

  (** adding multiples of the earlier directions to slot [t], on both sides *)
  Lemma fold_dirs : forall (al : nat -> R) t ls p lp,
    ~ In t ls ->
    (forall j, In j ls -> forall x, lp j x = L (p j) x) ->
    (forall x, lp t x = L (p t) x) ->
    let f := fun (p : nat -> X -> R) l => setv p t (axpy X (p t) (al l) (p l)) in
    (forall x, fold_left f ls lp t x = L (fold_left f ls p t) x) /\
    (forall j, j <> t -> fold_left f ls p j = p j /\ fold_left f ls lp j = lp j).
  Proof.
    induction ls; intros p lp Hn H Ht f; cbn.
    - split; auto.
    - destruct (IHls (f p a) (f lp a)) as [I J].
      + intro. apply Hn. now right.
      + intros j Hj x. unfold f. rewrite !setv_ne.
        * apply H. now right.
        * intros ->. apply Hn. now right.
        * intros ->. apply Hn. now right.
      + intros x. unfold f. rewrite !setv_eq, L_axpy. unfold axpy. rewrite Ht, (H a) by now left. reflexivity.
      + split; [exact I|]. intros j Hj. destruct (J j Hj) as [J1 J2].
        split; [etransitivity; [exact J1|] | etransitivity; [exact J2|]]; apply setv_ne; auto.
  Qed.

  Lemma gc_iter_rel : forall k v s, gc_rel v s -> gc_rel (if Nat.ltb v (k - 1) then S v else 0) (gc_iter X cells L tol k v s).
  Proof.
    intros k v s [He Hl]. unfold gc_iter.
    set (beta := if is_zero _ then _ else _).
    set (alpha := fold_left _ (seq 0 (S v)) (g_alpha X s)).
    assert (E : forall x, axpy X (g_err X s) beta (g_lp X s v) x = A (axpy X (g_phi X s) beta (g_p X s v)) x).
    { intros. rewrite Aff, <- He. unfold axpy. rewrite (Hl v) by lia. reflexivity. }
    clearbody beta alpha.
    destruct (Nat.ltb v (k - 1)); split; cbn [g_err g_phi g_lp g_p]; try exact E.
    - intros j Hj x.
      destruct (fold_dirs alpha (S v) (seq 0 (S v)) (setv (g_p X s) (S v) (axpy X (g_err X s) beta (g_lp X s v)))
                 (setv (g_lp X s) (S v) (L (axpy X (g_err X s) beta (g_lp X s v))))) as [I J].
      + rewrite in_seq. lia.
      + intros j' Hj' y. rewrite in_seq in Hj'. rewrite !setv_ne by lia. apply Hl. lia.
      + intros. now rewrite !setv_eq.
      + destruct (Nat.eq_dec j (S v)) as [->|Nj]; [apply I|].
        destruct (J j Nj) as [J1 J2].
        etransitivity; [exact (f_equal (fun f => f x) J2)|].
        etransitivity; [|exact (f_equal (fun f => L f x) (eq_sym J1))].
        rewrite !setv_ne by lia. apply Hl. lia.
    - intros j Hj x. replace j with 0%nat by lia. clear j Hj.
      apply (fold_dirs alpha 0 (seq 1 v)
         (setv (g_p X s) 0 (axpy X (axpy X (g_err X s) beta (g_lp X s v)) (alpha 0%nat) (g_p X s 0%nat)))
         (setv (g_lp X s) 0 (axpy X (L (axpy X (g_err X s) beta (g_lp X s v))) (alpha 0%nat) (g_lp X s 0%nat)))).
      + rewrite in_seq. lia.
      + intros j Hj y. rewrite in_seq in Hj. rewrite !setv_ne by lia. apply Hl. lia.
      + intros y. rewrite !setv_eq, L_axpy. unfold axpy at 1. rewrite (Hl 0%nat) by lia. reflexivity.
  Qed.
  Lemma gc_iter_dec : forall k v s,
    dot X cells (g_err X (gc_iter X cells L tol k v s)) (g_err X (gc_iter X cells L tol k v s))
    <= dot X cells (g_err X s) (g_err X s).
  Proof.
    intros. replace (g_err X (gc_iter X cells L tol k v s))
      with (axpy X (g_err X s) (step_beta X cells (g_beta X s) (g_err X s) (g_lp X s v)) (g_lp X s v)).
    - apply step_dec.
    - unfold gc_iter. rewrite !setv_eq. destruct (Nat.ltb v (k - 1)); reflexivity.
  Qed.
  (** the flag implies the bound on the Euclidean norm *)
  Definition gc_ok (s : gc_st X) : Prop :=
    g_conv X s = true -> dot X cells (g_err X s) (g_err X s) <= INR (length cells) * (tol * tol).
  Lemma euclid : forall u, error_of X cells u <= tol -> dot X cells u u <= INR (length cells) * (tol * tol).
  Proof.
    intros u H. rewrite <- sumv_const. unfold dot. apply sumv_le. intros x Hx.
    pose proof (error_bound X cells u tol H x Hx). apply Rabs_le_inv in H0.
    assert (0 <= tol) by (pose proof (Rabs_pos (u x)); pose proof (error_bound X cells u tol H x Hx); lra). nra.
  Qed.
  Lemma gc_iter_ok : forall k v s, gc_ok s -> gc_ok (gc_iter X cells L tol k v s).
  Proof.
    intros k v s H C.
    assert (D := gc_iter_dec k v s).
    assert (Cv : g_conv X (gc_iter X cells L tol k v s)
                 = le_b (error_of X cells (g_err X (gc_iter X cells L tol k v s))) tol || g_conv X s).
    { unfold gc_iter. destruct (Nat.ltb v (k - 1)); reflexivity. }
    rewrite Cv in C. apply orb_true_iff in C. destruct C as [C|C].
    - apply le_b_true in C. now apply euclid.
    - specialize (H C). lra.
  Qed.
  Lemma gc_body_inv : forall k s, (0 < k)%nat -> gc_rel 0 s ->
    gc_rel 0 (gc_body X cells L tol k s) /\
    dot X cells (g_err X (gc_body X cells L tol k s)) (g_err X (gc_body X cells L tol k s)) <= dot X cells (g_err X s) (g_err X s) /\
    (gc_ok s -> gc_ok (gc_body X cells L tol k s)).
  Proof.
    intros k s Hk Hs. unfold gc_body.
    assert (G : forall n s v, (v + n = k)%nat -> (0 < n)%nat -> gc_rel v s ->
      let r := fold_left (fun s v => gc_iter X cells L tol k v s) (seq v n) s in
      gc_rel 0 r /\ dot X cells (g_err X r) (g_err X r) <= dot X cells (g_err X s) (g_err X s) /\ (gc_ok s -> gc_ok r)).
    { induction n; intros t v E P H; [lia|]. cbn [seq fold_left].
      pose proof (gc_iter_rel k v t H) as H1. pose proof (gc_iter_dec k v t) as D1. pose proof (gc_iter_ok k v t) as O1.
      destruct n.
      - cbn [seq fold_left]. assert (v = k - 1)%nat by lia. replace (Nat.ltb v (k - 1)) with false in H1 by (symmetry; apply Nat.ltb_ge; lia).
        auto.
      - replace (Nat.ltb v (k - 1)) with true in H1 by (symmetry; apply Nat.ltb_lt; lia).
        destruct (IHn (gc_iter X cells L tol k v t) (S v) ltac:(lia) ltac:(lia) H1) as (K1 & K2 & K3).
        split; [exact K1|]. split; [|auto]. cbn in K2 |- *. lra. }
    apply (G k s 0%nat); auto.
  Qed.
End Inv.

(** ** The operator *)
Section Op.
  Variable E : prs_env.
  Hypothesis F : fills E.
  Lemma fill_lin : forall a b u v w y, (forall z, w z = a * u z + b * v z) -> pfill E w y = a * pfill E u y + b * pfill E v y.
  Proof.
    intros. destruct F as (Fl & _). rewrite <- Fl. f_equal. now apply functional_extensionality.
  Qed.
  Lemma fill_ext : forall u w y, (forall z, w z = u z) -> pfill E w y = pfill E u y.
  Proof. intros. f_equal. now apply functional_extensionality. Qed.

  Lemma div_fold : forall dims di v x,
    div dims di v x = fold_right (fun d a => (v d (step_in d 1 x) - v d (step_in d (-1) x)) / di d / 2 + a) 0 dims.
  Proof.
    intros. unfold div. destruct dims as [|d r]; [reflexivity|].
    assert (H : forall l b, fold_left (fun a d0 => a + (v d0 (step_in d0 1 x) - v d0 (step_in d0 (-1) x)) / di d0 / 2) l b
      = b + fold_right (fun d a => (v d (step_in d 1 x) - v d (step_in d (-1) x)) / di d / 2 + a) 0 l).
    { induction l; intros; cbn; [lra|]. rewrite IHl. lra. }
    rewrite H. cbn. lra.
  Qed.

  Lemma lap_affine : forall simple uvw b u v x,
    lap E true simple uvw (axpy idx u b v) x = lap E true simple uvw u x + b * lap E false simple uvw v x.
  Proof.
    intros. unfold lap.
    match goal with |- div _ _ ?w _ / _ = div _ _ ?p _ / _ + b * (div _ _ ?q _ / _) =>
      rewrite (div_linear (pdims E) (pdi E) 1 b p q w x) end.
    { unfold Rdiv. lra. }
    intros d y. apply fill_lin. intros z.
    assert (S : set_edges E (-1) (fun d x => pgrad E (pfill E (axpy idx u b v)) d x - uvw d x) d z
      = 1 * set_edges E (-1) (fun d x => pgrad E (pfill E u) d x - uvw d x) d z
        + b * set_edges E 0 (fun d x => pgrad E (pfill E v) d x - 0) d z).
    { unfold set_edges. destruct (pedge E d z); [lra|]. unfold pgrad.
      rewrite !(fill_lin 1 b u v (axpy idx u b v)) by (intros; unfold axpy; lra). unfold Rdiv. lra. }
    rewrite S. destruct (pG E), simple; unfold Rdiv; lra.
  Qed.
  Lemma lap_linear : forall simple uvw a b u v x,
    lap E false simple uvw (fun y => a * u y + b * v y) x = a * lap E false simple uvw u x + b * lap E false simple uvw v x.
  Proof.
    intros. unfold lap.
    match goal with |- div _ _ ?w _ / _ = a * (div _ _ ?p _ / _) + b * (div _ _ ?q _ / _) =>
      rewrite (div_linear (pdims E) (pdi E) a b p q w x) end.
    { unfold Rdiv. lra. }
    intros d y. apply fill_lin. intros z.
    assert (S : set_edges E 0 (fun d x => pgrad E (pfill E (fun y => a * u y + b * v y)) d x - 0) d z
      = a * set_edges E 0 (fun d x => pgrad E (pfill E u) d x - 0) d z
        + b * set_edges E 0 (fun d x => pgrad E (pfill E v) d x - 0) d z).
    { unfold set_edges. destruct (pedge E d z); [lra|]. unfold pgrad.
      rewrite !(fill_lin a b u v (fun y => a * u y + b * v y)) by (intros; lra). unfold Rdiv. lra. }
    rewrite S. destruct (pG E), simple; unfold Rdiv; lra.
  Qed.

  (** the residual is minus the divergence of the corrected velocity *)
  Lemma lap_div : forall simple uvw phi x, edges_compatible E simple ->
    lap E true simple uvw phi x = - flow_div E (corrected E simple uvw phi) x.
  Proof.
    intros simple uvw phi x C. unfold lap, flow_div. rewrite div_fold. unfold Gv.
    set (g := fun y => match pG E with Some g => g y | None => 1 end).
    change (match pG E with Some g0 => g0 x | None => 1 end) with (g x).
    assert (H : forall d y,
      pfill E (fun x0 => if simple
          then match pG E with Some g0 => set_edges E (-1) (fun d x1 => pgrad E (pfill E phi) d x1 - uvw d x1) d x0 * g0 x0
                 | None => set_edges E (-1) (fun d x1 => pgrad E (pfill E phi) d x1 - uvw d x1) d x0 end
          else match pG E with Some g0 => set_edges E (-1) (fun d x1 => pgrad E (pfill E phi) d x1 - uvw d x1) d x0 * g0 x0
                 | None => set_edges E (-1) (fun d x1 => pgrad E (pfill E phi) d x1 - uvw d x1) d x0 end / pnorm E x0) y
      = - pfill E (fun y => g y * corrected E simple uvw phi d y) y).
    { intros d y. rewrite (fill_lin (-1) 0 (fun y => g y * corrected E simple uvw phi d y) (fun y => g y * corrected E simple uvw phi d y)).
      { lra. }
      intros z. unfold corrected, set_edges. destruct C as [-> | C].
      - unfold g. destruct (pedge E d z), (pG E); lra.
      - specialize (C d z). destruct (pedge E d z) as [s|].
        + unfold g. destruct (C s eq_refl) as [-> | ->]; destruct (pG E), simple; unfold Rdiv; try rewrite Rinv_1; lra.
        + unfold g. destruct (pG E), simple; unfold Rdiv; lra. }
    cbv beta zeta.
    assert (D : forall l,
      fold_right (fun d a => (pfill E (fun x0 => if simple
          then match pG E with Some g0 => set_edges E (-1) (fun d x1 => pgrad E (pfill E phi) d x1 - uvw d x1) d x0 * g0 x0
                 | None => set_edges E (-1) (fun d x1 => pgrad E (pfill E phi) d x1 - uvw d x1) d x0 end
          else match pG E with Some g0 => set_edges E (-1) (fun d x1 => pgrad E (pfill E phi) d x1 - uvw d x1) d x0 * g0 x0
                 | None => set_edges E (-1) (fun d x1 => pgrad E (pfill E phi) d x1 - uvw d x1) d x0 end / pnorm E x0) (step_in d 1 x)
        - pfill E (fun x0 => if simple
          then match pG E with Some g0 => set_edges E (-1) (fun d x1 => pgrad E (pfill E phi) d x1 - uvw d x1) d x0 * g0 x0
                 | None => set_edges E (-1) (fun d x1 => pgrad E (pfill E phi) d x1 - uvw d x1) d x0 end
          else match pG E with Some g0 => set_edges E (-1) (fun d x1 => pgrad E (pfill E phi) d x1 - uvw d x1) d x0 * g0 x0
                 | None => set_edges E (-1) (fun d x1 => pgrad E (pfill E phi) d x1 - uvw d x1) d x0 end / pnorm E x0) (step_in d (-1) x)) / pdi E d / 2 + a) 0 l
      = - fold_right (fun d a => (pfill E (fun y => g y * corrected E simple uvw phi d y) (step_in d 1 x)
           - pfill E (fun y => g y * corrected E simple uvw phi d y) (step_in d (-1) x)) / (2 * pdi E d) + a) 0 l).
    { induction l; cbn [fold_right]; [lra|]. rewrite IHl, !H. unfold Rdiv. rewrite Rinv_mult. lra. }
    rewrite D. unfold Rdiv at 1. rewrite <- Ropp_mult_distr_l. reflexivity.
  Qed.
  Lemma lap_zero : forall simple uvw u, (forall y, In y (pcells E) -> u y = 0) -> forall x, lap E false simple uvw u x = 0.
  Proof.
    intros. transitivity (lap E false simple uvw (fun y => 0 * u y + 0 * u y) x).
    - assert (forall w, (forall y, pfill E u y = pfill E w y) -> lap E false simple uvw u x = lap E false simple uvw w x).
      { intros w Hw. unfold lap. replace (pfill E w) with (pfill E u); [reflexivity|].
        apply functional_extensionality. exact Hw. }
      apply H0. destruct F as (_ & Fe & _). apply Fe. intros. rewrite H by assumption. lra.
    - rewrite lap_linear. lra.
  Qed.

  (** ** Minimal residual solver *)
  Lemma mr_result_fuel : forall fuel tol simple uvw phi beta s, edges_compatible E simple ->
    prs_loop (mr_body idx (pcells E) (lap E false simple uvw) tol) (m_conv idx) fuel 0
      (mr_start idx phi (lap E true simple uvw phi) beta) = Some (Done s) ->
    forall x, In x (pcells E) -> Rabs (flow_div E (corrected E simple uvw (m_phi idx s)) x) <= tol.
  Proof.
    intros fuel tol simple uvw phi beta s C H x Hx.
    set (L := lap E false simple uvw) in *. set (A := lap E true simple uvw) in *.
    pose proof (loop_iter _ _ _ _ 0%Z _ _ (conj (Z.le_refl 0) (Zle_bool_imp_le 0 10000 eq_refl)) H) as (n & _ & -> & Cv & Cf).
    destruct n as [|n]; [cbn in Cv; discriminate|].
    assert (Rl : forall m, mr_rel idx A (Nat.iter m (mr_body idx (pcells E) L tol) (mr_start idx phi (A phi) beta))).
    { induction m; [intros y; reflexivity|]. cbn [Nat.iter]. apply (mr_body_rel idx (pcells E) L A tol); [|exact IHm].
      intros. apply lap_affine. }
    pose proof (Rl (S n)) as Rs. specialize (Cf n ltac:(lia)).
    pose proof (mr_conv_once idx (pcells E) L tol _ Cf) as Ok.
    set (r := Nat.iter (S n) (mr_body idx (pcells E) L tol) (mr_start idx phi (A phi) beta)) in *.
    change (mr_body idx (pcells E) L tol (Nat.iter n (mr_body idx (pcells E) L tol) (mr_start idx phi (A phi) beta))) with r in Ok.
    specialize (Ok Cv). pose proof (error_bound idx (pcells E) _ _ Ok x Hx) as B.
    rewrite (Rs x) in B. unfold A in B. rewrite lap_div in B by exact C. now rewrite Rabs_Ropp in B.
  Qed.
  Lemma mr_result : forall tol simple uvw phi beta s, edges_compatible E simple ->
    mr_update E tol simple uvw phi beta = Some (Done s) ->
    forall x, In x (pcells E) -> Rabs (flow_div E (corrected E simple uvw (m_phi idx s)) x) <= tol.
  Proof. unfold mr_update. intros. eapply mr_result_fuel; eassumption. Qed.

  Lemma dot_energy : forall simple uvw phi err, edges_compatible E simple ->
    (forall x, err x = lap E true simple uvw phi x) ->
    dot idx (pcells E) err err = div_energy E (corrected E simple uvw phi).
  Proof.
    intros. unfold dot, div_energy, sumv. apply (sumv_ext idx (pcells E)). intros.
    rewrite H0, lap_div by assumption. lra.
  Qed.
  Notation mr_at := (mr_at E).
  Lemma mr_at_rel : forall tol simple uvw phi beta n, mr_rel idx (lap E true simple uvw) (mr_at tol simple uvw phi beta n).
  Proof.
    intros. induction n; [intros y; reflexivity|]. cbn [mr_at Nat.iter]. apply (mr_body_rel idx (pcells E)); [|exact IHn].
    intros. apply lap_affine.
  Qed.
  Lemma mr_monotone : forall tol simple uvw phi beta n, edges_compatible E simple ->
    div_energy E (corrected E simple uvw (m_phi idx (mr_at tol simple uvw phi beta (S n))))
    <= div_energy E (corrected E simple uvw (m_phi idx (mr_at tol simple uvw phi beta n))).
  Proof.
    intros. rewrite <- !(dot_energy simple uvw _ (m_err idx (mr_at tol simple uvw phi beta _))) by (try assumption; apply mr_at_rel).
    apply mr_body_dec.
  Qed.

  (** ** Generalised conjugate residual solver *)
  Section G.
    Variables (k : nat) (tol : R) (simple : bool) (uvw : dim -> idx -> R) (phi : idx -> R)
      (beta : R) (p lp : nat -> idx -> R) (alpha den : nat -> R).
    Hypothesis Hk : (0 < k)%nat.
    Hypothesis C : edges_compatible E simple.
    Notation gc_at := (gc_at E k tol simple uvw phi beta p lp alpha den).
    Lemma gc_at_step : forall n, gc_rel idx (lap E false simple uvw) (lap E true simple uvw) 0 (gc_at n) ->
      gc_rel idx (lap E false simple uvw) (lap E true simple uvw) 0 (gc_at (S n)) /\
      dot idx (pcells E) (g_err idx (gc_at (S n))) (g_err idx (gc_at (S n))) <= dot idx (pcells E) (g_err idx (gc_at n)) (g_err idx (gc_at n)) /\
      (gc_ok idx (pcells E) tol (gc_at n) -> gc_ok idx (pcells E) tol (gc_at (S n))).
    Proof.
      intros n H. apply (gc_body_inv idx (pcells E) (lap E false simple uvw) (lap E true simple uvw)); auto.
      - intros. apply lap_linear.
      - intros. apply lap_affine.
    Qed.
    Lemma gc_at_inv : forall n, gc_rel idx (lap E false simple uvw) (lap E true simple uvw) 0 (gc_at n) /\ gc_ok idx (pcells E) tol (gc_at n).
    Proof.
      induction n.
      - split; [|discriminate]. split; [intros; reflexivity|]. intros j Hj x. replace j with 0%nat by lia. reflexivity.
      - destruct IHn as [I J]. destruct (gc_at_step n I) as (K1 & _ & K3). auto.
    Qed.
    Lemma gc_monotone : forall n,
      div_energy E (corrected E simple uvw (g_phi idx (gc_at (S n)))) <= div_energy E (corrected E simple uvw (g_phi idx (gc_at n))).
    Proof.
      intros. rewrite <- !(dot_energy simple uvw _ (g_err idx (gc_at _))) by (try assumption; apply gc_at_inv).
      apply gc_at_step. apply gc_at_inv.
    Qed.
    Lemma gc_result_fuel : forall fuel s,
      prs_loop (gc_body idx (pcells E) (lap E false simple uvw) tol k) (g_conv idx) fuel 0
        (gc_start idx (lap E false simple uvw) phi (lap E true simple uvw phi) beta p lp alpha den) = Some (Done s) ->
      div_energy E (corrected E simple uvw (g_phi idx s)) <= INR (length (pcells E)) * (tol * tol).
    Proof.
      intros fuel s H.
      pose proof (loop_iter _ _ _ _ 0%Z _ _ (conj (Z.le_refl 0) (Zle_bool_imp_le 0 10000 eq_refl)) H) as (n & _ & -> & Cv & _).
      fold (gc_at n) in Cv |- *. destruct (gc_at_inv n) as [[I _] J].
      rewrite <- (dot_energy simple uvw _ (g_err idx (gc_at n))) by assumption. apply J, Cv.
    Qed.
    Lemma gc_result : forall s, gcrk_update k E tol simple uvw phi beta p lp alpha den = Some (Done s) ->
      div_energy E (corrected E simple uvw (g_phi idx s)) <= INR (length (pcells E)) * (tol * tol).
    Proof. unfold gcrk_update. intros. eapply gc_result_fuel; eassumption. Qed.
  End G.

  Lemma mr_total : forall tol simple uvw phi beta, exists r, mr_update E tol simple uvw phi beta = Some r.
  Proof. intros. unfold mr_update. apply loop_total_limit. reflexivity. Qed.
  Lemma gc_total : forall k tol simple uvw phi beta p lp alpha den, exists r, gcrk_update k E tol simple uvw phi beta p lp alpha den = Some r.
  Proof. intros. unfold gcrk_update. apply loop_total_limit. reflexivity. Qed.

  (** a velocity without divergence is left alone *)
  Lemma mr_unchanged : forall tol uvw beta, 0 <= tol -> on_edges E uvw ->
    (forall x, In x (pcells E) -> flow_div E uvw x = 0) ->
    exists s, mr_update E tol true uvw (fun _ => 0) beta = Some (Done s) /\
      forall d x, In x (pcells E) -> corrected E true uvw (m_phi idx s) d x = uvw d x.
  Proof.
    intros tol uvw beta Ht Ho Hd.
    assert (Z0 : forall d x, corrected E true uvw (fun _ => 0) d x = uvw d x).
    { intros. unfold corrected, set_edges. destruct (pedge E d x) eqn:P; [rewrite (Ho _ _ _ P); lra|].
      assert (Z1 : forall y, pfill E (fun _ => 0) y = 0).
      { intros y. rewrite (fill_lin 0 0 (fun _ => 0) (fun _ => 0) (fun _ => 0)) by (intros; lra). lra. }
      unfold pgrad. rewrite !Z1. unfold Rdiv. lra. }
    assert (E0 : forall x, In x (pcells E) -> lap E true true uvw (fun _ => 0) x = 0).
    { intros. rewrite lap_div by (now left).
      replace (corrected E true uvw (fun _ => 0)) with uvw.
      - rewrite Hd by assumption. lra.
      - apply functional_extensionality; intros d; apply functional_extensionality; intros y. now rewrite Z0. }
    set (s1 := mr_body idx (pcells E) (lap E false true uvw) tol (mr_start idx (fun _ => 0) (lap E true true uvw (fun _ => 0)) beta)).
    assert (Cs : m_conv idx s1 = true).
    { unfold s1, mr_body. cbn [m_conv mr_start m_err]. apply orb_true_iff. left. apply le_b_true.
      rewrite error_zero; [exact Ht|]. intros. unfold axpy. rewrite E0 by assumption.
      rewrite lap_zero by exact E0. lra. }
    exists s1. split.
    - unfold mr_update. apply loop_first; [reflexivity|reflexivity|exact Cs].
    - intros d x Hx. rewrite <- (Z0 d x). unfold corrected, set_edges. destruct (pedge E d x); [reflexivity|].
      assert (P0 : forall y, pfill E (m_phi idx s1) y = pfill E (fun _ => 0) y).
      { destruct F as (_ & Fe & _). apply Fe. intros y Hy. unfold s1, mr_body. cbn [m_phi mr_start m_err]. unfold axpy.
        rewrite E0 by assumption. lra. }
      unfold pgrad. rewrite !P0. reflexivity.
  Qed.

  (** without G: the advector interpolated from the corrected velocity *)
  Lemma mr_advector : forall prs_tol dt0 dt simple uvw phi beta s x,
    pG E = None -> (forall d, pdi E d <> 0) -> 0 < dt0 -> 0 <= dt -> edges_compatible E simple ->
    mr_update E (prs_tol / dt0) simple uvw phi beta = Some (Done s) ->
    In x (pcells E) ->
    Rabs (vctr_div (pdims E) (fun d => intrp dt (pdi E d) None (pfill E (corrected E simple uvw (m_phi idx s) d)) d) x)
      <= prs_tol * (dt / dt0).
  Proof.
    intros prs_tol dt0 dt simple uvw phi beta s x HG Hdi H0 Hdt C H Hx.
    pose proof (mr_result _ _ _ _ _ _ C H x Hx) as B.
    rewrite advector_divergence by exact Hdi. rewrite Rabs_mult, (Rabs_pos_eq dt) by exact Hdt.
    rewrite div_fold. unfold flow_div in B. rewrite HG in B.
    replace (fold_right _ 0 (pdims E) / 1) with
      (fold_right (fun d a => (pfill E (corrected E simple uvw (m_phi idx s) d) (step_in d 1 x)
        - pfill E (corrected E simple uvw (m_phi idx s) d) (step_in d (-1) x)) / pdi E d / 2 + a) 0 (pdims E)) in B.
    - replace (prs_tol * (dt / dt0)) with (dt * (prs_tol / dt0)) by (field; lra).
      apply Rmult_le_compat_l; assumption.
    - clear B. induction (pdims E) as [|d l I]; cbn [fold_right]; [lra|]. rewrite I.
      rewrite !(fill_ext (corrected E simple uvw (m_phi idx s) d) (fun y => 1 * corrected E simple uvw (m_phi idx s) d y)) by (intros; lra).
      field. apply Hdi.
  Qed.
End Op.
