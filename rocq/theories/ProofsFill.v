(** Phases of halo fills with several boundary conditions at once. *)
From Coq Require Import ZArith List Bool Lia ZifyBool.
From Verif Require Import SpecIndex ModelIndex Lang ProofsLang Stencil ProofsStencil FormCommon Macro ProofsMacro.
Import ListNotations.
Local Open Scope Z_scope.

(** the operand is not among the elements the statement assigns *)
Definition selfdis (s : desc) (ao : garr * idx) : Prop :=
  exists d, match d_r s d with
            | AtFirst a b | AtLast a b => b - a < Z.abs (comp d (snd ao))
            | _ => False
            end.

Record fills_ok (dd : dim) (ph : list desc) : Prop := {
  fo_write : forall sk sj, In sk ph -> In sj ph -> d_arr sk = d_arr sj -> apart (d_r sk dd) 0 (d_r sj dd) = true;
  fo_read : forall sk sj ao, In sk ph -> In sj ph -> In ao (leaves (d_exp sk)) -> fst ao = d_arr sj ->
    apart (d_r sk dd) (comp dd (snd ao)) (d_r sj dd) = true;
  fo_self : forall s ao, In s ph -> In ao (leaves (d_exp s)) -> fst ao = d_arr s -> selfdis s ao
}.

Lemma at_edge_in c r t x : in_rng x (trng c r t) ->
  match r with
  | AtFirst a b => c_lo c + a <= x <= c_lo c + b
  | AtLast a b => c_hi c + a <= x <= c_hi c + b
  | _ => True
  end.
Proof.
  unfold in_rng. destruct r as [f a b l|a b|a b]; cbn; auto.
  - destruct (Nat.eqb t 0); cbn; lia.
  - destruct (Nat.eqb t (c_n c - 1)); cbn; lia.
Qed.

Lemma selfdis_sound g s ao t t' l : selfdis s ao -> In l (s_el (stmt_of g s) t) ->
  In (fst ao, iadd (snd l) (snd ao)) (s_el (stmt_of g s) t') -> False.
Proof.
  intros (d & D) H H'. apply in_el in H, H'. destruct H as [_ H], H' as [_ H']. specialize (H d). specialize (H' d).
  cbn [fst snd] in H'. rewrite comp_iadd in H'. unfold drng in *.
  pose proof (at_edge_in _ _ _ _ H) as A. pose proof (at_edge_in _ _ _ _ H') as B.
  destruct (d_r s d); [auto| |]; lia.
Qed.

Lemma fills_phase_ok g ph : geom_ok g -> fills_ok (g_dd g) ph -> phase_ok (g_n g) (map (stmt_of g) ph).
Proof.
  intros OK [W R S]. pose proof (geom_cut _ OK) as CO.
  assert (N : forall k s', nth_error (map (stmt_of g) ph) k = Some s' ->
             exists s, s' = stmt_of g s /\ In s ph /\ nth_error ph k = Some s).
  { intros k s' H. rewrite nth_error_map in H. destruct (nth_error ph k) eqn:Hk; [|discriminate].
    inversion H; subst. exists d. split; auto. split; auto. eapply nth_error_In; eauto. }
  constructor.
  - intros k j sk' sj' t t' l l' Ht Ht' Hk Hj Hl Hl' Hl''. left.
    destruct (N _ _ Hk) as (sk & -> & Ek & Nk). destruct (N _ _ Hj) as (sj & -> & Ej & Nj).
    cbn [stmt_of s_rhs] in Hl'. rewrite leaves_emap in Hl'. apply in_map_iff in Hl'.
    destruct Hl' as (ao & <- & Hao). unfold sh in *. split.
    + apply in_el in Hl. apply in_el in Hl''. destruct Hl as [A1 R1], Hl'' as [A2 R2].
      specialize (R1 (g_dd g)). specialize (R2 (g_dd g)). cbn [fst snd] in *. rewrite comp_iadd in R2.
      unfold drng in R1, R2. rewrite cut_of_dd, thr_dd in R1, R2. symmetry.
      eapply (apart_sound (g_cut g) CO); [apply (R sk sj ao); auto| | |exact R1|exact R2]; auto.
    + intros ->. exfalso. assert (sj = sk) by congruence. subst sj.
      assert (A2 : fst ao = d_arr sk) by (apply in_el in Hl''; apply Hl'').
      eapply (selfdis_sound g sk ao); [apply S; auto|exact Hl|exact Hl''].
  - intros k j sk' sj' t t' l Ht Ht' Hk Hj Hl Hl' NE. exfalso. apply NE.
    destruct (N _ _ Hk) as (sk & -> & Ek & _). destruct (N _ _ Hj) as (sj & -> & Ej & _).
    apply in_el in Hl. apply in_el in Hl'. destruct Hl as [A1 R1], Hl' as [A2 R2].
    specialize (R1 (g_dd g)). specialize (R2 (g_dd g)).
    unfold drng in R1, R2. rewrite cut_of_dd, thr_dd in R1, R2.
    eapply (apart_sound (g_cut g) CO _ 0); [apply (W sk sj); auto; congruence| | |exact R1|rewrite Z.add_0_r; exact R2]; auto.
  - intros s t H Ht. apply in_map_iff in H. destruct H as (d & <- & _). apply nodup_el.
Qed.

(** ** Fills by the first or the last thread *)
Definition edge_at (first : bool) (dd : dim) (s : desc) : Prop :=
  (match d_r s dd with AtFirst _ _ => first = true | AtLast _ _ => first = false | _ => False end) /\
  forall ao, In ao (leaves (d_exp s)) -> fst ao = d_arr s -> selfdis s ao.
Lemma edges_fill first dd ph : Forall (edge_at first dd) ph -> fills_ok dd ph.
Proof.
  rewrite Forall_forall. intros H.
  assert (A : forall sk sj o, In sk ph -> In sj ph -> apart (d_r sk dd) o (d_r sj dd) = true).
  { intros sk sj o Hk Hj. destruct (H _ Hk) as [Ek _], (H _ Hj) as [Ej _].
    destruct (d_r sk dd), (d_r sj dd); try tauto; try congruence; reflexivity. }
  constructor; intros; auto. destruct (H _ H0) as [_ S]. auto.
Qed.

(** ** Fills across the cut dimension, every thread its own part, of one array *)
Definition row_at (dd : dim) (a : garr) (s : desc) : Prop :=
  d_arr s = a /\ (match d_r s dd with Slab _ x y _ => x = 0 /\ y = 0 | _ => False end) /\
  forall ao, In ao (leaves (d_exp s)) -> fst ao = a -> comp dd (snd ao) = 0 /\ selfdis s ao.
Lemma rows_fill dd a ph : Forall (row_at dd a) ph -> fills_ok dd ph.
Proof.
  rewrite Forall_forall. intros H.
  assert (A : forall sk sj, In sk ph -> In sj ph -> apart (d_r sk dd) 0 (d_r sj dd) = true).
  { intros sk sj Hk Hj. destruct (H _ Hk) as (_ & Ek & _), (H _ Hj) as (_ & Ej & _).
    destruct (d_r sk dd), (d_r sj dd); try tauto. destruct Ek as [-> ->], Ej as [-> ->]. reflexivity. }
  constructor.
  - auto.
  - intros sk sj ao Hk Hj Hao E. destruct (H _ Hk) as (_ & _ & Ek), (H _ Hj) as (Ej & _ & _).
    destruct (Ek ao Hao ltac:(congruence)) as [-> _]. auto.
  - intros s ao Hs Hao E. destruct (H _ Hs) as (E1 & _ & Ek). apply (Ek ao Hao). congruence.
Qed.

(** ** Fills of unrelated arrays *)
Definition unrelated (p1 p2 : list desc) : Prop :=
  forall s1 s2, In s1 p1 -> In s2 p2 -> d_arr s1 <> d_arr s2 /\
    (forall ao, In ao (leaves (d_exp s1)) -> fst ao <> d_arr s2) /\
    (forall ao, In ao (leaves (d_exp s2)) -> fst ao <> d_arr s1).
Lemma fills_app dd p1 p2 : unrelated p1 p2 -> fills_ok dd p1 -> fills_ok dd p2 -> fills_ok dd (p1 ++ p2).
Proof.
  intros U [W1 R1 S1] [W2 R2 S2]. constructor.
  - intros sk sj Hk Hj E. apply in_app_iff in Hk, Hj. destruct Hk as [Hk|Hk], Hj as [Hj|Hj]; auto; exfalso.
    + destruct (U _ _ Hk Hj) as (N & _). auto.
    + destruct (U _ _ Hj Hk) as (N & _). auto.
  - intros sk sj ao Hk Hj Hao E. apply in_app_iff in Hk, Hj. destruct Hk as [Hk|Hk], Hj as [Hj|Hj]; auto; exfalso.
    + destruct (U _ _ Hk Hj) as (_ & N & _). eapply N; eauto.
    + destruct (U _ _ Hj Hk) as (_ & _ & N). eapply N; eauto.
  - intros s ao Hs. apply in_app_iff in Hs. destruct Hs; auto.
Qed.
Lemma fills_nil dd : fills_ok dd [].
Proof. constructor; intros; contradiction. Qed.
