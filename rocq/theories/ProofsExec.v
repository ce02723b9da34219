From Coq Require Import ZArith List Bool Lia.
From Verif Require Import ModelIndex Lang ProofsLang Stencil ProofsStencil Exec.
Import ListNotations.

Section Exec.
  Variable ar : arith.
  Variable m : loc -> car ar.

  Lemma loc_eqb_eq a b : loc_eqb a b = true <-> a = b.
  Proof.
    destruct a as [a i], b as [b j]. unfold loc_eqb. cbn [fst snd]. rewrite andb_true_iff, garr_eqb_eq, idx_eqb_eq.
    split; [intros [-> ->]; auto|intros H; inversion H; auto].
  Qed.

  Lemma look_app (f : loc -> car ar) els T l :
    look ar m (map (fun l => (l, f l)) els ++ T) l =
    if in_dec loc_eq_dec l els then f l else look ar m T l.
  Proof.
    induction els as [|x els IH]; [reflexivity|]. cbn [map app look].
    destruct (loc_eqb x l) eqn:E.
    - apply loc_eqb_eq in E. subst. destruct (in_dec loc_eq_dec l (l :: els)) as [|N]; auto. exfalso. apply N. left. auto.
    - rewrite IH. assert (x <> l) by (intros ->; rewrite (proj2 (loc_eqb_eq l l) eq_refl) in E; discriminate).
      destruct (in_dec loc_eq_dec l els) as [I|N], (in_dec loc_eq_dec l (x :: els)) as [I'|N']; auto.
      + exfalso. apply N'. right. auto.
      + exfalso. destruct I' as [|]; auto.
  Qed.

  Lemma domb_flat n s l : domb loc_eq_dec n s l = if in_dec loc_eq_dec l (flat_map (s_el s) (seq 0 n)) then true else false.
  Proof.
    destruct in_dec as [I|N].
    - apply in_flat_map in I. destruct I as (t & Ht & I). apply existsb_exists. exists t. split; auto.
      destruct in_dec; auto.
    - apply not_true_iff_false. intros H. apply N. apply existsb_exists in H. destruct H as (t & Ht & I).
      apply in_flat_map. exists t. split; auto. destruct in_dec; auto. discriminate.
  Qed.

  Lemma exec_stmt_look n s T (M : loc -> car ar) : (forall l, look ar m T l = M l) ->
    forall l, look ar m (exec_stmt ar m n s T) l = run_stmt loc_eq_dec ar n s M l.
  Proof.
    intros E l. unfold exec_stmt, run_stmt. rewrite look_app, domb_flat.
    destruct in_dec; auto. apply ev_ext. auto.
  Qed.

  Lemma exec_look_gen n p : forall T (M : loc -> car ar), (forall l, look ar m T l = M l) ->
    forall l, look ar m (fold_left (exec_instr ar m n) p T) l = run_prog loc_eq_dec ar n p M l.
  Proof.
    induction p as [|i p IH]; intros T M E l; [apply E|]. cbn [fold_left run_prog]. unfold run_prog in IH. apply IH.
    destruct i; cbn [exec_instr run_instr]; auto. intros x. apply exec_stmt_look. auto.
  Qed.

  Lemma exec_look n p l : look ar m (exec ar m n p) l = run_prog loc_eq_dec ar n p m l.
  Proof. apply exec_look_gen. auto. Qed.
End Exec.
