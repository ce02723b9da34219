(** Facts about lattice execution. *)
From Coq Require Import ZArith List Bool Lia ZifyBool.
From Verif Require Import Lang ProofsLang Stencil ProofsStencil FormCommon Lattice.
Import ListNotations.
Local Open Scope Z_scope.

Section Facts.
  Variable ar : arith.
  Notation fld := (loc -> car ar).

  Lemma lat_do_ext e s (f f' : fld) : (forall l, f l = f' l) -> forall l, lat_do ar e s f l = lat_do ar e s f' l.
  Proof. intros E l. unfold lat_do. destruct garr_eqb; auto. apply ev_ext. auto. Qed.
  Lemma lat_prog_ext e p : forall (f f' : fld), (forall l, f l = f' l) -> forall l, lat_prog ar e p f l = lat_prog ar e p f' l.
  Proof.
    induction p as [|i p IH]; intros f f' E; [exact E|]. cbn. apply IH.
    destruct i; auto. apply lat_do_ext. auto.
  Qed.
  Lemma lat_progs_ext l : forall (f f' : fld), (forall x, f x = f' x) -> forall x, lat_progs ar l f x = lat_progs ar l f' x.
  Proof.
    induction l as [|[e p] l IH]; intros f f' E; [exact E|]. cbn. apply IH. apply lat_prog_ext. auto.
  Qed.

  Lemma lat_prog_app e p q f : lat_prog ar e (p ++ q) f = lat_prog ar e q (lat_prog ar e p f).
  Proof. apply fold_left_app. Qed.
  Lemma lat_progs_app p q f : lat_progs ar (p ++ q) f = lat_progs ar q (lat_progs ar p f).
  Proof. apply fold_left_app. Qed.

  (** translation *)
  Lemma lat_do_shift v e s (f : fld) l : lat_do ar e s (shift ar v f) l = shift ar v (lat_do ar e s f) l.
  Proof.
    unfold lat_do, shift. cbn [fst snd]. destruct garr_eqb; auto. apply ev_ext. intros ao _.
    f_equal. f_equal. rewrite <- !iadd_assoc. f_equal. apply iadd_comm.
  Qed.
  Lemma lat_prog_shift v e p : forall f l, lat_prog ar e p (shift ar v f) l = shift ar v (lat_prog ar e p f) l.
  Proof.
    induction p as [|i p IH]; intros f l; [reflexivity|]. cbn [lat_prog fold_left].
    etransitivity; [|exact (IH (lat_instr ar e i f) l)]. apply lat_prog_ext. intros x.
    destruct i; cbn [lat_instr]; auto. apply lat_do_shift.
  Qed.
  Lemma lat_progs_shift v p : forall f l, lat_progs ar p (shift ar v f) l = shift ar v (lat_progs ar p f) l.
  Proof.
    induction p as [|[e q] p IH]; intros f l; [reflexivity|]. cbn [lat_progs fold_left fst snd].
    etransitivity; [|exact (IH (lat_prog ar e q f) l)]. apply lat_progs_ext. intros x. apply lat_prog_shift.
  Qed.
  Lemma periodic_shift v f : periodic ar v f <-> forall l, shift ar v f l = f l.
  Proof. unfold periodic, shift. split; [intros H [a i]; apply H|intros H a i; apply (H (a, i))]. Qed.
  Lemma lat_do_periodic v e s f : periodic ar v f -> periodic ar v (lat_do ar e s f).
  Proof.
    rewrite !periodic_shift. intros H l. rewrite <- lat_do_shift. apply lat_do_ext. exact H.
  Qed.
  Lemma lat_progs_periodic v p f : periodic ar v f -> periodic ar v (lat_progs ar p f).
  Proof.
    rewrite !periodic_shift. intros H l. rewrite <- lat_progs_shift. apply lat_progs_ext. exact H.
  Qed.
End Facts.
