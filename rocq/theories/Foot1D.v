(** Footprints of the one-dimensional formulae. *)

From Coq Require Import ZArith List Bool Lia ZifyBool.
From Verif Require Import SpecIndex ModelIndex ModelRun Lang ProofsLang Stencil ProofsStencil
  FormCommon Form1D Solver1D Macro ProofsMacro.
Import ListNotations.
Local Open Scope Z_scope.

(** ** Footprints of the formulae *)
Definition wide_psi (o : fl) : bool := tot o || div2 o.
Definition wide_gc (o : fl) : bool := dfl o || div2 o.
Definition offs (a : arr) (l : list Z) : list (arr * idx) := map (fun i => (a, x1 i)) l.
Definition gleaf (o : fl) (l : list Z) : list (arr * idx) := if nug o then offs Gf l else [].

(** smallest boxes of operands: what the analyses below see of a formula *)
Definition canon1 (o : fl) : forms := {|
  f_antidiff := fun _ psi _ gc => mk (
    offs psi (if wide_psi o then [-1; 0; 1; 2] else [0; 1]) ++
    offs (gc DX) (if wide_gc o then [-1; 0; 1] else [0]) ++
    gleaf o [0; 1] ++
    (if div3 o then offs (NdtGC DX) [-1; 0; 1] ++ offs (NdttGC DX) [0] else []));
  f_flux := fun _ psi gc => mk (offs psi [0; 1] ++ offs gc [0]);
  f_min := fun psi => mk (offs psi [-1; 0; 1]);
  f_max := fun psi => mk (offs psi [-1; 0; 1]);
  f_bup := fun psi flx => mk (offs psi [-1; 0; 1] ++ offs PsiMax [0] ++ offs (flx DX) [-1; 0] ++ gleaf o [0]);
  f_bdn := fun psi flx => mk (offs psi [-1; 0; 1] ++ offs PsiMin [0] ++ offs (flx DX) [-1; 0] ++ gleaf o [0]);
  f_mono := fun _ psi gc => mk (offs psi [0; 1] ++ offs gc [0] ++ offs BetaUp [0; 1] ++ offs BetaDn [0; 1]);
  f_sum := fun psi flx => mk (offs psi [0] ++ offs (flx DX) [-1; 0] ++ gleaf o [0]);
  f_terms := fun psi flx => [ mk (offs psi [0]); mk (offs (flx DX) [0] ++ gleaf o [0]);
                              mk (offs (flx DX) [-1] ++ gleaf o [0]) ]
|}.

(** the arrays the formulae are applied to *)
Definition vecs : list (dim -> arr) := [GC; Cor true; Cor false; Mono; Flux].
Definition bools := [true; false].

Definition forms_coverb (dims : list dim) (F F' : forms) : bool :=
  forallb (fun b => let psi := Psi b in
    coverb (f_min F psi) (f_min F' psi) && coverb (f_max F psi) (f_max F' psi) &&
    forallb (fun v =>
      coverb (f_bup F psi v) (f_bup F' psi v) && coverb (f_bdn F psi v) (f_bdn F' psi v) &&
      coverb (f_sum F psi v) (f_sum F' psi v) &&
      (length (f_terms F psi v) =? length (f_terms F' psi v))%nat &&
      forallb (fun ee => coverb (fst ee) (snd ee)) (combine (f_terms F psi v) (f_terms F' psi v)) &&
      forallb (fun d =>
        coverb (f_antidiff F d psi (Psi (negb b)) v) (f_antidiff F' d psi (Psi (negb b)) v) &&
        coverb (f_flux F d psi (v d)) (f_flux F' d psi (v d)) &&
        coverb (f_mono F d psi (v d)) (f_mono F' d psi (v d))) dims) vecs) bools.

Record forms_cov (dims : list dim) (F F' : forms) : Prop := {
  c_min : forall b, incl (leaves (f_min F (Psi b))) (leaves (f_min F' (Psi b)));
  c_max : forall b, incl (leaves (f_max F (Psi b))) (leaves (f_max F' (Psi b)));
  c_bup : forall b v, In v vecs -> incl (leaves (f_bup F (Psi b) v)) (leaves (f_bup F' (Psi b) v));
  c_bdn : forall b v, In v vecs -> incl (leaves (f_bdn F (Psi b) v)) (leaves (f_bdn F' (Psi b) v));
  c_sum : forall b v, In v vecs -> incl (leaves (f_sum F (Psi b) v)) (leaves (f_sum F' (Psi b) v));
  c_terms : forall b v, In v vecs -> Forall2 (fun e e' => incl (leaves e) (leaves e')) (f_terms F (Psi b) v) (f_terms F' (Psi b) v);
  c_antidiff : forall d b v, In d dims -> In v vecs ->
    incl (leaves (f_antidiff F d (Psi b) (Psi (negb b)) v)) (leaves (f_antidiff F' d (Psi b) (Psi (negb b)) v));
  c_flux : forall d b v, In d dims -> In v vecs -> incl (leaves (f_flux F d (Psi b) (v d))) (leaves (f_flux F' d (Psi b) (v d)));
  c_mono : forall d b v, In d dims -> In v vecs -> incl (leaves (f_mono F d (Psi b) (v d))) (leaves (f_mono F' d (Psi b) (v d)))
}.

Lemma in_bools b : In b bools.
Proof. destruct b; cbn; auto. Qed.

Lemma forms_coverb_sound dims F F' : forms_coverb dims F F' = true -> forms_cov dims F F'.
Proof.
  intros C. unfold forms_coverb in C.
  assert (HB : forall b, _ = true) by (intros b; rewrite forallb_forall in C; exact (C b (in_bools b))).
  clear C. cbv zeta in HB.
  pose proof (fun (b : bool) v Hv =>
    proj1 (forallb_forall _ _) (proj2 (proj1 (andb_true_iff _ _) (HB b))) v Hv) as HV. cbn beta in HV.
  pose proof (fun d (b : bool) v Hd Hv =>
    proj1 (forallb_forall _ _) (proj2 (proj1 (andb_true_iff _ _) (HV b v Hv))) d Hd) as HD. cbn beta in HD.
  constructor; intros.
  - specialize (HB b). rewrite !andb_true_iff in HB. apply coverb_incl. tauto.
  - specialize (HB b). rewrite !andb_true_iff in HB. apply coverb_incl. tauto.
  - specialize (HV b v H). rewrite !andb_true_iff in HV. apply coverb_incl. tauto.
  - specialize (HV b v H). rewrite !andb_true_iff in HV. apply coverb_incl. tauto.
  - specialize (HV b v H). rewrite !andb_true_iff in HV. apply coverb_incl. tauto.
  - specialize (HV b v H). rewrite !andb_true_iff in HV. destruct HV as [[[[[_ _] _] L] T] _].
    apply Nat.eqb_eq in L. revert L T. generalize (f_terms F (Psi b) v) (f_terms F' (Psi b) v).
    clear. intros l1. induction l1 as [|x l1 IH]; intros [|y l2]; cbn; intros L T; try discriminate; constructor.
    + apply andb_true_iff in T. apply coverb_incl. tauto.
    + apply andb_true_iff in T. apply IH; [congruence|tauto].
  - specialize (HD d b v H H0). rewrite !andb_true_iff in HD. apply coverb_incl. tauto.
  - specialize (HD d b v H H0). rewrite !andb_true_iff in HD. apply coverb_incl. tauto.
  - specialize (HD d b v H H0). rewrite !andb_true_iff in HD. apply coverb_incl. tauto.
Qed.

(** enumeration of the options *)
Definition all_fl (p : fl -> bool) : bool :=
  forallb (fun a => forallb (fun b => forallb (fun c => forallb (fun d => forallb (fun e => forallb (fun f =>
  forallb (fun g => forallb (fun h => forallb (fun i => forallb (fun j => forallb (fun k => forallb (fun l =>
  forallb (fun m => p (mkfl a b c d e f g h i j k l m))
  bools) bools) bools) bools) bools) bools) bools) bools) bools) bools) bools) bools) bools.
Lemma all_fl_sound p : all_fl p = true -> forall o, p o = true.
Proof.
  unfold all_fl. intros C [a b c d e f g h i j k l m].
  rewrite forallb_forall in C.
  specialize (C a (in_bools a)). rewrite forallb_forall in C.
  specialize (C b (in_bools b)). rewrite forallb_forall in C.
  specialize (C c (in_bools c)). rewrite forallb_forall in C.
  specialize (C d (in_bools d)). rewrite forallb_forall in C.
  specialize (C e (in_bools e)). rewrite forallb_forall in C.
  specialize (C f (in_bools f)). rewrite forallb_forall in C.
  specialize (C g (in_bools g)). rewrite forallb_forall in C.
  specialize (C h (in_bools h)). rewrite forallb_forall in C.
  specialize (C i (in_bools i)). rewrite forallb_forall in C.
  specialize (C j (in_bools j)). rewrite forallb_forall in C.
  specialize (C k (in_bools k)). rewrite forallb_forall in C.
  specialize (C l (in_bools l)). rewrite forallb_forall in C.
  exact (C m (in_bools m)).
Qed.

(** options the formulae do not look at (or only to pick among expressions with
    the same operands) are irrelevant for the footprints *)
Definition drop1 (o : fl) : fl :=
  mkfl false (oabs o) (tot o) (pfc o) (npa o) (iga o) (nug o) (dfl o) false (div2 o) (div3 o) false false.

Definition all_fl9 (p : fl -> bool) : bool :=
  forallb (fun ab => forallb (fun to => forallb (fun pf => forallb (fun np => forallb (fun ig => forallb (fun nu =>
  forallb (fun df => forallb (fun d2 => forallb (fun d3 =>
    p (mkfl false ab to pf np ig nu df false d2 d3 false false))
  bools) bools) bools) bools) bools) bools) bools) bools) bools.

Ltac spec_bool C x := rewrite forallb_forall in C; specialize (C x (in_bools x)).

Lemma all_fl9_sound p : all_fl9 p = true -> forall o, p (drop1 o) = true.
Proof.
  unfold all_fl9, drop1. intros C [fc ab to pf np ig nu df kh d2 d3 dt fo]. cbn.
  spec_bool C ab. spec_bool C to. spec_bool C pf. spec_bool C np. spec_bool C ig. spec_bool C nu.
  spec_bool C df. spec_bool C d2. spec_bool C d3. exact C.
Qed.

Definition cover1 (o : fl) : bool :=
  negb (fl_ok o) || forallb (fun sp => forallb (fun tp => forms_coverb [DX] (forms1 o sp tp) (canon1 o))
       [noextrp; linear2]) [exact; aver2; aver4].

Lemma cover1_all : all_fl9 cover1 = true.
Proof. vm_compute. reflexivity. Qed.

Lemma forms1_drop o sp tp : forms1 o sp tp = forms1 (drop1 o) sp tp.
Proof. reflexivity. Qed.
Lemma canon1_drop o : canon1 o = canon1 (drop1 o).
Proof. reflexivity. Qed.

Lemma forms1_cov o sp tp : fl_ok o = true -> forms_cov [DX] (forms1 o sp tp) (canon1 o).
Proof.
  intros HO. apply forms_coverb_sound.
  pose proof (all_fl9_sound cover1 cover1_all o) as C. unfold cover1 in C.
  change (fl_ok (drop1 o)) with (fl_ok o) in C.
  rewrite HO in C. cbn [negb orb] in C. rewrite forallb_forall in C.
  assert (Hs : In sp [exact; aver2; aver4]) by (destruct sp; cbn; auto).
  specialize (C sp Hs). rewrite forallb_forall in C.
  assert (Ht : In tp [noextrp; linear2]) by (destruct tp; cbn; auto).
  rewrite forms1_drop, canon1_drop. exact (C tp Ht).
Qed.
