(** Footprints of the three-dimensional formulae. *)
From Coq Require Import ZArith List Bool Lia ZifyBool.
From Verif Require Import SpecIndex ModelIndex ModelRun Lang ProofsLang Stencil ProofsStencil
  FormCommon Form3D Solver1D Solver3D Macro ProofsMacro Foot1D ProofsRen2D ProofsRen3D.
Import ListNotations.
Local Open Scope Z_scope.

Definition ds3 : list dim := [DX; DY; DZ].
Definition box3 (d : dim) (a : arr) (is js ks : list Z) : list (arr * idx) :=
  flat_map (fun i => flat_map (fun j => map (fun k => (a, x3 d i j k)) ks) js) is.
Definition wide_psi3 (o : fl) : bool := tot o || div2 o.
Definition wide_gc3 (o : fl) : bool := dfl o || div2 o.
Definition dt3 (o : fl) : bool := div2 o && div3dt o.
Definition around3 (a : arr) : list (arr * idx) :=
  [(a, (0, 0, 0)); (a, (1, 0, 0)); (a, (-1, 0, 0)); (a, (0, 1, 0)); (a, (0, -1, 0)); (a, (0, 0, 1)); (a, (0, 0, -1))].
Definition gl3 (o : fl) : list (arr * idx) := if nug o then [(Gf, izero)] else [].
Definition flx3 (flx : dim -> arr) : list (arr * idx) :=
  [(flx DX, (0, 0, 0)); (flx DX, (-1, 0, 0)); (flx DY, (0, 0, 0)); (flx DY, (0, -1, 0));
   (flx DZ, (0, 0, 0)); (flx DZ, (0, 0, -1))].

Definition canon3 (o : fl) : forms := {|
  f_antidiff := fun d psi psin gc => mk (
    box3 d psi (if wide_psi3 o then [-1; 0; 1; 2] else [0; 1]) [-1; 0; 1] [-1; 0; 1] ++
    (if dt3 o then box3 d psin [0; 1] [-1; 0; 1] [-1; 0; 1] else []) ++
    box3 d (gc d) (if wide_gc3 o then [-1; 0; 1] else [0]) (if div3 o then [-1; 0; 1] else [0]) (if div3 o then [-1; 0; 1] else [0]) ++
    box3 d (gc (dp d)) [0; 1] (if div3 o then [-2; -1; 0; 1] else [-1; 0]) (if div3 o then [-1; 0; 1] else [0]) ++
    box3 d (gc (dm d)) [0; 1] (if div3 o then [-1; 0; 1] else [0]) (if div3 o then [-2; -1; 0; 1] else [-1; 0]) ++
    (if nug o then box3 d Gf [0; 1] (if div3 o then [-1; 0; 1] else [0]) (if div3 o then [-1; 0; 1] else [0]) else []) ++
    (if div3 o || dt3 o then
       box3 d (NdtGC d) [-1; 0; 1] [0] [0] ++ box3 d (NdtGC (dp d)) [0; 1] [-1; 0] [0] ++
       box3 d (NdtGC (dm d)) [0; 1] [0] [-1; 0] ++ box3 d (NdttGC d) [0] [0] [0] else []));
  f_flux := fun d psi gc => mk (box3 d psi [0; 1] [0] [0] ++ box3 d gc [0] [0] [0]);
  f_min := fun psi => mk (around3 psi);
  f_max := fun psi => mk (around3 psi);
  f_bup := fun psi flx => mk ((PsiMax, izero) :: around3 psi ++ flx3 flx ++ gl3 o);
  f_bdn := fun psi flx => mk ((PsiMin, izero) :: around3 psi ++ flx3 flx ++ gl3 o);
  f_mono := fun d psi gc => mk (box3 d psi [0; 1] [0] [0] ++ box3 d gc [0] [0] [0] ++
                                box3 d BetaUp [0; 1] [0] [0] ++ box3 d BetaDn [0; 1] [0] [0]);
  f_sum := fun psi flx => mk ((psi, izero) :: flx3 flx ++ gl3 o);
  f_terms := fun psi flx => [ mk [(psi, izero)]; mk ((flx DX, (0, 0, 0)) :: gl3 o); mk ((flx DX, (-1, 0, 0)) :: gl3 o);
                              mk ((flx DY, (0, 0, 0)) :: gl3 o); mk ((flx DY, (0, -1, 0)) :: gl3 o);
                              mk ((flx DZ, (0, 0, 0)) :: gl3 o); mk ((flx DZ, (0, 0, -1)) :: gl3 o) ]
|}.

(** options that matter for the operands *)
Definition drop3 (o : fl) : fl :=
  mkfl false (oabs o) (tot o) (pfc o) (npa o) (iga o) (nug o) (dfl o) false (div2 o) (div3 o) (div3dt o) false.
Definition all_fl10 (p : fl -> bool) : bool :=
  forallb (fun ab => forallb (fun to => forallb (fun pf => forallb (fun np => forallb (fun ig => forallb (fun nu =>
  forallb (fun df => forallb (fun d2 => forallb (fun d3 => forallb (fun dt =>
    p (mkfl false ab to pf np ig nu df false d2 d3 dt false))
  bools) bools) bools) bools) bools) bools) bools) bools) bools) bools.
Lemma all_fl10_sound p : all_fl10 p = true -> forall o, p (drop3 o) = true.
Proof.
  unfold all_fl10, drop3. intros C [fc ab to pf np ig nu df kh d2 d3 dt fo]. cbn.
  spec_bool C ab. spec_bool C to. spec_bool C pf. spec_bool C np. spec_bool C ig. spec_bool C nu.
  spec_bool C df. spec_bool C d2. spec_bool C d3. spec_bool C dt. exact C.
Qed.

(** the interpolation choices do not add operands *)
Lemma incl_app2 {A} (a a' b b' : list A) : incl a a' -> incl b b' -> incl (a ++ b) (a' ++ b').
Proof. intros H1 H2. apply incl_app; [apply incl_appl|apply incl_appr]; assumption. Qed.
Lemma anti3_interp o sp tp d psi psin gc i j k :
  incl (leaves (antidiff3 o sp tp d psi psin gc NdtGC NdttGC i j k))
       (leaves (antidiff3 o exact noextrp d psi psin gc NdtGC NdttGC i j k)).
Proof.
  unfold antidiff3. destruct (div2 o); [|apply incl_refl]. cbn [leaves]. apply incl_app2; [apply incl_refl|].
  assert (T : leaves (div_3rd_temporal3 o tp d psi NdttGC i j k) = leaves (div_3rd_temporal3 o noextrp d psi NdttGC i j k)).
  { destruct tp; reflexivity. }
  assert (S : incl (leaves (div_3rd_spatial3 o sp d psi gc i j k)) (leaves (div_3rd_spatial3 o exact d psi gc i j k))).
  { unfold div_3rd_spatial3. cbn [leaves]. apply incl_app2; [apply incl_refl|]. apply incl_app2; [apply incl_refl|].
    destruct sp; cbn [div_3rd_spatial_helper3]; try apply incl_refl. intros ? []. }
  unfold div_3rd3. destruct (div3 o); [|destruct (div3dt o); [|apply incl_refl]]; cbn [leaves]; rewrite T;
    repeat (apply incl_app2; [|apply incl_refl]); apply incl_app2; auto using incl_refl.
Qed.

(** the corrective velocity, for one choice of arrays and all options *)
Definition cover3 (o : fl) : bool :=
  if fl_ok3 o then forallb (fun d => coverb (antidiff3 o exact noextrp d (Psi false) (Psi true) GC NdtGC NdttGC 0 0 0)
                                           (f_antidiff (canon3 o) d (Psi false) (Psi true) GC)) ds3
  else true.
Lemma cover3_all : all_fl10 cover3 = true.
Proof. vm_cast_no_check (eq_refl true). Qed.

(** and hence for all arrays *)
Definition sub3 (psi psin : arr) (v : dim -> arr) (a : arr) : arr :=
  match a with Psi false => psi | Psi true => psin | GC d => v d | b => b end.
Lemma leaves_ren r e : leaves (Rn r e) = map (renl r) (leaves e).
Proof. apply leaves_emap. Qed.
Lemma leaves_mk3 l : leaves (mk l) = l.
Proof. induction l as [|a l IH]; [reflexivity|]. cbn. rewrite IH. reflexivity. Qed.
Lemma box3_ren r d a is js ks : map (renl r) (box3 d a is js ks) = box3 d (r a) is js ks.
Proof.
  unfold box3. induction is as [|i is IH]; [reflexivity|]. cbn [flat_map]. rewrite map_app, IH. f_equal.
  clear IH. induction js as [|j js IH]; [reflexivity|]. cbn [flat_map]. rewrite map_app, IH. f_equal.
  rewrite map_map. reflexivity.
Qed.
Lemma if_ren r (c : bool) (l l' : list (arr * idx)) : map (renl r) (if c then l else l') = if c then map (renl r) l else map (renl r) l'.
Proof. destruct c; reflexivity. Qed.
Lemma canon_ren o d psi psin v : leaves (f_antidiff (canon3 o) d psi psin v) =
  map (renl (sub3 psi psin v)) (leaves (f_antidiff (canon3 o) d (Psi false) (Psi true) GC)).
Proof.
  cbn [canon3 f_antidiff]. rewrite !leaves_mk3. repeat (rewrite map_app || rewrite box3_ren || rewrite if_ren). reflexivity.
Qed.
Lemma anti3_cov o sp tp d psi psin v : fl_ok3 o = true ->
  incl (leaves (antidiff3 o sp tp d psi psin v NdtGC NdttGC 0 0 0)) (leaves (f_antidiff (canon3 o) d psi psin v)).
Proof.
  intros HO. eapply incl_tran; [apply anti3_interp|]. rewrite canon_ren.
  replace (antidiff3 o exact noextrp d psi psin v NdtGC NdttGC 0 0 0)
    with (Rn (sub3 psi psin v) (antidiff3 o exact noextrp d (Psi false) (Psi true) GC NdtGC NdttGC 0 0 0))
    by (rewrite r_antidiff3; reflexivity).
  rewrite leaves_ren. apply incl_map. apply coverb_incl.
  pose proof (all_fl10_sound cover3 cover3_all o) as C. unfold cover3 in C.
  change (fl_ok3 (drop3 o)) with (fl_ok3 o) in C. rewrite HO in C.
  rewrite forallb_forall in C. apply C. destruct d; cbn; auto.
Qed.

Ltac brk3 := repeat match goal with H : In _ (_ :: _) |- _ => destruct H as [H|H] | H : In _ [] |- _ => destruct H
    | H : _ \/ _ |- _ => destruct H as [H|H] | H : False |- _ => destruct H end.
Ltac sub_leaves := intros ao H; rewrite leaves_mk3; unfold izero in *; cbn in H; brk3; subst; cbn; unfold izero; auto 30.

Lemma forms3_cov o sp tp : fl_ok3 o = true -> forms_cov ds3 (forms3 o sp tp) (canon3 o).
Proof.
  intros HO. constructor.
  - intros b. cbn [forms3 canon3 f_min]. unfold psi_min3, smin. sub_leaves.
  - intros b. cbn [forms3 canon3 f_max]. unfold psi_max3, smax. sub_leaves.
  - intros b v _. cbn [forms3 canon3 f_bup]. unfold beta_up3, fct_frac, smax, Gx, gl3, pospart, negpart, smax, smin, sabs.
    destruct (nug o), (npa o); sub_leaves.
  - intros b v _. cbn [forms3 canon3 f_bdn]. unfold beta_dn3, fct_frac, smin, Gx, gl3, pospart, negpart, smax, smin, sabs.
    destruct (nug o), (npa o); sub_leaves.
  - intros b v _. cbn [forms3 canon3 f_sum]. unfold sum3f, Gx, gl3. destruct (nug o); sub_leaves.
  - intros b v _. cbn [forms3 canon3 f_terms]. unfold terms3, Gx, gl3.
    destruct (nug o); repeat (apply Forall2_cons; [sub_leaves|]); apply Forall2_nil.
  - intros d b v _ _. apply anti3_cov. exact HO.
  - intros d b v _ _. cbn [forms3 canon3 f_flux]. unfold make_flux3, Fx, P3, V3, pospart, negpart, smax, smin, sabs.
    destruct (npa o); sub_leaves.
  - intros d b v _ _. cbn [forms3 canon3 f_mono]. unfold GC_mono3, P3, V3, smin. 
    destruct (negb (iga o) && oabs o); sub_leaves.
Qed.
