(** Footprints of the two-dimensional formulae. *)
From Coq Require Import ZArith List Bool Lia ZifyBool.
From Verif Require Import SpecIndex ModelIndex ModelRun Lang ProofsLang Stencil ProofsStencil
  FormCommon Form2D Solver1D Solver2D Macro ProofsMacro Foot1D.
Import ListNotations.
Local Open Scope Z_scope.

Definition box2 (d : dim) (a : arr) (is js : list Z) : list (arr * idx) :=
  flat_map (fun i => map (fun j => (a, x2 d i j)) js) is.
Definition wide_psi2 (o : fl) : bool := tot o || div2 o.
Definition wide_gc2 (o : fl) : bool := dfl o || div2 o.
Definition dt2 (o : fl) : bool := div2 o && div3dt o.
Definition cross2 (a : arr) : list (arr * idx) :=
  [(a, (0, 1, 0)); (a, (-1, 0, 0)); (a, (0, 0, 0)); (a, (1, 0, 0)); (a, (0, -1, 0))].
Definition gl2 (o : fl) : list (arr * idx) := if nug o then [(Gf, izero)] else [].
Definition flx2 (flx : dim -> arr) : list (arr * idx) :=
  [(flx DX, (0, 0, 0)); (flx DX, (-1, 0, 0)); (flx DY, (0, 0, 0)); (flx DY, (0, -1, 0))].

Definition canon2 (o : fl) : forms := {|
  f_antidiff := fun d psi psin gc => mk (
    box2 d psi (if wide_psi2 o then [-1; 0; 1; 2] else [0; 1]) [-1; 0; 1] ++
    (if dt2 o then box2 d psin [0; 1] [-1; 0; 1] else []) ++
    box2 d (gc d) (if wide_gc2 o then [-1; 0; 1] else [0]) (if div3 o then [-1; 0; 1] else [0]) ++
    box2 d (gc (od d)) [0; 1] (if div3 o then [-2; -1; 0; 1] else [-1; 0]) ++
    (if nug o then box2 d Gf [0; 1] (if div3 o then [-1; 0; 1] else [0]) else []) ++
    (if div3 o || dt2 o then
       box2 d (NdtGC d) [-1; 0; 1] [0] ++ box2 d (NdtGC (od d)) [0; 1] [-1; 0] ++ box2 d (NdttGC d) [0] [0] else []));
  f_flux := fun d psi gc => mk (box2 d psi [0; 1] [0] ++ box2 d gc [0] [0]);
  f_min := fun psi => mk (cross2 psi);
  f_max := fun psi => mk (cross2 psi);
  f_bup := fun psi flx => mk ((PsiMax, izero) :: cross2 psi ++ flx2 flx ++ gl2 o);
  f_bdn := fun psi flx => mk ((PsiMin, izero) :: cross2 psi ++ flx2 flx ++ gl2 o);
  f_mono := fun d psi gc => mk (box2 d psi [0; 1] [0] ++ box2 d gc [0] [0] ++
                                box2 d BetaUp [0; 1] [0] ++ box2 d BetaDn [0; 1] [0]);
  f_sum := fun psi flx => mk ((psi, izero) :: flx2 flx ++ gl2 o);
  f_terms := fun psi flx => [ mk [(psi, izero)]; mk ((flx DX, (0, 0, 0)) :: gl2 o); mk ((flx DX, (-1, 0, 0)) :: gl2 o);
                              mk ((flx DY, (0, 0, 0)) :: gl2 o); mk ((flx DY, (0, -1, 0)) :: gl2 o) ]
|}.

(** options that matter for the operands *)
Definition drop2 (o : fl) : fl :=
  mkfl false (oabs o) (tot o) (pfc o) (npa o) (iga o) (nug o) (dfl o) false (div2 o) (div3 o) (div3dt o) (fot o).
Definition all_fl11 (p : fl -> bool) : bool :=
  forallb (fun ab => forallb (fun to => forallb (fun pf => forallb (fun np => forallb (fun ig => forallb (fun nu =>
  forallb (fun df => forallb (fun d2 => forallb (fun d3 => forallb (fun dt => forallb (fun fo =>
    p (mkfl false ab to pf np ig nu df false d2 d3 dt fo))
  bools) bools) bools) bools) bools) bools) bools) bools) bools) bools) bools.
Lemma all_fl11_sound p : all_fl11 p = true -> forall o, p (drop2 o) = true.
Proof.
  unfold all_fl11, drop2. intros C [fc ab to pf np ig nu df kh d2 d3 dt fo]. cbn.
  spec_bool C ab. spec_bool C to. spec_bool C pf. spec_bool C np. spec_bool C ig. spec_bool C nu.
  spec_bool C df. spec_bool C d2. spec_bool C d3. spec_bool C dt. spec_bool C fo. exact C.
Qed.

(** the interpolation choices matter in divergence form only *)
Definition sps (o : fl) : list sptl := if div2 o then [exact; aver2; aver4] else [exact].
Definition tps (o : fl) : list tmprl := if div2 o then [noextrp; linear2] else [noextrp].
Definition cover2 (o : fl) : bool :=
  if fl_ok2 o then forallb (fun sp => forallb (fun tp => forms_coverb [DX; DY] (forms2 o sp tp) (canon2 o)) (tps o)) (sps o)
  else true.

Lemma cover2_all : all_fl11 cover2 = true.
Proof. vm_compute. reflexivity. Qed.

Lemma forms2_drop o sp tp : forms2 o sp tp = forms2 (drop2 o) sp tp.
Proof. reflexivity. Qed.
Lemma canon2_drop o : canon2 o = canon2 (drop2 o).
Proof. reflexivity. Qed.
Lemma forms2_interp o sp tp : div2 o = false -> forms2 o sp tp = forms2 o exact noextrp.
Proof. intros H. unfold forms2, antidiff2. rewrite H. reflexivity. Qed.

Lemma forms2_cov o sp tp : fl_ok2 o = true -> forms_cov [DX; DY] (forms2 o sp tp) (canon2 o).
Proof.
  intros HO. apply forms_coverb_sound.
  pose proof (all_fl11_sound cover2 cover2_all o) as C. unfold cover2 in C.
  change (fl_ok2 (drop2 o)) with (fl_ok2 o) in C. rewrite HO in C.
  change (sps (drop2 o)) with (sps o) in C. change (tps (drop2 o)) with (tps o) in C.
  rewrite <- canon2_drop in C. unfold sps, tps in C.
  destruct (div2 o) eqn:D.
  - rewrite forallb_forall in C.
    assert (Hs : In sp [exact; aver2; aver4]) by (destruct sp; cbn; auto).
    specialize (C sp Hs). rewrite forallb_forall in C.
    assert (Ht : In tp [noextrp; linear2]) by (destruct tp; cbn; auto).
    rewrite forms2_drop. exact (C tp Ht).
  - rewrite (forms2_interp o sp tp D), forms2_drop. cbn [forallb] in C. rewrite !andb_true_r in C. exact C.
Qed.
