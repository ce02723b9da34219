(** 1D halo exchanges: what they do to memory. *)
From Coq Require Import ZArith List Bool Lia ZifyBool.
From Verif Require Import SpecIndex ModelIndex ProofsIndex ModelRun Lang ProofsLang Stencil ProofsStencil
  FormCommon Form1D Solver1D Macro ProofsMacro Foot1D Proofs1D ProofsThread1D ProofsValid ProofsValid1D.
Import ListNotations.
Local Open Scope Z_scope.

Section Exch.
  Variables (lo hi : Z) (n : nat).
  Hypothesis Hn : (0 < n)%nat.
  Hypothesis Hs : Z.of_nat n <= hi - lo + 1.
  Notation g := (geom1 lo hi n).
  Let OK : geom_ok g := geom1_ok lo hi n Hn Hs.
  Variable ar : arith.
  Notation mem := (loc -> car ar).

  Lemma lo1 d : lo_of g d = match d with DX => lo | _ => 0 end.
  Proof. unfold lo_of, cut_of. destruct d; cbn [dim_eqb g_dd geom1]; [apply cut1_lo; auto| |]; reflexivity. Qed.
  Lemma hi1 d : hi_of g d = match d with DX => hi | _ => 0 end.
  Proof. unfold hi_of, cut_of. destruct d; cbn [dim_eqb g_dd geom1]; [apply cut1_hi; auto| |]; reflexivity. Qed.

  Lemma in_bx x y i : in_box g (bx x y) i <-> lo - x <= comp DX i <= hi + y /\ comp DY i = 0 /\ comp DZ i = 0.
  Proof.
    unfold in_box. split.
    - intros H. pose proof (H DX) as X. pose proof (H DY) as Y. pose proof (H DZ) as Z0.
      rewrite lo1, hi1 in *. cbn in X, Y, Z0. cbn. lia.
    - intros H [| |]; rewrite lo1, hi1; cbn in *; lia.
  Qed.

  (** target of a fill *)
  Definition fillr (r : rdesc) : rng := grng lo hi r.
  Definition in_fill (r : rdesc) (i : idx) : bool :=
    (fst (fillr r) <=? comp DX i) && (comp DX i <=? snd (fillr r)) && (comp DY i =? 0) && (comp DZ i =? 0).

  Lemma run_fill e a r k (m : mem) b i :
    slab_okb true r = true ->
    run_stmt loc_eq_dec ar n (stmt_of g (inst e (at1 a r (Leaf (a, x1 k))))) m (b, i) =
    if garr_eqb b (tag e a) && in_fill r i then m (b, iadd i (x1 k)) else m (b, i).
  Proof.
    intros Hr. set (s := inst e (at1 a r (Leaf (a, x1 k)))).
    assert (SK : slab_ok g s) by (unfold slab_ok, s; rewrite d_r_inst; exact Hr).
    change n with (g_n g) at 1.
    assert (B : in_gbox g s i <-> in_fill r i = true).
    { unfold in_gbox, in_fill, fillr. split.
      - intros H. pose proof (H DX) as X. pose proof (H DY) as Y. pose proof (H DZ) as Z0.
        rewrite lo1, hi1 in *. unfold s in *. rewrite !d_r_inst in *. unfold in_rng in *.
        cbn [t_r at1 t_x t_y t_z Ext grng] in *. unfold first, last in *. cbn [fst snd] in *. lia.
      - intros H d. rewrite lo1, hi1. unfold s. rewrite !d_r_inst. unfold in_rng, first, last.
        destruct d; cbn [t_r at1 t_x t_y t_z Ext grng fst snd]; lia. }
    destruct (garr_eqb b (tag e a)) eqn:E; cbn [andb].
    - apply garr_eqb_eq in E. destruct (in_fill r i) eqn:F.
      + rewrite (run_in g OK ar s m b i SK E (proj2 B eq_refl)). cbn. unfold sh. cbn. congruence.
      + apply (run_out g OK ar s m b i SK). intros _ H. apply B in H. congruence.
    - apply (run_out g OK ar s m b i SK). intros H. exfalso.
      assert (garr_eqb b (tag e a) = true) by (apply garr_eqb_eq; exact H). congruence.
  Qed.

  Variables (hl : Z) (bl br : bcond).
  Hypothesis Hh : 1 <= hl <= 2.
  Hypothesis Hp : hl <= hi - lo.
  Notation per := (hi - lo).
  Notation ex := (expand1 hl per bl br).
  Notation runx e x := (run_prog loc_eq_dec ar n (prog_of g (expand ex e [x]))).

  (** the source of a halo element *)
  Definition src_s (i : Z) : Z :=
    if i <? lo then match bl with Cyclic => i + per | Open => lo end
    else if hi <? i then match br with Cyclic => i - per | Open => hi end
    else i.
  Definition src_v (ad : bool) (i : Z) : Z :=
    if i <? lo then match bl with Cyclic => i + per | Open => if ad then if i =? lo - 1 then i else lo else lo end
    else if hi - 1 <? i then match br with Cyclic => i - per | Open => if ad then if i =? hi then i else hi - hl else hi - hl end
    else i.

  Definition reix (f : Z -> Z) (i : idx) : idx := (f (comp DX i), comp DY i, comp DZ i).

  Lemma iadd_x1 (i : idx) k : iadd i (x1 k) = (comp DX i + k, comp DY i, comp DZ i).
  Proof. destruct i as [[a b] c]. unfold iadd, x1. cbn. f_equal; [f_equal|]; lia. Qed.

  Lemma shifted (m : mem) b (i : idx) k x : comp DX i + k = x -> m (b, iadd i (x1 k)) = m (b, (x, comp DY i, comp DZ i)).
  Proof. intros <-. rewrite iadd_x1. reflexivity. Qed.
  Lemma same_idx (i : idx) : i = (comp DX i, comp DY i, comp DZ i).
  Proof. destruct i as [[a b] c]. reflexivity. Qed.

  Ltac hcases := assert (hl = 1 \/ hl = 2) as [->| ->] by lia.

  Lemma fold_fills e l : forall (m : mem),
    fold_left (fun m i => run_instr loc_eq_dec ar n i m) (map (instr_of g) (map (inst_i e) (map TDo l))) m =
    fold_left (fun m s => run_stmt loc_eq_dec ar n (stmt_of g (inst e s)) m) l m.
  Proof. induction l as [|s l IH]; intros m; cbn; auto. Qed.

  Lemma run_fills e fr fl (m : mem) :
    run_prog loc_eq_dec ar n (prog_of g (map (inst_i e) (exchange1 fr fl))) m =
    fold_left (fun m s => run_stmt loc_eq_dec ar n (stmt_of g (inst e s)) m) fl
      (fold_left (fun m s => run_stmt loc_eq_dec ar n (stmt_of g (inst e s)) m) fr m).
  Proof.
    unfold exchange1, prog_of, run_prog. rewrite !map_app, !fold_left_app, !fold_fills. reflexivity.
  Qed.

  Lemma expand_x e x : expand ex e [x] = map (inst_i e) (ex x).
  Proof. unfold expand. cbn [flat_map]. rewrite app_nil_r. reflexivity. Qed.

  Lemma garr_eqb_refl b : garr_eqb b b = true.
  Proof. apply garr_eqb_eq. reflexivity. Qed.

  Ltac zs := repeat match goal with |- context [zseq ?r] =>
    let v := eval vm_compute in (zseq r) in change (zseq r) with v end.

  Lemma xs_other e a ext (m : mem) b i : b <> tag e a -> runx e (MXS a ext) m (b, i) = m (b, i).
  Proof.
    intros NE. rewrite expand_x. cbn [expand1]. rewrite run_fills.
    assert (F : garr_eqb b (tag e a) = false).
    { destruct (garr_eqb b (tag e a)) eqn:E; auto. apply garr_eqb_eq in E. congruence. }
    unfold fill_sclr_left, fill_sclr_rght.
    hcases; destruct bl, br; zs; cbn [map fold_left]; rewrite ?run_fill by reflexivity;
      rewrite ?F; reflexivity.
  Qed.

  Ltac fills :=
    repeat match goal with
      | |- context [if ?c then _ else _] =>
          lazymatch c with
          | context [if _ then _ else _] => fail
          | _ => let H := fresh "C" in destruct c eqn:H
          end
      end;
    try discriminate;
    rewrite ?iadd_x1 in *; cbn [comp fst snd] in *; try (exfalso; lia);
    match goal with |- _ (_, (?p, _, _)) = _ (_, (?q, _, _)) => replace p with q by lia; reflexivity end.

  Lemma xs_here e a ext (m : mem) i : in_box g (bx hl hl) i ->
    runx e (MXS a ext) m (tag e a, i) = m (tag e a, reix src_s i).
  Proof.
    intros Hi. apply in_bx in Hi. destruct Hi as (X & Y & Z0). rewrite expand_x. cbn [expand1]. rewrite run_fills.
    destruct i as [[x y] z]. cbn [comp fst snd] in X, Y, Z0. subst y z.
    unfold fill_sclr_left, fill_sclr_rght, src_s, reix.
    hcases; destruct bl, br; zs; cbn [map fold_left]; rewrite ?run_fill by reflexivity; rewrite ?garr_eqb_refl; cbn [andb];
      unfold in_fill, fillr, grng; rewrite ?iadd_x1; cbn [comp fst snd].
    all: fills.
  Qed.

  Lemma xv_other e v ad (m : mem) b i : b <> tag e (v DX) -> runx e (MXVA v ad) m (b, i) = m (b, i).
  Proof.
    intros NE. rewrite expand_x. cbn [expand1]. rewrite run_fills.
    assert (F : garr_eqb b (tag e (v DX)) = false).
    { destruct (garr_eqb b (tag e (v DX))) eqn:E; auto. apply garr_eqb_eq in E. congruence. }
    unfold fill_vctr_left, fill_vctr_rght.
    hcases; destruct bl, br, ad; zs; cbn [map fold_left]; rewrite ?run_fill by reflexivity;
      rewrite ?F; reflexivity.
  Qed.

  Lemma xv_here e v ad (m : mem) i : in_box g (bx hl (hl - 1)) i ->
    runx e (MXVA v ad) m (tag e (v DX), i) = m (tag e (v DX), reix (src_v ad) i).
  Proof.
    intros Hi. apply in_bx in Hi. destruct Hi as (X & Y & Z0). rewrite expand_x. cbn [expand1]. rewrite run_fills.
    destruct i as [[x y] z]. cbn [comp fst snd] in X, Y, Z0. subst y z.
    unfold fill_vctr_left, fill_vctr_rght, src_v, reix.
    hcases; destruct bl, br, ad; zs; cbn [map fold_left]; rewrite ?run_fill by reflexivity; rewrite ?garr_eqb_refl; cbn [andb];
      unfold in_fill, fillr, grng; rewrite ?iadd_x1; cbn [comp fst snd].
    all: fills.
  Qed.
End Exch.
