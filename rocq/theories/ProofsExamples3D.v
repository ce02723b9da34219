(** A concrete 3D run used in the examples next to the property theorems. *)
From Coq Require Import ZArith List Bool Lia Reals Lra.
From Verif Require Import ModelIndex ModelRun Lang Stencil FormCommon Form3D Solver1D Solver3D Arith
  SpecThreads SpecFields3 SpecReal SpecNum3 SpecRun3 ProofsGeom3D ProofsThread3D ProofsValid3D ProofsCyclic3D.
Import ListNotations.
Local Open Scope R_scope.

(** 3 x 2 x 2 cells; options with [fct], [iga], [nug] and without *)
Definition ex3_opts (f i g : bool) : fl := mkfl f false false true false i g false false false false false false.
Definition h322 (d : dim) : Z := match d with DX => 3 | _ => 2 end.
Notation z322 := (fun _ : dim => 0%Z).
Definition ex3_run (o : fl) (nit : nat) : run3 :=
  {| s3_o := o; s3_sp := aver2; s3_tp := noextrp; s3_cfg := {| n_eqns := 1; delayed_step := 0%N |};
     s3_nit := nit; s3_freq := 0; s3_scale := fun e => 3%Z; s3_lo := z322; s3_hi := h322 |}.
Definition at3 (i j : Z) (v : R) : R := if ((i mod 3 =? 1) && (j mod 2 =? 1))%Z then v else 0.
(** an eddy around an edge along z on top of uniform flow ([cx], [cy], [cz]); a peak; varying G factor *)
Definition ex3_mem (cx cy cz s : R) : loc -> R := fun l =>
  match l with
  | (O, Psi false, (i, j, k)) => 1 + at3 i (j + k) 2 + at3 (i + 1) k 1
  | (O, GC DX, (i, j, k)) => cx + at3 i j s - at3 i (j - 1) s
  | (O, GC DY, (i, j, k)) => cy - at3 i j s + at3 (i - 1) j s
  | (O, GC DZ, (i, j, k)) => cz
  | (O, Gf, (i, j, k)) => 1 + at3 i k (1 / 2)
  | _ => 0
  end.
Lemma at3_x i j v : at3 (i + 3) j v = at3 i j v.
Proof. unfold at3. replace (i + 3)%Z with (i + 1 * 3)%Z by lia. rewrite Z.mod_add by lia. reflexivity. Qed.
Lemma at3_y i j v : at3 i (j + 2) v = at3 i j v.
Proof. unfold at3. replace (j + 2)%Z with (j + 1 * 2)%Z by lia. rewrite Z.mod_add by lia. reflexivity. Qed.

Lemma ex3_ok f i g nit : (0 < nit)%nat -> run3_ok (ex3_run (ex3_opts f i g) nit).
Proof. intros H. constructor; [destruct f, i, g; reflexivity|exact H|]. intros d. destruct f, i, g, d; vm_compute; discriminate. Qed.
Ltac per3 := repeat match goal with
  | |- context [at3 3 ?j ?v] => change (at3 3 j v) with (at3 0 j v)
  | |- context [at3 ?i 2 ?v] => change (at3 i 2 v) with (at3 i 0 v)
  | |- context [at3 (3 + 1) ?j ?v] => change (at3 (3 + 1) j v) with (at3 (0 + 1) j v)
  | |- context [at3 (3 - 1) ?j ?v] => change (at3 (3 - 1) j v) with (at3 (0 - 1) j v)
  | |- context [at3 ?i (2 - 1) ?v] => change (at3 i (2 - 1) v) with (at3 i (0 - 1) v)
  | |- context [at3 ?i (?j + 2) ?v] => rewrite (at3_y i j v)
  | |- context [at3 ?i (2 + ?k) ?v] => replace (2 + k)%Z with (k + 2)%Z by lia; rewrite (at3_y i k v)
  end.
Lemma ex3_cyclic cx cy cz s g : cyclic_data3 z322 h322 1 g (ex3_mem cx cy cz s).
Proof.
  split; [|split].
  - intros e d [[x y] z] He _ H. assert (e = 0%nat) by lia. subst. unfold cell3.
    destruct d; cbn [comp fst snd h322 put] in *; subst; cbn [ex3_mem]; per3; rewrite ?Z.add_0_r, ?Z.add_0_l; reflexivity.
  - intros c d [[x y] z] _ H. unfold face3.
    destruct c, d; cbn [comp fst snd h322 put] in *; subst; cbn [ex3_mem]; per3; reflexivity.
  - intros _ d [[x y] z] _ H. unfold gfac3.
    destruct d; cbn [comp fst snd h322 put] in *; subst; cbn [ex3_mem]; per3; reflexivity.
Qed.
(** the run ends *)
Lemma ex3_end eps tiny f i g nit nt cx cy cz s : (0 < nit)%nat ->
  exists m', cyclic_end3 (arithR eps tiny) (ex3_run (ex3_opts f i g) nit) 1 nt (ex3_mem cx cy cz s) m'.
Proof.
  intros H. destruct (finish3 (ex3_run (ex3_opts f i g) nit) 1 nt (arithR eps tiny) (ex3_mem cx cy cz s) (ex3_ok f i g nit H) ltac:(lia) ltac:(vm_compute; discriminate) (or_introl eq_refl)) as ((m' & E) & _).
  exists m'. constructor; auto; try reflexivity.
  - apply ex3_ok. exact H.
  - vm_compute. discriminate.
  - left. reflexivity.
  - apply ex3_cyclic.
Qed.

Ltac cells3 := intros [[i j] k] Ho;
  let X := fresh in let Y := fresh in let W := fresh in
  pose proof (Ho DX) as X; pose proof (Ho DY) as Y; pose proof (Ho DZ) as W; cbn [comp fst snd h322] in X, Y, W; clear Ho;
  let I := fresh in let J := fresh in let K := fresh in
  assert (I : (i = 0 \/ i = 1 \/ i = 2)%Z) by (clear - X; lia); assert (J : (j = 0 \/ j = 1)%Z) by (clear - Y; lia);
  assert (K : (k = 0 \/ k = 1)%Z) by (clear - W; lia); clear X Y W;
  destruct I as [->|[->| ->]], J as [->| ->], K as [->| ->].
Ltac eval3 := cbv [G3of gfac3 ahead behind face3 cell3 ex3_mem at3 wrap3 put comp h322 sum3d fst snd Z.modulo Z.div_eucl Z.pos_div_eucl Z.add Z.sub Z.opp
  Pos.add Z.pos_sub Z.leb Z.ltb Z.eqb Pos.eqb andb Z.mul Z.compare Pos.compare Pos.compare_cont Pos.pred_double Z.succ_double Z.pred_double Z.double Pos.succ Pos.mul].
Lemma ex3_divfree cx cy cz s : divergence_free3 z322 h322 (ex3_mem cx cy cz s).
Proof. cells3; eval3; ring. Qed.
Lemma ex3_pos cx cy cz s i : own z322 h322 i -> 1 <= cell3 (ex3_mem cx cy cz s) 0 false i <= 4.
Proof. revert i. cells3; eval3; lra. Qed.
(** velocities between 0 and 1/8; uniform G factor, or not *)
Lemma ex3_gentle g : gentle3 z322 h322 g (ex3_mem (1 / 16) (1 / 16) (1 / 8) (1 / 16)) 3 1 (fun _ => 1 / 8).
Proof.
  split; [lra|]. split.
  - intros []; cells3; eval3; apply Rabs_le; lra.
  - destruct g; [right|left]; (split; [|unfold sum3d; cbn [INR]; lra]); cells3; eval3; lra.
Qed.
Lemma ex3_outflow s : 0 <= s <= 1 / 8 -> outflow_ok3 z322 h322 true (ex3_mem (1 / 4) (1 / 4) (1 / 8) s).
Proof.
  intros Hs. cells3; eval3; (split; [lra|]); rewrite ?Rmax_right, ?Rmin_left by lra; lra.
Qed.
