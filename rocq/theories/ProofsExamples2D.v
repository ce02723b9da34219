(** A concrete 2D run used in the examples next to the property theorems. *)
From Coq Require Import ZArith List Bool Lia Reals Lra.
From Verif Require Import ModelIndex ModelRun Lang Stencil FormCommon Form2D Solver1D Solver2D Arith
  SpecThreads SpecFields2 SpecReal SpecNum2 SpecRun2 ProofsThread2D ProofsOne2D ProofsValid2D ProofsCyclic2D ProofsStale2D.
Import ListNotations.
Local Open Scope R_scope.

(** 4 x 4 cells; options with [fct], [iga], [nug] and without *)
Definition ex2_opts (f i g : bool) : fl := mkfl f false false true false i g false false false false false false.
Definition ex2_run (o : fl) (nit : nat) : run2 :=
  {| s_o := o; s_sp := aver2; s_tp := noextrp; s_cfg := {| n_eqns := 1; delayed_step := 0%N |};
     s_nit := nit; s_freq := 0; s_scale := fun e => 3%Z; s_bl := fun _ => Cyclic2; s_br := fun _ => Cyclic2;
     s_lo := fun _ => 0%Z; s_hi := fun d => 4%Z |}.
Definition pick (a b c d : R) (i : Z) : R := match (i mod 4)%Z with 0%Z => a | 1%Z => b | 2%Z => c | _ => d end.
(** an eddy around a corner on top of uniform flow ([cx], [cy]); a peak; varying G factor *)
Definition ex2_mem (cx cy s : R) : loc -> R := fun l =>
  match l with
  | (O, Psi false, (i, j, _)) => pick 1 (pick 1 3 1 1 j) 1 (pick 2 1 1 1 j) i
  | (O, GC DX, (i, j, _)) => cx + pick 0 (pick 0 s (- s) 0 j) 0 0 i
  | (O, GC DY, (i, j, _)) => cy + pick 0 (pick 0 (- s) 0 0 j) (pick 0 s 0 0 j) 0 i
  | (O, Gf, (i, j, _)) => pick 1 (3 / 2) 1 1 i
  | _ => 0
  end.
Lemma pick4 a b c d i : pick a b c d (i + 4) = pick a b c d i.
Proof. unfold pick. replace (i + 4)%Z with (i + 1 * 4)%Z by lia. rewrite Z.mod_add by lia. reflexivity. Qed.

Lemma ex2_ok f i g nit : (0 < nit)%nat -> run2_ok (ex2_run (ex2_opts f i g) nit).
Proof. intros H. constructor; [destruct f, i, g; reflexivity|exact H|]. intros d _. destruct f, i, g; vm_compute; discriminate. Qed.
Lemma ex2_cyclic cx cy s g : cyclic_data2 (fun _ => 0%Z) (fun _ => 4%Z) 1 g (ex2_mem cx cy s).
Proof.
  assert (P : forall a b c d, pick a b c d 4 = pick a b c d 0) by reflexivity.
  split; [|split; [|split]].
  - intros e He. assert (e = 0%nat) by lia. subst. split; intros; cbv [cell2 ex2_mem]; rewrite !P; reflexivity.
  - intros; cbv [face2 ex2_mem]; rewrite !P; reflexivity.
  - intros; cbv [face2 ex2_mem]; rewrite !P; reflexivity.
  - split; intros; cbv [gfac2 ex2_mem]; rewrite ?P; reflexivity.
Qed.
(** the run ends *)
Lemma ex2_end eps tiny f i g nit nt cx cy s : (0 < nit)%nat ->
  exists m', cyclic_end2 (arithR eps tiny) (ex2_run (ex2_opts f i g) nit) 1 nt (ex2_mem cx cy s) m'.
Proof.
  intros H. destruct (can_end_exec2 (ex2_run (ex2_opts f i g) nit) nt (arithR eps tiny) (ex2_mem cx cy s) (ex2_ok f i g nit H)) as (m' & E & _).
  exists m'. constructor; auto; try reflexivity.
  - apply ex2_ok. exact H.
  - vm_compute. discriminate.
  - left. reflexivity.
  - apply ex2_cyclic.
Qed.

Ltac cells := intros i j [Hi Hj]; cbn in Hi, Hj;
  let I := fresh in let J := fresh in
  assert (I : (i = 0 \/ i = 1 \/ i = 2 \/ i = 3)%Z) by lia; assert (J : (j = 0 \/ j = 1 \/ j = 2 \/ j = 3)%Z) by lia;
  destruct I as [->|[->|[->| ->]]], J as [->|[->|[->| ->]]].
Ltac eval2 := cbv [G2of gfac2 east west north south face2 cell2 ex2_mem pick wrap2 fst snd Z.modulo Z.div_eucl Z.pos_div_eucl Z.add Z.sub Z.opp
  Pos.add Z.pos_sub Z.leb Z.ltb Z.mul Z.compare Pos.compare Pos.compare_cont Pos.pred_double Z.succ_double Z.pred_double Z.double Pos.succ Pos.mul].
Notation z4 := (fun _ : dim => 0%Z).
Notation h4 := (fun _ : dim => 4%Z).
Lemma ex2_divfree cx cy s : divergence_free2 z4 h4 (ex2_mem cx cy s).
Proof. cells; eval2; ring. Qed.
Lemma ex2_pos cx cy s i j : inside z4 h4 i j -> 1 <= cell2 (ex2_mem cx cy s) 0 false i j <= 3.
Proof. revert i j. cells; eval2; lra. Qed.
Lemma ex2_G cx cy s i j : inside z4 h4 i j -> 1 <= G2of true (ex2_mem cx cy s) i j <= 2.
Proof. revert i j. cells; eval2; lra. Qed.
(** all velocities between 0 and 1/4 *)
Lemma ex2_gentle : gentle2 z4 h4 true (ex2_mem (1 / 8) (1 / 8) (1 / 8)) 1 (1 / 4) (1 / 4).
Proof. split; [lra|]. split; [lra|]. cells; (split; [|split]); eval2; try lra; apply Rabs_le; lra. Qed.
Lemma ex2_outflow s : 0 <= s <= 1 / 8 -> outflow_ok2 z4 h4 true (ex2_mem (1 / 4) (1 / 4) s).
Proof.
  intros Hs. cells; eval2; (split; [lra|]); rewrite ?Rmax_right, ?Rmin_left by lra; lra.
Qed.
