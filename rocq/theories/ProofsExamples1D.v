(** Data and small lemmas for the examples beside the property theorems, and
    the counterexamples in the form the property theorems use. *)
From Coq Require Import ZArith QArith List Bool Lia Reals Lra.
From Verif Require Import ModelIndex ModelRun Lang Stencil FormCommon Form1D Solver1D
  SpecThreads SpecFields SpecReal SpecNum ProofsThread1D ProofsValid1D ProofsCyclic1D ProofsStale1D
  Arith Exec Fun1D ProofsCons1D ProofsNum1D ProofsResults1D ProofsRefute1D.
Import ListNotations.

Lemma leak_witness : exists r ar nt (m m' : loc -> Q),
  run_ok r /\ r_bl r = Cyclic /\ r_br r = Cyclic /\ r_lo r = 0%Z /\ r_hi r = 4%Z /\ nug (r_o r) = false /\
  cyclic_data 0 4 (n_eqns (r_cfg r)) false m /\ ar = arithQ 0 0 /\
  can_end loc_eq_dec (arithQ 0 0) 1 (program1 r 1 nt) m m' /\
  ~ (cell m' 0 (newest r nt) 0%Z + cell m' 0 (newest r nt) 1%Z + cell m' 0 (newest r nt) 2%Z + cell m' 0 (newest r nt) 3%Z ==
     cell m 0 false 0%Z + cell m 0 false 1%Z + cell m 0 false 2%Z + cell m 0 false 3%Z)%Q.
Proof.
  destruct stale_leaks as (m' & H1 & H2 & H3). exists stale_run, (arithQ 0 0), 2%nat, (stale_mem 1), m'.
  split; [apply stale_run_ok|]. repeat match goal with |- _ /\ _ => split end; solve [reflexivity | exact H1 | exact H2 | exact H3].
Qed.

Lemma iga_witness : exists r (m m' : loc -> Q) nt i,
  run_ok r /\ iga (r_o r) = true /\ fct (r_o r) = false /\ r_nit r = 2%nat /\
  (forall j, face m j = (1 # 2)%Q) /\ (forall j, 0 <= cell m 0 false j)%Q /\ (r_lo r <= i <= r_hi r)%Z /\
  can_end loc_eq_dec (arithQ 0 0) 1 (program1 r 1 nt) m m' /\ (cell m' 0 (newest r nt) i < 0)%Q.
Proof.
  destruct iga_negative as (m' & i & Hi & E & N). exists iga_run, iga_mem, m', 1%nat, i.
  split; [apply iga_run_ok|]. repeat match goal with |- _ /\ _ => split end; try solve [reflexivity | intros; reflexivity | apply Hi | exact E | exact N]. intros j. unfold cell, iga_mem. cbn [fst snd].
  destruct j as [|[[]|[]|]|]; vm_compute; discriminate.
Qed.

Lemma hint_witness : exists r s (m m1' m2' : loc -> Q) eps i,
  run_ok r /\ fct (r_o r) = true /\ pfc (r_o r) = true /\ (0 < eps)%Q /\ (r_lo r <= i <= r_hi r)%Z /\
  can_end loc_eq_dec (arithQ eps 0) 1 (program1 r 1 1) m m1' /\
  can_end loc_eq_dec (arithQ eps 0) 1 (program1 (with_scale r s) 1 1) m m2' /\
  ~ (cell m2' 0 (newest r 1) i == cell m1' 0 (newest r 1) i)%Q.
Proof.
  destruct hint_differs as (m1' & m2' & E1 & E2 & H). exists (hint_run 0), (fun _ => 1%Z), hint_mem, m1', m2', (1 # 1048576)%Q, 2%Z.
  split; [apply hint_run_ok|]. repeat match goal with |- _ /\ _ => split end; try solve [reflexivity | cbn; lia | exact E1 | exact E2 | exact H].
Qed.

Lemma open_witness : exists r (m1 m2 m1' m2' : loc -> Q) nt i,
  run_ok r /\ r_bl r = Open /\ r_br r = Open /\ no_stale (r_o r) (r_nit r) = true /\
  mirrored Qopp (r_lo r) (r_hi r) (n_eqns (r_cfg r)) (nug (r_o r)) m1 m2 /\
  can_end loc_eq_dec (arithQ 0 0) 1 (program1 r 1 nt) m1 m1' /\
  can_end loc_eq_dec (arithQ 0 0) 1 (program1 r 1 nt) m2 m2' /\ (r_lo r <= i <= r_hi r)%Z /\
  ~ (cell m2' 0 (newest r nt) i == cell m1' 0 (newest r nt) (r_lo r + r_hi r - i)%Z)%Q.
Proof.
  destruct open_mirror_differs as (m1' & m2' & H1 & H2 & H3 & H4). exists open_run, open_mem, open_mem', m1', m2', 1%nat, 0%Z.
  split; [apply open_run_ok|]. repeat match goal with |- _ /\ _ => split end; try solve [reflexivity | cbn; lia | exact H1 | exact H2 | exact H3 | exact H4].
Qed.

Local Open Scope R_scope.

(** Example data: five cells, two of them (0 and 4) the same cell of a cyclic
    domain, one peak, uniform velocity [k]; G factor 1. *)
Definition ex_opts (f ig : bool) : fl := mkfl f false true true false ig true false false false false false false.
Definition ex_run (o : fl) (nit : nat) (b : bcond) : run1 :=
  {| r_o := o; r_sp := exact; r_tp := noextrp; r_cfg := {| n_eqns := 1; delayed_step := 0%N |};
     r_nit := nit; r_freq := 3; r_scale := fun _ => 1%Z; r_bl := b; r_br := b; r_lo := 0; r_hi := 4 |}.
Definition ex_mem (k : R) : loc -> R := fun l =>
  match fst l with
  | (O, Psi false) => match snd l with (1, _, _)%Z => 3 | _ => 1 end
  | (O, GC DX) => k
  | (O, Gf) => 1
  | _ => 7
  end.
Lemma ex_ok f ig nit b : (0 < nit)%nat -> run_ok (ex_run (ex_opts f ig) nit b).
Proof. intros H. constructor; [destruct ig; reflexivity|exact H|vm_compute; discriminate]. Qed.
Lemma ex_cyclic k : cyclic_data 0 4 1 true (ex_mem k).
Proof. split; [|reflexivity]. intros e He. assert (e = 0)%nat by lia. subst. reflexivity. Qed.
Lemma ex_ends r ar nt m : run_ok r -> exists m', can_end loc_eq_dec ar 1 (program1 r 1 nt) m m'.
Proof. intros H. pose proof (lo_hi r H). destruct (threads_finish r 1 nt ar m H ltac:(lia) ltac:(lia)) as [E _]. exact E. Qed.
Lemma ex_cells k i : (0 <= i <= 4)%Z -> 1 <= cell (ex_mem k) 0 false i <= 3.
Proof.
  intros H. assert (I : (i = 0 \/ i = 1 \/ i = 2 \/ i = 3 \/ i = 4)%Z) by lia.
  destruct I as [->|[->|[->|[->| ->]]]]; cbv [cell ex_mem fst snd]; lra.
Qed.
Lemma ex_uniform k : Rabs k <= 1 -> uniform 0 4 true (ex_mem k) k.
Proof. intros H. split; intros i Hi; [reflexivity|]. cbv [Gof gfac ex_mem fst]. lra. Qed.

Lemma ex_outflow f ig nit b k : 0 <= k <= 1 ->
  let r := ex_run (ex_opts f ig) nit b in
  outflow_ok (r_bl r) (r_br r) (r_lo r) (r_hi r) (halo (r_o r)) (nug (r_o r)) (ex_mem k).
Proof.
  intros Hk r i Hi. cbn [r_lo r_hi r ex_run r_bl r_br r_o nug ex_opts] in *.
  split; [cbv [Gof gfac ex_mem fst]; lra|].
  assert (E1 : Crght b 0 4 (halo (ex_opts f ig)) (ex_mem k) i = k) by (unfold Crght; destruct (i =? 4)%Z, b; reflexivity).
  assert (E2 : Cleft b 0 4 (ex_mem k) i = k) by (unfold Cleft; destruct (i =? 0)%Z, b; reflexivity).
  change (mkfl f false true true false ig true false false false false false false) with (ex_opts f ig).
  rewrite E1, E2, Rmax_right, Rmin_left by lra. cbv [Gof gfac ex_mem fst]. lra.
Qed.
Definition ex_basic : fl := mkfl false false false false false false true false false false false false false.
Definition ex_long : run1 :=
  {| r_o := ex_opts true false; r_sp := exact; r_tp := noextrp; r_cfg := {| n_eqns := 1; delayed_step := 0%N |};
     r_nit := 3; r_freq := 0; r_scale := fun _ => 0%Z; r_bl := Cyclic; r_br := Cyclic; r_lo := 0; r_hi := 9 |}.
Definition mul_mem (l : R) (m : loc -> R) : loc -> R := fun x =>
  match fst x with (_, Psi _) => l * m x | _ => m x end.
Definition ex_plain : fl := mkfl true false true true false false false true false false false false false.
Definition mir_mem (lo hi : Z) (m : loc -> R) : loc -> R := fun x =>
  match fst x with
  | (_, GC _) => - m (fst x, ((lo + hi - 1 - comp DX (snd x))%Z, 0%Z, 0%Z))
  | _ => m (fst x, ((lo + hi - comp DX (snd x))%Z, 0%Z, 0%Z))
  end.
Definition ex_text : run1 :=
  {| r_o := mkfl true false false false false false true false false false false false false;
     r_sp := exact; r_tp := noextrp; r_cfg := {| n_eqns := 2; delayed_step := 0%N |};
     r_nit := 3; r_freq := 0; r_scale := fun _ => 0%Z; r_bl := Cyclic; r_br := Cyclic; r_lo := 0; r_hi := 9 |}.
Lemma ex_text_ok : run_ok ex_text.
Proof. constructor; vm_compute; try reflexivity; try discriminate; lia. Qed.
