(** Concrete 2D runs that depend on uninitialised memory. *)
From Coq Require Import ZArith QArith List Bool Lia.
From Verif Require Import ModelIndex ModelRun Lang ProofsLang Stencil ProofsStencil FormCommon Form2D Solver1D Solver2D
  Proofs1D ProofsThread1D ProofsThread2D ProofsOne2D ProofsValid2D ProofsCyclic2D Arith Exec ProofsExec SpecThreads SpecFields2.
Import ListNotations.
Local Open Scope Z_scope.

Lemma can_end_exec2 r nt ar m : run2_ok r -> 
  exists m', can_end loc_eq_dec ar 1 (program2 r 1 nt) m m' /\
    forall l, m' l = look ar m (exec ar m 1 (program2 r 1 nt)) l.
Proof.
  intros RK. assert (Hs : Z.of_nat 1 <= s_hi r DX - s_lo r DX + 1).
  { pose proof (ok2_grid r RK DX (or_introl eq_refl)). pose proof (halo_pos (s_o r)). lia. }
  assert (T : settled r 1) by (left; reflexivity).
  destruct (finish2 r RK 1 ltac:(lia) Hs ar nt m T) as [(m' & E) _]. exists m'. split; auto.
  intros l. rewrite exec_look. apply (can_end_run2 r RK 1 ltac:(lia) Hs ar nt m m' T E).
Qed.

(** [div_2nd] on 4 x 3 cells, three iterations *)
Definition stale_run2 (o : fl) : run2 :=
  {| s_o := o; s_sp := exact; s_tp := noextrp; s_cfg := {| n_eqns := 1; delayed_step := 0%N |};
     s_nit := 3; s_freq := 0; s_scale := fun e => 0; s_bl := fun _ => Cyclic2; s_br := fun _ => Cyclic2;
     s_lo := fun _ => 0; s_hi := fun d => match d with DX => 3 | _ => 3 end |}.
(** [s]: content of the temporary arrays before the run *)
Definition stale_mem2 (s : Q) : loc -> Q := fun l =>
  match fst l with
  | (O, Psi false) => match snd l with (1, 1, _) => 3%Q | _ => 1%Q end
  | (O, GC DX) => 1 # 2
  | (O, GC DY) => 1 # 4
  | (O, Cor _ _) => s
  | _ => 0%Q
  end.
Notation A0 := (arithQ 0 0).
Definition div_run2 : run2 := stale_run2 (mkfl false false false true false false false false false true false false false).
Definition div3_run2 : run2 := stale_run2 (mkfl true false false true false false false false false true true false false).
Definition at2d_cell r s i j : Q := Qred (look A0 (stale_mem2 s) (exec A0 (stale_mem2 s) 1 (program2 r 1 1)) ((O, Psi (newest2 r 1)), (i, j, 0))).

Definition same_at r i j := Qeq_bool
  (look A0 (stale_mem2 0) (exec A0 (stale_mem2 0) 1 (program2 r 1 1)) ((O, Psi (newest2 r 1)), (i, j, 0)))
  (look A0 (stale_mem2 1) (exec A0 (stale_mem2 1) 1 (program2 r 1 1)) ((O, Psi (newest2 r 1)), (i, j, 0))).
Lemma div_run2_ok : run2_ok div_run2.
Proof. constructor; [reflexivity|cbn; lia|]. intros d [-> | ->]; cbn; lia. Qed.
Lemma stale_same s s' : @same_data2 Q (s_lo div_run2) (s_hi div_run2) 1 false (stale_mem2 s) (stale_mem2 s').
Proof.
  split; [|split; [|split]]; reflexivity.
Qed.
Lemma stale_cyclic s : @cyclic_data2 Q (s_lo div_run2) (s_hi div_run2) 1 false (stale_mem2 s).
Proof.
  split; [|split; [|split]]; try reflexivity; [|discriminate]. intros e He. assert (e = 0%nat) by lia. subst.
  split; intros k Hk; cbn [s_lo s_hi div_run2 stale_run2] in *; unfold cell2, stale_mem2; cbn [fst snd].
  - reflexivity.
  - destruct k as [|[p|p|]|p]; reflexivity.
Qed.

Lemma stale_differs2 : exists m1' m2',
  can_end loc_eq_dec A0 1 (program2 div_run2 1 1) (stale_mem2 0) m1' /\
  can_end loc_eq_dec A0 1 (program2 div_run2 1 1) (stale_mem2 1) m2' /\
  ~ (cell2 m1' 0 (newest2 div_run2 1) 0%Z 0%Z == cell2 m2' 0 (newest2 div_run2 1) 0%Z 0%Z)%Q /\
  ~ (cell2 m2' 0 (newest2 div_run2 1) 3%Z 0%Z == cell2 m2' 0 (newest2 div_run2 1) 0%Z 0%Z)%Q.
Proof.
  destruct (can_end_exec2 div_run2 1 A0 (stale_mem2 0) div_run2_ok) as (m1 & E1 & H1).
  destruct (can_end_exec2 div_run2 1 A0 (stale_mem2 1) div_run2_ok) as (m2 & E2 & H2).
  exists m1, m2. split; [exact E1|]. split; [exact E2|]. unfold cell2. rewrite H1, !H2. 
  split; intros H; apply Qeq_bool_iff in H; vm_compute in H; discriminate.
Qed.
