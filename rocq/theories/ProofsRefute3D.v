(** Concrete 3D runs: one whose result depends on the interleaving of the
    threads, one whose result depends on uninitialised memory. *)
From Coq Require Import ZArith QArith List Bool Lia FMapPositive.
From Verif Require Import ModelIndex ModelRun Lang ProofsLang Stencil ProofsStencil FormCommon Form3D Solver1D Solver3D
  ProofsGeom3D ProofsFill3D Arith Exec ProofsExec SpecThreads SpecFields3 ProofsSched ProofsSchedH ProofsThread3D ProofsCyclic3D.
Import ListNotations.
Local Open Scope Z_scope.

Notation AQ3 := (arithQ 0 0).
(** [fct] (with the default [pfc]) on 3 x 4 x 3 cells, two iterations *)
Definition race_run3 : run3 :=
  {| s3_o := mkfl true false false true false false false false false false false false false;
     s3_sp := exact; s3_tp := noextrp; s3_cfg := {| n_eqns := 1; delayed_step := 0%N |};
     s3_nit := 2; s3_freq := 0; s3_scale := fun e => 0;
     s3_lo := fun _ => 0; s3_hi := fun d => match d with DY => 3 | _ => 2 end |}.
Definition race_mem3 : loc -> Q := fun l =>
  match fst l with
  | (O, Psi false) => match snd l with (0, 1, _) => 3%Q | (1, 0, _) => 2%Q | (2, 2, _) => 2%Q| _ => 1%Q end
  | (O, GC DX) => 1 # 4
  | (O, GC DY) => 1 # 2
  | _ => 0%Q
  end.
Lemma race_run3_ok : run3_ok race_run3.
Proof. constructor; [reflexivity|cbn; lia|]. intros []; cbn; lia. Qed.

(** thread 0 first in every phase *)
Definition fair3 (k : nat) : list act := [Run 0 1000; Run 1 1000].
(** in the phase of the limiters thread 1 reads the operands of
    beta_up(., first - 1, .) before thread 0 has written flux[1](., first - 2, .),
    and writes it after thread 0 has written the same element *)
Definition unfair3 (k : nat) : list act :=
  if Nat.eqb k 37 then [Run 1 381; Hold 1; Run 0 1000; Run 1 1000] else fair3 k.

Definition sched_at (m : loc -> Q) (r : run3) (n : nat) (sch : nat -> list act) (l : loc) : option Q :=
  option_map (fun M => Qred (lookH AQ3 m M l)) (run_schedH AQ3 m n 0 sch (phases (program3 r n 1)) (PositiveMap.empty _)).
Lemma sched_gives m r n sch l v : (0 < n)%nat -> sched_at m r n sch l = Some v ->
  exists m', can_end loc_eq_dec AQ3 n (program3 r n 1) m m' /\ Qred (m' l) = v.
Proof.
  unfold sched_at. intros Hn H. destruct (run_schedH _ _ _ _ _ _ _) as [M|] eqn:E; [|discriminate].
  destruct (can_end_schedH AQ3 m n sch _ M Hn E) as (m' & C & L). exists m'. split; auto.
  cbn [option_map] in H. rewrite <- L in H. congruence.
Qed.

Definition here3 : loc := ((O, Psi false), (1, 1, 0)).
Lemma fair_runs3 : sched_at race_mem3 race_run3 2 fair3 here3 = Some (16847 # 8008).
Proof. vm_cast_no_check (eq_refl (Some (16847 # 8008))). Qed.
Lemma unfair_runs3 : match sched_at race_mem3 race_run3 2 unfair3 here3 with Some v => negb (Qeq_bool v (16847 # 8008)) | None => false end = true.
Proof. vm_cast_no_check (eq_refl true). Qed.

Lemma threads_disagree3 : exists m1 m2,
  can_end loc_eq_dec AQ3 2 (program3 race_run3 2 1) race_mem3 m1 /\
  can_end loc_eq_dec AQ3 2 (program3 race_run3 2 1) race_mem3 m2 /\
  ~ (cell3 m1 0 (newest3 race_run3 1) (1, 1, 0)%Z == cell3 m2 0 (newest3 race_run3 1) (1, 1, 0)%Z)%Q.
Proof.
  destruct (sched_gives _ _ 2 fair3 here3 _ ltac:(lia) fair_runs3) as (m1 & C1 & V1). pose proof unfair_runs3 as U.
  destruct (sched_at race_mem3 race_run3 2 unfair3 here3) as [v|] eqn:E; [|discriminate].
  destruct (sched_gives _ _ 2 unfair3 here3 v ltac:(lia) E) as (m2 & C2 & V2).
  exists m1, m2. split; [exact C1|]. split; [exact C2|]. intros H.
  change (newest3 race_run3 1) with false in H. apply Qred_complete in H. unfold cell3 in H.
  change ((0%nat, Psi false), (1, 1, 0)) with here3 in H. rewrite V1, V2 in H. rewrite <- H in U. clear - U. discriminate U.
Qed.

(** [div_2nd] without [fct], three iterations *)
Definition stale_run3 : run3 :=
  {| s3_o := mkfl false false false true false false false false false true false false false;
     s3_sp := exact; s3_tp := noextrp; s3_cfg := {| n_eqns := 1; delayed_step := 0%N |};
     s3_nit := 3; s3_freq := 0; s3_scale := fun e => 0; s3_lo := fun _ => 0; s3_hi := fun d => 2 |}.
(** [s]: content of the temporary arrays before the run *)
Definition stale_mem3 (s : Q) : loc -> Q := fun l =>
  match fst l with
  | (O, Psi false) => match snd l with (1, 1, _) => 3%Q | _ => 1%Q end
  | (O, GC DX) => 1 # 2
  | (O, GC DY) => 1 # 4
  | (O, Cor _ _) => s
  | _ => 0%Q
  end.
Lemma stale_run3_ok : run3_ok stale_run3.
Proof. constructor; [reflexivity|cbn; lia|]. intros []; cbn; lia. Qed.
Lemma stale_same3 s s' : @same_data3 Q (s3_lo stale_run3) (s3_hi stale_run3) 1 false (stale_mem3 s) (stale_mem3 s').
Proof. split; [|split]; try reflexivity; intros; discriminate. Qed.
Lemma stale_cyclic3 s : @cyclic_data3 Q (s3_lo stale_run3) (s3_hi stale_run3) 1 false (stale_mem3 s).
Proof.
  split; [|split; [|discriminate]].
  - intros e d [[x y] z] He _ Hd. assert (e = 0%nat) by lia. subst.
    cbn [s3_lo s3_hi stale_run3] in *; unfold cell3, stale_mem3; cbn [fst snd].
    destruct d; cbn [comp fst snd put] in *; subst; try reflexivity; destruct x as [|[p|p|]|p]; reflexivity.
  - intros c d i _ _. unfold face3, stale_mem3; cbn [fst snd]. reflexivity.
Qed.

Definition one3 (k : nat) : list act := [Run 0 2000].
Definition stale_at (s : Q) (i : idx) := sched_at (stale_mem3 s) stale_run3 1 one3 ((O, Psi (newest3 stale_run3 1)), i).
Definition differb (a b : option Q) : bool := match a, b with Some x, Some y => negb (Qeq_bool x y) | _, _ => false end.
Lemma stale_values : let a := stale_at 0 (0, 0, 0) in let b := stale_at 1 (0, 0, 0) in let c := stale_at 1 (2, 0, 0) in
  differb a b && differb c b = true.
Proof. vm_cast_no_check (eq_refl true). Qed.

Lemma stale_gives s : exists m', can_end loc_eq_dec AQ3 1 (program3 stale_run3 1 1) (stale_mem3 s) m' /\
  forall i v, stale_at s i = Some v -> Qred (cell3 m' 0 (newest3 stale_run3 1) i) = v.
Proof.
  unfold stale_at, sched_at. destruct (run_schedH AQ3 (stale_mem3 s) 1 0 one3 (phases (program3 stale_run3 1 1)) (PositiveMap.empty _)) as [M|] eqn:E.
  - destruct (can_end_schedH AQ3 (stale_mem3 s) 1 one3 _ M ltac:(lia) E) as (m' & C & L). exists m'. split; auto.
    intros i v H. apply (f_equal (fun x => match x with Some y => y | None => v end)) in H. cbn [option_map] in H. rewrite <- L in H. exact H.
  - destruct (finish3 stale_run3 1 1 AQ3 (stale_mem3 s) stale_run3_ok ltac:(lia) ltac:(cbn; lia) (or_introl eq_refl)) as [(m' & C) _].
    exists m'. split; auto. intros i v H. discriminate.
Qed.

Lemma stale_differs3 : exists m1' m2',
  can_end loc_eq_dec AQ3 1 (program3 stale_run3 1 1) (stale_mem3 0) m1' /\
  can_end loc_eq_dec AQ3 1 (program3 stale_run3 1 1) (stale_mem3 1) m2' /\
  ~ (cell3 m1' 0 (newest3 stale_run3 1) (0, 0, 0)%Z == cell3 m2' 0 (newest3 stale_run3 1) (0, 0, 0)%Z)%Q /\
  ~ (cell3 m2' 0 (newest3 stale_run3 1) (2, 0, 0)%Z == cell3 m2' 0 (newest3 stale_run3 1) (0, 0, 0)%Z)%Q.
Proof.
  pose proof stale_values as H. cbv zeta in H. apply andb_true_iff in H. destruct H as [H1 H2].
  destruct (stale_gives 0) as (m1 & C1 & V1). destruct (stale_gives 1) as (m2 & C2 & V2).
  exists m1, m2. split; [exact C1|]. split; [exact C2|].
  pose proof (V1 (0, 0, 0)) as A. pose proof (V2 (0, 0, 0)) as B. pose proof (V2 (2, 0, 0)) as C. clear V1 V2 C1 C2.
  destruct (stale_at 0 (0, 0, 0)) as [a|]; [|clear - H1; discriminate H1].
  destruct (stale_at 1 (0, 0, 0)) as [b|]; [|clear - H1; discriminate H1].
  destruct (stale_at 1 (2, 0, 0)) as [c|]; [|clear - H2; discriminate H2].
  specialize (A _ eq_refl). specialize (B _ eq_refl). specialize (C _ eq_refl). cbn [differb] in H1, H2.
  split; intros E; apply Qred_complete in E; [rewrite A, B in E; subst b; apply negb_true_iff in H1|rewrite C, B in E; subst b; apply negb_true_iff in H2].
  - rewrite (proj2 (Qeq_bool_iff a _)) in H1; [discriminate|]. rewrite E. reflexivity.
  - rewrite (proj2 (Qeq_bool_iff c _)) in H2; [discriminate|]. rewrite E. reflexivity.
Qed.

(** [fct] with [iga]: scratch memory depends on the interleaving *)
Definition iga_run3 : run3 :=
  {| s3_o := mkfl true false false true false true false false false false false false false;
     s3_sp := exact; s3_tp := noextrp; s3_cfg := {| n_eqns := 1; delayed_step := 0%N |};
     s3_nit := 2; s3_freq := 0; s3_scale := fun e => 0;
     s3_lo := fun _ => 0; s3_hi := fun d => match d with DY => 5 | _ => 2 end |}.
Lemma iga_run3_ok : run3_ok iga_run3.
Proof. constructor; [reflexivity|cbn; lia|]. intros []; cbn; lia. Qed.
Definition back3 (k : nat) : list act := [Run 1 1000; Run 0 1000].
Definition corner3 : loc := ((O, Cor true DX), (0, -2, -1)).
Lemma fair_corner3 : sched_at race_mem3 iga_run3 2 fair3 corner3 = Some 0%Q.
Proof. vm_cast_no_check (eq_refl (Some 0%Q)). Qed.
Lemma back_corner3 : sched_at race_mem3 iga_run3 2 back3 corner3 = Some (1 # 64).
Proof. vm_cast_no_check (eq_refl (Some (1 # 64))). Qed.
Lemma scratch_disagrees3 : exists m1 m2,
  can_end loc_eq_dec AQ3 2 (program3 iga_run3 2 1) race_mem3 m1 /\
  can_end loc_eq_dec AQ3 2 (program3 iga_run3 2 1) race_mem3 m2 /\
  ~ (m1 corner3 == m2 corner3)%Q.
Proof.
  destruct (sched_gives _ _ 2 fair3 corner3 _ ltac:(lia) fair_corner3) as (m1 & C1 & V1).
  destruct (sched_gives _ _ 2 back3 corner3 _ ltac:(lia) back_corner3) as (m2 & C2 & V2).
  exists m1, m2. split; [exact C1|]. split; [exact C2|]. intros H. apply Qred_complete in H. rewrite V1, V2 in H.
  clear - H. discriminate H.
Qed.

Lemma visible_clean r l : visible l -> ~ ProofsFill3D.dirt r l.
Proof. intros V (_ & D & _). unfold visible in V. destruct (snd (fst l)); cbn in *; try discriminate; contradiction. Qed.
Lemma threads_visible3 r n1 n2 nt ar (m m1 m2 : loc -> car ar) : run3_ok r ->
  (0 < n1)%nat -> Z.of_nat n1 <= s3_hi r DY - s3_lo r DY + 1 -> settled3 r n1 ->
  (0 < n2)%nat -> Z.of_nat n2 <= s3_hi r DY - s3_lo r DY + 1 -> settled3 r n2 ->
  can_end loc_eq_dec ar n1 (program3 r n1 nt) m m1 ->
  can_end loc_eq_dec ar n2 (program3 r n2 nt) m m2 ->
  forall l, visible l -> m1 l = m2 l.
Proof. intros RK P1 S1 T1 P2 S2 T2 E1 E2 l V. exact (threads_agree3 r n1 n2 nt ar m m1 m2 RK P1 S1 T1 P2 S2 T2 E1 E2 l (visible_clean r l V)). Qed.
