(** Data for the examples beside the properties in PropertiesSym3D.v, and a run in
    which the 3D solver differs from the 2D solver. *)
From Coq Require Import ZArith QArith List Bool Lia Reals Lra.
From Verif Require Import ModelIndex ModelRun Lang Stencil ProofsStencil FormCommon Form2D Form3D Solver1D Solver2D Solver3D Arith Exec
  SpecThreads SpecFields SpecFields2 SpecReal SpecNum2 SpecFields3 SpecNum3 SpecRun2 SpecRun3 SpecSym3 FunN ProofsThread2D ProofsOne2D ProofsValid2D ProofsCyclic2D
  ProofsStale2D ProofsExamplesSym2D ProofsGeom3D ProofsThread3D ProofsValid3D ProofsCyclic3D ProofsFun3D ProofsExamples3D ProofsWitness3D.
Import ListNotations.
Local Open Scope R_scope.

Lemma end3_exists ar r nt m : run3_ok r -> no_stale3 (s3_o r) (s3_nit r) = true ->
  cyclic_data3 (s3_lo r) (s3_hi r) (n_eqns (s3_cfg r)) (nug (s3_o r)) m -> exists m', cyclic_end3 ar r 1 nt m m'.
Proof.
  intros H1 H2 H3.
  assert (R1 : (Z.of_nat 1 <= s3_hi r DY - s3_lo r DY + 1)%Z) by (pose proof (lo_hi3 r H1 DY); lia).
  destruct (finish3 r 1 nt ar m H1 ltac:(lia) R1 (or_introl eq_refl)) as ((m' & E) & _).
  exists m'. constructor; auto. left; reflexivity.
Qed.

Section Mirror.
  Variables (lo hi : dim -> Z) (d : dim).
  Hypothesis LH : forall c, (lo c < hi c)%Z.
  Notation op := (opposite3 d (lo d + hi d)).
  Notation of := (opposite3 d (lo d + hi d - 1)).
  Lemma comp_op s i c : comp c (opposite3 d s i) = if dim_eqb c d then (s - comp c i)%Z else comp c i.
  Proof. destruct i as [[x y] z]. destruct d, c; reflexivity. Qed.
  Lemma comp_put c k i c' : comp c' (put c k i) = if dim_eqb c' c then k else comp c' i.
  Proof. destruct i as [[x y] z]. destruct c, c'; reflexivity. Qed.
  Lemma in_op i : inside lo hi i -> inside lo hi (op i).
  Proof. intros H c. rewrite comp_op. specialize (H c). destruct (dim_eqb c d) eqn:E; auto. apply dim_eqb_eq in E. subst. lia. Qed.
  Lemma in_put c i : inside lo hi i -> inside lo hi (put c (lo c) i).
  Proof. intros H c'. rewrite comp_put. pose proof (LH c'). specialize (H c'). destruct (dim_eqb c' c) eqn:E; auto. apply dim_eqb_eq in E. subst. lia. Qed.
  Lemma op_put_same i : comp d i = hi d -> put d (lo d) (op (put d (lo d) i)) = op i.
  Proof. intros H. apply idx_ext. intros c. rewrite comp_put, !comp_op, comp_put. destruct (dim_eqb c d) eqn:E; auto. apply dim_eqb_eq in E. subst. lia. Qed.
  Lemma op_put_other s c i : c <> d -> opposite3 d s (put c (lo c) i) = put c (lo c) (opposite3 d s i).
  Proof.
    intros H. apply idx_ext. intros c'. rewrite comp_put, !comp_op, comp_put.
    destruct (dim_eqb c' d) eqn:E, (dim_eqb c' c) eqn:E'; auto. apply dim_eqb_eq in E. apply dim_eqb_eq in E'. congruence.
  Qed.
  Lemma eqb_no c : c <> d -> dim_eqb c d = false. Proof. intros H. destruct c, d; auto; congruence. Qed.
  Lemma eqb_yes : dim_eqb d d = true. Proof. destruct d; auto. Qed.
  Lemma dec c : c = d \/ c <> d. Proof. destruct c, d; auto; right; discriminate. Qed.
  (** a field periodic over the grid stays so when mirrored *)
  Lemma cyc_op (f : idx -> R) (P : idx -> Prop) :
    (forall i, P i -> inside lo hi i) -> (forall c i, P i -> P (put c (lo c) i)) -> (forall i, P i -> P (op i)) ->
    (forall c i, P i -> comp c i = hi c -> f i = f (put c (lo c) i)) ->
    forall c i, P i -> comp c i = hi c -> f (op i) = f (op (put c (lo c) i)).
  Proof.
    intros HI HP HO Hf c i Hi Hc. destruct (dec c) as [->|N].
    - rewrite (Hf d (op (put d (lo d) i))); auto.
      + rewrite op_put_same by auto. reflexivity.
      + rewrite comp_op, comp_put, eqb_yes. lia.
    - rewrite (op_put_other _ c i N). apply Hf; auto. rewrite comp_op, (eqb_no c N). exact Hc.
  Qed.
  Lemma mirrored_cyclic ne nug (m m' : loc -> R) : mirrored3 Ropp lo hi ne nug d m m' -> cyclic_data3 lo hi ne nug m -> cyclic_data3 lo hi ne nug m'.
  Proof.
    intros (M1 & M2 & M3 & M4) (D1 & D2 & D3). split; [|split].
    - intros e c i He Hi Hc. rewrite !M1 by auto using in_put.
      apply (cyc_op (cell3 m e false) (inside lo hi)); auto using in_put, in_op.
    - intros c c' i Hi Hc. destruct (dec c) as [->|N].
      + assert (N : c' <> d) by (intros ->; destruct Hi as [_ Hi]; lia).
        rewrite !M2; auto.
        2:{ destruct Hi as [A B]. split; [apply in_put; auto|]. rewrite comp_put. destruct (dim_eqb d c') eqn:E; auto. apply dim_eqb_eq in E. congruence. }
        rewrite (op_put_other _ c' i N). f_equal. apply D2.
        * destruct Hi as [A B]. split; [|rewrite comp_op, eqb_yes; specialize (A d); lia].
          intros x. rewrite comp_op. destruct (dim_eqb x d) eqn:E; [|apply A]. apply dim_eqb_eq in E. subst. specialize (A d). lia.
        * rewrite comp_op, (eqb_no c' N). exact Hc.
      + assert (I2 : forall x i, inner lo hi c i -> inner lo hi c (put x (lo x) i)).
        { intros x j [A B]. split; [apply in_put; auto|]. rewrite comp_put. destruct (dim_eqb c x) eqn:E; auto. apply dim_eqb_eq in E. subst. apply LH. }
        rewrite !M3 by auto.
        apply (cyc_op (face3 m c) (inner lo hi c)); auto.
        * intros x [A _]. exact A.
        * intros x [A B]. split; [apply in_op; auto|]. rewrite comp_op, (eqb_no c N). exact B.
    - intros Ng c i Hi Hc. rewrite !(M4 Ng) by auto using in_put. apply (cyc_op (gfac3 m) (inside lo hi)); auto using in_put, in_op.
  Qed.
End Mirror.

Definition ex3_run0 (o : fl) (nit : nat) : run3 := with_scale3 (ex3_run o nit) (fun _ => 0%Z).
Definition mir3_mem (d : dim) (m : loc -> R) : loc -> R := fun l =>
  match l with
  | (k, GC c, i) => if dim_eqb c d then - m (k, GC c, opposite3 d (h322 d - 1) i) else m (k, GC c, opposite3 d (h322 d) i)
  | (k, a, i) => m (k, a, opposite3 d (h322 d) i)
  end.
(** axis [d] of the permuted data is axis [dp d] *)
Definition perm3_mem (m : loc -> R) : loc -> R := fun l =>
  match l with
  | (k, GC c, i) => m (k, GC (dp c), permute3 dm i)
  | (k, a, i) => m (k, a, permute3 dm i)
  end.
Definition mul3_mem (lam : R) (m : loc -> R) : loc -> R := fun l => match snd (fst l) with Psi _ => lam * m l | _ => m l end.

Lemma ex3_mirrored d g m : mirrored3 Ropp z322 h322 1 g d m (mir3_mem d m).
Proof.
  split; [reflexivity|]. split; [|split; [|reflexivity]].
  - intros i _. unfold face3, mir3_mem. destruct d; reflexivity.
  - intros c i N _. unfold face3, mir3_mem. destruct (dim_eqb c d) eqn:E; [apply dim_eqb_eq in E; congruence|reflexivity].
Qed.
Lemma dp_inj d d' : dp d = dp d' -> d = d'. Proof. destruct d, d'; cbn; congruence. Qed.
Lemma dm_dp_id i : permute3 dm (permute3 dp i) = i. Proof. destruct i as [[x y] z]. reflexivity. Qed.
Lemma ex3_permuted g m : permuted3 z322 h322 1 g dp m (perm3_mem m).
Proof. split; [|split]; intros; unfold cell3, face3, gfac3, perm3_mem; rewrite dm_dp_id; reflexivity. Qed.
Lemma perm_cyclic g m : cyclic_data3 z322 h322 1 g m -> cyclic_data3 (fun d => 0%Z) (fun d => h322 (dp d)) 1 g (perm3_mem m).
Proof.
  assert (I : forall i, inside (fun _ => 0%Z) (fun d => h322 (dp d)) i -> inside z322 h322 (permute3 dm i)).
  { intros [[x y] z] H []; [apply (H DZ)|apply (H DX)|apply (H DY)]. }
  assert (K : forall c i, comp (dp c) (permute3 dm i) = comp c i) by (intros [] [[x y] z]; reflexivity).
  assert (P : forall c i, permute3 dm (put c 0 i) = put (dp c) 0 (permute3 dm i)) by (intros [] [[x y] z]; reflexivity).
  intros (D1 & D2 & D3). split; [|split].
  - intros e c i He Hi Hc. unfold cell3, perm3_mem. rewrite P. apply (D1 e (dp c)); auto. rewrite K. exact Hc.
  - intros c c' i Hi Hc. unfold face3, perm3_mem. rewrite P. apply (D2 (dp c) (dp c')).
    + destruct Hi as [A B]. split; auto. rewrite K. exact B.
    + rewrite K. exact Hc.
  - intros Ng c i Hi Hc. unfold gfac3, perm3_mem. rewrite P. apply (D3 Ng (dp c)); auto. rewrite K. exact Hc.
Qed.
Lemma ex3_mul_flow o nit lam m : same_flow3 (ex3_run o nit) m (mul3_mem lam m).
Proof. split; reflexivity. Qed.
Lemma ex3_mul_cyclic lam m ne g : cyclic_data3 z322 h322 ne g m -> cyclic_data3 z322 h322 ne g (mul3_mem lam m).
Proof.
  intros (H1 & H2 & H3). split; [|split; [exact H2|exact H3]].
  intros e d i He Hi Hc. unfold cell3, mul3_mem. cbn [fst snd]. apply (f_equal (Rmult lam)). apply (H1 e d i He Hi Hc).
Qed.

(** 2D data and their extension along the third axis *)
Definition ex_plane : loc -> R := fun l =>
  match l with
  | (O, Psi false, (i, j, _)) => 1 + at3 i j 2
  | (O, GC DX, (i, j, _)) => 1 / 4 + at3 i j (1 / 8)
  | (O, GC DY, (i, j, _)) => 1 / 8 - at3 i j (1 / 8)
  | (O, Gf, (i, j, _)) => 1 + at3 (i + 1) j (1 / 2)
  | _ => 0
  end.
Lemma ex_uniform3 o nit : uniform_along_z 0 (ex3_run o nit) ex_plane ex_plane.
Proof. split; [|split; [|split; [|split]]]; intros; reflexivity. Qed.
Lemma plane_cyclic3 g : cyclic_data3 z322 h322 1 g ex_plane.
Proof.
  split; [|split].
  - intros e d [[x y] z] He _ H. assert (e = 0%nat) by lia. subst. unfold cell3.
    destruct d; cbn [comp fst snd h322 put] in *; subst; cbn [ex_plane]; per3; reflexivity.
  - intros c d [[x y] z] _ H. unfold face3.
    destruct c, d; cbn [comp fst snd h322 put] in *; subst; cbn [ex_plane]; per3; reflexivity.
  - intros _ d [[x y] z] _ H. unfold gfac3.
    destruct d; cbn [comp fst snd h322 put] in *; subst; cbn [ex_plane]; per3; reflexivity.
Qed.
Lemma plane_cyclic2 g : cyclic_data2 z322 h322 1 g ex_plane.
Proof.
  split; [intros e He; cbn in He; assert (e = 0%nat) by lia; subst|split; [|split]];
    try (intros Ng); try split; intros k Hk; unfold cell2, face2, gfac2; cbn [ex_plane h322]; per3; reflexivity.
Qed.
Lemma slice_ok f i g nit : (0 < nit)%nat -> run2_ok (slice_run3 (ex3_run (ex3_opts f i g) nit)).
Proof. intros H. constructor; [destruct f, i, g; reflexivity|exact H|]. intros d Hd. destruct f, i, g, Hd as [->| ->]; vm_compute; discriminate. Qed.

(** ** 2D and 3D solvers differ with [div_2nd] unless [iga] is set *)
Definition bump2 (i j k : Z) : Q := match i, j with 1%Z, 1%Z => 3%Q | 2%Z, 1%Z => 2%Q | _, _ => 1%Q end.
Definition plane_mem : loc -> Q := mem3 bump2 (flat3 (1 # 2)) (flat3 (1 # 4)) (flat3 0).
Lemma slice2_ok : run2_ok (slice_run3 (two_run3 opt3_div2)).
Proof. constructor; [reflexivity|cbn; lia|]. intros d Hd. destruct Hd as [->| ->]; vm_compute; discriminate. Qed.
Lemma plane_cyc2 : cyclic_data2 (fun _ => 0%Z) h442 1 false plane_mem.
Proof.
  split; [intros e He; cbn in He; assert (e = 0%nat) by lia; subst|split; [|split; [|discriminate]]]; try split; reflexivity.
Qed.
Lemma slice_differs3 : exists m' m2', cyclic_end3 (arithQ 0 0) (two_run3 opt3_div2) 1 1 plane_mem m' /\
  cyclic_end2 (arithQ 0 0) (slice_run3 (two_run3 opt3_div2)) 1 1 plane_mem m2' /\
  ~ (cell3 m' 0 (newest3 (two_run3 opt3_div2) 1) (1, 1, 1)%Z == cell2 m2' 0 (newest2 (slice_run3 (two_run3 opt3_div2)) 1) 1 1)%Q.
Proof.
  destruct (two3_end opt3_div2 plane_mem eq_refl ltac:(vm_compute; discriminate) eq_refl (mem3_cyclic _ _ _ _)) as (m' & E & H).
  destruct (can_end_exec2 (slice_run3 (two_run3 opt3_div2)) 1 (arithQ 0 0) plane_mem slice2_ok) as (m2' & E2 & H2).
  exists m', m2'. split; [exact E|]. split.
  - constructor; auto; try reflexivity; [exact slice2_ok|cbn; lia|left; reflexivity|exact plane_cyc2].
  - rewrite (H (1, 1, 1)%Z) by (apply in442; lia). unfold cell2. rewrite H2. intros Q. apply Qeq_bool_iff in Q. vm_compute in Q. discriminate.
Qed.
Lemma plane_uniform : uniform_along_z 0%Q (two_run3 opt3_div2) plane_mem plane_mem.
Proof.
  split; [|split; [|split; [|split; [|discriminate]]]]; intros; try reflexivity. destruct i as [[x y] z]. reflexivity.
Qed.
