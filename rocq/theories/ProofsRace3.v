(** Data races: with the flux limiter in 2D, and in 3D. *)
From Coq Require Import ZArith List Bool Lia ZifyBool.
From Verif Require Import SpecIndex ModelIndex ProofsIndex ModelRun Lang ProofsLang Stencil ProofsStencil
  FormCommon Form2D Form3D Solver1D Solver2D Solver3D Macro ProofsMacro SpecThreads
  ProofsThread1D ProofsThread2D ProofsGeom3D ProofsRace.
Import ListNotations.
Local Open Scope Z_scope.

(** ** Statements of one phase *)
Definition infix {A} (l p : list A) : Prop := exists a b, p = a ++ l ++ b.
Lemma infix_l {A} (l p q : list A) : infix l p -> infix l (p ++ q).
Proof. intros (a & b & ->). exists a, (b ++ q). rewrite <- !app_assoc. reflexivity. Qed.
Lemma infix_r {A} (l p q : list A) : infix l q -> infix l (p ++ q).
Proof. intros (a & b & ->). exists (p ++ a), b. rewrite <- !app_assoc. reflexivity. Qed.
Lemma infix_map {A B} (f : A -> B) l p : infix l p -> infix (map f l) (map f p).
Proof. intros (a & b & ->). exists (map f a), (map f b). rewrite !map_app. reflexivity. Qed.
Lemma infix_flat {A B} (f : A -> list B) x p l : In x p -> infix l (f x) -> infix l (flat_map f p).
Proof.
  intros H (a & b & E). apply in_split in H. destruct H as (p1 & p2 & ->). exists (flat_map f p1 ++ a), (b ++ flat_map f p2).
  rewrite flat_map_app. cbn [flat_map]. rewrite E, <- !app_assoc. reflexivity.
Qed.

Lemma phase_of l : forall a b, exists ph, In ph (dphases (a ++ map DDo l ++ b)) /\ incl l ph.
Proof.
  intros a b. assert (H : exists ph rest, dphases (map DDo l ++ b) = (l ++ ph) :: rest).
  { induction l as [|s l IH]; cbn [map app].
    - destruct (dphases b) as [|ph rest] eqn:E; [|exists ph, rest; auto].
      exfalso. destruct b as [|[s|] b]; cbn in E; try discriminate. destruct (dphases b); discriminate.
    - destruct IH as (ph & rest & E). cbn [dphases]. rewrite E. exists ph, rest. reflexivity. }
  induction a as [|i a IH]; cbn [app].
  - destruct H as (ph & rest & ->). exists (l ++ ph). split; [left; auto|apply incl_appl, incl_refl].
  - destruct IH as (ph & H1 & H2). destruct i as [s|]; cbn [dphases].
    + destruct (dphases (a ++ map DDo l ++ b)) as [|p0 rest]; [destruct H1|]. destruct H1 as [->|H1].
      * exists (s :: ph). split; [left; auto|apply incl_tl; auto].
      * exists ph. split; [right; auto|auto].
    + exists ph. split; [right; auto|auto].
Qed.

Lemma infix_race g p l : infix (map DDo l) p ->
  (exists s1 s2 t t' x, In s1 l /\ In s2 l /\ (t < g_n g)%nat /\ (t' < g_n g)%nat /\ t <> t' /\
    In x (s_el (stmt_of g s1) t) /\
    (In x (s_el (stmt_of g s2) t') \/ exists x2, In x2 (s_el (stmt_of g s2) t') /\ In x (leaves (s_rhs (stmt_of g s2) x2)))) ->
  exists ph, In ph (phases (prog_of g p)) /\ race (g_n g) ph.
Proof.
  intros (a & b & ->) (s1 & s2 & t & t' & x & H1 & H2 & Ht & Ht' & NE & W & C).
  destruct (phase_of l a b) as (ph & P1 & P2). exists (map (stmt_of g) ph). split.
  - rewrite phases_prog_of. apply in_map. exact P1.
  - apply P2 in H1. apply P2 in H2. apply In_nth_error in H1. apply In_nth_error in H2. destruct H1 as (k & K), H2 as (j & J).
    exists k, j, (stmt_of g s1), (stmt_of g s2), t, t', x. repeat split; auto using map_nth_error.
Qed.

Ltac in_el_tac :=
  apply in_el; split; [reflexivity|]; intros [| |]; unfold in_rng, drng, cut_of, thr, c_lo, c_hi in *; cbn -[slab]; cbn -[slab] in *;
  unfold c_lo, c_hi, first, last in *; cbn -[slab]; repeat match goal with |- context [if ?b then _ else _] => destruct b end; lia.

(** ** Two dimensions with the flux limiter *)
Lemma race2 r n nt : run2_ok r -> fct (s_o r) = true -> (2 <= n)%nat -> Z.of_nat n <= s_hi r DX - s_lo r DX + 1 ->
  (0 < nt)%nat -> eq_order2 r <> [] -> exists ph, In ph (phases (program2 r n nt)) /\ race n ph.
Proof.
  intros RK FC Hn Hs Hnt He. destruct (eq_order2 r) as [|e es] eqn:E; [congruence|].
  set (s := inst e (at2 PsiMin xI1 yJ1 (f_min (s_forms r) (Psi false)))).
  set (g := geom2 r n).
  assert (OK : geom_ok g) by (apply geom2_ok; auto; lia).
  apply (infix_race g (run_prog2 r nt) [s]).
  - unfold run_prog2. apply infix_r, infix_l. destruct nt as [|nt]; [lia|]. cbn [steps_prog2]. rewrite E.
    apply infix_r, infix_l. cbn [eqs_prog2]. apply infix_l. unfold expand_eq2.
    apply (infix_map (inst_i e) [TDo (at2 PsiMin xI1 yJ1 (f_min (s_forms r) (Psi false)))]).
    apply infix_flat with (x := MDo (at2 PsiMin xI1 yJ1 (f_min (s_forms r) (Psi false)))); [|exists [], []; reflexivity].
    unfold body2, fct_init2. rewrite FC. apply in_app_iff. right. apply in_app_iff. right. left. reflexivity.
  - pose proof (cut_nonempty _ (geom_cut _ OK) 0%nat ltac:(cbn; lia)) as E0.
    pose proof (cut_nonempty _ (geom_cut _ OK) 1%nat ltac:(cbn; lia)) as E1.
    pose proof (cut_next _ (geom_cut _ OK) 0%nat ltac:(cbn; lia)) as E2.
    pose proof (geom_grid _ OK DY) as GY.
    exists s, s, 0%nat, 1%nat, (tag e PsiMin, (last (c_sub (g_cut g) 0%nat), s_lo r DY, 0)).
    split; [left; auto|]. split; [left; auto|]. split; [cbn; lia|]. split; [cbn; lia|]. split; [lia|]. split; [|left].
    + in_el_tac.
    + in_el_tac.
Qed.

(** ** Three dimensions *)
(** In the first phase of the exchange of a scalar the first thread copies rows
    of the other end of the grid into its own halo, including the cells beyond
    the right edge of the first dimension, which the owners of those rows are
    filling at the same time. *)
Lemma race3 r n nt : run3_ok r -> (2 <= n)%nat -> Z.of_nat n <= s3_hi r DY - s3_lo r DY + 1 ->
  3 <= s3_hi r DY - s3_lo r DY ->
  (0 < nt)%nat -> eq_order3 r <> [] -> exists ph, In ph (phases (program3 r n nt)) /\ race n ph.
Proof.
  intros RK Hn Hs H3 Hnt He. destruct (eq_order3 r) as [|e es] eqn:E; [congruence|].
  set (g := geom3 r n).
  assert (OK : geom_ok g) by (apply geom3_ok; auto; lia).
  pose proof (halo_pos (s3_o r)) as HP.
  set (h := halo (s3_o r)) in *.
  set (a := cs_left (s3_halo r) (s3_per r) DY (Psi false) (Ext h h) (Ext h h)).
  set (b := cs_rght (s3_halo r) (s3_per r) DY (Psi false) (Ext h h) (Ext h h)).
  set (c := cs_rght (s3_halo r) (s3_per r) DX (Psi false) (Own h h) (Ext h h)).
  apply (infix_race g (run_prog3 r nt) [inst e a; inst e b; inst e c]).
  - unfold run_prog3. apply infix_r, infix_l. destruct nt as [|nt]; [lia|]. cbn [steps_prog3]. rewrite E.
    apply infix_r, infix_l. cbn [eqs_prog3]. apply infix_l. unfold expand_eq3.
    apply (infix_map (inst_i e) [TDo a; TDo b; TDo c]).
    apply infix_flat with (x := MXS (Psi false) h).
    + unfold body3. apply in_app_iff. right. left. reflexivity.
    + eexists [TBar], _. reflexivity.
  - assert (CV : exists t, (t < n)%nat /\ t <> 0%nat /\ in_rng (s3_hi r DY - 1) (c_sub (g_cut g) t)).
    { destruct (slab_cover (s3_lo r DY, s3_hi r DY) (Z.of_nat n) (s3_hi r DY - 1)) as (t & Ht & Hi).
      - lia.
      - unfold in_rng, first, last. cbn [fst snd]. lia.
      - exists (Z.to_nat t). split; [lia|]. cbn [g geom3 g_cut cut1 c_sub]. rewrite Z2Nat.id by lia. split; auto.
        intros E0. assert (t = 0) by lia. subst t. clear - Hi Hn H3.
        unfold in_rng, slab, first, last, dd_max, dd_min, rlen in Hi. cbn [fst snd first last] in Hi.
        unfold first, last in Hi. cbn [fst snd] in Hi. change (0 + 1) with 1 in Hi.
        set (L := s3_hi r DY - s3_lo r DY) in *.
        assert (X : Z.quot (1 * (L + 1)) (Z.of_nat n) <= L - 1).
        { rewrite Z.quot_div_nonneg by lia. apply Z.div_le_upper_bound; [lia|]. assert (2 <= Z.of_nat n) by lia. nia. }
        lia. }
    destruct CV as (t & Ht & Ht0 & Hi).
    pose proof (geom_grid _ OK DX) as GX. pose proof (geom_grid _ OK DZ) as GZ.
    exists (inst e c), (inst e a), t, 0%nat, (tag e (Psi false), (s3_hi r DX + 1, s3_hi r DY - 1, s3_lo r DZ)).
    split; [cbn; auto|]. split; [cbn; auto|]. split; [exact Ht|]. split; [cbn; lia|]. split; [exact Ht0|]. split; [|right].
    + unfold c, s3_halo. fold h. in_el_tac.
    + exists (tag e (Psi false), (s3_hi r DX + 1, s3_lo r DY - 1, s3_lo r DZ)). split.
      * unfold a, s3_halo. fold h. pose proof (slab_first (s3_lo r DY, s3_hi r DY) (Z.of_nat n) ltac:(lia)) as SF. in_el_tac.
      * left. cbn. unfold sh, iadd, s3_per. cbn. f_equal. f_equal; [f_equal|]; lia.
Qed.
