(** Proofs on viscous forces. *)
From Coq Require Import ZArith Reals Lra Lia.
From Verif Require Import Stencil SpecReal SpecStress ModelStress ProofsCons1D.
Local Open Scope R_scope.

(** ** Sums over a period *)

Lemma sumn_ext n : forall lo f g, (forall i, (lo <= i < lo + Z.of_nat n)%Z -> f i = g i) -> sumn n lo f = sumn n lo g.
Proof.
  induction n as [|n IH]; intros lo f g H; [reflexivity|]. cbn [sumn].
  rewrite (H lo) by lia. f_equal. apply IH. intros i Hi. apply H. lia.
Qed.
Lemma sumn_lin n a b : forall lo f g, sumn n lo (fun i => a * f i + b * g i) = a * sumn n lo f + b * sumn n lo g.
Proof. induction n as [|n IH]; intros lo f g; cbn [sumn]; [ring|]. rewrite IH. ring. Qed.
Lemma sumn_shift1 n : forall lo f, sumn n lo (fun i => f (i + 1)%Z) = sumn n lo f + f (lo + Z.of_nat n)%Z - f lo.
Proof.
  induction n as [|n IH]; intros lo f; cbn [sumn].
  - replace (lo + Z.of_nat 0)%Z with lo by lia. ring.
  - rewrite IH. replace (lo + 1 + Z.of_nat n)%Z with (lo + Z.of_nat (S n))%Z by lia. ring.
Qed.
Lemma total_move1 n f : (0 <= n)%Z -> (forall i, f (i + n)%Z = f i) -> total 0 n (fun i => f (i + 1)%Z) = total 0 n f.
Proof.
  intros Hn Hp. unfold total. rewrite sumn_shift1. rewrite Z2Nat.id by lia.
  replace (0 + (n - 0))%Z with (0 + n)%Z by lia. rewrite Hp. ring.
Qed.
Lemma sumn_le0 f : (forall i, f i <= 0) -> forall k lo, sumn k lo f <= 0.
Proof.
  intros H k. induction k as [|k IH]; intros lo; cbn [sumn]; [lra|]. specialize (H lo). specialize (IH (lo + 1)%Z). lra.
Qed.
Lemma total_le0 n f : (forall i, f i <= 0) -> total 0 n f <= 0.
Proof. intros H. apply sumn_le0. exact H. Qed.

Lemma step_step d e a b i : step d a (step e b i) = step e b (step d a i).
Proof. destruct i as [[x y] z], d as [|[|d]], e as [|[|e]]; cbn; f_equal; try (f_equal; lia); try lia. Qed.
Lemma step_add d a b i : step d a (step d b i) = step d (a + b) i.
Proof. destruct i as [[x y] z], d as [|[|d]]; cbn; f_equal; try (f_equal; lia); try lia. Qed.
Lemma step_0 d i : step d 0 i = i.
Proof. destruct i as [[x y] z], d as [|[|d]]; cbn; f_equal; try (f_equal; lia); try lia. Qed.

Section Cells.
  Variable n : nat -> Z.
  Hypothesis Hn : forall d, (0 < n d)%Z.
  Notation per := (periodic n).

  Lemma cells_ext f g : (forall i, f i = g i) -> cells n f = cells n g.
  Proof. intros H. unfold cells. apply total_ext; intros x _. apply total_ext; intros y _. apply total_ext; intros z _. apply H. Qed.
  Lemma total_lin_s a b h f g : total 0 h (fun i => a * f i + b * g i) = a * total 0 h f + b * total 0 h g.
  Proof. apply sumn_lin. Qed.
  Lemma cells_lin a b f g : cells n (fun i => a * f i + b * g i) = a * cells n f + b * cells n g.
  Proof.
    unfold cells. rewrite <- total_lin_s. apply total_ext; intros x _. rewrite <- total_lin_s.
    apply total_ext; intros y _. rewrite <- total_lin_s. reflexivity.
  Qed.
  Lemma cells_add f g : cells n (fun i => f i + g i) = cells n f + cells n g.
  Proof. transitivity (1 * cells n f + 1 * cells n g); [|ring]. rewrite <- cells_lin. apply cells_ext; intros; ring. Qed.
  Lemma cells_sub f g : cells n (fun i => f i - g i) = cells n f - cells n g.
  Proof. transitivity (1 * cells n f + -1 * cells n g); [|ring]. rewrite <- cells_lin. apply cells_ext; intros; ring. Qed.
  Lemma cells_scal a f : cells n (fun i => a * f i) = a * cells n f.
  Proof. transitivity (a * cells n f + 0 * cells n f); [|ring]. rewrite <- cells_lin. apply cells_ext; intros; ring. Qed.
  Lemma cells_le0 f : (forall i, f i <= 0) -> cells n f <= 0.
  Proof. intros H. unfold cells. apply total_le0; intros x. apply total_le0; intros y. apply total_le0; intros z. apply H. Qed.

  Lemma cells_step1 d f : per f -> cells n (fun i => f (step d 1 i)) = cells n f.
  Proof.
    intros P. assert (N : forall d, (0 <= n d)%Z) by (intro e; specialize (Hn e); lia).
    unfold cells. destruct d as [|[|d]]; cbn [step fst snd].
    - transitivity (total 0 (n 0%nat) (fun x => (fun x' => total 0 (n 1%nat) (fun y => total 0 (n 2%nat) (fun z => f (x', y, z)))) (x + 1)%Z)); [reflexivity|].
      apply (total_move1 _ (fun x' => total 0 (n 1%nat) (fun y => total 0 (n 2%nat) (fun z => f (x', y, z))))); [apply N|].
      intros x. apply total_ext; intros y _. apply total_ext; intros z _. apply (P 0%nat (x, y, z)); lia.
    - apply total_ext; intros x _.
      apply (total_move1 _ (fun y => total 0 (n 2%nat) (fun z => f (x, y, z)))); [apply N|].
      intros y. apply total_ext; intros z _. apply (P 1%nat (x, y, z)); lia.
    - apply total_ext; intros x _. apply total_ext; intros y _.
      apply (total_move1 _ (fun z => f (x, y, z))); [apply N|]. intros z. apply (P 2%nat (x, y, z)); lia.
  Qed.

  Lemma per_step d k f : per f -> per (fun i => f (step d k i)).
  Proof. intros P e i He. rewrite step_step. apply P; exact He. Qed.
  Lemma per_mul f g : per f -> per g -> per (fun i => f i * g i).
  Proof. intros P Q d i Hd. rewrite P, Q by exact Hd. reflexivity. Qed.

  (** moving the step from one factor to the other *)
  Lemma cells_adj d u t : per u -> per t -> cells n (fun i => u i * t (step d 1 i)) = cells n (fun i => u (step d (-1) i) * t i).
  Proof.
    intros U T. rewrite <- (cells_step1 d (fun i => u (step d (-1) i) * t i)) by (apply per_mul; [apply per_step|]; assumption).
    apply cells_ext. intros i. rewrite step_add. replace (-1 + 1)%Z with 0%Z by lia. rewrite step_0. reflexivity.
  Qed.
  Lemma cells_adjm d u t : per u -> per t -> cells n (fun i => u i * t (step d (-1) i)) = cells n (fun i => u (step d 1 i) * t i).
  Proof.
    intros U T. rewrite <- (cells_step1 d (fun i => u i * t (step d (-1) i))) by (apply per_mul; [|apply per_step]; assumption).
    apply cells_ext. intros i. rewrite step_add. replace (-1 + 1)%Z with 0%Z by lia. rewrite step_0. reflexivity.
  Qed.
  Lemma cells_stepm d f : per f -> cells n (fun i => f (step d (-1) i)) = cells n f.
  Proof.
    intros P. rewrite <- (cells_step1 d (fun i => f (step d (-1) i))) by (apply per_step; assumption).
    apply cells_ext. intros i. rewrite step_add. replace (-1 + 1)%Z with 0%Z by lia. rewrite step_0. reflexivity.
  Qed.

  (** summation by parts: centred, one-sided, one-sided along [e] averaged along [d] *)
  Lemma parts_c d u t : per u -> per t ->
    cells n (fun i => u i * (t (step d 1 i) - t (step d (-1) i))) = - cells n (fun i => (u (step d 1 i) - u (step d (-1) i)) * t i).
  Proof.
    intros U T.
    transitivity (cells n (fun i => u i * t (step d 1 i)) - cells n (fun i => u i * t (step d (-1) i))).
    { rewrite <- cells_sub. apply cells_ext; intros; ring. }
    rewrite cells_adj, cells_adjm by assumption.
    transitivity (- (cells n (fun i => u (step d 1 i) * t i) - cells n (fun i => u (step d (-1) i) * t i))); [ring|].
    rewrite <- cells_sub. f_equal. apply cells_ext; intros; ring.
  Qed.
  Lemma parts_o d u t : per u -> per t ->
    cells n (fun i => u i * (t i - t (step d (-1) i))) = - cells n (fun i => (u (step d 1 i) - u i) * t i).
  Proof.
    intros U T.
    transitivity (cells n (fun i => u i * t i) - cells n (fun i => u i * t (step d (-1) i))).
    { rewrite <- cells_sub. apply cells_ext; intros; ring. }
    rewrite cells_adjm by assumption.
    transitivity (- (cells n (fun i => u (step d 1 i) * t i) - cells n (fun i => u i * t i))); [ring|].
    rewrite <- cells_sub. f_equal. apply cells_ext; intros; ring.
  Qed.
  Lemma parts_a d u t : per u -> per t ->
    cells n (fun i => u i * (t i + t (step d (-1) i))) = cells n (fun i => (u (step d 1 i) + u i) * t i).
  Proof.
    intros U T.
    transitivity (cells n (fun i => u i * t i) + cells n (fun i => u i * t (step d (-1) i))).
    { rewrite <- cells_add. apply cells_ext; intros; ring. }
    rewrite cells_adjm by assumption. rewrite <- cells_add. apply cells_ext; intros; ring.
  Qed.
  Lemma per_suma d f : per f -> per (fun i => f i + f (step d (-1) i)).
  Proof. intros P e i He. cbv beta. rewrite step_step, !P by exact He. reflexivity. Qed.
  Lemma per_sump d f : per f -> per (fun i => f (step d 1 i) + f i).
  Proof. intros P e i He. cbv beta. rewrite step_step, !P by exact He. reflexivity. Qed.
  Lemma per_subo d f : per f -> per (fun i => f (step d 1 i) - f i).
  Proof. intros P e i He. cbv beta. rewrite step_step, !P by exact He. reflexivity. Qed.
  Lemma parts_ao d e u t : per u -> per t ->
    cells n (fun i => u i * (t i - t (step e (-1) i) + (t (step d (-1) i) - t (step e (-1) (step d (-1) i))))) =
    - cells n (fun i => (u (step e 1 i) - u i + (u (step e 1 (step d 1 i)) - u (step d 1 i))) * t i).
  Proof.
    intros U T.
    transitivity (cells n (fun i => u i * ((t i + t (step d (-1) i)) - (t (step e (-1) i) + t (step d (-1) (step e (-1) i)))))).
    { apply cells_ext; intros i. rewrite (step_step e d). ring. }
    rewrite (parts_o e u (fun i => t i + t (step d (-1) i))) by (try apply per_suma; assumption).
    f_equal. rewrite (parts_a d (fun i => u (step e 1 i) - u i) t) by (try apply per_subo; assumption).
    apply cells_ext; intros i. ring.
  Qed.
End Cells.
