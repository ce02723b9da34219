(** Proofs about .xmf files. *)
From Coq Require Import ZArith List Bool String Lia.
From Verif Require Import ModelXdmf SpecXdmf.
Import ListNotations.
Local Open Scope Z_scope.

Lemma dims_back grid : map (fun n => n - 1) (map (fun n => n + 1) grid) = grid.
Proof. rewrite map_map. induction grid as [|n g IH]; [reflexivity|]. cbn [map]. rewrite IH. f_equal. lia. Qed.
Lemma insert_in a l b : In b (insert a l) -> In b l \/ b = a.
Proof. unfold insert. destruct existsb; [auto|]. intros H. apply in_app_or in H as [H|[H|[]]]; auto. Qed.
Lemma insert_keeps a l b : In b l -> In b (insert a l).
Proof. unfold insert. destruct existsb; [auto|]. intros H. apply in_or_app; auto. Qed.
Lemma insert_name a l : exists b, In b (insert a l) /\ fst b = fst a.
Proof.
  unfold insert. destruct existsb eqn:E.
  - apply existsb_exists in E as (b & I & Eq). apply String.eqb_eq in Eq. exists b; auto.
  - exists a. split; [apply in_or_app; right; left; reflexivity|reflexivity].
Qed.
Section Start.
  Variables (grid : list Z) (vars : list string) (has_G : bool).
  Definition from_vars (l0 : list entry) (vs : list string) : list entry :=
    fold_left (fun l n => insert (make_attribute n (map (fun n => n + 1) grid)) l) vs l0.
  Lemma from_sub vs : forall l0 a, In a (from_vars l0 vs) -> In a l0 \/ exists n, In n vs /\ a = (n, grid).
  Proof.
    induction vs as [|v vs IH]; intros l0 a H; [left; exact H|]. cbn [from_vars fold_left] in H. apply IH in H as [H|(n & I & ->)].
    - apply insert_in in H as [H| ->]; [left; exact H|]. right. exists v. split; [left; reflexivity|]. unfold make_attribute. rewrite dims_back. reflexivity.
    - right. exists n. split; [right; exact I|reflexivity].
  Qed.
  Lemma from_keeps vs : forall l0 a, In a l0 -> In a (from_vars l0 vs).
  Proof. induction vs as [|v vs IH]; intros l0 a H; [exact H|]. cbn [from_vars fold_left]. apply IH. apply insert_keeps. exact H. Qed.
  Lemma from_has vs : forall l0, (forall a, In a l0 -> snd a = grid) -> forall n, In n vs -> In (n, grid) (from_vars l0 vs).
  Proof.
    induction vs as [|v vs IH]; intros l0 H0 n H; [destruct H|]. cbn [from_vars fold_left].
    assert (H1 : forall a, In a (insert (make_attribute v (map (fun n => n + 1) grid)) l0) -> snd a = grid).
    { intros a I. apply insert_in in I as [I| ->]; [apply H0; exact I|]. unfold make_attribute. cbn [snd]. apply dims_back. }
    destruct H as [->|H]; [|apply IH; auto]. apply from_keeps.
    destruct (insert_name (make_attribute n (map (fun n => n + 1) grid)) l0) as (b & I & E). pose proof (H1 b I). destruct b as [bn bd]. cbn [fst snd make_attribute] in *. subst. exact I.
  Qed.
End Start.

(** ** only records *)
Section Rec.
  Variables (grid : list Z) (vars : list string) (has_G : bool).
  Definition doc0 (t : Z) : doc := write_doc (start grid vars has_G) t.
  Definition file0 : list entry := map (fun n => (n, grid)) vars.
  Record inv (w : writer) : Prop :=
    { in_grid : w_grid w = grid; in_vars : w_vars w = vars;
      in_doc : forall t, write_doc w t = doc0 t;
      in_docs : forall p, In p (w_docs w) -> snd p = doc0 (fst p);
      in_files : forall p, In p (w_files w) -> snd p = file0;
      in_same : map fst (w_docs w) = map fst (w_files w) }.
  Lemma inv_start : inv (start grid vars has_G).
  Proof. constructor; try reflexivity; intros p []. Qed.
  Lemma inv_record t w : inv w -> inv (record_all t w).
  Proof.
    intros [A B C D E F]. constructor; cbn [record_all w_grid w_vars w_docs w_files]; auto.
    - intros p [<-|I]; [cbn; apply C|apply D; exact I].
    - intros p [<-|I]; [cbn [snd]; rewrite A, B; reflexivity|apply E; exact I].
    - cbn [map fst]. rewrite F. reflexivity.
  Qed.
  Lemma inv_run es : only_records es -> inv (run grid vars has_G es).
  Proof.
    unfold run. assert (X : forall w, inv w -> only_records es -> inv (fold_left step es w)); [|apply X; apply inv_start].
    induction es as [|e es IH]; intros w I O; [exact I|]. cbn [fold_left]. apply IH; [|intros x H; apply O; right; exact H].
    destruct (O e (or_introl eq_refl)) as (t & ->). apply inv_record. exact I.
  Qed.
  Lemma doc_describes t : describes t grid (doc0 t) file0.
  Proof.
    constructor.
    - intros a f H. cbn [doc0 write_doc d_attrs] in H. apply in_map_iff in H as (b & E & I). injection E as -> <-. split; [reflexivity|].
      cbn [start w_attrs] in I. apply (from_sub grid vars []) in I as [[]|(n & I & ->)]. unfold file0. apply in_map_iff. exists n; auto.
    - intros a H. unfold file0 in H. apply in_map_iff in H as (n & <- & I). cbn [doc0 write_doc d_attrs]. apply in_map_iff. exists (n, grid). split; [reflexivity|].
      cbn [start w_attrs]. apply (from_has grid vars []); [intros a []|exact I].
    - intros a f H. cbn [doc0 write_doc d_attrs] in H. apply in_map_iff in H as (b & E & I). injection E as -> <-.
      cbn [start w_attrs] in I. apply (from_sub grid vars []) in I as [[]|(n & I & ->)]. reflexivity.
    - reflexivity.
    - split; [cbn [doc0 write_doc d_coords start w_coords]; apply map_length|]. intros c H. cbn [doc0 write_doc d_coords start w_coords] in H. apply in_map_iff in H as (x & <- & _). reflexivity.
    - intros a H. cbn [doc0 write_doc d_consts start w_consts] in H. destruct has_G; [|destruct H]. destruct H as [<-|[]]. unfold make_attribute. cbn [snd]. apply dims_back.
  Qed.
  Lemma find_snd {A} (l : list (Z * A)) t x : option_map snd (find (fun p => fst p =? t) l) = Some x -> exists p, In p l /\ fst p = t /\ snd p = x.
  Proof. intros H. destruct (find _ l) as [p|] eqn:E; [|discriminate]. apply find_some in E as [I Q]. apply Z.eqb_eq in Q. cbn in H. injection H as <-. exists p. auto. Qed.
  Lemma find_has {A} (l : list (Z * A)) t : In t (map fst l) -> exists x, option_map snd (find (fun p => fst p =? t) l) = Some x.
  Proof.
    intros H. apply in_map_iff in H as (p & <- & I). destruct (find (fun q => fst q =? fst p) l) as [q|] eqn:E; [exists (snd q); reflexivity|].
    exfalso. apply (find_none _ _ E) in I. apply Z.eqb_neq in I. contradiction.
  Qed.
  Lemma steps_docs es : only_records es -> forall t, In (Record t) es -> In t (map fst (w_docs (run grid vars has_G es))).
  Proof.
    unfold run. assert (X : forall w t, only_records es -> In (Record t) es \/ In t (map fst (w_docs w)) -> In t (map fst (w_docs (fold_left step es w)))); [|intros O t H; apply X; auto].
    induction es as [|e es IH]; intros w t O H; [destruct H as [[]|H]; exact H|]. cbn [fold_left]. apply IH; [intros x I; apply O; right; exact I|].
    destruct (O e (or_introl eq_refl)) as (u & ->). cbn [step record_all w_docs map fst]. destruct H as [[E|H]|H]; [injection E as ->; right; left; reflexivity|left; exact H|right; right; exact H].
  Qed.
  Lemma records_described es : only_records es -> forall t, In (Record t) es ->
    exists d f, find_doc (run grid vars has_G es) t = Some d /\ find_file (run grid vars has_G es) t = Some f /\ describes t grid d f.
  Proof.
    intros O t H. pose proof (inv_run es O) as [A B C D E F]. pose proof (steps_docs es O t H) as I.
    destruct (find_has _ t I) as (d & Fd). rewrite F in I. destruct (find_has _ t I) as (f & Ff). exists d, f. split; [exact Fd|]. split; [exact Ff|].
    apply find_snd in Fd as (p & P1 & P2 & <-). apply find_snd in Ff as (q & Q1 & Q2 & <-). rewrite (D p P1), (E q Q1), P2. apply doc_describes.
  Qed.
  (** the list of steps in the temporal file *)
  Lemma temporal_steps es : only_records es -> map Record (w_steps (run grid vars has_G es)) = es.
  Proof.
    unfold run. assert (X : forall w, only_records es -> map Record (w_steps (fold_left step es w)) = map Record (w_steps w) ++ es); [|intros O; rewrite X by exact O; reflexivity].
    induction es as [|e es IH]; intros w O; [cbn; rewrite app_nil_r; reflexivity|]. cbn [fold_left]. rewrite IH by (intros x I; apply O; right; exact I).
    destruct (O e (or_introl eq_refl)) as (u & ->). cbn [step record_all w_steps]. rewrite map_app. cbn [map]. rewrite <- app_assoc. reflexivity.
  Qed.
End Rec.

(** ** auxiliary output *)
Section Aux.
  Variables (grid : list Z) (vars : list string) (has_G : bool) (n : string) (t u : Z).
  Hypothesis NV : ~ In n vars.
  Hypothesis TU : t <> u.
  Hypothesis NE : grid <> [].
  Notation aux_run := (run grid vars has_G [Record t; Aux n; Record u; Aux n]).
  Lemma not_there : existsb (fun b => String.eqb (fst b) n) (from_vars grid [] vars) = false.
  Proof.
    destruct (existsb _ _) eqn:E; [|reflexivity]. apply existsb_exists in E as (b & I & Q). apply String.eqb_eq in Q.
    apply (from_sub grid vars []) in I as [[]|(m & I & ->)]. cbn in Q. subst. contradiction.
  Qed.
  Lemma wrong_dims g : g <> [] -> map (fun n => n - 1) g <> g.
  Proof. destruct g as [|x g]; [congruence|]. cbn [map]. intros _ H. injection H as H _. lia. Qed.
  Lemma aux_first : exists d f, find_doc aux_run t = Some d /\ find_file aux_run t = Some f /\ In (n, grid) f /\ forall a s, In (a, s) (d_attrs d) -> fst a <> n.
  Proof.
    unfold run, find_doc, find_file. cbn [fold_left step record_all record_aux add_entry w_docs w_files add_dataset find fst snd option_map w_grid w_vars start].
    replace (u =? t) with false by (symmetry; apply Z.eqb_neq; congruence). rewrite Z.eqb_refl. cbn [option_map snd].
    eexists. eexists. split; [reflexivity|]. split; [reflexivity|]. split; [apply in_or_app; right; left; reflexivity|].
    intros a s H. cbn [write_doc d_attrs w_attrs] in H. apply in_map_iff in H as (b & E & I). injection E as -> <-.
    apply (from_sub grid vars []) in I as [[]|(m & I & ->)]. cbn [fst]. intros ->. contradiction.
  Qed.
  Lemma aux_later : exists d f dims, find_doc aux_run u = Some d /\ find_file aux_run u = Some f /\ In (n, grid) f /\ In ((n, dims), u) (d_attrs d) /\ dims <> grid.
  Proof.
    unfold run, find_doc, find_file. cbn [fold_left step record_all record_aux add_entry w_docs w_files add_dataset find fst snd option_map w_grid w_vars start].
    rewrite Z.eqb_refl. cbn [option_map snd]. do 2 eexists. exists (map (fun n => n - 1) grid). split; [reflexivity|]. split; [reflexivity|]. split; [apply in_or_app; right; left; reflexivity|].
    split; [|apply wrong_dims; exact NE]. cbn [write_doc d_attrs w_attrs]. apply in_map_iff. exists (n, map (fun n => n - 1) grid). split; [reflexivity|].
    change (In (n, map (fun n => n - 1) grid) (insert (make_attribute n grid) (from_vars grid [] vars))). unfold insert at 1. change (fst (make_attribute n grid)) with n. rewrite not_there. apply in_or_app. right. left. reflexivity.
  Qed.
End Aux.
