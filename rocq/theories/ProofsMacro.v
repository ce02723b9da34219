(** Soundness of the checks of Macro.v. *)

From Coq Require Import ZArith List Bool Lia ZifyBool.
From Verif Require Import SpecIndex ModelIndex Lang ProofsLang Stencil ProofsStencil FormCommon Macro.
Import ListNotations.
Local Open Scope Z_scope.

(** ** Equation tags do not matter *)
Lemma garr_eqb_tag e a b : garr_eqb (tag e a) (tag e b) = arr_eqb a b.
Proof.
  unfold garr_eqb, tag. destruct a, b; cbn; rewrite ?Nat.eqb_refl; try reflexivity;
    destruct e; reflexivity.
Qed.

Lemma tag_inj e a b : tag e a = tag e b -> a = b.
Proof. intros H. apply arr_eqb_eq. rewrite <- (garr_eqb_tag e). apply garr_eqb_eq. auto. Qed.

Lemma number_map {A B} (f : A -> B) l k :
  number k (map f l) = map (fun x => (fst x, f (snd x))) (number k l).
Proof. revert k. induction l; intros; cbn; f_equal; auto. Qed.

Lemma forallb_map {A B} (f : A -> B) (p : B -> bool) l : forallb p (map f l) = forallb (fun x => p (f x)) l.
Proof. induction l; cbn; congruence. Qed.

Lemma forallb_ext {A} (p r : A -> bool) l : (forall x, In x l -> p x = r x) -> forallb p l = forallb r l.
Proof.
  induction l; cbn; intros H; auto. rewrite (H a), IHl; auto.
Qed.

Lemma d_r_inst e s d : d_r (inst e s) d = t_r s d.
Proof. destruct d; reflexivity. Qed.

Lemma leaves_inst e s : leaves (d_exp (inst e s)) = map (fun ao => (tag e (fst ao), snd ao)) (leaves (t_exp s)).
Proof. unfold inst; cbn. apply leaves_emap. Qed.

Lemma phase_check_inst dd e ph : phase_check dd (map (inst e) ph) = tphase_check dd ph.
Proof.
  unfold tphase_check, phase_check. rewrite !number_map, !forallb_map.
  apply forallb_ext. intros [k sk] _. rewrite !forallb_map. apply forallb_ext. intros [j sj] _. cbn [fst snd].
  f_equal.
  - unfold write_check. cbn [inst d_arr]. rewrite !garr_eqb_tag, !d_r_inst. reflexivity.
  - rewrite !leaves_inst, !forallb_map. apply forallb_ext. intros [a o] _. unfold read_check. cbn [fst snd inst d_arr].
    rewrite !garr_eqb_tag. unfold containedd. rewrite !d_r_inst. reflexivity.
Qed.

Lemma race_check_inst dd e ph : race_check dd (map (inst e) ph) = trace_check dd ph.
Proof.
  unfold trace_check, race_check. rewrite !forallb_map.
  apply forallb_ext. intros sk _. rewrite !forallb_map. apply forallb_ext. intros sj _.
  rewrite !leaves_inst, !forallb_map, !d_r_inst. cbn [inst d_arr]. rewrite !garr_eqb_tag. apply f_equal2; auto.
  apply forallb_ext. intros [a o] _. cbn [fst snd].
  rewrite !garr_eqb_tag. reflexivity.
Qed.

(** ** Phases of a program with exchanges *)
Section Phases.
  Variable g : geom.
  Hypothesis OK : geom_ok g.
  Variable ex : minstr -> list tinstr.
  Hypothesis ex_do : forall s, ex (MDo s) = [TDo s].
  Hypothesis ex_bar : ex MBar = [TBar].

  Definition is_exch (i : minstr) : bool := match i with MDo _ | MBar => false | _ => true end.

  Definition exch_ok (e : nat) (x : minstr) : Prop :=
    exists X, ex x = TBar :: X ++ [TBar] /\ dprog_ok g (map (inst_i e) X).

  Definition expand (e : nat) (p : list minstr) : list dinstr := map (inst_i e) (flat_map ex p).

  Lemma expand_app e p q : expand e (p ++ q) = expand e p ++ expand e q.
  Proof. unfold expand. rewrite flat_map_app, map_app. reflexivity. Qed.

  Lemma dphases_do pre q : dphases (map DDo pre ++ DBar :: q) = pre :: dphases q.
  Proof. induction pre; cbn [map app dphases]; auto. rewrite IHpre. reflexivity. Qed.
  Lemma dphases_pre pre q ph rest : dphases q = ph :: rest -> dphases (map DDo pre ++ q) = (pre ++ ph) :: rest.
  Proof. intros E. induction pre; cbn [map app dphases]; auto. rewrite IHpre. reflexivity. Qed.

  Lemma mphases_nonempty p : exists ph rest, mphases p = ph :: rest.
  Proof. induction p as [|[s| | | | |] p IH]; cbn; eauto. destruct IH as (ph & rest & ->). eauto. Qed.

  Lemma mprog_ok e p :
    (forall x, In x p -> is_exch x = true -> exch_ok e x) ->
    mphases_check (g_dd g) p = true -> dprog_ok g (expand e p).
  Proof.
    intros HX.
    enough (G : forall pre, forallb (tphase_check (g_dd g))
                (match mphases p with ph :: rest => (pre ++ ph) :: rest | [] => [] end) = true ->
              dprog_ok g (map DDo (map (inst e) pre) ++ expand e p)).
    { intros C. apply (G []). unfold mphases_check in C.
      destruct (mphases_nonempty p) as (ph & rest & E). rewrite E in *. exact C. }
    induction p as [|i p IH]; intros pre C.
    - cbn in *. unfold dprog_ok. intros ph H. rewrite (dphases_pre _ _ [] []) in H by reflexivity.
      destruct H as [<-|[]]. rewrite app_nil_r in *.
      apply phase_check_sound; auto. rewrite phase_check_inst. lia.
    - destruct (mphases_nonempty p) as (ph & rest & E).
      assert (HX' : forall x, In x p -> is_exch x = true -> exch_ok e x) by (intros; apply HX; cbn; auto).
      specialize (IH HX'). rewrite E in IH.
      change (expand e (i :: p)) with (map (inst_i e) (ex i ++ flat_map ex p)). rewrite map_app.
      fold (expand e p).
      destruct (is_exch i) eqn:Ei.
      + destruct (HX i (or_introl eq_refl) Ei) as (X & EX & HXok). rewrite EX.
        assert (C' : forallb (tphase_check (g_dd g)) (pre :: ph :: rest) = true).
        { destruct i; cbn in Ei; try discriminate; cbn [mphases] in C; rewrite E, app_nil_r in C; exact C. }
        cbn [forallb] in C'. apply andb_true_iff in C'. destruct C' as [C1 C2].
        cbn [map inst_i]. rewrite map_app. cbn [map inst_i].
        rewrite <- app_comm_cons, <- app_assoc. cbn [app].
        intros ph' Hin. rewrite dphases_do, dphases_app in Hin. destruct Hin as [<-|Hin].
        * apply phase_check_sound; auto. rewrite phase_check_inst. exact C1.
        * apply in_app_iff in Hin. destruct Hin as [Hin|Hin]; [apply HXok; auto|].
          apply (IH []); auto.
      + destruct i as [s| | | | |]; cbn in Ei; try discriminate.
        * rewrite ex_do. cbn [map inst_i app]. cbn [mphases] in C. rewrite E in C.
          specialize (IH (pre ++ [s])). rewrite map_app, map_app in IH. rewrite <- !app_assoc in IH.
          cbn [map app] in IH. apply IH. exact C.
        * rewrite ex_bar. cbn [map inst_i app]. cbn [mphases] in C. rewrite E, app_nil_r in C.
          cbn [forallb] in C. apply andb_true_iff in C. destruct C as [C1 C2].
          intros ph' Hin. rewrite dphases_do in Hin. destruct Hin as [<-|Hin].
          -- apply phase_check_sound; auto. rewrite phase_check_inst. exact C1.
          -- apply (IH []); auto.
  Qed.

  Lemma in_expand e p d : In d (expand e p) <-> exists i t, In i p /\ In t (ex i) /\ d = inst_i e t.
  Proof.
    unfold expand. rewrite in_map_iff. setoid_rewrite in_flat_map. split.
    - intros (t & <- & i & Hi & Ht). eauto.
    - intros (i & t & Hi & Ht & ->). eauto.
  Qed.

  Lemma mslabs_ok e p :
    (forall x s, In x p -> is_exch x = true -> In (TDo s) (ex x) -> slab_okb true (t_r s (g_dd g)) = true) ->
    mslab_check (g_dd g) p = true -> slabs_ok g (expand e p).
  Proof.
    intros HX C s Hin. apply in_expand in Hin. destruct Hin as (i & t & Hi & Ht & E).
    destruct t as [s'|]; [|discriminate]. inversion E; subst. unfold slab_ok. rewrite d_r_inst.
    destruct (is_exch i) eqn:Ei; [eauto|].
    unfold mslab_check in C. rewrite forallb_forall in C. specialize (C _ Hi).
    destruct i; try discriminate; rewrite ?ex_do, ?ex_bar in Ht; destruct Ht as [Ht|[]];
      inversion Ht; subst; auto.
  Qed.
End Phases.

(** ** Light phases: exactly the slab, all operands at the element itself *)
Definition light (dd : dim) (s : desc) : Prop :=
  d_r s dd = Ext 0 0 /\ forall ao, In ao (leaves (d_exp s)) -> snd ao = izero.

Lemma light_ok g ph : geom_ok g -> Forall (light (g_dd g)) ph -> phase_ok (g_n g) (map (stmt_of g) ph).
Proof.
  intros OK H. apply phase_check_sound; auto. unfold phase_check. apply forallb_forall. intros [k sk] Hk.
  apply forallb_forall. intros [j sj] Hj. cbn [fst snd].
  assert (IN : forall (ph' : list desc) k0 k s, In (k, s) (number k0 ph') -> In s ph').
  { clear. induction ph'; cbn; intros; [tauto|]. destruct H as [E|H]; [inversion E; auto|right; eauto]. }
  apply IN in Hk, Hj. rewrite Forall_forall in H.
  destruct (H _ Hk) as [Rk Lk], (H _ Hj) as [Rj Lj]. apply andb_true_iff. split.
  - unfold write_check. rewrite Rk, Rj. cbn. rewrite !orb_true_r. reflexivity.
  - apply forallb_forall. intros ao Ha. unfold read_check. rewrite Rk, Rj, (Lk _ Ha).
    replace (comp (g_dd g) izero) with 0 by (destruct (g_dd g); reflexivity). cbn.
    rewrite !orb_true_r. reflexivity.
Qed.

(** ** Programs whose leaves are covered by another's *)
Definition tcov (s s' : tdesc) : Prop :=
  t_arr s = t_arr s' /\ t_x s = t_x s' /\ t_y s = t_y s' /\ t_z s = t_z s' /\
  incl (leaves (t_exp s)) (leaves (t_exp s')).
Inductive mcov : minstr -> minstr -> Prop :=
| mcov_do s s' : tcov s s' -> mcov (MDo s) (MDo s')
| mcov_refl i : mcov i i.

Lemma tcov_r s s' d : tcov s s' -> t_r s d = t_r s' d.
Proof. intros (E1 & E2 & E3 & E4 & _). destruct d; auto. Qed.
Lemma tcov_refl s : tcov s s.
Proof. repeat split; auto. apply incl_refl. Qed.

Lemma forallb_incl {A} (p : A -> bool) l l' : incl l l' -> forallb p l' = true -> forallb p l = true.
Proof. intros H C. rewrite forallb_forall in *. auto. Qed.

Lemma tphase_check_cov dd ph ph' : Forall2 tcov ph ph' ->
  tphase_check dd ph' = true -> tphase_check dd ph = true.
Proof.
  intros F. unfold tphase_check, phase_check. rewrite !number_map, !forallb_map.
  intros C.
  assert (N : forall k, Forall2 (fun a b => fst a = fst b /\ tcov (snd a) (snd b)) (number k ph) (number k ph')).
  { clear C. induction F; intros; cbn; constructor; auto. }
  specialize (N 0%nat).
  apply forallb_forall. intros [k sk] Hk. rewrite forallb_map. apply forallb_forall. intros [j sj] Hj. cbn [fst snd].
  assert (ex_r : forall x, In x (number 0 ph) -> exists y, In y (number 0 ph') /\ fst x = fst y /\ tcov (snd x) (snd y)).
  { clear - N. induction N; cbn; intros z Hz; [tauto|]. destruct Hz as [->|Hz]; eauto.
    destruct (IHN z Hz) as (w & ? & ?). eauto. }
  destruct (ex_r _ Hk) as ([k' sk'] & Hk' & Ek & Ck). destruct (ex_r _ Hj) as ([j' sj'] & Hj' & Ej & Cj).
  cbn [fst snd] in *. subst k' j'.
  rewrite forallb_forall in C. specialize (C _ Hk'). rewrite forallb_map in C.
  rewrite forallb_forall in C. specialize (C _ Hj'). cbn [fst snd] in C.
  apply andb_true_iff in C. destruct C as [C1 C2]. apply andb_true_iff. split.
  - revert C1. unfold write_check. cbn [inst d_arr]. rewrite !d_r_inst, !garr_eqb_tag.
    rewrite (tcov_r _ _ dd Ck), (tcov_r _ _ dd Cj).
    destruct Ck as (-> & _), Cj as (-> & _). auto.
  - rewrite leaves_inst, forallb_map in *. eapply forallb_incl; [apply Ck|].
    revert C2. erewrite forallb_ext; [intros H; exact H|]. intros [a o] _. cbn [fst snd].
    unfold read_check, containedd. cbn [fst snd inst d_arr]. rewrite !garr_eqb_tag.
    destruct Cj as (Ej & Ejr). rewrite Ej.
    assert (Cj : tcov sj sj') by (split; auto).
    rewrite !d_r_inst, !(tcov_r _ _ _ Ck), !(tcov_r _ _ _ Cj).
    f_equal. f_equal. apply forallb_ext. intros d _.
    rewrite !d_r_inst, !(tcov_r _ _ _ Ck), !(tcov_r _ _ _ Cj). reflexivity.
Qed.

Lemma mphases_cov p p' : Forall2 mcov p p' -> Forall2 (Forall2 tcov) (mphases p) (mphases p').
Proof.
  induction 1 as [|i i' p p' Hi F IH]; cbn; [repeat constructor|].
  destruct Hi as [s s' Hs|i].
  - destruct IH; repeat (constructor; auto).
  - destruct i; try (constructor; auto; fail).
    destruct IH; repeat (constructor; auto using tcov_refl).
Qed.

Lemma mphases_check_cov dd p p' : Forall2 mcov p p' ->
  mphases_check dd p' = true -> mphases_check dd p = true.
Proof.
  intros F. apply mphases_cov in F. unfold mphases_check.
  induction F; cbn; auto. intros C. apply andb_true_iff in C. destruct C as [C1 C2].
  rewrite (tphase_check_cov _ _ _ H C1), IHF; auto.
Qed.

Lemma mslab_check_cov dd p p' : Forall2 mcov p p' -> mslab_check dd p' = true -> mslab_check dd p = true.
Proof.
  unfold mslab_check. induction 1; cbn; auto. intros C. apply andb_true_iff in C. destruct C as [C1 C2].
  rewrite IHForall2 by auto. destruct H; [|rewrite C1; auto]. rewrite (tcov_r _ _ _ H), C1. auto.
Qed.

Lemma s_ext_cov s s' : tcov s s' -> s_ext s = s_ext s'.
Proof. intros (E1 & E2 & E3 & E4 & _). unfold s_ext. rewrite E2, E3, E4. reflexivity. Qed.

Lemma vrun_cov vx p p' V W : Forall2 mcov p p' -> vrun vx p' V = Some W -> vrun vx p V = Some W.
Proof.
  intros F. revert V. induction F as [|i i' p p' Hi F IH]; intros V; cbn; auto.
  destruct Hi as [s s' Hs|i].
  - unfold vdo. rewrite (s_ext_cov _ _ Hs). destruct (s_ext s'); [|discriminate].
    destruct (forallb _ (leaves (t_exp s'))) eqn:C; [|discriminate].
    rewrite (forallb_incl _ _ _ (proj2 (proj2 (proj2 (proj2 Hs)))) C). destruct Hs as (-> & _). apply IH.
  - destruct i; auto.
    + destruct (vdo s V); auto.
    + destruct (vx _ V); auto.
    + destruct (vx _ V); auto.
    + destruct (vx _ V); auto.
    + destruct (vx _ V); auto.
Qed.

Lemma brun_cov A p p' : Forall2 mcov p p' -> brun A p' = true -> brun A p = true.
Proof.
  unfold brun. induction 1 as [|i i' p p' Hi F IH]; cbn; auto. intros C.
  apply andb_true_iff in C. destruct C as [C1 C2]. rewrite IH by auto.
  destruct Hi as [s s' Hs|i]; [|rewrite C1; auto].
  unfold bdo in *. rewrite (s_ext_cov _ _ Hs). destruct (s_ext s'); [|discriminate].
  apply andb_true_iff in C1. destruct C1 as [C1 C3].
  rewrite (forallb_incl _ _ _ (proj2 (proj2 (proj2 (proj2 Hs)))) C3).
  destruct Hs as (-> & _). rewrite C1. reflexivity.
Qed.

Lemma coverb_incl e e' : coverb e e' = true -> incl (leaves e) (leaves e').
Proof.
  unfold coverb. intros C ao H. rewrite forallb_forall in C. specialize (C _ H).
  apply existsb_exists in C. destruct C as (bo & Hb & Eb). unfold ao_eqb in Eb.
  apply andb_true_iff in Eb. destruct Eb as [E1 E2]. apply arr_eqb_eq in E1. apply idx_eqb_eq in E2.
  destruct ao, bo; cbn in *; subst; auto.
Qed.

(** ** Halo fills: statements of the first (or the last) thread only *)
Definition edge_stmt (first : bool) (dd : dim) (s : desc) : Prop :=
  match d_r s dd with
  | AtFirst a b => first = true /\
      forall ao, In ao (leaves (d_exp s)) -> fst ao = d_arr s -> b - a < Z.abs (comp dd (snd ao))
  | AtLast a b => first = false /\
      forall ao, In ao (leaves (d_exp s)) -> fst ao = d_arr s -> b - a < Z.abs (comp dd (snd ao))
  | _ => False
  end.

Lemma edge_thread g first s t l : edge_stmt first (g_dd g) s ->
  In l (s_el (stmt_of g s) t) -> t = if first then 0%nat else (g_n g - 1)%nat.
Proof.
  intros E H. apply in_el in H. destruct H as [_ H]. specialize (H (g_dd g)).
  unfold drng in H. rewrite cut_of_dd, thr_dd in H. unfold edge_stmt in E.
  destruct (d_r s (g_dd g)); [tauto| |]; destruct E as [-> _]; cbn in H.
  - destruct (Nat.eqb_spec t 0); auto. unfold in_rng in H. cbn in H. lia.
  - destruct (Nat.eqb_spec t (c_n (g_cut g) - 1)); auto. unfold in_rng in H. cbn in H. lia.
Qed.

Lemma edge_ok g first ph : Forall (edge_stmt first (g_dd g)) ph ->
  phase_ok (g_n g) (map (stmt_of g) ph).
Proof.
  intros E. rewrite Forall_forall in E.
  assert (N : forall k s', nth_error (map (stmt_of g) ph) k = Some s' ->
             exists s, s' = stmt_of g s /\ edge_stmt first (g_dd g) s).
  { intros k s' H. rewrite nth_error_map in H. destruct (nth_error ph k) eqn:Hk; [|discriminate].
    inversion H; subst. apply nth_error_In in Hk. eauto. }
  constructor.
  - intros k j sk' sj' t t' l l' Ht Ht' Hk Hj Hl Hl' Hl''. left.
    destruct (N _ _ Hk) as (sk & -> & Ek). destruct (N _ _ Hj) as (sj & -> & Ej).
    pose proof (edge_thread _ _ _ _ _ Ek Hl) as T1. pose proof (edge_thread _ _ _ _ _ Ej Hl'') as T2.
    split; [congruence|]. intros ->. exfalso.
    assert (SE : stmt_of g sk = stmt_of g sj) by congruence.
    rewrite <- SE in Hl''. clear Hj SE Ej sj.
    cbn [stmt_of s_rhs] in Hl'. rewrite leaves_emap in Hl'. apply in_map_iff in Hl'.
    destruct Hl' as (ao & <- & Hao). apply in_el in Hl. apply in_el in Hl''.
    destruct Hl as [A1 R1], Hl'' as [A2 R2]. specialize (R1 (g_dd g)). specialize (R2 (g_dd g)).
    cbn [sh fst snd] in *. rewrite comp_iadd in R2. unfold drng in *. rewrite cut_of_dd, thr_dd in *.
    unfold edge_stmt in Ek. subst t t'.
    destruct (d_r sk (g_dd g)); [tauto| |]; destruct Ek as [Ef Ek]; specialize (Ek ao Hao A2);
      subst first; cbn in R1, R2; unfold in_rng in *;
      [|rewrite Nat.eqb_refl in *]; cbn in R1, R2; lia.
  - intros k j sk' sj' t t' l Ht Ht' Hk Hj Hl Hl' NE. exfalso. apply NE.
    destruct (N _ _ Hk) as (sk & -> & Ek). destruct (N _ _ Hj) as (sj & -> & Ej).
    rewrite (edge_thread _ _ _ _ _ Ek Hl), (edge_thread _ _ _ _ _ Ej Hl'). reflexivity.
  - intros s t H Ht. apply in_map_iff in H. destruct H as (d & <- & _). apply nodup_el.
Qed.
