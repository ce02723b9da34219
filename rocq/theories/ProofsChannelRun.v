(** Runs in a channel between rigid walls. *)
From Coq Require Import ZArith List Bool Lia ZifyBool Reals Lra.
From Verif Require Import ModelIndex ModelRun Lang ProofsLang Stencil ProofsStencil FormCommon Form2D Solver1D Solver2D Macro ProofsMacro
  Proofs1D ProofsThread1D ProofsThread2D ProofsOne2D Arith SpecReal SpecThreads SpecFields2 SpecNum2 SpecBcond ProofsBcond SpecChannel2
  ProofsValid ProofsValid2D ProofsValidC2D ProofsRef2D ProofsRefC2D ProofsExchC2D Lattice ProofsLattice ProofsCyclic2D ProofsStale2D ProofsChannel2D.
Import ListNotations.
Local Open Scope Z_scope.

Lemma plain_no_stale o nit : plain_passes o nit -> no_stale_ch o nit = true.
Proof.
  intros [H|[[H1|[H1 H2]] [H3|[H3 H4]]]]; unfold no_stale_ch, no_stale2.
  - rewrite (proj2 (Nat.leb_le nit 2) H), !orb_true_r. reflexivity.
  - rewrite H1, H3. reflexivity.
  - rewrite H1, H3, H4. cbn. rewrite orb_true_r. reflexivity.
  - rewrite H1, H2. cbn. rewrite orb_true_r. reflexivity.
  - rewrite H1, H2. cbn. rewrite orb_true_r. reflexivity.
Qed.

Section Ref.
  Variable r : run2.
  Variable ar : arith.
  Notation mem := (loc -> car ar).
  Notation lo := (s_lo r).
  Notation hi := (s_hi r).
  Notation ne := (n_eqns (s_cfg r)).
  Notation o := (s_o r).
  Notation w := (wrap2 lo hi DX).
  Notation along := (periodic ar (s_per r DX, 0, 0)).
  Definition chref (l : list (nat * list minstr)) (f : mem) : mem := rruns2 ar (fun e s => lat_do ar e s) (chx ar r) l f.

  Lemma chx_frame e x (f : mem) e' b i : e' <> e -> chx ar r e x f (e', Psi b, i) = f (e', Psi b, i).
  Proof.
    intros NE. unfold chx. revert f. induction (wall_fills r x) as [|s l IH]; intros f; [reflexivity|]. cbn [fold_left].
    rewrite IH. apply row_do_other. intros E. destruct (t_arr s); cbn in E; congruence.
  Qed.
  Lemma chref_along l (f : mem) : along f -> along (chref l f).
  Proof.
    revert f. induction l as [|[e p] l IH]; intros f P; [exact P|]. apply IH. cbn [fst snd]. clear IH.
    revert f P. induction p as [|x p IH]; intros f P; [exact P|]. cbn [ref_run fold_left]. apply IH.
    destruct x; [apply lat_do_periodic; exact P|exact P|apply chx_periodic; exact P|apply chx_periodic; exact P|apply chx_periodic; exact P|apply chx_periodic; exact P].
  Qed.

  Theorem channel_ref n nt (m m' f : mem) : channel_end2 ar r n nt m m' -> same_data2 lo hi ne (nug o) m f -> along f ->
    forall e i j, (e < ne)%nat -> lo DX <= i <= hi DX -> lo DY <= j <= hi DY ->
      cell2 m' e (newest2 r nt) i j = cell2 (chref (run_macro2 r nt) f) e (newest2 r nt) i j.
  Proof.
    intros [RK B1 B2 B3 B4 Hn Hs T NS CD E] SD P e i j He Hi Hj. apply plain_no_stale in NS.
    unfold cell2. rewrite (can_end_run2 r RK n Hn Hs ar nt m m' T E).
    apply (inv_cell2 r ar n _ _ (newest2 r nt) e i j Hn Hs); auto.
    refine (proj1 (ch_run_agree2 r n RK Hn Hs NS ar (fun e s => lat_do ar e s) (chx ar r) along _ _ _ _ _ nt m f _ _ P)).
    - intros. apply lat_ref2.
    - intros. apply lat_do_periodic. auto.
    - intros. apply chx_periodic. auto.
    - intros. eapply chan_vx2; eauto.
    - intros. apply chx_frame. auto.
    - lia.
    - apply inv0_same2; auto.
  Qed.
End Ref.

Section Wrap.
  Variables (lo hi : dim -> Z).
  Hypothesis L : lo DX < hi DX.
  Notation w := (wrap2 lo hi DX).
  Lemma cw_in k : lo DX <= w k < hi DX.
  Proof. unfold wrap2. pose proof (Z.mod_pos_bound (k - lo DX) (hi DX - lo DX)). lia. Qed.
  Lemma cw_id k : lo DX <= k < hi DX -> w k = k.
  Proof. intros H. unfold wrap2. rewrite Z.mod_small; lia. Qed.
  Lemma cw_hi : w (hi DX) = lo DX.
  Proof. unfold wrap2. rewrite Z.mod_same; lia. Qed.
  Lemma cw_per k : w (k + (hi DX - lo DX)) = w k.
  Proof.
    unfold wrap2. replace (k + (hi DX - lo DX) - lo DX) with (k - lo DX + 1 * (hi DX - lo DX)) by lia.
    rewrite Z.mod_add by lia. reflexivity.
  Qed.
  Lemma cw_or i : lo DX <= i <= hi DX -> i = hi DX \/ w i = i.
  Proof. intros Hi. destruct (Z.eq_dec i (hi DX)); [left; auto|right; apply cw_id; lia]. Qed.
  Lemma cw_mod i : i = w i + (i - lo DX) / (hi DX - lo DX) * (hi DX - lo DX).
  Proof. unfold wrap2. pose proof (Z.div_mod (i - lo DX) (hi DX - lo DX) ltac:(lia)). lia. Qed.
End Wrap.

Lemma ok_lo_hi r : run2_ok r -> s_lo r DX < s_hi r DX /\ s_lo r DY < s_hi r DY.
Proof.
  intros RK. pose proof (ok2_grid r RK DX (or_introl eq_refl)). pose proof (ok2_grid r RK DY (or_intror eq_refl)).
  pose proof (halo_pos (s_o r)). lia.
Qed.

Section Results.
  Variable r : run2.
  Variable ar : arith.
  Hypothesis RK : run2_ok r.
  Notation mem := (loc -> car ar).
  Notation lo := (s_lo r).
  Notation hi := (s_hi r).
  Notation ne := (n_eqns (s_cfg r)).
  Notation o := (s_o r).
  Notation w := (wrap2 lo hi DX).
  Notation along := (periodic ar (s_per r DX, 0, 0)).

  (** data extended along the channel *)
  Definition chext (m : mem) : mem := fun l => m (fst l, (w (comp DX (snd l)), comp DY (snd l), comp DZ (snd l))).
  Lemma chext_along (m : mem) : along (chext m).
  Proof.
    destruct (ok_lo_hi r RK) as [LX LY].
    intros a [[x y] z]. unfold chext, iadd. cbn [fst snd comp]. rewrite !Z.add_0_r. unfold s_per. rewrite cw_per; auto.
  Qed.
  Lemma chext_same (m : mem) : channel_data2 lo hi ne (nug o) m -> same_data2 lo hi ne (nug o) m (chext m).
  Proof.
    intros (C & F & G). destruct (ok_lo_hi r RK) as [LX LY]. split; [|split; [|split]].
    - intros e i j He Hi Hj. change (cell2 m e false i j = cell2 m e false (w i) j).
      destruct (cw_or lo hi i Hi) as [->|Wi]; [rewrite cw_hi by auto; apply C; auto|rewrite Wi; reflexivity].
    - intros i j Hi Hj. change (face2 m DX i j = face2 m DX (w i) j). rewrite cw_id by lia. reflexivity.
    - intros i j Hi Hj. change (face2 m DY i j = face2 m DY (w i) j).
      destruct (cw_or lo hi i Hi) as [->|Wi]; [rewrite cw_hi by auto; apply F; auto|rewrite Wi; reflexivity].
    - intros N i j Hi Hj. change (gfac2 m i j = gfac2 m (w i) j).
      destruct (cw_or lo hi i Hi) as [->|Wi]; [rewrite cw_hi by auto; apply G; auto|rewrite Wi; reflexivity].
  Qed.
  Lemma along_wrap (f : mem) a i j : along f -> f (a, (w i, j, 0)) = f (a, (i, j, 0)).
  Proof.
    intros P. destruct (ok_lo_hi r RK) as [LX LY]. pose proof (cw_mod lo hi LX i) as EI.
    etransitivity; [symmetry; exact (per_mul ar _ f P ((i - lo DX) / (hi DX - lo DX)) a (w i, j, 0))|].
    unfold iadd, s_per. cbn [comp fst snd]. f_equal. f_equal. f_equal; [f_equal|]; lia.
  Qed.

  Lemma row_do_shift k e s (f : mem) l : row_do ar (lo DY) (hi DY) e s (shift ar (k, 0, 0) f) l = shift ar (k, 0, 0) (row_do ar (lo DY) (hi DY) e s f) l.
  Proof.
    destruct l as [a [[x y] z]]. unfold row_do, shift, iadd. cbn [fst snd comp]. rewrite !Z.add_0_r.
    destruct (_ && _); [|reflexivity]. apply ev_ext. intros [b [[u v] t]] _. cbn [fst snd]. f_equal. f_equal. f_equal; [f_equal|]; lia.
  Qed.
  Lemma row_do_ext e s (f f' : mem) l : (forall l, f l = f' l) -> row_do ar (lo DY) (hi DY) e s f l = row_do ar (lo DY) (hi DY) e s f' l.
  Proof. intros H. unfold row_do. destruct (_ && _); [|apply H]. apply ev_ext. intros. apply H. Qed.
  Lemma chx_shift k e x : forall (f f' : mem), (forall l, f' l = shift ar (k, 0, 0) f l) -> forall l, chx ar r e x f' l = shift ar (k, 0, 0) (chx ar r e x f) l.
  Proof.
    unfold chx. induction (wall_fills r x) as [|s p IH]; intros f f' H l; [apply H|]. cbn [fold_left]. apply IH. intros l'.
    rewrite (row_do_ext e s f' (shift ar (k, 0, 0) f)) by exact H. apply row_do_shift.
  Qed.
  Lemma ref_shift k e p : forall (f f' : mem), (forall l, f' l = shift ar (k, 0, 0) f l) ->
    forall l, ref_run ar (chx ar r e) (lat_do ar e) p f' l = shift ar (k, 0, 0) (ref_run ar (chx ar r e) (lat_do ar e) p f) l.
  Proof.
    induction p as [|x p IH]; intros f f' H l; [apply H|]. cbn [ref_run fold_left]. apply IH.
    destruct x; try (apply chx_shift; exact H); [|exact H].
    intros l'. change (lat_do ar e s f' l' = shift ar (k, 0, 0) (lat_do ar e s f) l'). rewrite (lat_do_ext ar e s f' (shift ar (k, 0, 0) f)) by exact H. apply lat_do_shift.
  Qed.
  Lemma chref_shift k p : forall (f f' : mem), (forall l, f' l = shift ar (k, 0, 0) f l) ->
    forall l, chref r ar p f' l = shift ar (k, 0, 0) (chref r ar p f) l.
  Proof.
    induction p as [|[e q] p IH]; intros f f' H l; [apply H|]. cbn [chref rruns2 fold_left]. apply IH. cbn [fst snd]. apply ref_shift. exact H.
  Qed.

  Theorem channel_edges n nt (m m' : mem) : channel_end2 ar r n nt m m' ->
    forall e j, (e < ne)%nat -> lo DY <= j <= hi DY -> cell2 m' e (newest2 r nt) (hi DX) j = cell2 m' e (newest2 r nt) (lo DX) j.
  Proof.
    intros C e j He Hj. destruct (ok_lo_hi r RK) as [LX LY]. pose proof (ch_data _ _ _ _ _ _ C) as D.
    rewrite !(channel_ref r ar n nt m m' (chext m) C (chext_same m D) (chext_along m)) by (auto; lia).
    pose proof (chref_along r ar (run_macro2 r nt) _ (chext_along m)) as P. unfold cell2.
    rewrite <- (along_wrap _ _ (hi DX) j P). rewrite cw_hi by auto. reflexivity.
  Qed.
  Theorem channel_moved n1 n2 nt k (m1 m2 m1' m2' : mem) : channel_end2 ar r n1 nt m1 m1' -> channel_end2 ar r n2 nt m2 m2' ->
    moved_along lo hi ne (nug o) k m1 m2 ->
    forall e i j, (e < ne)%nat -> lo DX <= i <= hi DX -> lo DY <= j <= hi DY ->
      cell2 m2' e (newest2 r nt) i j = cell2 m1' e (newest2 r nt) (w (i + k)) j.
  Proof.
    intros C1 C2 (M1 & M2 & M3 & M4) e i j He Hi Hj. destruct (ok_lo_hi r RK) as [LX LY].
    pose proof (ch_data _ _ _ _ _ _ C1) as D. pose proof (chext_along m1) as P. pose proof (cw_in lo hi LX (i + k)) as WX.
    rewrite (channel_ref r ar n1 nt m1 m1' (chext m1) C1 (chext_same m1 D) P) by (auto; lia).
    unfold cell2 at 2. rewrite along_wrap by (apply chref_along; exact P).
    rewrite (channel_ref r ar n2 nt m2 m2' (shift ar (k, 0, 0) (chext m1)) C2); auto.
    - unfold cell2. rewrite (chref_shift k _ (chext m1)) by reflexivity. unfold shift, iadd. cbn [fst snd]. rewrite !Z.add_0_r. reflexivity.
    - split; [|split; [|split]].
      + intros e' i' j' He' Hi' Hj'. rewrite M1 by auto. unfold cell2, shift, chext, iadd. cbn [fst snd comp]. rewrite !Z.add_0_r. reflexivity.
      + intros i' j' Hi' Hj'. rewrite M2 by auto. unfold face2, shift, chext, iadd. cbn [fst snd comp]. rewrite !Z.add_0_r. reflexivity.
      + intros i' j' Hi' Hj'. rewrite M3 by auto. unfold face2, shift, chext, iadd. cbn [fst snd comp]. rewrite !Z.add_0_r. reflexivity.
      + intros N i' j' Hi' Hj'. rewrite M4 by auto. unfold gfac2, shift, chext, iadd. cbn [fst snd comp]. rewrite !Z.add_0_r. reflexivity.
    - intros a q; unfold shift; cbn [fst snd]; rewrite <- (P a (iadd q _)); f_equal; f_equal; rewrite <- !iadd_assoc; f_equal; apply iadd_comm.
  Qed.
  Theorem channel_data_only n1 n2 nt (m1 m2 m1' m2' : mem) : channel_end2 ar r n1 nt m1 m1' -> channel_end2 ar r n2 nt m2 m2' ->
    same_data2 lo hi ne (nug o) m1 m2 ->
    forall e i j, (e < ne)%nat -> lo DX <= i <= hi DX -> lo DY <= j <= hi DY ->
      cell2 m1' e (newest2 r nt) i j = cell2 m2' e (newest2 r nt) i j.
  Proof.
    intros C1 C2 S e i j He Hi Hj. pose proof (ch_data _ _ _ _ _ _ C1) as D. pose proof (chext_along m1) as P.
    rewrite (channel_ref r ar n1 nt m1 m1' (chext m1) C1 (chext_same m1 D) P) by auto.
    rewrite (channel_ref r ar n2 nt m2 m2' (chext m1) C2); auto.
    eapply same_data2_trans; [apply same_data2_sym; exact S|apply chext_same; exact D].
  Qed.
End Results.

Theorem channel_keeps_mass eps tiny r n nt (m m' : loc -> R) e : channel_end2 (arithR eps tiny) r n nt m m' -> (e < n_eqns (s_cfg r))%nat ->
  (forall i j, on_grid (s_lo r) (s_hi r) i j -> G2of (nug (s_o r)) m i j <> 0%R) ->
  channel_mass (s_lo r) (s_hi r) (fun i j => (G2of (nug (s_o r)) m i j * cell2 m' e (newest2 r nt) i j)%R) =
  channel_mass (s_lo r) (s_hi r) (fun i j => (G2of (nug (s_o r)) m i j * cell2 m e false i j)%R).
Proof.
  intros C He NZ. pose proof (ch_ok _ _ _ _ _ _ C) as RK. pose proof (ch_data _ _ _ _ _ _ C) as D. destruct (ok_lo_hi r RK) as [LX LY].
  set (f := chext r (arithR eps tiny) m). pose proof (chext_along r (arithR eps tiny) RK m) as P.
  pose proof (chext_same r (arithR eps tiny) RK m D) as S.
  destruct (run_mass r eps tiny RK (ch_bly _ _ _ _ _ _ C) (ch_bry _ _ _ _ _ _ C) nt f e) as [A K]; auto.
  - intros N i j Gd. specialize (NZ (wrap2 (s_lo r) (s_hi r) DX i) j). unfold G2of in NZ. rewrite N in NZ. apply NZ.
    pose proof (cw_in (s_lo r) (s_hi r) LX i). unfold row in Gd. split; lia.
  - unfold mass in A. change (go r eps tiny (run_macro2 r nt) f) with (chref r (arithR eps tiny) (run_macro2 r nt) f) in *.
    transitivity (channel_mass (s_lo r) (s_hi r) (fun i j => (G2of (nug (s_o r)) (chref r (arithR eps tiny) (run_macro2 r nt) f) i j
      * cell2 (chref r (arithR eps tiny) (run_macro2 r nt) f) e (newest2 r nt) i j)%R)).
    + apply cm_ext_in; auto. intros i j Hi Hj. f_equal.
      * unfold G2of. destruct (nug (s_o r)) eqn:N; [|reflexivity]. destruct S as (_ & _ & _ & S4).
        etransitivity; [apply (S4 eq_refl i j); lia|]. symmetry. apply K; [exact Hj|reflexivity].
      * apply (channel_ref r (arithR eps tiny) n nt m m' f C S P); auto. lia.
    + unfold newest2. etransitivity; [exact A|]. apply cm_ext_in; auto. intros i j Hi Hj. destruct S as (S1 & _ & _ & S4). f_equal.
      * unfold G2of. destruct (nug (s_o r)) eqn:N; [|reflexivity]. symmetry. apply S4; auto; lia.
      * symmetry. apply S1; auto; lia.
Qed.
