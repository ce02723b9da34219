(** 3D solver, one thread: every interleaving of a single thread computes what the serial program does. *)
From Coq Require Import ZArith List Bool Lia ZifyBool.
From Verif Require Import SpecIndex ModelIndex ProofsIndex ModelRun Lang ProofsLang Stencil ProofsStencil
  FormCommon Form3D Solver1D Solver3D Macro ProofsMacro ProofsFill Foot1D Foot3D Proofs1D Proofs3D SpecThreads ProofsThread1D ProofsGeom3D
  ProofsValid ProofsValid1D Boxes ProofsBoxes Boxes3 ProofsBoxes3 ProofsValid2D ProofsOne2D ProofsValid3D ProofsRef3D.
Import ListNotations.
Local Open Scope Z_scope.

Definition xvec3b (x : minstr) : bool :=
  match x with MXS _ ext | MXVN _ ext => 0 <=? ext | _ => true end.

Section One.
  Variable r : run3.
  Hypothesis RK : run3_ok r.
  Notation o := (s3_o r).

  Definition xv3 (p : list minstr) : bool := forallb xvec3b p.
  Lemma xv3_app p q : xv3 (p ++ q) = xv3 p && xv3 q.
  Proof. apply forallb_app. Qed.
  Lemma xv3_do l : xv3 (map MDo l) = true.
  Proof. induction l; auto. Qed.
  Lemma xv3_sum F psi psi' v : xv3 (sum3 o F psi psi' v) = true.
  Proof. unfold sum3. destruct (khn o); [apply xv3_do|reflexivity]. Qed.
  Lemma xv3_up F psi psi' : xv3 (fct_init3 o F psi ++ upstream3 o F psi psi') = true.
  Proof. unfold fct_init3, upstream3. rewrite !xv3_app, xv3_sum. destruct (fct o); reflexivity. Qed.
  Lemma xv3_co F psi psi' unco c last : xv3 (corrective3 o F psi psi' unco c last) = true.
  Proof.
    unfold corrective3, fct_adjust3. cbv zeta.
    destruct (div3dt o), (fct o), last, (dfl o), (iga o); cbn [negb andb app];
      rewrite ?xv3_app, ?xv3_sum; cbn [xv3 forallb app faces3 flux3]; unfold xv3; cbn [forallb xvec3b]; rewrite ?forallb_app;
      fold xv3; cbn; rewrite ?xv3_sum; reflexivity.
  Qed.
  Lemma xv3_scale a k : xv3 (scale3 a k) = true.
  Proof. unfold scale3. destruct (k =? 0); [reflexivity|]. destruct (0 <? k); reflexivity. Qed.
  Lemma xv3_halo a : xvec3b (MXS a (halo o)) = true.
  Proof. pose proof (halo_pos o). cbn. lia. Qed.
  Lemma xv3_passes lasteq b more : forall j, xv3 (passes3 o (s3_forms r) (s3_nit r) lasteq b j more) = true.
  Proof.
    induction more as [|k IH]; intros j; [reflexivity|]. cbn [passes3]. rewrite !xv3_app, IH.
    unfold GC_corr. rewrite xv3_co. cbn [xv3 forallb]. rewrite xv3_halo. destruct lasteq; reflexivity.
  Qed.
  Lemma xv3_body k exq lasteq b : xv3 (body3 o (s3_forms r) (s3_nit r) k exq lasteq b) = true.
  Proof.
    rewrite body3_split. rewrite xv3_app, xv3_scale. cbn [andb xv3 forallb]. rewrite xv3_halo. cbn [andb].
    fold (xv3 (mid3 r k lasteq b ++ (if lasteq then [MBar; MBar] else [MBar]) ++ scale3 (Psi (lev b k)) (- exq))).
    rewrite !xv3_app, xv3_scale. unfold mid3. rewrite app_assoc, xv3_app, xv3_passes.
    rewrite xv3_up. destruct lasteq; reflexivity.
  Qed.
  Lemma xv3_ante : xv3 (ante3 o) = true.
  Proof.
    assert (H1 : (0 <=? halo o - 1) = true) by (pose proof (halo_pos o); lia).
    assert (H2 : (0 <=? halo o) = true) by (pose proof (halo_pos o); lia).
    unfold ante3, xv3. destruct (nug o), (div3dt o || div3 o); cbn [app faces3 forallb xvec3b]; rewrite ?H1, ?H2; reflexivity.
  Qed.

  Definition fine3 (ep : nat * list minstr) : Prop := shape3b (snd ep) = true /\ xv3 (snd ep) = true.
  Lemma eqs_fine3 k es : forall lv, Forall fine3 (eqs_macro3 r k es lv).
  Proof.
    induction es as [|e es IH]; intros lv; cbn [eqs_macro3]; constructor; auto.
    split; cbn [snd]; [apply shape_body; exact RK|apply xv3_body].
  Qed.
  Lemma steps_fine3 nt : forall ts lv, Forall fine3 (steps_macro3 r nt ts lv).
  Proof.
    induction nt as [|k IH]; intros ts lv; cbn [steps_macro3]; [constructor|].
    constructor; [split; reflexivity|]. apply Forall_app. split; [apply eqs_fine3|apply IH].
  Qed.
  Lemma run_fine3 nt : Forall fine3 (run_macro3 r nt).
  Proof.
    unfold run_macro3. constructor; [split; [apply shape_ante; exact RK|apply xv3_ante]|].
    apply Forall_app. split; [apply steps_fine3|]. constructor; [split; reflexivity|constructor].
  Qed.

  (** fills *)
  Definition fill3 (s : tdesc) : Prop := exists d a rd r1 r2 k,
    s = at3d d a rd r1 r2 (Leaf (a, x3 d k 0 0)) /\
    match rd with AtFirst x y | AtLast x y => y - x < Z.abs k | _ => False end /\
    match d with DX => slab_okb true r1 = true | DY => True | DZ => slab_okb true r2 = true end.

  Notation ex := (expand3 (s3_o r) (s3_halo r) (s3_per r)).
  Lemma exch_fills3 x s : is_exch x = true -> xvec3b x = true -> In (TDo s) (ex x) -> fill3 s.
  Proof.
    intros Hx Hv Hin.
    pose proof (halo_pos (s3_o r)) as Hh. change (halo (s3_o r)) with (s3_halo r) in Hh.
    assert (G : forall d, s3_halo r <= s3_per r d) by (intros d; apply (ok3_grid r RK d)).
    assert (F : forall d a r1 r2, match d with DX => slab_okb true r1 = true | DY => True | DZ => slab_okb true r2 = true end ->
       fill3 (cs_left (s3_halo r) (s3_per r) d a r1 r2) /\ fill3 (cs_rght (s3_halo r) (s3_per r) d a r1 r2) /\
       forall v, a = v d -> fill3 (cv_left (s3_halo r) (s3_per r) d v r1 r2) /\ fill3 (cv_rght (s3_halo r) (s3_per r) d v r1 r2)).
    { intros d a r1 r2 H. pose proof (G d).
      split; [|split; [|intros v E; split]]; unfold cs_left, cs_rght, cv_left, cv_rght;
        (do 6 eexists; split; [reflexivity|split; [cbv beta iota|exact H]]); lia. }
    destruct x as [s0| |a e|v ad|v e|v]; try discriminate; cbn [expand3] in Hin; cbn [xvec3b] in Hv.
    - assert (S : slab_okb true (Own e e) = true) by (unfold Own, slab_okb; lia).
      destruct Hin as [Hin|[Hin|[Hin|[Hin|[Hin|[Hin|[Hin|[Hin|[Hin|[Hin|[]]]]]]]]]]]; try discriminate; injection Hin as <-;
        first [apply (F DY); exact I | apply (F DX); exact S | apply (F DZ); exact S].
    - assert (S : slab_okb true rI = true) by reflexivity.
      destruct Hin as [Hin|[Hin|[Hin|[Hin|[Hin|[Hin|[Hin|[Hin|[Hin|[Hin|[]]]]]]]]]]]; try discriminate; injection Hin as <-;
        first [apply (F DY (v DY)); [exact I|reflexivity] | apply (F DX (v DX)); [exact S|reflexivity] | apply (F DZ (v DZ)); [exact S|reflexivity]].
    - assert (S : slab_okb true (Own (e + 1) e) = true) by (unfold Own, slab_okb; lia).
      assert (S' : slab_okb true (Own (e + 1) (e + 1)) = true) by (unfold Own, slab_okb; lia).
      cbv zeta in Hin. apply in_app_iff in Hin. destruct Hin as [Hin|Hin].
      + destruct Hin as [Hin|[Hin|[Hin|[]]]]; try discriminate; injection Hin as <-; apply (F DY); exact I.
      + apply in_app_iff in Hin. destruct Hin as [Hin|Hin]; [destruct (_ || _); [destruct Hin as [Hin|[]]; discriminate|destruct Hin]|].
        repeat (destruct Hin as [Hin|Hin]; [try discriminate; injection Hin as <-;
          first [apply (F DY); exact I | apply (F DX); first [exact S|exact S'] | apply (F DZ); first [exact S|exact S']]|]). destruct Hin.
    - cbn in Hin. repeat (destruct Hin as [Hin|Hin]; [discriminate|]). destruct Hin.
  Qed.

  Variable n : nat.
  Hypothesis Hn : (0 < n)%nat.
  Hypothesis Hs : Z.of_nat n <= s3_hi r DY - s3_lo r DY + 1.
  Notation g := (geom3 r n).

  Lemma fill3_slab s : fill3 s -> slab_okb true (t_r s DY) = true.
  Proof.
    intros (d & a & rd & r1 & r2 & k & -> & H1 & H2). destruct d; cbn; auto. destruct rd; cbn; tauto.
  Qed.
  Lemma fill3_self e s : fill3 s -> self1 g (inst e s).
  Proof.
    intros (d & a & rd & r1 & r2 & k & -> & H1 & _) t l l' Ht Hl Hl' Hl''. exfalso.
    assert (EX : d_exp (inst e (at3d d a rd r1 r2 (Leaf (a, x3 d k 0 0)))) = Leaf (tag e a, x3 d k 0 0)) by (destruct d; reflexivity).
    cbn [stmt_of s_rhs] in Hl'. rewrite EX in Hl'. cbn [emap leaves] in Hl'. destruct Hl' as [<-|[]].
    revert Hl''. apply selfdis_sound with (t := t); auto.
    - exists d. rewrite d_r_inst. assert (ER : t_r (at3d d a rd r1 r2 (Leaf (a, x3 d k 0 0))) d = rd) by (destruct d; reflexivity).
      rewrite ER. cbn [snd]. assert (EK : comp d (x3 d k 0 0) = k) by (destruct d; reflexivity). rewrite EK.
      destruct rd; auto.
  Qed.

  Lemma fine_slabs3 ep : fine3 ep -> slabs_ok g (expand_eq3 r (fst ep) (snd ep)).
  Proof.
    intros [H1 H2]. unfold shape3b in H1. apply andb_true_iff in H1. destruct H1 as [H1 _].
    unfold xv3 in H2. rewrite forallb_forall in H2.
    change (expand_eq3 r (fst ep) (snd ep)) with (expand ex (fst ep) (snd ep)). apply mslabs_ok; auto.
    intros x s Hin Hx Hi. apply fill3_slab. exact (exch_fills3 x s Hx (H2 x Hin) Hi).
  Qed.
  Lemma fine_self3 ep s : fine3 ep -> In (DDo s) (expand_eq3 r (fst ep) (snd ep)) -> self1 g s.
  Proof.
    intros [H1 H2] Hin. unfold shape3b in H1. apply andb_true_iff in H1. destruct H1 as [_ H1].
    unfold xv3 in H2. rewrite forallb_forall in H1, H2.
    unfold expand_eq3 in Hin. apply in_map_iff in Hin. destruct Hin as (t & E & Hin).
    apply in_flat_map in Hin. destruct Hin as (x & Hx & Hin).
    destruct (is_exch x) eqn:Ix.
    - destruct t as [s0|]; [|discriminate]. injection E as <-. apply fill3_self. exact (exch_fills3 x s0 Ix (H2 x Hx) Hin).
    - destruct x as [s0| | | | |]; try discriminate; cbn [expand3] in Hin; destruct Hin as [<-|[]]; [|discriminate].
      inversion E; subst. specialize (H1 _ Hx). cbn [selfb] in H1. rewrite forallb_forall in H1.
      intros t l l' Ht Hl Hl' Hl''. apply in_el in Hl. apply in_el in Hl''. destruct Hl as [A _], Hl'' as [A' _].
      cbn [stmt_of s_rhs] in Hl'. rewrite leaves_emap in Hl'. apply in_map_iff in Hl'. destruct Hl' as (ao & <- & Hao).
      rewrite leaves_inst in Hao. apply in_map_iff in Hao. destruct Hao as (bo & <- & Hbo).
      specialize (H1 bo Hbo). cbn [sh fst snd] in *. cbn [inst d_arr] in A, A'. apply tag_inj in A'.
      rewrite (proj2 (arr_eqb_eq _ _) A') in H1. cbn in H1. apply idx_eqb_eq in H1. unfold sh. cbn [fst snd]. rewrite H1, iadd_0_r, A'.
      destruct l as [la li]. cbn [fst snd] in *. congruence.
  Qed.

  Lemma run3_slabs nt : slabs_ok g (run_prog3 r nt).
  Proof.
    intros s Hin. rewrite run_expands3 in Hin. unfold expands3 in Hin. apply in_flat_map in Hin.
    destruct Hin as (ep & Hep & Hin). pose proof (run_fine3 nt) as F. rewrite Forall_forall in F.
    exact (fine_slabs3 ep (F ep Hep) s Hin).
  Qed.
  Lemma one_thread_ok3 nt : n = 1%nat -> dprog_ok g (run_prog3 r nt).
  Proof.
    intros N1. apply one_of_self; [cbn; exact N1|]. intros s Hin. rewrite run_expands3 in Hin.
    unfold expands3 in Hin. apply in_flat_map in Hin. destruct Hin as (ep & Hep & Hin).
    pose proof (run_fine3 nt) as F. rewrite Forall_forall in F. exact (fine_self3 ep s (F ep Hep) Hin).
  Qed.
End One.
