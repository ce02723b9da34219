(** 3D solver: any interleaving of the threads computes what the serial program computes. *)
From Coq Require Import ZArith List Bool Lia ZifyBool.
From Verif Require Import SpecIndex ModelIndex ProofsIndex ModelRun Lang ProofsLang ProofsDirty Stencil ProofsStencil
  FormCommon Form3D Solver1D Solver3D Macro ProofsMacro ProofsFill Foot1D Foot3D Proofs1D Proofs2D Proofs3D SpecThreads ProofsThread1D ProofsGeom3D
  ProofsValid ProofsValid1D Boxes ProofsBoxes Boxes3 ProofsBoxes3 ProofsValid2D ProofsOne2D ProofsValid3D ProofsRef3D ProofsOne3D ProofsFill3D.
Import ListNotations.
Local Open Scope Z_scope.

(** statements that do not read the undetermined corners *)
Definition tclean (s : tdesc) : bool :=
  forallb (fun ao => negb (dirty_arr (fst ao)) ||
    match t_r s DY with
    | Slab f a b l => (f - comp DY (snd ao) <=? 1) && (a - comp DY (snd ao) <=? 2) &&
                      (l + comp DY (snd ao) <=? 1) && (b + comp DY (snd ao) <=? 2)
    | _ => false
    end) (leaves (t_exp s)).
Definition mclean (p : list minstr) : bool := forallb (fun i => match i with MDo s => tclean s | _ => true end) p.

Lemma mclean_cov p p' : Forall2 mcov p p' -> mclean p' = true -> mclean p = true.
Proof.
  unfold mclean. induction 1 as [|i i' p p' Hi F IH]; cbn; auto. intros C.
  apply andb_true_iff in C. destruct C as [C1 C2]. rewrite IH by auto.
  destruct Hi as [s s' Hs|i]; [|rewrite C1; auto]. unfold tclean in *. rewrite (tcov_r _ _ DY Hs).
  rewrite (forallb_incl _ _ _ (proj2 (proj2 (proj2 (proj2 Hs)))) C1). reflexivity.
Qed.

Definition phases3_check (o : fl) : bool :=
  if fct o && negb (iga o) then true else
  if negb (fl_ok3 o) then true else
  forallb (fun b =>
    let up := fct_init3 o (canon3 o) (Psi b) ++ upstream3 o (canon3 o) (Psi b) (Psi (negb b)) in
    mphases_check DY up && mclean up &&
    forallb (fun k => forallb (fun l =>
      let co := corrective3 o (canon3 o) (Psi b) (Psi (negb b)) (fst k) (snd k) l in
      mphases_check DY co && mclean co) bools) kinds) bools.

Lemma phases3_check_all : all_fl9k phases3_check = true.
Proof. vm_cast_no_check (eq_refl true). Qed.

Definition inj3b (v : dim -> arr) : bool :=
  negb (arr_eqb (v DX) (v DY)) && negb (arr_eqb (v DX) (v DZ)) && negb (arr_eqb (v DY) (v DZ)).

Section Threads.
  Variables (r : run3) (n : nat).
  Hypothesis RK : run3_ok r.
  Hypothesis NF : fct (s3_o r) && negb (iga (s3_o r)) = false.
  Hypothesis Hn : (0 < n)%nat.
  Hypothesis Hs : Z.of_nat n <= s3_hi r DY - s3_lo r DY + 1.
  Notation g := (geom3 r n).
  Notation o := (s3_o r).
  Notation h := (s3_halo r).
  Notation ex := (expand3 (s3_o r) (s3_halo r) (s3_per r)).
  Let OK : geom_ok g := geom3_ok r n RK Hn Hs.
  Notation D := (dirt r).

  Definition pokD (ph : list desc) : Prop := exists G, phase_okD n (map (stmt_of g) ph) D D G.
  Definition dprogD (p : list dinstr) : Prop := forall ph, In ph (dphases p) -> pokD ph.

  Lemma dprogD_bar p q : dprogD p -> dprogD q -> dprogD (p ++ DBar :: q).
  Proof. intros Hp Hq ph H. rewrite dphases_app in H. apply in_app_iff in H. destruct H; auto. Qed.

  (** ** Ordinary phases *)
  Definition dclean (s : desc) : Prop := forall t l l', (t < n)%nat ->
    In l (s_el (stmt_of g s) t) -> In l' (leaves (s_rhs (stmt_of g s) l)) -> ~ D l'.

  Lemma pok_clean ph : phase_ok n (map (stmt_of g) ph) -> (forall s, In s ph -> dclean s) -> pokD ph.
  Proof.
    intros P C. exists (fun _ _ => True). constructor.
    - intros k j sk sj t t' l l' H0 H1 H2 H3 _ H4 H5 H6. split; auto. eapply (ok_reads _ _ P); [exact H0|exact H1|exact H2|exact H3|exact H4|exact H5|exact H6].
    - intros k sk t l l' Ht Hk _ Hl Hl'. left. rewrite nth_error_map in Hk. destruct (nth_error ph k) as [s|] eqn:E; [|discriminate].
      inversion Hk; subst. eapply (C s); eauto. eapply nth_error_In; eauto.
    - exact (ok_writes _ _ P).
    - exact (ok_nodup _ _ P).
    - auto.
    - auto.
  Qed.

  Lemma tclean_sound e s : tclean s = true -> dclean (inst e s).
  Proof.
    intros C t l l' Ht Hl Hl' (T0 & DA & Y). unfold tclean in C. rewrite forallb_forall in C.
    cbn [stmt_of s_rhs] in Hl'. rewrite leaves_emap in Hl'. apply in_map_iff in Hl'. destruct Hl' as (ao & <- & Hao).
    rewrite leaves_inst in Hao. apply in_map_iff in Hao. destruct Hao as (bo & <- & Hbo).
    cbn [sh fst snd] in *. specialize (C bo Hbo).
    assert (DB : dirty_arr (fst bo) = true) by (destruct (fst bo); exact DA). rewrite DB in C. cbn [negb orb] in C.
    apply in_el in Hl. destruct Hl as [_ Hl]. specialize (Hl DY).
    change (drng g (inst e s) t DY) with (trng (cut1 (s3_lo r DY) (s3_hi r DY) n) (d_r (inst e s) DY) t) in Hl.
    rewrite d_r_inst in Hl. unfold sh in Y. cbn [snd] in Y. rewrite comp_iadd in Y.
    destruct (t_r s DY) as [f a b k| |]; try discriminate.
    cbn [trng] in Hl. unfold in_rng in Hl. unfold first, last in Hl. cbn [fst snd] in Hl.
    pose proof (cut1_ok (s3_lo r DY) (s3_hi r DY) n Hn Hs) as CK.
    pose proof (cut1_lo (s3_lo r DY) (s3_hi r DY) n Hn) as CL. pose proof (cut1_hi (s3_lo r DY) (s3_hi r DY) n Hn Hs) as CH.
    pose proof (cut_lo _ CK t Ht) as C1. pose proof (cut_hi _ CK t Ht) as C2.
    pose proof (cut_lo_S _ CK t) as C3. pose proof (cut_hi_S _ CK t) as C4. rewrite CL in C1, C3. rewrite CH in C2, C4.
    change (c_n (cut1 (s3_lo r DY) (s3_hi r DY) n)) with n in *. unfold first, last in C1, C2, C3, C4.
    clear - C Hl Y C1 C2 C3 C4 Ht Hn.
    destruct (Nat.eqb_spec t 0) as [E1|E1], (Nat.eqb_spec t (n - 1)) as [E2|E2];
      try specialize (C3 ltac:(lia)); try specialize (C4 ltac:(lia)); lia.
  Qed.

  (** ** Programs with exchanges *)
  Definition exchD (e : nat) (x : minstr) : Prop :=
    exists X, ex x = TBar :: X ++ [TBar] /\ dprogD (map (inst_i e) X).

  Lemma check_pok e ph : tphase_check DY ph = true -> forallb tclean ph = true -> pokD (map (inst e) ph).
  Proof.
    intros C1 C2. apply pok_clean.
    - change n with (g_n g) at 1. apply phase_check_sound; auto. rewrite phase_check_inst. exact C1.
    - intros s Hin. apply in_map_iff in Hin. destruct Hin as (t & <- & Hin). apply tclean_sound.
      rewrite forallb_forall in C2. auto.
  Qed.

  Lemma mprogD e p :
    (forall x, In x p -> is_exch x = true -> exchD e x) ->
    mphases_check DY p = true -> mclean p = true -> dprogD (expand ex e p).
  Proof.
    intros HX.
    enough (G : forall pre, forallb (tphase_check DY)
                (match mphases p with ph :: rest => (pre ++ ph) :: rest | [] => [] end) = true ->
                forallb tclean pre = true -> mclean p = true ->
              dprogD (map DDo (map (inst e) pre) ++ expand ex e p)).
    { intros C CL. apply (G []); auto. unfold mphases_check in C.
      destruct (mphases_nonempty p) as (ph & rest & E). rewrite E in *. exact C. }
    induction p as [|i p IH]; intros pre C CP CL.
    - cbn in C. unfold dprogD. intros ph H. cbn [expand flat_map map] in H. rewrite (dphases_pre _ _ [] []) in H by reflexivity.
      destruct H as [<-|[]]. rewrite app_nil_r in *. apply check_pok; auto. lia.
    - destruct (mphases_nonempty p) as (ph & rest & E).
      assert (HX' : forall x, In x p -> is_exch x = true -> exchD e x) by (intros; apply HX; cbn; auto).
      specialize (IH HX'). rewrite E in IH. cbn [mclean forallb] in CL. apply andb_true_iff in CL. destruct CL as [CI CL].
      fold (mclean p) in CL.
      change (expand ex e (i :: p)) with (map (inst_i e) (ex i ++ flat_map ex p)). rewrite map_app.
      fold (expand ex e p).
      destruct (is_exch i) eqn:Ei.
      + destruct (HX i (or_introl eq_refl) Ei) as (X & EX & HXok). rewrite EX.
        assert (C' : forallb (tphase_check DY) (pre :: ph :: rest) = true).
        { destruct i; cbn in Ei; try discriminate; cbn [mphases] in C; rewrite E, app_nil_r in C; exact C. }
        cbn [forallb] in C'. apply andb_true_iff in C'. destruct C' as [C1 C2].
        cbn [map inst_i]. rewrite map_app. cbn [map inst_i].
        rewrite <- app_comm_cons, <- app_assoc. cbn [app].
        intros ph' Hin. rewrite dphases_do, dphases_app in Hin. destruct Hin as [<-|Hin].
        * apply check_pok; auto.
        * apply in_app_iff in Hin. destruct Hin as [Hin|Hin]; [apply HXok; auto|].
          apply (IH []); auto.
      + destruct i as [s| | | | |]; cbn in Ei; try discriminate.
        * cbn [expand3 map inst_i app]. cbn [mphases] in C. rewrite E in C.
          specialize (IH (pre ++ [s])). rewrite map_app, map_app in IH. rewrite <- !app_assoc in IH.
          cbn [map app] in IH. apply IH; auto. rewrite forallb_app. cbn [forallb]. rewrite CP, CI. reflexivity.
        * cbn [expand3 map inst_i app]. cbn [mphases] in C. rewrite E, app_nil_r in C.
          cbn [forallb] in C. apply andb_true_iff in C. destruct C as [C1 C2].
          intros ph' Hin. rewrite dphases_do in Hin. destruct Hin as [<-|Hin].
          -- apply check_pok; auto.
          -- apply (IH []); auto.
  Qed.

  (** ** The exchanges *)
  Notation cs l d a r1 r2 := {| fi_d := d; fi_a := a; fi_l := l; fi_c := true; fi_1 := r1; fi_2 := r2 |}.
  Notation cv l d a r1 r2 := {| fi_d := d; fi_a := a; fi_l := l; fi_c := false; fi_1 := r1; fi_2 := r2 |}.
  Definition xfills (x : minstr) : list (list fil) :=
    match x with
    | MXS a e =>
        [ [ cs true DY a (Ext e e) (Ext e e); cs false DY a (Ext e e) (Ext e e); cs false DX a (Own e e) (Ext e e) ];
          [ cs true DX a (Own e e) (Ext e e) ];
          [ cs true DZ a (Ext e e) (Own e e); cs false DZ a (Ext e e) (Own e e) ] ]
    | MXVA v _ =>
        [ [ cv false DX (v DX) rI rI ]; [ cv true DX (v DX) rI rI ];
          [ cv true DY (v DY) rI rI; cv false DY (v DY) rI rI; cv true DZ (v DZ) rI rI; cv false DZ (v DZ) rI rI ] ]
    | MXVN v e =>
        let e1 := e + 1 in
        let ys := [ cs true DY (v DX) (Ext e1 e1) (Ext e1 e); cs false DY (v DX) (Ext e1 e1) (Ext e1 e) ] in
        let zs := [ cs true DZ (v DX) (Ext e1 e) (Own e1 e1); cs false DZ (v DX) (Ext e1 e) (Own e1 e1);
                    cs false DX (v DY) (Own e1 e) (Ext e1 e1) ] in
        (if div3 o || div3dt o then [ ys; zs ] else [ ys ++ zs ]) ++
        [ [ cs true DX (v DY) (Own e1 e) (Ext e1 e1) ];
          [ cs true DZ (v DY) (Ext e1 e1) (Own e1 e); cs false DZ (v DY) (Ext e1 e1) (Own e1 e);
            cs false DX (v DZ) (Own e1 e1) (Ext e1 e) ];
          [ cs true DX (v DZ) (Own e1 e1) (Ext e1 e) ];
          [ cs true DY (v DZ) (Ext e1 e) (Ext e1 e1); cs false DY (v DZ) (Ext e1 e) (Ext e1 e1) ] ]
    | MXF _ => [ []; []; [] ]
    | _ => []
    end.
  Definition phx (l : list fil) : list tinstr := map TDo (map (td r) l) ++ [TBar].
  Lemma expand_xfills x : is_exch x = true -> ex x = TBar :: flat_map phx (xfills x).
  Proof.
    destruct x; cbn [is_exch]; try discriminate; intros _; cbn [expand3 xfills]; try reflexivity.
    destruct (div3 o || div3dt o); reflexivity.
  Qed.

  Definition xok3 (x : minstr) : bool :=
    match x with
    | MXS a e => (halo o <=? e) && negb (dirty_arr a)
    | MXVA v _ => inj3b v
    | MXVN v e => inj3b v && (0 <=? e) && (if dirty_arr (v DX) then e =? 0 else halo o <=? e + 1) &&
                  negb (dirty_arr (v DY)) && negb (dirty_arr (v DZ))
    | _ => true
    end.

  Lemma inj3_ne v : inj3b v = true -> v DX <> v DY /\ v DX <> v DZ /\ v DY <> v DZ.
  Proof.
    unfold inj3b. intros H. apply andb_true_iff in H. destruct H as [H C]. apply andb_true_iff in H. destruct H as [A B].
    assert (NE : forall a b, negb (arr_eqb a b) = true -> a <> b).
    { intros a b H E. subst. rewrite (proj2 (arr_eqb_eq b b) eq_refl) in H. discriminate. }
    auto.
  Qed.

  Ltac cmp := intros E0; cbn [fi_a fi_d fi_c fi_y fi_1 fi_2] in *;
    try (exfalso; congruence);
    first [ left; split; reflexivity
          | right; split; [reflexivity|]; split; [discriminate|]; do 2 eexists; split; [reflexivity|] ].
  Ltac lw := split; [first [left; reflexivity | right; do 2 eexists; reflexivity]|];
    cbn [fi_a fi_d fi_y fi_1 fi_2]; intros HD HA; first [ exfalso; congruence | do 2 eexists; split; [reflexivity|] ].

  Lemma xfills_ok x : is_exch x = true -> xok3 x = true ->
    Forall (fun l => Forall low l /\ ForallOrdPairs (compat r) l) (xfills x).
  Proof.
    clear NF. intros Hx Hv.
    destruct x as [s| |a e|v ad|v e|v]; cbn [is_exch] in Hx; try discriminate; cbn [xok3] in Hv; cbn [xfills].
    - assert (Hd : dirty_arr a = false) by (destruct (dirty_arr a); [rewrite andb_false_r in Hv; discriminate|reflexivity]).
      assert (He : h <= e) by (change h with (halo o); lia). clear Hv.
      repeat apply Forall_cons; try apply Forall_nil;
        (split; [repeat apply Forall_cons; try apply Forall_nil; lw; congruence
                |repeat first [apply FOP_nil | apply FOP_cons; [repeat apply Forall_cons; try apply Forall_nil; cmp; left; lia|]]]).
    - destruct (inj3_ne v Hv) as (N1 & N2 & N3).
      repeat apply Forall_cons; try apply Forall_nil;
        (split; [repeat apply Forall_cons; try apply Forall_nil; lw; lia
                |repeat first [apply FOP_nil | apply FOP_cons; [repeat apply Forall_cons; try apply Forall_nil; cmp; left; lia|]]]).
    - apply andb_true_iff in Hv. destruct Hv as [Hv D3]. apply andb_true_iff in Hv. destruct Hv as [Hv D2].
      apply andb_true_iff in Hv. destruct Hv as [Hv HE]. apply andb_true_iff in Hv. destruct Hv as [Hv H0].
      destruct (inj3_ne v Hv) as (N1 & N2 & N3). apply negb_true_iff in D2, D3. clear Hv.
      assert (HE' : (h <= e + 1 /\ dirty_arr (v DX) = false) \/ (dirty_arr (v DX) = true /\ e = 0)).
      { change h with (halo o). destruct (dirty_arr (v DX)); [right|left]; lia. }
      clear HE. cbv zeta.
      assert (T : Forall (fun l => Forall low l /\ ForallOrdPairs (compat r) l)
        [ [ cs true DX (v DY) (Own (e+1) e) (Ext (e+1) (e+1)) ];
          [ cs true DZ (v DY) (Ext (e+1) (e+1)) (Own (e+1) e); cs false DZ (v DY) (Ext (e+1) (e+1)) (Own (e+1) e);
            cs false DX (v DZ) (Own (e+1) (e+1)) (Ext (e+1) e) ];
          [ cs true DX (v DZ) (Own (e+1) (e+1)) (Ext (e+1) e) ];
          [ cs true DY (v DZ) (Ext (e+1) e) (Ext (e+1) (e+1)); cs false DY (v DZ) (Ext (e+1) e) (Ext (e+1) (e+1)) ] ]).
      { repeat apply Forall_cons; try apply Forall_nil;
        (split; [repeat apply Forall_cons; try apply Forall_nil; lw; lia
                |repeat first [apply FOP_nil | apply FOP_cons; [repeat apply Forall_cons; try apply Forall_nil; cmp; left; lia|]]]). }
      apply Forall_app. split; [|exact T]. clear T.
      assert (P : forall p q : Z, p = e + 1 -> q = e + 1 -> (h <= p /\ h <= q) \/ (dirty_arr (v DX) = true /\ p = 1 /\ q = 1))
        by (intros; destruct HE' as [[]|[]]; [left|right]; repeat split; auto; lia).
      assert (Q : dirty_arr (v DX) = true -> e + 1 <= 1) by (intros HD; destruct HE' as [[_ E1]|[_ E1]]; [congruence|lia]).
      destruct (div3 o || div3dt o); cbn [app]; repeat apply Forall_cons; try apply Forall_nil;
        (split; [repeat apply Forall_cons; try apply Forall_nil; lw; specialize (Q HA); lia
                |repeat first [apply FOP_nil | apply FOP_cons; [repeat apply Forall_cons; try apply Forall_nil; cmp; apply P; reflexivity|]]]).
    - repeat apply Forall_cons; try apply Forall_nil; split; constructor.
  Qed.

  Lemma fills_progD e (L : list (list fil)) :
    Forall (fun l => Forall low l /\ ForallOrdPairs (compat r) l) L ->
    dprogD (map (inst_i e) (flat_map phx L)).
  Proof.
    clear NF.
    assert (M : forall l, map (inst_i e) (map TDo l) = map DDo (map (inst e) l)).
    { intros l. rewrite !map_map. reflexivity. }
    assert (F : forall l, Forall low l /\ ForallOrdPairs (compat r) l -> pokD (map (inst e) (map (td r) l))).
    { intros l [H1 H2]. eexists. apply (fills_okD r n RK Hn Hs e l H1 H2). }
    induction 1 as [|l L H _ IH].
    - intros p [<-|[]]. apply (F []). split; constructor.
    - cbn [flat_map]. rewrite !map_app. unfold phx at 1. rewrite map_app, M. cbn [map inst_i]. rewrite <- app_assoc. cbn [app].
      intros p Hin. rewrite dphases_do in Hin. destruct Hin as [<-|Hin]; [apply F; auto|apply IH; exact Hin].
  Qed.

  Lemma exchD_ok e x : is_exch x = true -> xok3 x = true -> exchD e x.
  Proof.
    clear NF. intros Hx Hv. unfold exchD. rewrite (expand_xfills x Hx).
    destruct (exists_last (l := xfills x)) as (L & l & E).
    { destruct x; cbn in Hx |- *; try congruence. destruct (div3 o || div3dt o); discriminate. }
    exists (flat_map phx L ++ map TDo (map (td r) l)). split.
    - rewrite E, flat_map_app. cbn [flat_map]. unfold phx at 2. rewrite app_nil_r, !app_assoc. reflexivity.
    - assert (DD := fills_progD e (L ++ [l])). rewrite <- E in DD. specialize (DD (xfills_ok x Hx Hv)).
      rewrite E, flat_map_app in DD. cbn [flat_map] in DD. unfold phx at 2 in DD. rewrite app_nil_r, app_assoc, map_app in DD. cbn [map inst_i] in DD.
      intros p Hin. apply DD. rewrite dphases_app. cbn. apply in_app_iff. left. exact Hin.
  Qed.

  (** ** Parts of a step *)
  Definition good3 (p : list minstr) : Prop :=
    (mphases_check DY p = true /\ mclean p = true) /\ forallb xok3 p = true.

  Lemma xok_do l : forallb xok3 (map MDo l) = true.
  Proof. induction l; auto. Qed.
  Lemma xok_sum F psi psi' v : forallb xok3 (sum3 o F psi psi' v) = true.
  Proof. unfold sum3. destruct (khn o); [apply xok_do|reflexivity]. Qed.
  Lemma xok_up F psi psi' : forallb xok3 (fct_init3 o F psi ++ upstream3 o F psi psi') = true.
  Proof. clear NF. unfold fct_init3, upstream3. rewrite !forallb_app, xok_sum. destruct (fct o); reflexivity. Qed.
  Lemma xok_co F psi psi' unco c last : forallb xok3 (corrective3 o F psi psi' unco (Cor c) last) = true.
  Proof.
    clear NF. unfold corrective3, fct_adjust3. cbv zeta.
    destruct (div3dt o), (fct o), last, (dfl o), (iga o), c; cbn [negb andb app];
      cbn [forallb faces3 app]; rewrite ?forallb_app, ?xok_sum; cbn [forallb faces3 flux3 app]; rewrite ?xok_sum; reflexivity.
  Qed.

  Lemma checked3 (b : bool) :
    let up := fct_init3 o (s3_forms r) (Psi b) ++ upstream3 o (s3_forms r) (Psi b) (Psi (negb b)) in
    good3 up /\
    forall j last, (0 < j)%nat ->
      let co := corrective3 o (s3_forms r) (Psi b) (Psi (negb b)) (GC_unco j) (GC_corr j) last in
      good3 co.
  Proof.
    pose proof (all_fl9k_sound _ phases3_check_all o) as C.
    assert (EQ : phases3_check (keep2 o) = true -> phases3_check o = true).
    { intros H. unfold phases3_check in *.
      assert (E1 : fct (keep2 o) = fct o) by reflexivity. assert (E2 : iga (keep2 o) = iga o) by reflexivity.
      rewrite E1, E2 in H. rewrite NF in H |- *. pose proof (ok3_fl r RK) as FK.
      assert (FK' : fl_ok3 (keep2 o) = true).
      { revert FK. unfold fl_ok3, fl_ok, keep2. destruct o as [fc ab to pf np ig nu df kh d2 d3 dt fo]. cbn.
        destruct ab, ig, d2, d3, dt, to, df; cbn; auto; discriminate. }
      rewrite FK' in H. rewrite FK. exact H. }
    specialize (EQ C). clear C. rename EQ into C.
    unfold phases3_check in C. rewrite NF, (ok3_fl r RK) in C. cbn [negb] in C. rewrite forallb_forall in C.
    specialize (C b (in_bools b)). cbv zeta in C.
    apply andb_true_iff in C. destruct C as [C1 C2]. apply andb_true_iff in C1. destruct C1 as [C1 C3].
    pose proof (forms3_cov o (s3_sp r) (s3_tp r) (ok3_fl _ RK)) as FC.
    cbv zeta. split.
    - assert (CV := Forall2_app (fct_init3_cov o _ _ FC b) (upstream3_cov o _ _ FC b (Psi (negb b)))).
      split; [|apply xok_up].
      split; [eapply mphases_check_cov; [exact CV|exact C1]|eapply mclean_cov; [exact CV|exact C3]].
    - intros j last Hj. rewrite forallb_forall in C2. specialize (C2 _ (kinds_of j Hj)).
      rewrite forallb_forall in C2. specialize (C2 last (in_bools last)). cbn [fst snd] in C2.
      apply andb_true_iff in C2. destruct C2 as [C4 C5].
      assert (CV : Forall2 mcov
        (corrective3 o (s3_forms r) (Psi b) (Psi (negb b)) (GC_unco j) (GC_corr j) last)
        (corrective3 o (canon3 o) (Psi b) (Psi (negb b)) (GC_unco j) (GC_corr j) last)).
      { pose proof (kinds_of j Hj) as K. apply corrective3_cov; [exact FC| |];
          unfold kinds in K; cbn [In] in K; unfold vecs; cbn [In];
          destruct K as [K|[K|[K|[]]]]; inversion K; auto. }
      split; [|unfold GC_corr; apply xok_co].
      split; [eapply mphases_check_cov; [exact CV|exact C4]|eapply mclean_cov; [exact CV|exact C5]].
  Qed.

  Lemma good3_app p x q : match x with MDo _ => False | _ => True end -> xok3 x = true ->
    good3 p -> good3 q -> good3 (p ++ x :: q).
  Proof.
    intros Hx Hv [[P1 P2] P3] [[Q1 Q2] Q3]. split; [split|].
    - unfold mphases_check in *. rewrite mphases_app by auto. rewrite forallb_app. lia.
    - unfold mclean in *. rewrite forallb_app. cbn [forallb]. destruct x; try contradiction; rewrite P2, Q2; reflexivity.
    - rewrite forallb_app. cbn [forallb]. rewrite P3, Hv, Q3. reflexivity.
  Qed.
  Lemma good3_cons x q : match x with MDo _ => False | _ => True end -> xok3 x = true -> good3 q -> good3 (x :: q).
  Proof. intros Hx Hv Hq. apply (good3_app [] x q); auto. repeat split; reflexivity. Qed.

  Lemma good3_expand e p : good3 p -> dprogD (expand ex e p).
  Proof.
    intros [[P1 P2] P3]. rewrite forallb_forall in P3. apply mprogD; auto. intros x Hin Hx. apply exchD_ok; auto.
  Qed.

  Lemma halo_xok b : xok3 (MXS (Psi b) (halo o)) = true.
  Proof. cbn. rewrite Z.leb_refl. reflexivity. Qed.

  Lemma good3_passes lasteq b nit j more p : (0 < j)%nat -> good3 p ->
    good3 (p ++ passes3 o (s3_forms r) nit lasteq b j more).
  Proof.
    revert j p. induction more as [|m IH]; intros j p Hj Hp; cbn [passes3].
    - rewrite app_nil_r. auto.
    - set (co := corrective3 _ _ _ _ _ _ _).
      assert (Hco : good3 co).
      { destruct (checked3 (lev b j)) as [_ HC]. unfold co. rewrite lev_S. apply HC; auto. }
      rewrite !app_assoc. apply IH; auto. rewrite <- !app_assoc. cbn [app].
      destruct lasteq; cbn [cyc_bars app].
      + apply good3_app; [exact I|reflexivity|auto|]. apply good3_cons; [exact I|reflexivity|].
        apply good3_cons; [exact I|apply halo_xok|]. exact Hco.
      + apply good3_app; auto using halo_xok.
  Qed.

  Lemma good3_mid k lasteq b : good3 (mid3 r k lasteq b).
  Proof.
    unfold mid3. rewrite app_assoc. apply good3_passes; [lia|].
    replace (lev b 1) with (negb b) by (unfold lev; destruct b; reflexivity). apply checked3.
  Qed.

  Lemma scale3_light e a k : exists l, expand ex e (scale3 a k) = map DDo l /\ Forall (light DY) l.
  Proof.
    unfold scale3. destruct (k =? 0); [exists []; split; [reflexivity|constructor]|].
    destruct (0 <? k); cbn; eexists [_]; (split; [reflexivity|]);
      repeat constructor; cbn; intros ao H; intuition subst; auto.
  Qed.

  Lemma light_dclean s : light DY s -> dclean s.
  Proof.
    intros [R L] t l l' Ht Hl Hl' (_ & _ & Y). cbn [stmt_of s_rhs] in Hl'. rewrite leaves_emap in Hl'.
    apply in_map_iff in Hl'. destruct Hl' as (ao & <- & Hao). rewrite <- surjective_pairing in Y || idtac.
    unfold sh in Y. cbn [snd] in Y. rewrite (L ao Hao), iadd_0_r in Y. apply in_el in Hl. destruct Hl as [_ Hl].
    specialize (Hl DY). change (drng g s t DY) with (trng (cut1 (s3_lo r DY) (s3_hi r DY) n) (d_r s DY) t) in Hl.
    rewrite R in Hl. cbn [Ext trng] in Hl. unfold in_rng in Hl. unfold first, last in Hl. cbn [fst snd] in Hl.
    pose proof (cut1_ok (s3_lo r DY) (s3_hi r DY) n Hn Hs) as CK.
    pose proof (cut1_lo (s3_lo r DY) (s3_hi r DY) n Hn) as CL. pose proof (cut1_hi (s3_lo r DY) (s3_hi r DY) n Hn Hs) as CH.
    pose proof (cut_lo _ CK t Ht) as C1. pose proof (cut_hi _ CK t Ht) as C2. rewrite CL in C1. rewrite CH in C2.
    unfold first, last in C1, C2. destruct (Nat.eqb t 0), (Nat.eqb t (c_n (cut1 (s3_lo r DY) (s3_hi r DY) n) - 1)); lia.
  Qed.

  (** a continuation that tolerates light statements in front of it *)
  Definition cont3 (q : list dinstr) : Prop := forall l, Forall (light DY) l -> dprogD (lights l ++ q).
  Lemma cont3_bar q : dprogD q -> cont3 (DBar :: q).
  Proof.
    intros Hq l Hl. apply dprogD_bar; auto.
    intros ph Hin. unfold lights in Hin. rewrite <- (app_nil_r (map DDo l)) in Hin.
    rewrite (dphases_pre _ _ [] []) in Hin by reflexivity. destruct Hin as [<-|[]].
    rewrite app_nil_r. apply pok_clean; [apply (light_ok g); auto|].
    rewrite Forall_forall in Hl. intros s Hin. apply light_dclean; auto.
  Qed.
  Lemma cont3_ok q : cont3 q -> dprogD q.
  Proof. intros H. apply (H []). constructor. Qed.
  Lemma cont3_lights l q : Forall (light DY) l -> cont3 q -> cont3 (lights l ++ q).
  Proof.
    intros Hl DD l' Hl'. rewrite app_assoc. unfold lights. rewrite <- map_app. apply DD. apply Forall_app; auto.
  Qed.
  Lemma cont3_bar' q : cont3 q -> cont3 (DBar :: q).
  Proof. intros H. apply cont3_bar; apply cont3_ok; auto. Qed.

  Lemma cont3_body e k exq lasteq b q : cont3 q ->
    cont3 (expand ex e (body3 o (s3_forms r) (s3_nit r) k exq lasteq b) ++ q).
  Proof.
    intros Hq. rewrite body3_split. rewrite (expand_app ex e (scale3 _ _)).
    destruct (scale3_light e (Psi b) exq) as (l1 & -> & L1). rewrite <- app_assoc. apply cont3_lights; auto.
    change (MXS (Psi b) (halo o) :: mid3 r k lasteq b ++ (if lasteq then [MBar; MBar] else [MBar]) ++ scale3 (Psi (lev b k)) (- exq))
      with (([MXS (Psi b) (halo o)] ++ mid3 r k lasteq b ++ (if lasteq then [MBar; MBar] else [MBar]) ++ scale3 (Psi (lev b k)) (- exq))).
    rewrite !(expand_app ex e). rewrite <- !app_assoc.
    destruct (scale3_light e (Psi (lev b k)) (- exq)) as (l2 & -> & L2).
    set (tail := map DDo l2 ++ q).
    assert (Ht : cont3 tail) by (apply cont3_lights; auto).
    destruct (exchD_ok e (MXS (Psi b) (halo o)) eq_refl (halo_xok _)) as (X & EX & HX).
    assert (E1 : expand ex e [MXS (Psi b) (halo o)] = DBar :: map (inst_i e) X ++ [DBar]).
    { unfold expand. cbn [flat_map]. rewrite app_nil_r, EX. cbn [map inst_i]. rewrite map_app. reflexivity. }
    rewrite E1. cbn [app]. rewrite <- app_assoc. cbn [app].
    pose proof (good3_expand e (mid3 r k lasteq b) (good3_mid k lasteq b)) as A.
    apply cont3_bar. apply dprogD_bar; auto. destruct lasteq; cbn [expand flat_map expand3 app map inst_i];
        apply dprogD_bar; auto; apply cont3_ok; auto. apply cont3_bar'. auto.
  Qed.

  Lemma cont3_eqs k es lv q : cont3 q -> cont3 (eqs_prog3 r k es lv ++ q).
  Proof.
    revert lv. induction es as [|e es IH]; intros lv Hq; cbn [eqs_prog3 app]; auto.
    rewrite <- app_assoc. apply cont3_body. auto.
  Qed.

  Lemma cont3_steps nt ts lv q : cont3 q -> cont3 (steps_prog3 r nt ts lv ++ q).
  Proof.
    revert ts lv. induction nt as [|m IH]; intros ts lv Hq; cbn [steps_prog3 app]; auto.
    rewrite <- app_assoc. apply cont3_bar'. apply cont3_eqs. auto.
  Qed.

  Lemma ante3_bar : exists p, ante3 o = p ++ [MBar] /\ good3 p.
  Proof.
    unfold ante3. exists ([MBar; MXVA GC false] ++ (if nug o then [MXS Gf (halo o)] else []) ++
      [MXVN GC (halo o - 1)] ++
      (if div3dt o || div3 o then
       faces3 NdtGC (fun _ => q 0) ++ faces3 NdttGC (fun _ => q 0) ++
       [ MXVA NdtGC false; MXVA NdttGC false;
         MXVN NdtGC (halo o - 1); MXVN NdttGC (halo o - 1) ] else [])). split.
    - rewrite <- !app_assoc. reflexivity.
    - assert (H1 : (0 <=? halo o - 1) = true) by (pose proof (halo_pos o); lia).
      assert (H2 : (halo o <=? halo o - 1 + 1) = true) by lia.
      assert (H3 : (halo o <=? halo o) = true) by lia.
      repeat split; destruct (nug o), (div3dt o || div3 o); try reflexivity;
        cbn [app forallb xok3 inj3b arr_eqb dim_eqb negb andb dirty_arr faces3]; rewrite ?H1, ?H2, ?H3; reflexivity.
  Qed.

  Lemma run3_okD nt : dprogD (run_prog3 r nt).
  Proof.
    unfold run_prog3. destruct ante3_bar as (p & -> & Hp).
    change (expand_eq3 r 0 (p ++ [MBar])) with (expand ex 0 (p ++ [MBar])).
    rewrite (expand_app ex). change (expand ex 0 [MBar]) with [DBar]. rewrite <- app_assoc. cbn [app].
    pose proof (good3_expand 0 p Hp) as A.
    assert (Q : cont3 (steps_prog3 r nt 0 (fun _ => false) ++ [DBar])).
    { apply cont3_steps. apply cont3_bar.
      intros ph [<-|[]]. apply pok_clean; [apply (light_ok g); auto|intros s []]. }
    apply dprogD_bar; auto; apply cont3_ok; auto.
  Qed.
End Threads.

(** ** Runs *)
Definition settled3 (r : run3) (n : nat) : Prop := n = 1%nat \/ fct (s3_o r) && negb (iga (s3_o r)) = false.

Lemma run3_prog_okD r n nt : run3_ok r -> (0 < n)%nat -> Z.of_nat n <= s3_hi r DY - s3_lo r DY + 1 -> settled3 r n ->
  exists D : loc -> Prop, (forall l, D l -> dirt r l) /\ prog_okD n (program3 r n nt) D D.
Proof.
  intros RK Hn Hs [H|H].
  - exists none. split; [intros l []|]. apply phases_ok_D. change n with (g_n (geom3 r n)) at 1.
    apply prog_ok_of. apply (one_thread_ok3 r RK n nt H).
  - exists (dirt r). split; [auto|]. pose proof (run3_okD r n RK H Hn Hs nt) as A.
    unfold prog_okD, program3. rewrite phases_prog_of. unfold dprogD, pokD in A. revert A.
    induction (dphases (run_prog3 r nt)) as [|ph L IH]; intros A; [constructor|]. cbn [map].
    destruct (A ph (or_introl eq_refl)) as (G & P). econstructor; [exact P|]. apply IH. intros q Hq. apply A. right. exact Hq.
Qed.

Lemma can_end_run3 r n nt ar (m m' : loc -> car ar) : run3_ok r -> (0 < n)%nat ->
  Z.of_nat n <= s3_hi r DY - s3_lo r DY + 1 -> settled3 r n ->
  can_end loc_eq_dec ar n (program3 r n nt) m m' ->
  forall l, ~ dirt r l -> m' l = run_prog loc_eq_dec ar n (program3 r n nt) m l.
Proof.
  intros RK Hn Hs T (c & St & F) l ND. destruct (run3_prog_okD r n nt RK Hn Hs T) as (D & HD & P).
  apply (dirty_deterministic loc_eq_dec ar n (program3 r n nt) D D m m' c); auto.
Qed.

Lemma finish3 r n nt ar (m : loc -> car ar) : run3_ok r -> (0 < n)%nat ->
  Z.of_nat n <= s3_hi r DY - s3_lo r DY + 1 -> settled3 r n ->
  (exists m', can_end loc_eq_dec ar n (program3 r n nt) m m') /\
  never_stuck loc_eq_dec ar n (program3 r n nt) m.
Proof.
  intros RK Hn Hs T. destruct (run3_prog_okD r n nt RK Hn Hs T) as (D & HD & P). split.
  - destruct (dirty_completes loc_eq_dec ar n (program3 r n nt) D D m Hn P) as ([m' c] & St & F).
    exists m', c. auto.
  - intros c St. eapply dirty_progress; eauto.
Qed.

Lemma serial_geom3 r n : (0 < n)%nat -> Z.of_nat n <= s3_hi r DY - s3_lo r DY + 1 ->
  serial (geom3 r n) = {| g_dd := DY; g_cut := whole (s3_lo r DY) (s3_hi r DY); g_grid := g_grid (geom3 r 1) |}.
Proof.
  intros. unfold serial, geom3; cbn [g_dd g_cut g_grid]. rewrite cut1_lo, cut1_hi by auto. reflexivity.
Qed.

Lemma threads_agree3 r n1 n2 nt ar (m m1 m2 : loc -> car ar) : run3_ok r ->
  (0 < n1)%nat -> Z.of_nat n1 <= s3_hi r DY - s3_lo r DY + 1 -> settled3 r n1 ->
  (0 < n2)%nat -> Z.of_nat n2 <= s3_hi r DY - s3_lo r DY + 1 -> settled3 r n2 ->
  can_end loc_eq_dec ar n1 (program3 r n1 nt) m m1 ->
  can_end loc_eq_dec ar n2 (program3 r n2 nt) m m2 ->
  forall l, ~ dirt r l -> m1 l = m2 l.
Proof.
  intros RK P1 S1 T1 P2 S2 T2 E1 E2 l ND.
  rewrite (can_end_run3 r n1 nt ar m m1 RK P1 S1 T1 E1 l ND).
  rewrite (can_end_run3 r n2 nt ar m m2 RK P2 S2 T2 E2 l ND).
  change n1 with (g_n (geom3 r n1)) at 1. change n2 with (g_n (geom3 r n2)) at 1. unfold program3.
  rewrite (run_serial (geom3 r n1) ar _ (geom3_ok r n1 RK P1 S1) (run3_slabs r RK n1 nt) m m l ltac:(auto)).
  rewrite (run_serial (geom3 r n2) ar _ (geom3_ok r n2 RK P2 S2) (run3_slabs r RK n2 nt) m m l ltac:(auto)).
  rewrite !serial_geom3; auto.
Qed.
