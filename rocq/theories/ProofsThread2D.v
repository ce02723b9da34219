(** 2D solver: any interleaving of the threads computes what the serial program computes. *)
From Coq Require Import ZArith List Bool Lia ZifyBool.
From Verif Require Import SpecIndex ModelIndex ProofsIndex ModelRun Lang ProofsLang Stencil ProofsStencil
  FormCommon Form2D Solver1D Solver2D Macro ProofsMacro ProofsFill Foot1D Foot2D Proofs1D Proofs2D SpecThreads
  ProofsThread1D.
Import ListNotations.
Local Open Scope Z_scope.

(** ** The decomposition used by the library *)
Definition geom2 (r : run2) (n : nat) : geom :=
  {| g_dd := DX; g_cut := cut1 (s_lo r DX) (s_hi r DX) n;
     g_grid := fun d => match d with DY => (s_lo r DY, s_hi r DY) | _ => (0, 0) end |}.

(** ** Well-formedness of the run *)
Record run2_ok (r : run2) : Prop := {
  ok2_fl : fl_ok2 (s_o r) = true;
  ok2_nit : (0 < s_nit r)%nat;
  ok2_grid : forall d, d = DX \/ d = DY -> halo (s_o r) <= s_hi r d - s_lo r d
}.

Lemma geom2_ok r n : run2_ok r -> (0 < n)%nat -> Z.of_nat n <= s_hi r DX - s_lo r DX + 1 -> geom_ok (geom2 r n).
Proof.
  intros [_ _ G] Hn Hs. constructor; [apply cut1_ok; auto|]. cbn [geom2 g_grid]. pose proof (G DY (or_intror eq_refl)) as GY.
  pose proof (halo_pos (s_o r)).
  intros [| |]; unfold first, last; cbn [fst snd]; lia.
Qed.

(** ** Shapes of the fills *)
Definition fshape (fst_ : bool) (d : dim) (a : arr) (ro : rdesc) (s : tdesc) : Prop :=
  t_arr s = a /\ t_r s (od d) = ro /\
  exists x y, t_r s d = (if fst_ then AtFirst x y else AtLast x y) /\
    forall ao, In ao (leaves (t_exp s)) -> fst ao = a ->
      comp (od d) (snd ao) = 0 /\ y - x < Z.abs (comp d (snd ao)).

Lemma fshape_selfdis f d a ro e s ao : fshape f d a ro s -> In ao (leaves (d_exp (inst e s))) ->
  fst ao = d_arr (inst e s) -> comp (od d) (snd ao) = 0 /\ selfdis (inst e s) ao.
Proof.
  intros (A & _ & x & y & R & L) Hin E. rewrite leaves_inst in Hin. apply in_map_iff in Hin.
  destruct Hin as (ao0 & <- & Hin). cbn [fst snd] in *.
  apply tag_inj in E. destruct (L ao0 Hin ltac:(congruence)) as [L1 L2]. split; auto.
  exists d. rewrite d_r_inst, R. destruct f; cbn; auto.
Qed.
Lemma fshape_edge f a ro e s : fshape f DX a ro s -> edge_at f DX (inst e s).
Proof.
  intros H. split.
  - rewrite d_r_inst. destruct H as (_ & _ & x & y & -> & _). destruct f; reflexivity.
  - intros ao H1 H2. eapply fshape_selfdis; eauto.
Qed.
Lemma fshape_row f a p q e s : fshape f DY a (Slab p 0 0 q) s -> row_at DX (tag e a) (inst e s).
Proof.
  intros H. assert (A : d_arr (inst e s) = tag e a) by (cbn; f_equal; apply H). split; [exact A|]. split.
  - rewrite d_r_inst. destruct H as (_ & R & _). cbn [od] in R. rewrite R. auto.
  - intros ao H1 H2. eapply (fshape_selfdis _ DY); eauto. congruence.
Qed.

Section Fills.
  Variables (hl : Z) (per : dim -> Z).
  Hypothesis Hh : 1 <= hl <= 2.
  Variable d : dim.
  Hypothesis Hd : d = DX \/ d = DY.
  Hypothesis Hp : hl <= per d.

  Lemma at2d_shape (f : bool) a x y ro e :
    (forall ao, In ao (leaves e) -> fst ao = a -> comp (od d) (snd ao) = 0 /\ y - x < Z.abs (comp d (snd ao))) ->
    fshape f d a ro (at2d d a (if f then AtFirst x y else AtLast x y) ro e).
  Proof.
    intros H. destruct Hd as [-> | ->]; (split; [reflexivity|]; split; [reflexivity|]); exists x, y; (split; [reflexivity|]);
      exact H.
  Qed.
  Lemma one_shape (f : bool) a x y ro k : y - x < Z.abs k ->
    fshape f d a ro (at2d d a (if f then AtFirst x y else AtLast x y) ro (Leaf (a, x2 d k 0))).
  Proof.
    intros H. apply at2d_shape. intros ao [<-|[]] _. cbn [snd]. destruct Hd as [-> | ->]; cbn; lia.
  Qed.
  Lemma neg_shape (f : bool) a x y ro k : y - x < Z.abs k ->
    fshape f d a ro (at2d d a (if f then AtFirst x y else AtLast x y) ro (- Leaf (a, x2 d k 0))%s).
  Proof.
    intros H. apply at2d_shape. intros ao [<-|[]] _. cbn [snd]. destruct Hd as [-> | ->]; cbn; lia.
  Qed.
  Lemma cst_shape (f : bool) a x y ro c : fshape f d a ro (at2d d a (if f then AtFirst x y else AtLast x y) ro (q c)).
  Proof. apply at2d_shape. intros ao []. Qed.
  Lemma map_shape (f : bool) a ro (g : Z -> tdesc) l :
    (forall k, In k l -> fshape f d a ro (g k)) -> Forall (fshape f d a ro) (map g l).
  Proof. intros H. apply Forall_forall. intros s Hin. apply in_map_iff in Hin. destruct Hin as (k & <- & Hk). auto. Qed.

  Ltac ks Hk := apply in_zseq in Hk; unfold in_rng, first, last in Hk; cbn [fst snd] in Hk.

  Lemma fs_left_shape bl a ro : Forall (fshape true d a ro) (fs_left hl per bl d a ro).
  Proof.
    unfold fs_left. destruct (bl d).
    - constructor; [|constructor]. apply (one_shape true). lia.
    - apply map_shape. intros k Hk. ks Hk. apply (one_shape true). lia.
    - apply map_shape. intros k Hk. ks Hk. apply (one_shape true). lia.
  Qed.
  Lemma fs_rght_shape br a ro : Forall (fshape false d a ro) (fs_rght hl per br d a ro).
  Proof.
    unfold fs_rght. destruct (br d).
    - constructor; [|constructor]. apply (one_shape false). lia.
    - apply map_shape. intros k Hk. ks Hk. apply (one_shape false). lia.
    - apply map_shape. intros k Hk. ks Hk. apply (one_shape false). lia.
  Qed.
  Lemma fn_left_shape bl a ro : Forall (fshape true d a ro) (fn_left hl per bl d a ro).
  Proof.
    unfold fn_left. destruct (bl d) eqn:E; try apply fs_left_shape.
    apply map_shape. intros k _. apply (cst_shape true).
  Qed.
  Lemma fn_rght_shape br a ro : Forall (fshape false d a ro) (fn_rght hl per br d a ro).
  Proof.
    unfold fn_rght. destruct (br d) eqn:E; try apply fs_rght_shape.
    apply map_shape. intros k _. apply (cst_shape false).
  Qed.
  Lemma ff_left_shape bl a ro : Forall (fshape true d a ro) (ff_left bl d a ro).
  Proof.
    unfold ff_left. destruct (bl d); try constructor; [|constructor]. apply (neg_shape true). lia.
  Qed.
  Lemma ff_rght_shape br a ro : Forall (fshape false d a ro) (ff_rght br d a ro).
  Proof.
    unfold ff_rght. destruct (br d); try constructor; [|constructor]. apply (neg_shape false). lia.
  Qed.

  Variable v : dim -> arr.
  Hypothesis Hv : v DX <> v DY.
  Lemma other : v (od d) <> v d.
  Proof. destruct Hd as [-> | ->]; cbn; congruence. Qed.

  Definition corner_ok (s : tdesc) : Prop := d = DX /\ leaves (t_exp s) = [].
  Lemma fv_left_shape bl ad ro : Forall (fun s => fshape true d (v d) ro s \/ (corner_ok s /\ t_r s DX = AtFirst 0 0)) (fv_left hl per bl d v ad ro).
  Proof.
    pose proof other as NV. unfold fv_left. destruct (bl d).
    - constructor; [|constructor]. left. apply (one_shape true). lia.
    - apply Forall_app. split.
      + unfold corner0, corner_ok. destruct Hd as [-> | ->]; repeat constructor; right; auto.
      + eapply Forall_impl; [intros s Hs; left; exact Hs|]. apply map_shape. intros k Hk. ks Hk.
        apply (at2d_shape true). cbn [leaves app]. intros ao [<-|[<-|[<-|[]]]] E; cbn [fst snd] in *; try tauto.
        destruct ad, Hd as [-> | ->]; cbn [comp od x2 fst snd]; lia.
    - eapply Forall_impl; [intros s Hs; left; exact Hs|]. apply map_shape. intros k Hk. ks Hk.
      apply (neg_shape true). destruct ad; lia.
  Qed.
  Lemma fv_rght_shape br ad ro : Forall (fun s => fshape false d (v d) ro s \/ (corner_ok s /\ t_r s DX = AtLast 0 0)) (fv_rght hl per br d v ad ro).
  Proof.
    pose proof other as NV. unfold fv_rght. destruct (br d).
    - constructor; [|constructor]. left. apply (one_shape false). lia.
    - apply Forall_app. split.
      + unfold corner0, corner_ok. destruct Hd as [-> | ->]; repeat constructor; right; auto.
      + eapply Forall_impl; [intros s Hs; left; exact Hs|]. apply map_shape. intros k Hk. ks Hk.
        apply (at2d_shape false). cbn [leaves app]. intros ao [<-|[<-|[<-|[]]]] E; cbn [fst snd] in *; try tauto.
        destruct ad, Hd as [-> | ->]; cbn [comp od x2 fst snd]; lia.
    - eapply Forall_impl; [intros s Hs; left; exact Hs|]. apply map_shape. intros k Hk. ks Hk.
      apply (neg_shape false). destruct ad; lia.
  Qed.
End Fills.

(** ** Exchanges *)
Definition xvecb (x : minstr) : bool :=
  match x with
  | MXS _ ext => 0 <=? ext
  | MXVA v _ | MXF v => negb (arr_eqb (v DX) (v DY))
  | MXVN v ext => (0 <=? ext) && negb (arr_eqb (v DX) (v DY))
  | _ => true
  end.

Section Threads.
  Variables (r : run2) (n : nat).
  Hypothesis RK : run2_ok r.
  Hypothesis NF : fct (s_o r) && negb (iga (s_o r)) = false.
  Hypothesis Hn : (0 < n)%nat.
  Hypothesis Hs : Z.of_nat n <= s_hi r DX - s_lo r DX + 1.
  Notation g := (geom2 r n).
  Notation ex := (expand2 (s_halo r) (s_per r) (s_bl r) (s_br r)).
  Let OK : geom_ok g := geom2_ok r n RK Hn Hs.

  Lemma halo_le2 d : d = DX \/ d = DY -> s_halo r <= s_per r d.
  Proof. apply RK. Qed.

  Definition edgesb f l := forall e, Forall (edge_at f DX) (map (inst e) l).
  Lemma edges_of f a ro l : Forall (fshape f DX a ro) l -> edgesb f l.
  Proof.
    intros H e. rewrite Forall_forall in *. intros s Hin. apply in_map_iff in Hin. destruct Hin as (t & <- & Hin).
    eapply fshape_edge; eauto.
  Qed.
  Lemma edges_ofv f a ro R l : (match R with AtFirst _ _ => f = true | AtLast _ _ => f = false | _ => False end) ->
    Forall (fun s => fshape f DX a ro s \/ (corner_ok DX s /\ t_r s DX = R)) l -> edgesb f l.
  Proof.
    intros HR H e. rewrite Forall_forall in *. intros s Hin. apply in_map_iff in Hin. destruct Hin as (t & <- & Hin).
    destruct (H _ Hin) as [F | [[_ L] R2]]; [eapply fshape_edge; eauto|]. split.
    - rewrite d_r_inst, R2. exact HR.
    - intros ao Ha. rewrite leaves_inst, L in Ha. destruct Ha.
  Qed.
  Definition rowsb a l := forall e, Forall (row_at DX (tag e a)) (map (inst e) l).
  Lemma rows_of f a p q l : Forall (fshape f DY a (Slab p 0 0 q)) l -> rowsb a l.
  Proof.
    intros H e. rewrite Forall_forall in *. intros s Hin. apply in_map_iff in Hin. destruct Hin as (t & <- & Hin).
    eapply fshape_row; eauto.
  Qed.
  Lemma rows_ofv f a p q R l : Forall (fun s => fshape f DY a (Slab p 0 0 q) s \/ (corner_ok DY s /\ t_r s DX = R)) l -> rowsb a l.
  Proof.
    intros H. apply (rows_of f a p q). eapply Forall_impl; [|exact H]. cbn. intros s [F|[[C _] _]]; [auto|discriminate].
  Qed.
  Lemma rows_app a l1 l2 : rowsb a l1 -> rowsb a l2 -> rowsb a (l1 ++ l2).
  Proof. intros A B e. rewrite map_app. apply Forall_app; split; auto. Qed.

  Lemma fills_prog e (L : list (list tdesc)) :
    Forall (fun l => fills_ok DX (map (inst e) l)) L ->
    dprog_ok g (map (inst_i e) (flat_map (fun l => ph l ++ [TBar]) L)).
  Proof.
    assert (M : forall l, map (inst_i e) (map TDo l) = map DDo (map (inst e) l)).
    { intros l. rewrite !map_map. reflexivity. }
    induction 1 as [|l L H _ IH].
    - intros p [<-|[]]. apply (fills_phase_ok g []); auto. apply fills_nil.
    - cbn [flat_map]. rewrite !map_app. unfold ph at 1. rewrite M. cbn [map inst_i]. rewrite <- app_assoc. cbn [app].
      intros p Hin. rewrite dphases_do in Hin. cbn in Hin. destruct Hin as [<-|Hin].
      + apply (fills_phase_ok g); auto.
      + apply IH. exact Hin.
  Qed.

  Lemma unrel e a b l1 l2 f ro : a <> b -> rowsb a l1 -> (forall s, In s l1 -> forall ao, In ao (leaves (t_exp s)) -> fst ao = a) ->
    Forall (fshape f DX b ro) l2 -> (forall s, In s l2 -> forall ao, In ao (leaves (t_exp s)) -> fst ao = b) ->
    unrelated (map (inst e) l1) (map (inst e) l2).
  Proof.
    intros N R1 O1 R2 O2 s1 s2 H1 H2. rewrite Forall_forall in R2. specialize (R1 e). rewrite Forall_forall in R1.
    pose proof (R1 _ H1) as (A1 & _).
    apply in_map_iff in H1, H2. destruct H1 as (t1 & <- & H1), H2 as (t2 & <- & H2).
    assert (A2 : d_arr (inst e t2) = tag e b) by (cbn; f_equal; apply (R2 _ H2)).
    rewrite A1, A2. split; [intros E; apply tag_inj in E; auto|]. split; intros ao Hao E; rewrite leaves_inst in Hao;
      apply in_map_iff in Hao; destruct Hao as (ao0 & <- & Hao); cbn [fst] in E; apply tag_inj in E.
    - apply N. rewrite <- E. symmetry. eapply O1; eauto.
    - apply N. rewrite <- E. eapply O2; eauto.
  Qed.
  Lemma fn_own_l d a ro s ao : In s (fn_left (s_halo r) (s_per r) (s_bl r) d a ro) -> In ao (leaves (t_exp s)) -> fst ao = a.
  Proof.
    unfold fn_left, fs_left, at2d, at2, q. destruct (s_bl r d), d; cbn; try rewrite in_map_iff; intros H; firstorder; subst;
      cbn in *; intuition (subst; auto).
  Qed.
  Lemma fn_own_r d a ro s ao : In s (fn_rght (s_halo r) (s_per r) (s_br r) d a ro) -> In ao (leaves (t_exp s)) -> fst ao = a.
  Proof.
    unfold fn_rght, fs_rght, at2d, at2, q. destruct (s_br r d), d; cbn; try rewrite in_map_iff; intros H; firstorder; subst;
      cbn in *; intuition (subst; auto).
  Qed.

  Notation X_ := (or_introl eq_refl : DX = DX \/ DX = DY).
  Notation Y_ := (or_intror eq_refl : DY = DX \/ DY = DY).

  (** the phases between the barriers of an exchange *)
  Definition xphases (x : minstr) : list (list tdesc) :=
    let hl := s_halo r in let per := s_per r in let bl := s_bl r in let br := s_br r in
    match x with
    | MXS a ext => [ fs_rght hl per br DX a (Ext ext ext); fs_left hl per bl DX a (Ext ext ext);
                     fs_left hl per bl DY a (Own ext ext) ++ fs_rght hl per br DY a (Own ext ext) ]
    | MXVA v ad => [ fv_rght hl per br DX v ad yJ; fv_left hl per bl DX v ad yJ;
                     fv_left hl per bl DY v ad xI ++ fv_rght hl per br DY v ad xI ]
    | MXVN v ext => [ fn_left hl per bl DY (v DX) (Own (ext + 1) ext) ++ fn_rght hl per br DY (v DX) (Own (ext + 1) ext) ++
                        fn_rght hl per br DX (v DY) (Ext (ext + 1) ext);
                      fn_left hl per bl DX (v DY) (Ext (ext + 1) ext); [] ]
    | MXF v => [ ff_rght br DX (v DX) yJ; ff_left bl DX (v DX) yJ; ff_left bl DY (v DY) xI ++ ff_rght br DY (v DY) xI ]
    | _ => []
    end.
  Lemma expand_xphases x : is_exch x = true -> ex x = TBar :: flat_map (fun l => ph l ++ [TBar]) (xphases x).
  Proof.
    destruct x; cbn [is_exch]; try discriminate; intros _; cbn [expand2 xphases flat_map app];
      rewrite ?app_nil_r, <- ?app_assoc; reflexivity.
  Qed.

  Lemma xphases_ok e x : is_exch x = true -> xvecb x = true -> Forall (fun l => fills_ok DX (map (inst e) l)) (xphases x).
  Proof.
    intros Hx Hv. pose proof (halo_pos (s_o r)) as Hh. change (halo (s_o r)) with (s_halo r) in Hh.
    pose proof (halo_le2 DX X_) as HX. pose proof (halo_le2 DY Y_) as HY.
    assert (ED : forall f a ro l, Forall (fshape f DX a ro) l -> fills_ok DX (map (inst e) l)).
    { intros f a ro l H. eapply edges_fill. eapply edges_of. exact H. }
    assert (NE : forall v, negb (arr_eqb (v DX) (v DY)) = true -> v DX <> v DY).
    { intros v H E. rewrite E in H. rewrite (proj2 (arr_eqb_eq _ _) eq_refl) in H. discriminate. }
    destruct x as [s| |a ext|v ad|v ext|v]; cbn [is_exch] in Hx; try discriminate; cbn [xvecb] in Hv; cbn [xphases].
    - repeat apply Forall_cons; [| | |apply Forall_nil].
      + eapply ED. apply fs_rght_shape; auto.
      + eapply ED. apply fs_left_shape; auto.
      + apply (rows_fill DX (tag e a)). apply rows_app; eapply rows_of; [apply fs_left_shape|apply fs_rght_shape]; auto.
    - apply NE in Hv. repeat apply Forall_cons; [| | |apply Forall_nil].
      + eapply (edges_fill false). eapply (edges_ofv false _ _ (AtLast 0 0)); [reflexivity|]. apply fv_rght_shape; auto.
      + eapply (edges_fill true). eapply (edges_ofv true _ _ (AtFirst 0 0)); [reflexivity|]. apply fv_left_shape; auto.
      + apply (rows_fill DX (tag e (v DY))). apply rows_app; eapply rows_ofv; [apply fv_left_shape|apply fv_rght_shape]; auto.
    - apply andb_true_iff in Hv. destruct Hv as [_ Hv]. apply NE in Hv. repeat apply Forall_cons; [| | |apply Forall_nil].
      + rewrite app_assoc. rewrite map_app.
        assert (RR : rowsb (v DX) (fn_left (s_halo r) (s_per r) (s_bl r) DY (v DX) (Own (ext + 1) ext) ++
                       fn_rght (s_halo r) (s_per r) (s_br r) DY (v DX) (Own (ext + 1) ext))).
        { apply rows_app; eapply rows_of; [apply fn_left_shape|apply fn_rght_shape]; auto. }
        apply fills_app.
        * eapply (unrel e (v DX) (v DY)); [auto|exact RR| | apply fn_rght_shape; auto|].
          -- intros s Hin ao. apply in_app_iff in Hin. destruct Hin; [eapply fn_own_l|eapply fn_own_r]; eauto.
          -- intros s Hin ao. eapply fn_own_r; eauto.
        * apply (rows_fill DX (tag e (v DX))). apply RR.
        * eapply ED. apply fn_rght_shape; auto.
      + eapply ED. apply fn_left_shape; auto.
      + apply fills_nil.
    - apply NE in Hv. repeat apply Forall_cons; [| | |apply Forall_nil].
      + eapply ED. eapply (ff_rght_shape (s_halo r) (s_per r)); auto.
      + eapply ED. eapply (ff_left_shape (s_halo r) (s_per r)); auto.
      + apply (rows_fill DX (tag e (v DY))). apply rows_app; eapply rows_of; [eapply (ff_left_shape (s_halo r) (s_per r))|eapply (ff_rght_shape (s_halo r) (s_per r))]; auto.
  Qed.

  Lemma shape_slabX f a ro l : Forall (fshape f DX a ro) l -> Forall (fun s => slab_okb true (t_r s DX) = true) l.
  Proof. apply Forall_impl. intros s (_ & _ & x & y & -> & _). destruct f; reflexivity. Qed.
  Lemma shape_slabY f a ro l : slab_okb true ro = true -> Forall (fshape f DY a ro) l ->
    Forall (fun s => slab_okb true (t_r s DX) = true) l.
  Proof. intros H. apply Forall_impl. intros s (_ & R & _). cbn [od] in R. rewrite R. exact H. Qed.
  Lemma shape_slabV f d a ro x y l : (d = DX \/ d = DY) -> slab_okb true ro = true ->
    Forall (fun s => fshape f d a ro s \/ (corner_ok d s /\ t_r s DX = (if f then AtFirst x y else AtLast x y))) l ->
    Forall (fun s => slab_okb true (t_r s DX) = true) l.
  Proof.
    intros Hd H. apply Forall_impl. intros s [(_ & R & x0 & y0 & R' & _)|(_ & ->)]; [|destruct f; reflexivity].
    destruct Hd as [-> | ->]; [rewrite R'; destruct f; reflexivity|]. cbn [od] in R. rewrite R. exact H.
  Qed.

  Lemma xphases_slab x : is_exch x = true -> xvecb x = true ->
    Forall (Forall (fun s => slab_okb true (t_r s DX) = true)) (xphases x).
  Proof.
    clear NF.
    intros Hx Hv. pose proof (halo_pos (s_o r)) as Hh. change (halo (s_o r)) with (s_halo r) in Hh.
    pose proof (halo_le2 DX X_) as HX. pose proof (halo_le2 DY Y_) as HY.
    assert (NE : forall v, negb (arr_eqb (v DX) (v DY)) = true -> v DX <> v DY).
    { intros v H E. rewrite E in H. rewrite (proj2 (arr_eqb_eq _ _) eq_refl) in H. discriminate. }
    destruct x as [s| |a ext|v ad|v ext|v]; cbn [is_exch] in Hx; try discriminate; cbn [xvecb] in Hv; cbn [xphases].
    - assert (S : slab_okb true (Own ext ext) = true) by (unfold Own, slab_okb; lia).
      repeat apply Forall_cons; [| | |apply Forall_nil].
      + eapply shape_slabX. apply fs_rght_shape; auto.
      + eapply shape_slabX. apply fs_left_shape; auto.
      + apply Forall_app; split; eapply shape_slabY; try exact S; [apply fs_left_shape|apply fs_rght_shape]; auto.
    - apply NE in Hv. repeat apply Forall_cons; [| | |apply Forall_nil].
      + eapply (shape_slabV false DX _ yJ 0 0); [auto|reflexivity|]. apply fv_rght_shape; auto.
      + eapply (shape_slabV true DX _ yJ 0 0); [auto|reflexivity|]. apply fv_left_shape; auto.
      + apply Forall_app; split; [eapply (shape_slabV true DY _ xI 0 0)|eapply (shape_slabV false DY _ xI 0 0)];
          auto; try reflexivity; [apply fv_left_shape|apply fv_rght_shape]; auto.
    - apply andb_true_iff in Hv. destruct Hv as [He Hv]. apply NE in Hv.
      assert (S : slab_okb true (Own (ext + 1) ext) = true) by (unfold Own, slab_okb; lia).
      repeat apply Forall_cons; [| | |apply Forall_nil].
      + repeat (apply Forall_app; split);
          [eapply shape_slabY; [exact S|]|eapply shape_slabY; [exact S|]|eapply shape_slabX];
          [apply fn_left_shape|apply fn_rght_shape|apply fn_rght_shape]; auto.
      + eapply shape_slabX. apply fn_left_shape; auto.
      + constructor.
    - repeat apply Forall_cons; [| | |apply Forall_nil].
      + eapply shape_slabX. eapply (ff_rght_shape (s_halo r) (s_per r)); auto.
      + eapply shape_slabX. eapply (ff_left_shape (s_halo r) (s_per r)); auto.
      + apply Forall_app; split; eapply (shape_slabY _ _ xI); try reflexivity; [eapply (ff_left_shape (s_halo r) (s_per r))|eapply (ff_rght_shape (s_halo r) (s_per r))]; auto.
  Qed.

  Lemma exch2_ok e x : is_exch x = true -> xvecb x = true -> exch_ok g ex e x.
  Proof.
    intros Hx Hv. unfold exch_ok. rewrite (expand_xphases x Hx).
    destruct (exists_last (l := xphases x)) as (L & l & E); [destruct x; cbn in Hx |- *; congruence|].
    exists (flat_map (fun l => ph l ++ [TBar]) L ++ ph l). split.
    - rewrite E, flat_map_app. cbn [flat_map]. rewrite app_nil_r, !app_assoc. reflexivity.
    - assert (D := fills_prog e (L ++ [l])). rewrite <- E in D. specialize (D (xphases_ok e x Hx Hv)).
      rewrite E, flat_map_app in D. cbn [flat_map] in D. rewrite app_nil_r, app_assoc, map_app in D. cbn [map inst_i] in D.
      intros p Hin. apply D. rewrite dphases_app. cbn. apply in_app_iff. left. exact Hin.
  Qed.

  Lemma exch2_slab x s : is_exch x = true -> xvecb x = true -> In (TDo s) (ex x) -> slab_okb true (t_r s DX) = true.
  Proof.
    intros Hx Hv Hin. rewrite (expand_xphases x Hx) in Hin. destruct Hin as [Hin|Hin]; [discriminate|].
    apply in_flat_map in Hin. destruct Hin as (l & Hl & Hin). apply in_app_iff in Hin.
    destruct Hin as [Hin|[Hin|[]]]; [|discriminate]. unfold ph in Hin. apply in_map_iff in Hin.
    destruct Hin as (s' & E & Hin). inversion E; subst s'. clear E.
    pose proof (xphases_slab x Hx Hv) as S. rewrite Forall_forall in S. specialize (S l Hl).
    rewrite Forall_forall in S. auto.
  Qed.

  Definition good (p : list minstr) : Prop :=
    (mphases_check DX p = true /\ mslab_check DX p = true) /\ forallb xvecb p = true.

  Lemma xvec_do l : forallb xvecb (map MDo l) = true.
  Proof. induction l; auto. Qed.
  Lemma xvec_sum F psi psi' v : forallb xvecb (sum2 (s_o r) F psi psi' v) = true.
  Proof. unfold sum2. destruct (khn (s_o r)); [apply xvec_do|reflexivity]. Qed.
  Lemma xvec_up F psi psi' : forallb xvecb (fct_init2 (s_o r) F psi ++ upstream2 (s_o r) F psi psi') = true.
  Proof.
    clear NF. unfold fct_init2, upstream2. rewrite !forallb_app, xvec_sum. destruct (fct (s_o r)); reflexivity.
  Qed.
  Lemma xvec_co F psi psi' unco c last : forallb xvecb (corrective2 (s_o r) F psi psi' unco (Cor c) last) = true.
  Proof.
    clear NF. unfold corrective2, fct_adjust2. cbv zeta.
    destruct (div3dt (s_o r)), (fct (s_o r)), last, (dfl (s_o r)), (iga (s_o r)), c; cbn [negb andb app];
      cbn [forallb]; rewrite ?forallb_app, ?xvec_sum; cbn [forallb]; rewrite ?xvec_sum; reflexivity.
  Qed.

  (** *** Parts of a step *)
  Lemma checked2 (b : bool) :
    let up := fct_init2 (s_o r) (s_forms r) (Psi b) ++ upstream2 (s_o r) (s_forms r) (Psi b) (Psi (negb b)) in
    good up /\
    forall j last, (0 < j)%nat ->
      let co := corrective2 (s_o r) (s_forms r) (Psi b) (Psi (negb b)) (GC_unco j) (GC_corr j) last in
      good co.
  Proof.
    pose proof (all_fl9k_sound _ phases2_check_all (s_o r)) as C.
    assert (EQ : phases2_check (keep2 (s_o r)) = phases2_check (s_o r)) by reflexivity.
    rewrite EQ in C. clear EQ. unfold phases2_check in C. rewrite NF in C. rewrite forallb_forall in C.
    specialize (C b (in_bools b)). cbv zeta in C.
    apply andb_true_iff in C. destruct C as [C1 C2]. apply andb_true_iff in C1. destruct C1 as [C1 C3].
    pose proof (forms2_cov (s_o r) (s_sp r) (s_tp r) (ok2_fl _ RK)) as FC.
    cbv zeta. split.
    - assert (CV := Forall2_app (fct_init2_cov (s_o r) _ _ FC b) (upstream2_cov (s_o r) _ _ FC b (Psi (negb b)))).
      split; [|apply xvec_up].
      split; [eapply mphases_check_cov; [exact CV|exact C1]|eapply mslab_check_cov; [exact CV|exact C3]].
    - intros j last Hj. rewrite forallb_forall in C2. specialize (C2 _ (kinds_of j Hj)).
      rewrite forallb_forall in C2. specialize (C2 last (in_bools last)). cbn [fst snd] in C2.
      apply andb_true_iff in C2. destruct C2 as [C4 C5].
      assert (CV : Forall2 mcov
        (corrective2 (s_o r) (s_forms r) (Psi b) (Psi (negb b)) (GC_unco j) (GC_corr j) last)
        (corrective2 (s_o r) (canon2 (s_o r)) (Psi b) (Psi (negb b)) (GC_unco j) (GC_corr j) last)).
      { pose proof (kinds_of j Hj) as K. apply corrective2_cov; [exact FC| |];
          unfold kinds in K; cbn [In] in K; unfold vecs; cbn [In];
          destruct K as [K|[K|[K|[]]]]; inversion K; auto. }
      split; [|unfold GC_corr; apply xvec_co].
      split; [eapply mphases_check_cov; [exact CV|exact C4]|eapply mslab_check_cov; [exact CV|exact C5]].
  Qed.

  Lemma good_app p x q : match x with MDo _ => False | _ => True end -> xvecb x = true ->
    good p -> good q -> good (p ++ x :: q).
  Proof.
    intros Hx Hv [[P1 P2] P3] [[Q1 Q2] Q3]. split; [split|].
    - unfold mphases_check in *. rewrite mphases_app by auto. rewrite forallb_app. lia.
    - unfold mslab_check in *. rewrite forallb_app. cbn [forallb]. destruct x; lia.
    - rewrite forallb_app. cbn [forallb]. rewrite P3, Hv, Q3. reflexivity.
  Qed.
  Lemma good_cons x q : match x with MDo _ => False | _ => True end -> xvecb x = true -> good q -> good (x :: q).
  Proof. intros Hx Hv Hq. apply (good_app [] x q); auto. repeat split; reflexivity. Qed.

  Lemma good_expand e p : good p -> dprog_ok g (expand ex e p) /\ slabs_ok g (expand ex e p).
  Proof.
    intros [[P1 P2] P3]. rewrite forallb_forall in P3. split.
    - apply mprog_ok; auto. intros x Hin Hx. apply exch2_ok; auto.
    - apply mslabs_ok; auto. intros x s Hin Hx. apply exch2_slab; auto.
  Qed.

  Lemma halo_xvec a : xvecb (MXS a (halo (s_o r))) = true.
  Proof. pose proof (halo_pos (s_o r)). cbn. lia. Qed.

  Lemma good_passes lasteq b nit j more p : (0 < j)%nat -> good p ->
    good (p ++ passes2 (s_o r) (s_forms r) nit lasteq b j more).
  Proof.
    revert j p. induction more as [|m IH]; intros j p Hj Hp; cbn [passes2].
    - rewrite app_nil_r. auto.
    - set (co := corrective2 _ _ _ _ _ _ _).
      assert (Hco : good co).
      { destruct (checked2 (lev b j)) as [_ HC]. unfold co. rewrite lev_S. apply HC; auto. }
      rewrite !app_assoc. apply IH; auto. rewrite <- !app_assoc. cbn [app].
      destruct lasteq; cbn [cyc_bars app].
      + apply good_app; [exact I|reflexivity|auto|]. apply good_cons; [exact I|reflexivity|].
        apply good_cons; [exact I|apply halo_xvec|]. exact Hco.
      + apply good_app; auto using halo_xvec.
  Qed.

  Definition mid2 (k : nat) (lasteq b : bool) : list minstr :=
    fct_init2 (s_o r) (s_forms r) (Psi b) ++ upstream2 (s_o r) (s_forms r) (Psi b) (Psi (lev b 1)) ++
    passes2 (s_o r) (s_forms r) (s_nit r) lasteq b 1 (k - 1).

  Lemma good_mid k lasteq b : good (mid2 k lasteq b).
  Proof.
    unfold mid2. rewrite app_assoc. apply good_passes; [lia|].
    replace (lev b 1) with (negb b) by (unfold lev; destruct b; reflexivity). apply checked2.
  Qed.

  Lemma body2_split k exq lasteq b :
    body2 (s_o r) (s_forms r) (s_nit r) k exq lasteq b =
    scale2 (Psi b) exq ++ MXS (Psi b) (halo (s_o r)) :: mid2 k lasteq b ++
      (if lasteq then [MBar; MBar] else [MBar]) ++ scale2 (Psi (lev b k)) (- exq).
  Proof.
    unfold body2, mid2. rewrite <- !app_assoc. cbn [app]. do 4 f_equal. f_equal. destruct lasteq; reflexivity.
  Qed.

  Lemma scale2_light e a k : exists l, expand ex e (scale2 a k) = map DDo l /\ Forall (light DX) l.
  Proof.
    unfold scale2. destruct (k =? 0); [exists []; split; [reflexivity|constructor]|].
    destruct (0 <? k); cbn; eexists [_]; (split; [reflexivity|]);
      repeat constructor; cbn; intros ao H; intuition subst; auto.
  Qed.

  Lemma lights_slab l : Forall (light DX) l -> slabs_ok g (lights l).
  Proof.
    intros H s Hin. unfold lights in Hin. apply in_map_iff in Hin. destruct Hin as (x & E & Hin).
    inversion E; subst. rewrite Forall_forall in H. destruct (H _ Hin) as [R _].
    unfold slab_ok. cbn [g_dd]. change (g_dd g) with DX. rewrite R. reflexivity.
  Qed.
  Lemma slabs_app p q : slabs_ok g p -> slabs_ok g q -> slabs_ok g (p ++ q).
  Proof. intros A B s H. apply in_app_iff in H. destruct H; auto. Qed.
  Lemma slabs_bar p : slabs_ok g p -> slabs_ok g (DBar :: p).
  Proof. intros A s [H|H]; [discriminate|auto]. Qed.

  (** a continuation that tolerates light statements in front of it *)
  Definition cont (q : list dinstr) : Prop :=
    slabs_ok g q /\ forall l, Forall (light DX) l -> dprog_ok g (lights l ++ q).

  Lemma cont_bar q : dprog_ok g q -> slabs_ok g q -> cont (DBar :: q).
  Proof.
    intros Hq Hq'. split; [apply slabs_bar; auto|]. intros l Hl. apply dprog_ok_bar; auto.
    intros ph Hin. unfold lights in Hin. rewrite <- (app_nil_r (map DDo l)) in Hin.
    rewrite (dphases_pre _ _ [] []) in Hin by reflexivity. destruct Hin as [<-|[]].
    rewrite app_nil_r. apply (light_ok g); auto.
  Qed.
  Lemma cont_ok q : cont q -> dprog_ok g q.
  Proof. intros [_ H]. apply (H []). constructor. Qed.
  Lemma cont_lights l q : Forall (light DX) l -> cont q -> cont (lights l ++ q).
  Proof.
    intros Hl [S1 D]. split; [apply slabs_app; auto using lights_slab|].
    intros l' Hl'. rewrite app_assoc. unfold lights. rewrite <- map_app. apply D. apply Forall_app; auto.
  Qed.
  Lemma cont_good e p q : good p -> cont q -> cont (DBar :: expand ex e p ++ DBar :: q).
  Proof.
    intros Hp Hq. destruct (good_expand e p Hp) as [A B]. apply cont_bar.
    - apply dprog_ok_bar; auto. apply cont_ok; auto.
    - apply slabs_app; auto. apply slabs_bar. apply Hq.
  Qed.
  Lemma cont_bar' q : cont q -> cont (DBar :: q).
  Proof. intros H. apply cont_bar; [apply cont_ok; auto|apply H]. Qed.

  Lemma cont_body e k exq lasteq b q : cont q ->
    cont (expand ex e (body2 (s_o r) (s_forms r) (s_nit r) k exq lasteq b) ++ q).
  Proof.
    intros Hq. rewrite body2_split. rewrite (expand_app ex e (scale2 _ _)).
    destruct (scale2_light e (Psi b) exq) as (l1 & -> & L1). rewrite <- app_assoc. apply cont_lights; auto.
    change (MXS (Psi b) (halo (s_o r)) :: mid2 k lasteq b ++ (if lasteq then [MBar; MBar] else [MBar]) ++ scale2 (Psi (lev b k)) (- exq))
      with (([MXS (Psi b) (halo (s_o r))] ++ mid2 k lasteq b ++ (if lasteq then [MBar; MBar] else [MBar]) ++ scale2 (Psi (lev b k)) (- exq))).
    rewrite !(expand_app ex e). rewrite <- !app_assoc.
    destruct (scale2_light e (Psi (lev b k)) (- exq)) as (l2 & -> & L2).
    set (tail := map DDo l2 ++ q).
    assert (Ht : cont tail) by (apply cont_lights; auto).
    assert (Hg : good (MXS (Psi b) (halo (s_o r)) :: mid2 k lasteq b)) by (apply good_cons; [exact I|apply halo_xvec|apply good_mid]).
    destruct (exch2_ok e (MXS (Psi b) (halo (s_o r))) eq_refl (halo_xvec _)) as (X & EX & HX).
    assert (E1 : expand ex e [MXS (Psi b) (halo (s_o r))] = DBar :: map (inst_i e) X ++ [DBar]).
    { unfold expand. cbn [flat_map]. rewrite app_nil_r, EX. cbn [map inst_i]. rewrite map_app. reflexivity. }
    assert (SX : slabs_ok g (map (inst_i e) X)).
    { intros s Hin. apply in_map_iff in Hin. destruct Hin as (t & E & Hin). destruct t as [s'|]; [|discriminate].
      inversion E; subst. unfold slab_ok. rewrite d_r_inst. apply (exch2_slab (MXS (Psi b) (halo (s_o r)))); auto using halo_xvec.
      rewrite EX. right. apply in_app_iff. auto. }
    rewrite E1. cbn [app]. rewrite <- app_assoc. cbn [app].
    destruct (good_expand e (mid2 k lasteq b) (good_mid k lasteq b)) as [A B].
    apply cont_bar.
    - apply dprog_ok_bar; auto. destruct lasteq; cbn [expand flat_map expand2 app map inst_i];
        apply dprog_ok_bar; auto; apply cont_ok; auto. apply cont_bar'. auto.
    - apply slabs_app; auto. apply slabs_bar. apply slabs_app; auto.
      destruct lasteq; cbn [expand flat_map expand2 app map inst_i]; repeat apply slabs_bar; apply Ht.
  Qed.

  Lemma cont_eqs k es lv q : cont q -> cont (eqs_prog2 r k es lv ++ q).
  Proof.
    revert lv. induction es as [|e es IH]; intros lv Hq; cbn [eqs_prog2 app]; auto.
    rewrite <- app_assoc. apply cont_body. auto.
  Qed.

  Lemma cont_steps nt ts lv q : cont q -> cont (steps_prog2 r nt ts lv ++ q).
  Proof.
    revert ts lv. induction nt as [|m IH]; intros ts lv Hq; cbn [steps_prog2 app]; auto.
    rewrite <- app_assoc. apply cont_bar'. apply cont_eqs. auto.
  Qed.

  Lemma ante_bar : exists p, ante2 (s_o r) = p ++ [MBar] /\ good p.
  Proof.
    unfold ante2. exists ([MBar; MXVA GC false] ++ (if nug (s_o r) then [MXS Gf (halo (s_o r))] else []) ++
      [MXVN GC (halo (s_o r) - 1)] ++
      (if div3dt (s_o r) || div3 (s_o r) then
       [ MDo (at2 (NdtGC DX) xIM yJ (q 0)); MDo (at2 (NdtGC DY) xI yJM (q 0));
         MDo (at2 (NdttGC DX) xIM yJ (q 0)); MDo (at2 (NdttGC DY) xI yJM (q 0));
         MXVA NdtGC false; MXVA NdttGC false;
         MXVN NdtGC (halo (s_o r) - 1); MXVN NdttGC (halo (s_o r) - 1) ] else [])). split.
    - rewrite <- !app_assoc. reflexivity.
    - assert (H1 : (0 <=? halo (s_o r) - 1) = true) by (pose proof (halo_pos (s_o r)); lia).
      assert (H2 : (0 <=? halo (s_o r)) = true) by (pose proof (halo_pos (s_o r)); lia).
      repeat split; destruct (nug (s_o r)), (div3dt (s_o r) || div3 (s_o r)); try reflexivity;
        cbn [app forallb xvecb]; rewrite ?H1, ?H2; reflexivity.
  Qed.

  Lemma run2_fine nt : dprog_ok g (run_prog2 r nt) /\ slabs_ok g (run_prog2 r nt).
  Proof.
    unfold run_prog2. destruct ante_bar as (p & -> & Hp).
    change (expand_eq2 r 0 (p ++ [MBar])) with (expand ex 0 (p ++ [MBar])).
    rewrite (expand_app ex). change (expand ex 0 [MBar]) with [DBar]. rewrite <- app_assoc. cbn [app].
    destruct (good_expand 0 p Hp) as [A B].
    assert (Q : cont (steps_prog2 r nt 0 (fun _ => false) ++ [DBar])).
    { apply cont_steps. apply cont_bar.
      - intros ph [<-|[]]. apply (light_ok g); auto.
      - intros s []. }
    split; [apply dprog_ok_bar; auto; apply cont_ok; auto|apply slabs_app; auto; apply slabs_bar; apply Q].
  Qed.

  Theorem run2_deterministic ar nt m m' c' :
    steps loc_eq_dec ar n (m, code ar (prog_of g (run_prog2 r nt))) (m', c') ->
    finished ar n (m', c') ->
    forall l, m' l = run_prog loc_eq_dec ar 1 (prog_of (serial g) (run_prog2 r nt)) m l.
  Proof.
    intros St Fi. destruct (run2_fine nt) as [A B]. exact (threads_equal_serial g ar _ _ _ _ OK A B St Fi).
  Qed.
End Threads.

(** ** Statements used by the property file *)
Definition program2 (r : run2) (n nt : nat) : list (instr loc) := prog_of (geom2 r n) (run_prog2 r nt).

Lemma serial_geom2 r n : (0 < n)%nat -> Z.of_nat n <= s_hi r DX - s_lo r DX + 1 ->
  serial (geom2 r n) = {| g_dd := DX; g_cut := whole (s_lo r DX) (s_hi r DX);
                          g_grid := fun d => match d with DY => (s_lo r DY, s_hi r DY) | _ => (0, 0) end |}.
Proof.
  intros. unfold serial, geom2; cbn [g_dd g_cut g_grid]. rewrite cut1_lo, cut1_hi by auto. reflexivity.
Qed.

Lemma threads_agree2 r n1 n2 nt ar m m1 m2 : run2_ok r -> fct (s_o r) && negb (iga (s_o r)) = false ->
  (0 < n1)%nat -> Z.of_nat n1 <= s_hi r DX - s_lo r DX + 1 ->
  (0 < n2)%nat -> Z.of_nat n2 <= s_hi r DX - s_lo r DX + 1 ->
  can_end loc_eq_dec ar n1 (program2 r n1 nt) m m1 ->
  can_end loc_eq_dec ar n2 (program2 r n2 nt) m m2 ->
  forall l, m1 l = m2 l.
Proof.
  intros RK NF P1 S1 P2 S2 (c1 & St1 & F1) (c2 & St2 & F2) l.
  rewrite (run2_deterministic r n1 RK NF P1 S1 ar nt m m1 c1 St1 F1).
  rewrite (run2_deterministic r n2 RK NF P2 S2 ar nt m m2 c2 St2 F2).
  rewrite !serial_geom2; auto.
Qed.

Lemma threads_finish2 r n nt ar m : run2_ok r -> fct (s_o r) && negb (iga (s_o r)) = false ->
  (0 < n)%nat -> Z.of_nat n <= s_hi r DX - s_lo r DX + 1 ->
  (exists m', can_end loc_eq_dec ar n (program2 r n nt) m m') /\
  never_stuck loc_eq_dec ar n (program2 r n nt) m.
Proof.
  intros RK NF Hn Hs. destruct (run2_fine r n RK NF Hn Hs nt) as [A B]. apply prog_ok_of in A. split.
  - destruct (interleaving_completes loc_eq_dec ar n (program2 r n nt) m Hn A) as ([m' c] & St & F).
    exists m', c. auto.
  - intros c St. eapply interleaving_progress; eauto.
Qed.
