(** 2D halo exchanges in a channel (cyclic along the first dimension, rigid walls
    along the second), compared with a lattice that is infinite along the first
    dimension and whose rows at the walls are filled along all of their length. *)
From Coq Require Import ZArith List Bool Lia ZifyBool.
From Verif Require Import SpecIndex ModelIndex ProofsIndex ModelRun Lang ProofsLang Stencil ProofsStencil
  FormCommon Form2D Solver1D Solver2D Macro ProofsMacro Foot1D Foot2D Proofs1D Proofs2D ProofsThread1D ProofsThread2D
  ProofsValid ProofsValid1D Boxes ProofsBoxes ProofsValid2D ProofsValidC2D ProofsExch2D Lattice ProofsLattice.
Import ListNotations.
Local Open Scope Z_scope.

(** rows of a range *)
Definition in_row (lo hi : Z) (ry : rdesc) (y : Z) : Prop := fst (grng lo hi ry) <= y <= snd (grng lo hi ry).
Definition in_rowb (lo hi : Z) (ry : rdesc) (y : Z) : bool := (fst (grng lo hi ry) <=? y) && (y <=? snd (grng lo hi ry)).
Lemma in_rowb_iff lo hi ry y : in_rowb lo hi ry y = true <-> in_row lo hi ry y.
Proof. unfold in_rowb, in_row. lia. Qed.

(** a statement on rows, at all indices along the first dimension *)
Definition row_do (ar : arith) (lo hi : Z) (e : nat) (s : tdesc) (f : loc -> car ar) : loc -> car ar :=
  fun l => if garr_eqb (fst l) (tag e (t_arr s)) && in_rowb lo hi (t_y s) (comp DY (snd l)) && (comp DZ (snd l) =? 0)
           then ev ar (fun ao => f (tag e (fst ao), iadd (snd l) (snd ao))) (t_exp s)
           else f l.

(** the fills at the walls across *)
Definition wall_fills (r : run2) (x : minstr) : list tdesc :=
  match x with
  | MXS a ext => fs_left (s_halo r) (s_per r) (s_bl r) DY a (Own ext ext) ++ fs_rght (s_halo r) (s_per r) (s_br r) DY a (Own ext ext)
  | MXVA v ad => fv_left (s_halo r) (s_per r) (s_bl r) DY v ad xI ++ fv_rght (s_halo r) (s_per r) (s_br r) DY v ad xI
  | MXVN v ext => fn_left (s_halo r) (s_per r) (s_bl r) DY (v DX) (Own (ext + 1) ext) ++ fn_rght (s_halo r) (s_per r) (s_br r) DY (v DX) (Own (ext + 1) ext)
  | MXF v => ff_left (s_bl r) DY (v DY) xI ++ ff_rght (s_br r) DY (v DY) xI
  | _ => []
  end.
Definition chx (ar : arith) (r : run2) (e : nat) (x : minstr) (f : loc -> car ar) : loc -> car ar :=
  fold_left (fun f s => row_do ar (s_lo r DY) (s_hi r DY) e s f) (wall_fills r x) f.

Lemma row_do_periodic ar lo hi e s f p : periodic ar (p, 0, 0) f -> periodic ar (p, 0, 0) (row_do ar lo hi e s f).
Proof.
  intros P a [[x y] z]. unfold row_do. cbn [fst snd iadd comp].
  replace (y + 0) with y by lia. replace (z + 0) with z by lia. destruct (_ && _); [|apply (P a (x, y, z))].
  apply ev_ext. intros [c [[u v] w]] _. cbn [fst snd]. rewrite <- (P (tag e c) (iadd (x, y, z) (u, v, w))). f_equal. f_equal.
  unfold iadd; cbn [fst snd]. f_equal; [f_equal|]; lia.
Qed.
Lemma chx_periodic ar r e x f p : periodic ar (p, 0, 0) f -> periodic ar (p, 0, 0) (chx ar r e x f).
Proof.
  unfold chx. revert f. induction (wall_fills r x) as [|s l IH]; intros f P; [exact P|].
  cbn [fold_left]. apply IH. apply row_do_periodic. exact P.
Qed.
Lemma row_do_other ar lo hi e s f b i : b <> tag e (t_arr s) -> row_do ar lo hi e s f (b, i) = f (b, i).
Proof.
  intros NE. unfold row_do. cbn [fst snd]. destruct (garr_eqb b (tag e (t_arr s))) eqn:E; [|reflexivity].
  apply garr_eqb_eq in E. congruence.
Qed.

Section Exch.
  Variables (r : run2) (n : nat).
  Hypothesis RK : run2_ok r.
  Hypothesis Hn : (0 < n)%nat.
  Hypothesis Hs : Z.of_nat n <= s_hi r DX - s_lo r DX + 1.
  Notation g := (geom2 r n).
  Let OK : geom_ok g := geom2_ok r n RK Hn Hs.
  Variable ar : arith.
  Notation mem := (loc -> car ar).
  Notation h := (s_halo r).
  Notation lo := (s_lo r).
  Notation hi := (s_hi r).
  Notation ex := (expand2 (s_halo r) (s_per r) (s_bl r) (s_br r)).
  Notation runp e p := (run_prog loc_eq_dec ar n (prog_of g (expand ex e p))).
  Notation run1s e s m := (run_stmt loc_eq_dec ar n (stmt_of g (inst e s)) m).
  Notation in_rect := (in_rect r).
  Notation rowd e s f := (row_do ar (lo DY) (hi DY) e s f).
  Notation runl e l m := (fold_left (fun m0 s0 => run1s e s0 m0) l m).
  Notation rowl e l f := (fold_left (fun f0 s0 => rowd e s0 f0) l f).
  Notation px := (s_per r DX).

  Lemma run_fill e a rx ry E (m : mem) b i : slab_okb true rx = true ->
    (b = tag e a -> in_rect rx ry i -> run1s e (at2 a rx ry E) m (b, i) = ev ar (fun ao => m (tag e (fst ao), iadd i (snd ao))) E) /\
    ((b = tag e a -> ~ in_rect rx ry i) -> run1s e (at2 a rx ry E) m (b, i) = m (b, i)).
  Proof.
    intros Hr. set (s := inst e (at2 a rx ry E)).
    assert (SK : slab_ok g s) by (unfold slab_ok, s; rewrite d_r_inst; exact Hr).
    assert (B : in_gbox g s i <-> in_rect rx ry i).
    { unfold in_gbox, ProofsExch2D.in_rect. split.
      - intros H. pose proof (H DX) as X. pose proof (H DY) as Y. pose proof (H DZ) as Z0.
        rewrite lo2, hi2 in * by auto. unfold s in *. rewrite !d_r_inst in *. unfold in_rng, first, last in *.
        cbn [t_r at2 t_x t_y t_z] in *. cbn [Ext grng fst snd] in Z0. lia.
      - intros (X & Y & Z0) d. rewrite lo2, hi2 by auto. unfold s. rewrite !d_r_inst. unfold in_rng, first, last.
        destruct d; cbn [t_r at2 t_x t_y t_z]; auto. cbn [Ext grng fst snd]. lia. }
    split.
    - intros Eb H. etransitivity; [exact (run_in g OK ar s m b i SK Eb (proj2 B H))|].
      unfold s, inst. cbn [d_exp]. rewrite ev_emap. reflexivity.
    - intros H. refine (run_out g OK ar s m b i SK _). intros Eb H'. apply B in H'. exact (H Eb H').
  Qed.

  (** rows [Y] of the columns of [rx] agree *)
  Definition agrows (b : garr) (rx : rdesc) (Y : Z -> Prop) (m f : mem) : Prop :=
    forall i, in_row (lo DX) (hi DX) rx (comp DX i) -> Y (comp DY i) -> comp DZ i = 0 -> m (b, i) = f (b, i).

  Lemma row_step e a rx ry E (Y0 Y : Z -> Prop) (m f : mem) : slab_okb true rx = true ->
    (forall ao, In ao (leaves E) -> fst ao = a /\ exists dy, snd ao = (0, dy, 0) /\ forall y, in_row (lo DY) (hi DY) ry y -> Y0 (y + dy)) ->
    (forall y, Y0 y -> Y y) -> agrows (tag e a) rx Y m f ->
    agrows (tag e a) rx (fun y => Y y \/ in_row (lo DY) (hi DY) ry y) (run1s e (at2 a rx ry E) m) (rowd e (at2 a rx ry E) f).
  Proof.
    intros Hr HE HY A i Hx Hy Hz. destruct (run_fill e a rx ry E m (tag e a) i Hr) as [R1 R2].
    unfold row_do. cbn [fst snd at2 t_arr t_y t_exp]. rewrite (proj2 (garr_eqb_eq _ _) eq_refl). rewrite Hz, Z.eqb_refl, andb_true_r. cbn [andb].
    destruct (in_rowb (lo DY) (hi DY) ry (comp DY i)) eqn:Er.
    - apply in_rowb_iff in Er. rewrite R1 by (auto; unfold ProofsExch2D.in_rect; auto). apply ev_ext. intros ao Hao.
      destruct (HE ao Hao) as (Ea & dy & Ed & HY0). destruct ao as [c k]. cbn [fst snd] in *. subst c k. apply A; destruct i as [[x y] z]; cbn [iadd comp fst snd] in *.
      + rewrite Z.add_0_r. exact Hx.
      + apply HY. apply HY0. exact Er.
      + lia.
    - assert (N : ~ in_row (lo DY) (hi DY) ry (comp DY i)) by (rewrite <- in_rowb_iff, Er; discriminate).
      rewrite R2. 2: intros _ (_ & H & _); apply N; exact H.
      apply A; auto. destruct Hy as [Hy|Hy]; [exact Hy|destruct (N Hy)].
  Qed.

  Definition row_fill (a : arr) (rx : rdesc) (Y0 : Z -> Prop) (s : tdesc) : Prop :=
    exists ry E, s = at2 a rx ry E /\
      forall ao, In ao (leaves E) -> fst ao = a /\ exists dy, snd ao = (0, dy, 0) /\ forall y, in_row (lo DY) (hi DY) ry y -> Y0 (y + dy).

  Lemma rows_fold e a rx (Y0 : Z -> Prop) l : slab_okb true rx = true -> Forall (row_fill a rx Y0) l ->
    forall (Y : Z -> Prop) (m f : mem), (forall y, Y0 y -> Y y) -> agrows (tag e a) rx Y m f ->
    agrows (tag e a) rx (fun y => Y y \/ exists s, In s l /\ in_row (lo DY) (hi DY) (t_y s) y) (runl e l m) (rowl e l f).
  Proof.
    intros Hr. induction 1 as [|s l (ry & E & -> & HE) F IH]; intros Y m f HY A.
    - cbn [fold_left]. intros i Hx [Hy|(s & [] & _)] Hz. apply A; auto.
    - cbn [fold_left]. pose proof (row_step e a rx ry E Y0 Y m f Hr HE HY A) as A1.
      specialize (IH _ _ _ (fun y H => or_introl (HY y H)) A1).
      intros i Hx Hy Hz. apply IH; auto. destruct Hy as [Hy|(s & [<-|Hs0] & Hy)]; [left; left; exact Hy|left; right; exact Hy|].
      right. exists s. split; auto.
  Qed.
  (** elsewhere nothing changes *)
  Lemma rows_out e a rx (Y0 : Z -> Prop) l : slab_okb true rx = true -> Forall (row_fill a rx Y0) l ->
    forall (m f : mem) b i, (b = tag e a -> comp DZ i = 0 -> forall s, In s l -> ~ in_row (lo DY) (hi DY) (t_y s) (comp DY i)) ->
    runl e l m (b, i) = m (b, i) /\ rowl e l f (b, i) = f (b, i).
  Proof.
    intros Hr. induction 1 as [|s l (ry & E & -> & HE) F IH]; intros m f b i H; [split; reflexivity|].
    cbn [fold_left]. destruct (IH (run1s e (at2 a rx ry E) m) (rowd e (at2 a rx ry E) f) b i) as [I1 I2].
    { intros Eb Ez s Hs0. apply H; auto. right. exact Hs0. }
    rewrite I1, I2. split.
    - apply (run_fill e a rx ry E m b i Hr). intros Eb (_ & H' & Ez). apply (H Eb Ez _ (or_introl eq_refl)). exact H'.
    - unfold row_do. cbn [fst snd at2 t_arr t_y t_exp]. destruct (garr_eqb b (tag e a)) eqn:Eb; [|reflexivity].
      apply garr_eqb_eq in Eb. destruct (in_rowb _ _ ry (comp DY i)) eqn:Er; [|reflexivity]. apply in_rowb_iff in Er.
      destruct (Z.eqb_spec (comp DZ i) 0) as [Ez|_]; [|reflexivity]. destruct (H Eb Ez _ (or_introl eq_refl) Er).
  Qed.

  (** copies along the first dimension *)
  Definition ag (f m : mem) (b : garr) (i : idx) : Prop := m (b, i) = f (b, i).
  Lemma xcopy_here e a rx ry k (f m : mem) i : slab_okb true rx = true -> periodic ar (px, 0, 0) f -> (k = px \/ k = - px) ->
    (in_rect rx ry i -> ag f m (tag e a) (iadd i (k, 0, 0))) -> (~ in_rect rx ry i -> ag f m (tag e a) i) ->
    ag f (run1s e (at2 a rx ry (Leaf (a, (k, 0, 0)))) m) (tag e a) i.
  Proof.
    intros Hr PX Hk H1 H2. unfold ag in *. destruct (run_fill e a rx ry (Leaf (a, (k, 0, 0))) m (tag e a) i Hr) as [R1 R2].
    assert (D : in_rect rx ry i \/ ~ in_rect rx ry i) by (unfold ProofsExch2D.in_rect; lia).
    destruct D as [D|D].
    - rewrite R1 by auto. cbn [ev fst snd]. rewrite H1 by auto. destruct Hk as [-> | ->]; [apply PX|].
      rewrite <- (PX _ (iadd i (- px, 0, 0))). f_equal. f_equal. destruct i as [[x y] z]. unfold iadd; cbn [fst snd]. f_equal; [f_equal|]; lia.
    - rewrite R2, H2 by auto. reflexivity.
  Qed.
  Lemma xcopy_other e a rx ry k (f m : mem) b i : slab_okb true rx = true -> b <> tag e a -> ag f m b i ->
    ag f (run1s e (at2 a rx ry (Leaf (a, k))) m) b i.
  Proof.
    intros Hr NE H. unfold ag in *. destruct (run_fill e a rx ry (Leaf (a, k)) m b i Hr) as [_ R2].
    rewrite R2; [exact H|intros Eb; congruence].
  Qed.

  Hypothesis CLX : s_bl r DX = Cyclic2.
  Hypothesis CRX : s_br r DX = Cyclic2.
  Hypothesis CLY : s_bl r DY = Rigid2.
  Hypothesis CRY : s_br r DY = Rigid2.

  Definition xcopies (x : minstr) : list tdesc :=
    match x with
    | MXS a ext => [ at2 a (AtLast 1 h) (Ext ext ext) (Leaf (a, (- px, 0, 0)));
                     at2 a (AtFirst (- h) (-1)) (Ext ext ext) (Leaf (a, (px, 0, 0))) ]
    | MXVA v _ => [ at2 (v DX) (AtLast 0 (h - 1)) yJ (Leaf (v DX, (- px, 0, 0)));
                    at2 (v DX) (AtFirst (- h) (-1)) yJ (Leaf (v DX, (px, 0, 0))) ]
    | MXVN v ext => [ at2 (v DY) (AtLast 1 h) (Ext (ext + 1) ext) (Leaf (v DY, (- px, 0, 0)));
                      at2 (v DY) (AtFirst (- h) (-1)) (Ext (ext + 1) ext) (Leaf (v DY, (px, 0, 0))) ]
    | _ => []
    end.
  Lemma runl_app e l l' m : runl e (l ++ l') m = runl e l' (runl e l m).
  Proof. apply fold_left_app. Qed.
  Lemma run_mixed e x m : is_exch x = true -> runp e [x] m =
    match x with MXVN _ _ => runl e (xcopies x) (runl e (wall_fills r x) m) | _ => runl e (wall_fills r x) (runl e (xcopies x) m) end.
  Proof.
    intros Hx. assert (E : expand ex e [x] = map (inst_i e) (ex x)) by (unfold expand; cbn [flat_map]; rewrite app_nil_r; reflexivity).
    rewrite E. destruct x as [s| |a ext|v ad|v ext|v]; try discriminate; cbn [expand2 wall_fills xcopies].
    all: rewrite <- runl_app; rewrite <- (fold_fills2 r n ar e); unfold prog_of, run_prog.
    - unfold fs_rght at 1, fs_left at 1. rewrite CLX, CRX. unfold ph. rewrite !map_app, !fold_left_app. reflexivity.
    - unfold fv_rght at 1, fv_left at 1. rewrite CLX, CRX. unfold ph. rewrite !map_app, !fold_left_app. reflexivity.
    - unfold fn_rght at 2, fn_left at 2, fs_rght at 1, fs_left at 1. rewrite CLX, CRX. unfold ph. rewrite !map_app, !fold_left_app. reflexivity.
    - unfold ff_rght at 1, ff_left at 1. rewrite CLX, CRX. unfold ph. rewrite !map_app, !fold_left_app. reflexivity.
  Qed.

  Lemma Hh1 : 1 <= h <= 2. Proof. apply halo_pos. Qed.
  Lemma GX : h <= hi DX - lo DX. Proof. exact (ok2_grid r RK DX (or_introl eq_refl)). Qed.
  Lemma GY : h <= hi DY - lo DY. Proof. exact (ok2_grid r RK DY (or_intror eq_refl)). Qed.

  (** which rows the fills write and which they read *)
  Definition rows_read (x : minstr) (y : Z) : Prop :=
    match x with
    | MXS _ _ | MXVN _ _ => lo DY <= y <= hi DY
    | _ => lo DY <= y <= hi DY - 1
    end.
  Definition rows_written (x : minstr) (y : Z) : Prop :=
    match x with
    | MXS _ _ | MXVN _ _ => lo DY - h <= y <= lo DY - 1 \/ hi DY + 1 <= y <= hi DY + h
    | MXVA _ ad => let k := if ad then 1 else 0 in lo DY - h <= y <= lo DY - 1 - k \/ hi DY + k <= y <= hi DY + h - 1
    | MXF _ => y = lo DY - 1 \/ y = hi DY
    | _ => False
    end.
  Definition fill_arr (x : minstr) : arr :=
    match x with MXS a _ => a | MXVA v _ => v DY | MXVN v _ => v DX | MXF v => v DY | _ => Gf end.
  Definition fill_cols (x : minstr) : rdesc :=
    match x with MXS _ ext => Own ext ext | MXVN _ ext => Own (ext + 1) ext | _ => xI end.
  Ltac unf := unfold wall_fills, fs_left, fs_rght, fv_left, fv_rght, fn_left, fn_rght, ff_left, ff_rght, fs_left, fs_rght; rewrite ?CLY, ?CRY.
  Ltac one := unfold fill_arr, fill_cols, at2d; eexists _, _; split; [reflexivity|]; cbn [leaves app x2]; intros ao [<-|[]]; split; [reflexivity|];
    eexists; split; [reflexivity|]; intros y Hy; unfold in_row in Hy; cbn [grng fst snd] in Hy; unfold rows_read.
  Lemma wall_fills_ok x : is_exch x = true -> Forall (row_fill (fill_arr x) (fill_cols x) (rows_read x)) (wall_fills r x).
  Proof.
    pose proof Hh1. pose proof GY.
    intros Hx. destruct x as [s| |a ext|v ad|v ext|v]; try discriminate; unf.
    all: apply Forall_app; split; apply Forall_forall; intros s Hin.
    1-6: apply in_map_iff in Hin; destruct Hin as (k & <- & Hk); apply in_zseq in Hk; unfold in_rng, first, last in Hk; cbn [fst snd] in Hk.
    7-8: destruct Hin as [<-|[]].
    1-2: one; lia.
    1-2: destruct ad; one; lia.
    all: one; lia.
  Qed.
  Lemma wall_rows_in x y : is_exch x = true -> rows_written x y -> exists s, In s (wall_fills r x) /\ in_row (lo DY) (hi DY) (t_y s) y.
  Proof.
    intros Hx H.
    assert (ZI : forall k u v, u <= k <= v -> In k (zseq (u, v))) by (intros k u v Hk; apply in_zseq; unfold in_rng, first, last; cbn [fst snd]; lia).
    destruct x as [s| |a ext|v ad|v ext|v]; try discriminate; unf; cbn [rows_written] in H; destruct H as [H|H].
    all: first [ eexists; split;
        [apply in_or_app; left; first [apply in_map; apply (ZI (y - lo DY)); lia | left; reflexivity]
        |unfold in_row; cbn [t_y at2d at2 grng fst snd]; lia]
      | eexists; split;
        [apply in_or_app; right; first [apply in_map; apply (ZI (y - hi DY)); lia | left; reflexivity]
        |unfold in_row; cbn [t_y at2d at2 grng fst snd]; lia] ].
  Qed.
  Lemma wall_rows_only x s y : is_exch x = true -> In s (wall_fills r x) -> in_row (lo DY) (hi DY) (t_y s) y -> rows_written x y.
  Proof.
    intros Hx. destruct x as [s0| |a ext|v ad|v ext|v]; try discriminate; unf.
    all: intros Hin Hy; apply in_app_or in Hin; destruct Hin as [Hin|Hin].
    1-6: apply in_map_iff in Hin; destruct Hin as (k & <- & Hk); apply in_zseq in Hk; unfold in_rng, first, last in Hk; cbn [fst snd] in Hk.
    7-8: destruct Hin as [<-|[]].
    all: unfold in_row in Hy; cbn [t_y at2d at2 grng fst snd] in Hy; cbn [rows_written]; lia.
  Qed.

  (** agreement after the fills at the walls *)
  Lemma wall_new e x (m f : mem) (b : garr) i : is_exch x = true -> slab_okb true (fill_cols x) = true ->
    agrows (tag e (fill_arr x)) (fill_cols x) (rows_read x) m f -> b = tag e (fill_arr x) ->
    in_row (lo DX) (hi DX) (fill_cols x) (comp DX i) -> rows_read x (comp DY i) \/ rows_written x (comp DY i) -> comp DZ i = 0 ->
    runl e (wall_fills r x) m (b, i) = chx ar r e x f (b, i).
  Proof.
    intros Hx Hr A -> H1 H2 H3.
    apply (rows_fold e _ _ (rows_read x) _ Hr (wall_fills_ok x Hx) (rows_read x) m f (fun y H => H) A); auto.
    destruct H2 as [H2|H2]; [left; exact H2|right]. apply wall_rows_in; auto.
  Qed.
  Lemma wall_old e x (m f : mem) (b : garr) i : is_exch x = true -> slab_okb true (fill_cols x) = true ->
    (b = tag e (fill_arr x) -> comp DZ i = 0 -> ~ rows_written x (comp DY i)) -> ag f m b i -> ag (chx ar r e x f) (runl e (wall_fills r x) m) b i.
  Proof.
    intros Hx Hr H A. unfold ag, chx in *.
    destruct (rows_out e _ _ (rows_read x) _ Hr (wall_fills_ok x Hx) m f b i) as [I1 I2].
    { intros Eb Ez s Hin Hy. apply (H Eb Ez). eapply wall_rows_only; eauto. }
    rewrite I1, I2. exact A.
  Qed.

  Lemma cbget_ag e V E a (m f : mem) : bagree g ar e V m f -> bget V E (a, izero) = true -> forall i, in_box g E i -> ag f m (tag e a) i.
  Proof.
    intros A H i Hi. destruct (bget_in r n V E a H) as (B & HB & L). apply (A a B i HB). auto.
  Qed.
  Lemma thin_box a b c d E i : thin a b c d E = true -> in_box g E i ->
    lo DX - a <= comp DX i <= hi DX + b \/ lo DY - c <= comp DY i <= hi DY + d.
  Proof.
    intros T H. pose proof (H DX) as X. pose proof (H DY) as Y. rewrite lo2, hi2 in X, Y by auto.
    destruct E as [[[xa xb] [ya yb]] zz]. cbn [thin] in T. cbn [e_d fst snd] in X, Y. lia.
  Qed.

  Ltac rect := unfold ProofsExch2D.in_rect, xI, yJ, Own, Ext, iadd, in_row in *; cbn [grng comp fst snd] in *.
  Ltac fin lem := apply lem; apply (in_b2 r n Hn Hs); rect; lia.
  Ltac kill := exfalso; rect; lia.

  Lemma chan_vx2 e x V V' (m f : mem) : is_exch x = true -> vxc2 h x V = Some V' ->
    bagree g ar e V m f -> periodic ar (px, 0, 0) f -> bagree g ar e V' (runp e [x] m) (chx ar r e x f).
  Proof.
    intros Hx HV A PX. rewrite run_mixed by auto.
    pose proof Hh1 as Hh. pose proof GX as GX0. pose proof GY as GY0.
    assert (EX : px = hi DX - lo DX) by reflexivity.
    destruct x as [s| |a ext|v ad|v ext|v]; try discriminate; cbn [vxc2] in HV.
    - destruct (_ && _) eqn:C; [|discriminate]. apply andb_true_iff in C. destruct C as [Ce C].
      assert (ext = h) by lia. subst ext. apply some_inj in HV. subst V'.
      pose proof (cbget_ag e V _ a m f A C) as SRC.
      assert (SO : slab_okb true (fill_cols (MXS a h)) = true) by (unfold fill_cols, Own, slab_okb; lia).
      set (m1 := runl e (xcopies (MXS a h)) m).
      assert (A1 : agrows (tag e a) (Own h h) (rows_read (MXS a h)) m1 f).
      { intros [[x y] z] H1 H2 H3. unfold m1. cbn [xcopies fold_left rows_read] in *. fold (ag f).
        repeat (apply xcopy_here; [reflexivity|exact PX|auto| |]; intros ?).
        all: first [fin SRC | kill]. }
      intros b E i Hb Hi. apply bset_cases in Hb. destruct Hb as [[-> Hb]|[NE Hb]].
      + destruct Hb as [<-|[]]. apply (in_b2 r n Hn Hs) in Hi.
        apply (wall_new e (MXS a h) m1 f); auto; cbn [fill_cols rows_read rows_written]; rect; lia.
      + apply (wall_old e (MXS a h) m1 f); auto.
        * intros Q. destruct (tag_ne e _ _ NE Q).
        * unfold m1. cbn [xcopies fold_left]. pose proof (tag_ne e a b NE) as NT.
          do 2 (apply xcopy_other; [reflexivity|exact NT|]). exact (A b E i Hb Hi).
    - set (k := if ad then 1 else 0) in HV. destruct (_ && _) eqn:C; [|discriminate]. apply andb_true_iff in C. destruct C as [C C2].
      apply andb_true_iff in C. destruct C as [NE C1].
      assert (NV : v DX <> v DY). { intros Q. rewrite Q, (proj2 (arr_eqb_eq _ _) eq_refl) in NE. discriminate. }
      pose proof (tag_ne e _ _ NV) as NT. pose proof (tag_ne e _ _ (not_eq_sym NV)) as NT'.
      apply some_inj in HV. subst V'. assert (Hk : 0 <= k <= 1) by (unfold k; destruct ad; lia).
      pose proof (cbget_ag e V _ _ m f A C1) as S1. pose proof (cbget_ag e V _ _ m f A C2) as S2.
      assert (SO : slab_okb true (fill_cols (MXVA v ad)) = true) by reflexivity.
      set (m1 := runl e (xcopies (MXVA v ad)) m).
      assert (OT : forall b i, b <> tag e (v DX) -> ag f m b i -> ag f m1 b i).
      { intros b i Nb H. unfold m1. cbn [xcopies fold_left]. do 2 (apply xcopy_other; [reflexivity|exact Nb|]). exact H. }
      assert (A1 : agrows (tag e (v DY)) xI (rows_read (MXVA v ad)) m1 f).
      { intros [[x y] z] H1 H2 H3. cbn [rows_read] in H2. apply OT; auto. fin S2. }
      assert (KX : forall i, (in_box g (b2 h (h - 1) 0 0) i \/ ag f m (tag e (v DX)) i) -> ag f m1 (tag e (v DX)) i).
      { intros [[x y] z] Hi. unfold m1. cbn [xcopies fold_left].
        repeat (apply xcopy_here; [reflexivity|exact PX|auto| |]; intros ?).
        all: destruct Hi as [Hi|Hi]; [apply (in_b2 r n Hn Hs) in Hi; cbn [comp fst snd] in Hi; first [fin S1 | kill]|].
        all: first [exact Hi | fin S1 | kill]. }
      assert (KN : forall i, in_box g (b2 0 0 h (h - 1)) i -> runl e (wall_fills r (MXVA v ad)) m1 (tag e (v DY), i) = chx ar r e (MXVA v ad) f (tag e (v DY), i)).
      { intros i Hi. apply (in_b2 r n Hn Hs) in Hi.
        assert (D : (rows_read (MXVA v ad) (comp DY i) \/ rows_written (MXVA v ad) (comp DY i)) \/
                    (~ rows_written (MXVA v ad) (comp DY i) /\ lo DY - k <= comp DY i <= hi DY + (k - 1))).
        { cbn [rows_read rows_written]. fold k. lia. }
        destruct D as [D|[D1 D2]].
        - apply (wall_new e (MXVA v ad) m1 f); auto; cbn [fill_cols]; rect; lia.
        - apply (wall_old e (MXVA v ad) m1 f); auto. apply OT; auto. fin S2. }
      intros b E i Hb Hi. apply bset_cases in Hb. destruct Hb as [[-> Hb]|[NE1 Hb]].
      + destruct Hb as [<-|Hb]; [apply KN; exact Hi|]. apply filter_In in Hb. destruct Hb as [Hb T].
        pose proof (thin_box _ _ _ _ _ _ T Hi) as TB. pose proof (A _ E i Hb Hi) as AO.
        assert (D : (~ rows_written (MXVA v ad) (comp DY i)) \/ (rows_written (MXVA v ad) (comp DY i) /\ lo DX <= comp DX i <= hi DX)).
        { cbn [rows_written]. fold k. lia. }
        destruct D as [D|[D1 D2]]; [apply (wall_old e (MXVA v ad) m1 f); auto; apply OT; auto|].
        destruct (Z.eq_dec (comp DZ i) 0) as [Z0|Z0].
        * apply KN. apply (in_b2 r n Hn Hs). cbn [rows_written] in D1. fold k in D1. lia.
        * apply (wall_old e (MXVA v ad) m1 f); auto.
      + apply bset_cases in Hb. destruct Hb as [[-> Hb]|[NE2 Hb]].
        * apply (wall_old e (MXVA v ad) m1 f); auto.
          apply KX. destruct Hb as [<-|Hb]; [left; exact Hi|right]. exact (A _ E i Hb Hi).
        * apply (wall_old e (MXVA v ad) m1 f); [exact Hx|exact SO|intros Q; destruct (tag_ne e _ _ NE1 Q)|].
          apply OT; [apply tag_ne; exact NE2|]. exact (A b E i Hb Hi).
    - destruct (_ && _) eqn:C; [|discriminate]. apply andb_true_iff in C. destruct C as [C C2].
      apply andb_true_iff in C. destruct C as [C C1]. apply andb_true_iff in C. destruct C as [Ce NE].
      assert (NV : v DX <> v DY). { intros Q. rewrite Q, (proj2 (arr_eqb_eq _ _) eq_refl) in NE. discriminate. }
      pose proof (tag_ne e _ _ NV) as NT. pose proof (tag_ne e _ _ (not_eq_sym NV)) as NT'.
      apply some_inj in HV. subst V'.
      assert (SO : slab_okb true (fill_cols (MXVN v ext)) = true) by (unfold fill_cols, Own, slab_okb; lia).
      pose proof (cbget_ag e V _ _ m f A C1) as S1. pose proof (cbget_ag e V _ _ m f A C2) as S2.
      set (m1 := runl e (wall_fills r (MXVN v ext)) m). set (f1 := chx ar r e (MXVN v ext) f).
      assert (PX1 : periodic ar (px, 0, 0) f1) by (apply chx_periodic; exact PX).
      assert (A1 : agrows (tag e (v DX)) (Own (ext + 1) ext) (rows_read (MXVN v ext)) m f).
      { intros [[x y] z] H1 H2 H3. cbn [rows_read] in H2. fin S1. }
      assert (OT : forall b i, b <> tag e (v DX) -> ag f m b i -> ag f1 m1 b i).
      { intros b i Nb H. apply (wall_old e (MXVN v ext) m f); auto; intros Q; destruct (Nb Q). }
      assert (KN : forall i, in_box g (b2 (ext + 1) ext h h) i -> ag f1 m1 (tag e (v DX)) i).
      { intros i Hi. apply (in_b2 r n Hn Hs) in Hi.
        apply (wall_new e (MXVN v ext) m f); auto; cbn [fill_cols rows_read rows_written]; rect; lia. }
      assert (KY : forall i, (in_box g (b2 h h (ext + 1) ext) i \/ ag f m (tag e (v DY)) i) ->
        ag f1 (runl e (xcopies (MXVN v ext)) m1) (tag e (v DY)) i).
      { assert (S2' : forall i, in_box g (b2 0 0 (ext + 1) ext) i -> ag f1 m1 (tag e (v DY)) i) by (intros i Hi; apply OT; auto).
        intros [[x y] z] Hi. cbn [xcopies fold_left].
        repeat (apply xcopy_here; [reflexivity|exact PX1|auto| |]; intros ?).
        all: destruct Hi as [Hi|Hi]; [apply (in_b2 r n Hn Hs) in Hi; cbn [comp fst snd] in Hi; first [fin S2' | kill]|].
        all: first [apply OT; [exact NT'|exact Hi] | fin S2' | kill]. }
      assert (OC : forall b i, b <> tag e (v DY) -> ag f1 m1 b i -> ag f1 (runl e (xcopies (MXVN v ext)) m1) b i).
      { intros b i Nb H. cbn [xcopies fold_left]. do 2 (apply xcopy_other; [reflexivity|exact Nb|]). exact H. }
      intros b E i Hb Hi. apply bset_cases in Hb. destruct Hb as [[-> Hb]|[NE1 Hb]].
      + apply KY. destruct Hb as [<-|Hb]; [left; exact Hi|right].
        apply bset_cases in Hb. destruct Hb as [[Q _]|[_ Hb]]; [congruence|]. exact (A _ E i Hb Hi).
      + apply OC; [apply tag_ne; exact NE1|]. apply bset_cases in Hb. destruct Hb as [[-> Hb]|[NE2 Hb]].
        * destruct Hb as [<-|Hb]; [apply KN; exact Hi|]. apply filter_In in Hb. destruct Hb as [Hb T].
          pose proof (thin_box _ _ _ _ _ _ T Hi) as TB. pose proof (A _ E i Hb Hi) as AO.
          assert (D : (~ rows_written (MXVN v ext) (comp DY i)) \/
            (rows_written (MXVN v ext) (comp DY i) /\ lo DX - (ext + 1) <= comp DX i <= hi DX + ext)).
          { cbn [rows_written]. lia. }
          destruct D as [D|[D1 D2]]; [apply (wall_old e (MXVN v ext) m f); auto|].
          destruct (Z.eq_dec (comp DZ i) 0) as [Z0|Z0].
          -- apply KN. apply (in_b2 r n Hn Hs). cbn [rows_written] in D1. lia.
          -- apply (wall_old e (MXVN v ext) m f); auto; intros _ Q; destruct (Z0 Q).
        * apply OT; [apply tag_ne; exact NE2|]. exact (A b E i Hb Hi).
    - destruct (_ && _) eqn:C; [|discriminate]. apply andb_true_iff in C. destruct C as [NE C2].
      apply some_inj in HV. subst V'. cbn [xcopies fold_left].
      pose proof (cbget_ag e V _ _ m f A C2) as S2.
      assert (SO : slab_okb true (fill_cols (MXF v)) = true) by reflexivity.
      assert (A1 : agrows (tag e (v DY)) xI (rows_read (MXF v)) m f).
      { intros [[x y] z] H1 H2 H3. cbn [rows_read] in H2. fin S2. }
      assert (KN : forall i, in_box g (b2 0 0 1 0) i -> runl e (wall_fills r (MXF v)) m (tag e (v DY), i) = chx ar r e (MXF v) f (tag e (v DY), i)).
      { intros i Hi. apply (in_b2 r n Hn Hs) in Hi.
        apply (wall_new e (MXF v) m f); auto; cbn [fill_cols rows_read rows_written]; rect; lia. }
      intros b E i Hb Hi. apply bset_cases in Hb. destruct Hb as [[-> Hb]|[NE1 Hb]].
      + destruct Hb as [<-|Hb]; [apply KN; exact Hi|]. apply filter_In in Hb. destruct Hb as [Hb T].
        pose proof (thin_box _ _ _ _ _ _ T Hi) as TB. pose proof (A _ E i Hb Hi) as AO.
        assert (D : (~ rows_written (MXF v) (comp DY i)) \/ (rows_written (MXF v) (comp DY i) /\ lo DX <= comp DX i <= hi DX)).
        { cbn [rows_written]. lia. }
        destruct D as [D|[D1 D2]]; [apply (wall_old e (MXF v) m f); auto|].
        destruct (Z.eq_dec (comp DZ i) 0) as [Z0|Z0].
        * apply KN. apply (in_b2 r n Hn Hs). cbn [rows_written] in D1. lia.
        * apply (wall_old e (MXF v) m f); auto; intros _ Q; destruct (Z0 Q).
      + apply (wall_old e (MXF v) m f); [exact Hx|exact SO|intros Q; destruct (tag_ne e _ _ NE1 Q)|]. exact (A b E i Hb Hi).
  Qed.
End Exch.
