(** Runs of one pass per step in a domain with open edges. *)
From Coq Require Import ZArith List Bool Lia Reals Lra.
From Verif Require Import ModelIndex ModelRun Lang ProofsLang Stencil ProofsStencil FormCommon Form2D Solver1D Solver2D
  Proofs1D ProofsThread1D ProofsThread2D ProofsOne2D Arith SpecThreads SpecFields2 SpecNum2 SpecWalls3 SpecOpen2 ProofsRef2D ProofsCyclic2D
  ProofsWalls2D ProofsWallsUp.
Import ListNotations.
Local Open Scope Z_scope.

Section Pass.
  Variable r : run2.
  Variable n : nat.
  Variables eps tiny : R.
  Hypothesis RK : run2_ok r.
  Hypothesis Hn : (0 < n)%nat.
  Hypothesis Hs : Z.of_nat n <= s_hi r DX - s_lo r DX + 1.
  Hypothesis BL : forall d, s_bl r d = Open2.
  Hypothesis BR : forall d, s_br r d = Open2.
  Notation AR := (arithR eps tiny).
  Notation g := (geom2 r n).
  Notation o := (s_o r).
  Notation lo := (s_lo r).
  Notation hi := (s_hi r).
  Notation mem := (ProofsWalls2D.mem eps tiny).
  Notation st := (ProofsWalls2D.st r n eps tiny).
  Notation go := (ProofsWalls2D.go r n eps tiny).
  Notation ex := (ProofsWalls2D.ex r n eps tiny).
  Notation rd := (ProofsWalls2D.rd eps tiny).

  Lemma osize : lo DX < hi DX /\ lo DY < hi DY.
  Proof. pose proof (ok2_grid r RK DX (or_introl eq_refl)). pose proof (ok2_grid r RK DY (or_intror eq_refl)). pose proof (halo_pos o). lia. Qed.
  Lemma ohalo : 1 <= s_halo r.
  Proof. unfold s_halo. pose proof (halo_pos o). lia. Qed.

  (** ** Statements that do not write a place *)
  Definition off (e : nat) (s : tdesc) (l : loc) : Prop := slab_ok g (inst e s) /\ snd (snd l) = 0 /\
    (fst l <> tag e (t_arr s) \/ ~ in_rng (fst (fst (snd l))) (grng (lo DX) (hi DX) (t_x s)) \/ ~ in_rng (snd (fst (snd l))) (grng (lo DY) (hi DY) (t_y s))).
  Lemma off_keeps e s m l : off e s l -> st (inst e s) m l = m l.
  Proof. destruct l as [b [[i j] k]]. intros (S & K & H). cbn [fst snd] in *. subst k. apply st_off; auto. Qed.
  Definition goL (e : nat) (L : list tdesc) (m : mem) : mem := go (map (inst_i e) (ph L)) m.
  Lemma goL_cons e s L m : goL e (s :: L) m = goL e L (st (inst e s) m).
  Proof. reflexivity. Qed.
  Lemma goL_app e L L' m : goL e (L ++ L') m = goL e L' (goL e L m).
  Proof. unfold goL, ph. rewrite !map_app, go_app. reflexivity. Qed.
  Lemma goL_keeps e L : forall m l, (forall s, In s L -> off e s l) -> goL e L m l = m l.
  Proof.
    induction L as [|s L IH]; intros m l H; [reflexivity|]. rewrite goL_cons, IH by (intros; apply H; right; auto).
    apply off_keeps. apply H. left. reflexivity.
  Qed.
  (** the place is written by one statement of a list *)
  Lemma goL_pick e L1 s L2 m b i j : (forall s', In s' L2 -> off e s' (b, (i, j, 0))) ->
    slab_ok g (inst e s) -> b = tag e (t_arr s) -> in_rng i (grng (lo DX) (hi DX) (t_x s)) -> in_rng j (grng (lo DY) (hi DY) (t_y s)) -> t_z s = Ext 0 0 ->
    goL e (L1 ++ s :: L2) m (b, (i, j, 0)) = ev AR (rd e (goL e L1 m) (i, j, 0)) (t_exp s).
  Proof.
    intros H2 S B X Y Z0. rewrite goL_app, goL_cons, goL_keeps by exact H2. apply st_at; auto.
  Qed.
  Lemma go_ph e L p m : go (map (inst_i e) (ph L ++ p)) m = go (map (inst_i e) p) (goL e L m).
  Proof. rewrite map_app, go_app. reflexivity. Qed.
  Lemma go_bar e p m : go (map (inst_i e) (TBar :: p)) m = go (map (inst_i e) p) m.
  Proof. reflexivity. Qed.

  (** [zseq] with its last or first element apart *)
  Lemma zseq_last a b : a <= b -> zseq (a, b) = zseq (a, b - 1) ++ [b].
  Proof.
    intros H. unfold zseq, first, last. cbn [fst snd]. replace (Z.to_nat (b - a + 1)) with (S (Z.to_nat (b - 1 - a + 1))) by lia.
    rewrite seq_S, map_app. f_equal. cbn [map]. f_equal. lia.
  Qed.
  Lemma zseq_first a b : a <= b -> zseq (a, b) = a :: zseq (a + 1, b).
  Proof.
    intros H. unfold zseq, first, last. cbn [fst snd]. replace (Z.to_nat (b - a + 1)) with (S (Z.to_nat (b - (a + 1) + 1))) by lia.
    cbn [seq map]. f_equal; [lia|]. rewrite <- seq_shift, map_map. apply map_ext. intros k. lia.
  Qed.
  Ltac inmap H k Hk := apply in_map_iff in H; destruct H as (k & <- & Hk); apply in_zseq in Hk; unfold in_rng, first, last in Hk; cbn [fst snd] in Hk.
  Ltac rng := unfold in_rng, first, last; cbn [grng fst snd t_x t_y at2 at2d xI yJ Ext Own xIM yJM]; lia.
  Lemma slabX e a rx ry ee : match rx with Slab _ _ _ _ => False | _ => True end -> slab_ok g (inst e (at2 a rx ry ee)).
  Proof. destruct rx; [intros []|reflexivity|reflexivity]. Qed.
  Lemma slabO e a x y ry ee : 0 <= x -> 0 <= y -> slab_ok g (inst e (at2 a (Own x y) ry ee)).
  Proof. intros. unfold slab_ok. cbn [d_r inst at2 d_x t_x]. unfold Own, slab_okb. apply orb_true_iff. right. rewrite !andb_true_iff, !Z.leb_le. lia. Qed.
  Lemma slabE e a x y ry ee : 0 <= x -> 0 <= y -> slab_ok g (inst e (at2 a (Ext x y) ry ee)).
  Proof. intros. unfold slab_ok. cbn [d_r inst at2 d_x t_x]. unfold Ext, slab_okb. apply orb_true_iff. right. rewrite !andb_true_iff, !Z.leb_le. lia. Qed.
  Ltac slab := first [apply slabX; exact I | apply slabO; lia | apply slabE; lia].
  Ltac offs := unfold off; cbn [fst snd]; split; [slab|]; split; [reflexivity|];
    first [left; cbn; congruence | right; left; rng | right; right; rng].

  (** ** Scalars *)
  Definition va (e : nat) (a : arr) (m : mem) (i j : Z) : R := m (tag e a, (i, j, 0)).
  Lemma scalar_halos e a m : let m' := ex e [MXS a (halo o)] m in
    (forall i j, on_grid lo hi i j -> va e a m' i j = va e a m i j) /\
    (forall j, lo DY <= j <= hi DY -> va e a m' (lo DX - 1) j = va e a m (lo DX) j /\ va e a m' (hi DX + 1) j = va e a m (hi DX) j) /\
    (forall i, lo DX <= i <= hi DX -> va e a m' i (lo DY - 1) = va e a m i (lo DY) /\ va e a m' i (hi DY + 1) = va e a m i (hi DY)).
  Proof.
    cbv zeta. destruct osize as [Sx Sy]. pose proof ohalo as H1. unfold ProofsWalls2D.ex, expand_eq2. cbn [flat_map expand2]. rewrite app_nil_r.
    cbn [app]. rewrite go_bar, go_ph, go_bar, go_ph, go_bar, go_ph.
    change (go (map (inst_i e) [TBar]) ?x) with x.
    unfold fs_rght, fs_left. rewrite !BL, !BR. change (halo o) with (s_halo r) in *. set (h := s_halo r) in *.
    set (FRX := map (fun k => at2d DX a (AtLast k k) (Ext h h) (Leaf (a, x2 DX (- k) 0))) (zseq (1, h))).
    set (FLX := map (fun k => at2d DX a (AtFirst k k) (Ext h h) (Leaf (a, x2 DX (- k) 0))) (zseq (- h, -1))).
    set (FLY := map (fun k => at2d DY a (AtFirst k k) (Own h h) (Leaf (a, x2 DY (- k) 0))) (zseq (- h, -1))).
    set (FRY := map (fun k => at2d DY a (AtLast k k) (Own h h) (Leaf (a, x2 DY (- k) 0))) (zseq (1, h))).
    set (m1 := goL e FRX m). set (m2 := goL e FLX m1).
    assert (KR : forall i j l, i <= hi DX -> l = (tag e a, (i, j, 0)) -> goL e FRX m l = m l).
    { intros i j l Hi ->. apply goL_keeps. intros s Hin. unfold FRX in Hin. inmap Hin k Hk. offs. }
    assert (KL : forall m i j l, lo DX <= i -> l = (tag e a, (i, j, 0)) -> goL e FLX m l = m l).
    { intros m0 i j l Hi ->. apply goL_keeps. intros s Hin. unfold FLX in Hin. inmap Hin k Hk. offs. }
    assert (KY : forall m i j l, lo DY <= j <= hi DY -> l = (tag e a, (i, j, 0)) -> goL e (FLY ++ FRY) m l = m l).
    { intros m0 i j l Hi ->. apply goL_keeps. intros s Hin. apply in_app_or in Hin. destruct Hin as [Hin|Hin]; [unfold FLY in Hin|unfold FRY in Hin]; inmap Hin k Hk; cbn [at2d]; offs. }
    unfold va.
    split; [|split].
    - intros i j [Gx Gy]. rewrite (KY _ i j) by auto. unfold m2. rewrite (KL _ i j) by (auto; lia). unfold m1. apply (KR i j); auto. lia.
    - intros j Gy. split.
      + rewrite (KY _ (lo DX - 1) j) by auto. unfold m2, FLX. rewrite zseq_last by lia. rewrite map_app. cbn [map].
        rewrite goL_pick; [|intros s []|slab|reflexivity|rng|rng|reflexivity].
        cbn [t_exp at2d at2 ev]. unfold rd, iadd, x2. cbn [fst snd]. rewrite goL_keeps.
        2:{ intros s Hin. inmap Hin k Hk. offs. }
        unfold m1. replace (lo DX - 1 + - -1) with (lo DX) by lia. replace (j + 0) with j by lia. apply (KR (lo DX) j); auto. lia.
      + rewrite (KY _ (hi DX + 1) j) by auto. unfold m2. rewrite (KL _ (hi DX + 1) j) by (auto; lia). unfold m1, FRX. rewrite zseq_first by lia. cbn [map].
        refine (eq_trans (goL_pick e [] _ _ m _ _ _ _ _ _ _ _ _) _); [intros s Hin; inmap Hin k Hk; offs|slab|reflexivity|rng|rng|reflexivity|].
        cbn [t_exp at2d at2 ev]. unfold rd, iadd, x2. cbn [fst snd]. replace (hi DX + 1 + - (1)) with (hi DX) by lia. replace (j + 0) with j by lia. reflexivity.
    - intros i Gx. split.
      + rewrite goL_app. rewrite (goL_keeps e FRY) by (intros s Hin; unfold FRY in Hin; inmap Hin k Hk; cbn [at2d]; offs).
        unfold FLY. rewrite zseq_last by lia. rewrite map_app. cbn [map].
        rewrite goL_pick; [|intros s []|cbn [at2d]; slab|reflexivity|cbn [at2d]; rng|cbn [at2d]; rng|reflexivity].
        cbn [t_exp at2d at2 ev]. unfold rd, iadd, x2. cbn [fst snd]. rewrite goL_keeps.
        2:{ intros s Hin. inmap Hin k Hk. cbn [at2d]. offs. }
        replace (lo DY - 1 + - -1) with (lo DY) by lia. replace (i + 0) with i by lia. unfold m2. rewrite (KL _ i (lo DY)) by (auto; lia). apply (KR i (lo DY)); auto. lia.
      + unfold FRY. rewrite zseq_first by lia. cbn [map].
        rewrite goL_pick; [|intros s Hin; inmap Hin k Hk; cbn [at2d]; offs|cbn [at2d]; slab|reflexivity|cbn [at2d]; rng|cbn [at2d]; rng|reflexivity].
        cbn [t_exp at2d at2 ev]. unfold rd, iadd, x2. cbn [fst snd]. rewrite goL_keeps.
        2:{ intros s Hin. unfold FLY in Hin. inmap Hin k Hk. cbn [at2d]. offs. }
        replace (hi DY + 1 + - (1)) with (hi DY) by lia. replace (i + 0) with i by lia. unfold m2. rewrite (KL _ i (hi DY)) by (auto; lia). apply (KR i (hi DY)); auto. lia.
  Qed.

  (** ** Arrays that are not written *)
  Definition arrs (x : minstr) : list arr := match x with
    | MDo s => [t_arr s] | MBar => [] | MXS a _ => [a] | MXVA v _ | MXVN v _ | MXF v => [v DX; v DY] end.
  Definition only (L : list arr) (p : list tinstr) : Prop := forall s, In (TDo s) p -> In (t_arr s) L.
  Lemma only_app L p q : only L p -> only L q -> only L (p ++ q).
  Proof. intros A B s H. apply in_app_or in H. destruct H; auto. Qed.
  Lemma only_ph L l : (forall s, In s l -> In (t_arr s) L) -> only L (ph l).
  Proof. intros H s Hin. unfold ph in Hin. apply in_map_iff in Hin. destruct Hin as (x & E & Hx). inversion E. subst. auto. Qed.
  Lemma only_bar L : only L [TBar].
  Proof. intros s [H|[]]. discriminate. Qed.
  Lemma map_arr {A} (f : A -> tdesc) a l : (forall x, t_arr (f x) = a) -> forall s, In s (map f l) -> t_arr s = a.
  Proof. intros H s Hin. apply in_map_iff in Hin. destruct Hin as (x & <- & _). auto. Qed.
  Lemma at2d_arr d a r1 r2 ee : t_arr (at2d d a r1 r2 ee) = a.
  Proof. destruct d; reflexivity. Qed.
  Lemma fs_arr d a ro s : In s (fs_left (s_halo r) (s_per r) (s_bl r) d a ro) \/ In s (fs_rght (s_halo r) (s_per r) (s_br r) d a ro) -> t_arr s = a.
  Proof. unfold fs_left, fs_rght. rewrite BL, BR. intros [H|H]; revert H; apply map_arr; intros; apply at2d_arr. Qed.
  Lemma fn_arr d a ro s : In s (fn_left (s_halo r) (s_per r) (s_bl r) d a ro) \/ In s (fn_rght (s_halo r) (s_per r) (s_br r) d a ro) -> t_arr s = a.
  Proof. unfold fn_left, fn_rght. rewrite BL, BR. intros [H|H]; revert H; apply map_arr; intros; apply at2d_arr. Qed.
  Lemma fv_arr d v ad ro s : (d = DX \/ d = DY) -> In s (fv_left (s_halo r) (s_per r) (s_bl r) d v ad ro) \/ In s (fv_rght (s_halo r) (s_per r) (s_br r) d v ad ro) ->
    In (t_arr s) [v DX; v DY].
  Proof.
    unfold fv_left, fv_rght. rewrite BL, BR. intros D [H|H]; apply in_app_or in H; destruct H as [H|H].
    1,3: destruct D as [-> | ->]; [destruct H as [<-|[<-|[]]]; cbn; auto|destruct H].
    all: apply (map_arr _ (v d)) in H; [rewrite H; destruct D as [-> | ->]; cbn; auto|intros; apply at2d_arr].
  Qed.
  Lemma expand_only x : only (arrs x) (expand2 (s_halo r) (s_per r) (s_bl r) (s_br r) x).
  Proof.
    assert (D1 : DX = DX \/ DX = DY) by auto. assert (D2 : DY = DX \/ DY = DY) by auto.
    destruct x as [s| |a xt|v ad|v xt|v]; cbn [expand2 arrs].
    - intros s' [H|[]]. inversion H. left. reflexivity.
    - apply only_bar.
    - repeat apply only_app; try apply only_bar; apply only_ph; intros s H; left; symmetry; try (apply in_app_or in H); eapply fs_arr; try (destruct H as [H|H]); eauto.
    - repeat apply only_app; try apply only_bar; apply only_ph; intros s H; [apply (fv_arr DX v ad yJ); auto|apply (fv_arr DX v ad yJ); auto|].
      apply in_app_or in H. apply (fv_arr DY v ad xI); auto.
    - repeat apply only_app; try apply only_bar; try (apply only_ph; intros s H).
      + rewrite !in_app_iff in H. destruct H as [H|[H|H]]; [left|left|right; left]; symmetry; eapply fn_arr; eauto.
      + right; left. symmetry. eapply fn_arr; eauto.
      + intros s [H|[H|[]]]; discriminate.
    - unfold ff_left, ff_rght. rewrite !BL, !BR. intros s H. cbn in H. repeat (destruct H as [H|H]; [discriminate|]). destruct H.
  Qed.
  Lemma go_only e L p : only L p -> forall m b i, ~ In b (map (tag e) L) -> go (map (inst_i e) p) m (b, i) = m (b, i).
  Proof.
    induction p as [|x p IH]; intros O m b i H; [reflexivity|]. change (x :: p) with ([x] ++ p). rewrite map_app, go_app.
    rewrite IH by (auto; intros s Hs'; apply O; right; auto). destruct x as [s|]; [|reflexivity].
    change (go (map (inst_i e) [TDo s]) m) with (st (inst e s) m). unfold ProofsWalls2D.st. apply run_stmt_out. intros t Ht Hin. apply in_el in Hin. destruct Hin as [A _].
    apply H. cbn [fst] in A. rewrite A. cbn [inst d_arr]. apply in_map. apply O. left. reflexivity.
  Qed.
  Lemma ex_arr e x m b i : ~ In b (map (tag e) (arrs x)) -> ex e [x] m (b, i) = m (b, i).
  Proof. intros H. unfold ProofsWalls2D.ex, expand_eq2. cbn [flat_map]. rewrite app_nil_r. apply (go_only e (arrs x)); auto. apply expand_only. Qed.
  Lemma ex_arrs e p : forall m b i, (forall x, In x p -> ~ In b (map (tag e) (arrs x))) -> ex e p m (b, i) = m (b, i).
  Proof.
    induction p as [|x p IH]; intros m b i H; [reflexivity|]. rewrite ex_cons. rewrite IH by (intros; apply H; right; auto).
    apply ex_arr. apply H. left. reflexivity.
  Qed.

  (** ** The advector before the first step *)
  Notation X m i j := (va 0 (GC DX) m i j).
  Notation Y m i j := (va 0 (GC DY) m i j).
  Lemma alng m : let m' := ex 0 [MXVA GC false] m in
    (forall i j, lo DX <= i < hi DX -> lo DY <= j <= hi DY -> X m' i j = X m i j) /\
    (forall i j, lo DX <= i <= hi DX -> lo DY <= j < hi DY -> Y m' i j = Y m i j) /\
    (forall i j, on_grid lo hi i j -> ~ interior lo hi i j -> (X m' i j - X m' (i - 1) j + (Y m' i j - Y m' i (j - 1)) = 0)%R).
  Proof.
    cbv zeta. destruct osize as [Sx Sy]. pose proof ohalo as H1. unfold ProofsWalls2D.ex, expand_eq2. cbn [flat_map expand2]. rewrite app_nil_r.
    cbn [app]. rewrite go_bar, go_ph, go_bar, go_ph, go_bar, go_ph.
    change (go (map (inst_i 0) [TBar]) ?x) with x.
    unfold fv_rght, fv_left. rewrite !BL, !BR. set (h := s_halo r) in *. rewrite Z.sub_0_r. cbn [od].
    set (FRX := map (fun k => at2d DX (GC DX) (AtLast k k) _ _) (zseq (0, h - 1))).
    set (FLX := map (fun k => at2d DX (GC DX) (AtFirst k k) _ _) (zseq (- h, -1))).
    set (FLY := map (fun k => at2d DY (GC DY) (AtFirst k k) _ _) (zseq (- h, -1))).
    set (FRY := map (fun k => at2d DY (GC DY) (AtLast k k) _ _) (zseq (0, h - 1))).
    rewrite !app_nil_l.
    set (mA := goL 0 (corner0 GC (AtLast 0 0) ++ FRX) m). set (mB := goL 0 (corner0 GC (AtFirst 0 0) ++ FLX) mA).
    rewrite goL_app. set (mC := goL 0 FLY mB). set (mD := goL 0 FRY mC).
    set (m0 := goL 0 (corner0 GC (AtLast 0 0)) m) in *.
    assert (EA : mA = goL 0 FRX m0) by (unfold mA; rewrite goL_app; reflexivity).
    set (m0' := goL 0 (corner0 GC (AtFirst 0 0)) mA) in *.
    assert (EB : mB = goL 0 FLX m0') by (unfold mB; rewrite goL_app; reflexivity).
    assert (KX0 : forall i j, X m0 i j = X m i j).
    { intros i j. unfold va, m0. apply goL_keeps. intros s [<-|[<-|[]]]; offs. }
    assert (KX0' : forall i j, X m0' i j = X mA i j).
    { intros i j. unfold va, m0'. apply goL_keeps. intros s [<-|[<-|[]]]; offs. }
    assert (KY0 : forall i j, lo DY <= j < hi DY -> Y m0 i j = Y m i j).
    { intros i j Hj. unfold va, m0. apply goL_keeps. intros s [<-|[<-|[]]]; offs. }
    assert (KY0' : forall i j, lo DY <= j < hi DY \/ lo DX < i -> Y m0' i j = Y mA i j).
    { intros i j [Hj|Hj]; unfold va, m0'; apply goL_keeps; intros s [<-|[<-|[]]]; offs. }
    assert (KXA : forall i j, i < hi DX -> X mA i j = X m0 i j).
    { intros i j Hi. rewrite EA. unfold va. apply goL_keeps. intros s Hin. unfold FRX in Hin. inmap Hin k Hk. cbn [at2d]. offs. }
    assert (KYA : forall i j, Y mA i j = Y m0 i j).
    { intros i j. rewrite EA. unfold va. apply goL_keeps. intros s Hin. unfold FRX in Hin. inmap Hin k Hk. cbn [at2d]. offs. }
    assert (KXB : forall i j, lo DX <= i -> X mB i j = X m0' i j).
    { intros i j Hi. rewrite EB. unfold va. apply goL_keeps. intros s Hin. unfold FLX in Hin. inmap Hin k Hk. cbn [at2d]. offs. }
    assert (KYB : forall i j, Y mB i j = Y m0' i j).
    { intros i j. rewrite EB. unfold va. apply goL_keeps. intros s Hin. unfold FLX in Hin. inmap Hin k Hk. cbn [at2d]. offs. }
    assert (KXC : forall i j, X mC i j = X mB i j).
    { intros i j. unfold va, mC. apply goL_keeps. intros s Hin. unfold FLY in Hin. inmap Hin k Hk. cbn [at2d]. offs. }
    assert (KYC : forall i j, lo DY <= j -> Y mC i j = Y mB i j).
    { intros i j Hj. unfold va, mC. apply goL_keeps. intros s Hin. unfold FLY in Hin. inmap Hin k Hk. cbn [at2d]. offs. }
    assert (KXD : forall i j, X mD i j = X mC i j).
    { intros i j. unfold va, mD. apply goL_keeps. intros s Hin. unfold FRY in Hin. inmap Hin k Hk. cbn [at2d]. offs. }
    assert (KYD : forall i j, j < hi DY -> Y mD i j = Y mC i j).
    { intros i j Hj. unfold va, mD. apply goL_keeps. intros s Hin. unfold FRY in Hin. inmap Hin k Hk. cbn [at2d]. offs. }
    assert (VA : forall j, lo DY <= j <= hi DY -> X mA (hi DX) j = (X m0 (hi DX - 1)%Z j + (Y m0 (hi DX) (j - 1)%Z - Y m0 (hi DX) j))%R).
    { intros j Hj. rewrite EA. unfold va at 1. unfold FRX. rewrite zseq_first by lia. cbn [map].
      refine (eq_trans (goL_pick 0 [] _ _ m0 _ _ _ _ _ _ _ _ _) _); [intros s Hin; inmap Hin k Hk; offs|slab|reflexivity|rng|rng|reflexivity|].
      cbn [t_exp at2d at2 ev abin arithR]. unfold rd, iadd, x2, va. cbn [fst snd]. rewrite !Z.add_0_r. reflexivity. }
    assert (VB : forall j, lo DY <= j <= hi DY -> X mB (lo DX - 1) j = (X m0' (lo DX) j - (Y m0' (lo DX) (j - 1)%Z - Y m0' (lo DX) j))%R).
    { intros j Hj. rewrite EB. unfold va at 1. unfold FLX. rewrite zseq_last by lia. rewrite map_app. cbn [map].
      rewrite goL_pick; [|intros s []|slab|reflexivity|rng|rng|reflexivity].
      cbn [t_exp at2d at2 ev abin arithR]. unfold rd, iadd, x2, va. cbn [fst snd].
      rewrite !goL_keeps by (intros s Hin; inmap Hin k Hk; offs).
      replace (lo DX - 1 + - -1) with (lo DX) by lia. rewrite !Z.add_0_r. reflexivity. }
    assert (VC : forall i, lo DX <= i <= hi DX -> Y mC i (lo DY - 1) = (Y mB i (lo DY) - (X mB (i - 1)%Z (lo DY) - X mB i (lo DY)))%R).
    { intros i Hi. unfold va at 1. unfold mC, FLY. rewrite zseq_last by lia. rewrite map_app. cbn [map].
      rewrite goL_pick; [|intros s []|cbn [at2d]; slab|reflexivity|cbn [at2d]; rng|cbn [at2d]; rng|reflexivity].
      cbn [t_exp at2d at2 ev abin arithR]. unfold rd, iadd, x2, va. cbn [fst snd].
      rewrite !goL_keeps by (intros s Hin; inmap Hin k Hk; cbn [at2d]; offs).
      replace (lo DY - 1 + - -1) with (lo DY) by lia. rewrite !Z.add_0_r. reflexivity. }
    assert (VD : forall i, lo DX <= i <= hi DX -> Y mD i (hi DY) = (Y mC i (hi DY - 1)%Z + (X mC (i - 1)%Z (hi DY) - X mC i (hi DY)))%R).
    { intros i Hi. unfold va at 1. unfold mD, FRY. rewrite zseq_first by lia. cbn [map].
      refine (eq_trans (goL_pick 0 [] _ _ mC _ _ _ _ _ _ _ _ _) _); [intros s Hin; inmap Hin k Hk; cbn [at2d]; offs|cbn [at2d]; slab|reflexivity|cbn [at2d]; rng|cbn [at2d]; rng|reflexivity|].
      cbn [t_exp at2d at2 ev abin arithR]. unfold rd, iadd, x2, va. cbn [fst snd]. rewrite !Z.add_0_r. reflexivity. }
    split; [|split].
    - intros i j Hi Hj. rewrite KXD, KXC, KXB, KX0', KXA, KX0 by lia. reflexivity.
    - intros i j Hi Hj. rewrite KYD, KYC, KYB, KY0', KYA, KY0 by (try lia; left; lia). reflexivity.
    - intros i j [Gx Gy] NI.
      assert (C : j = lo DY \/ j = hi DY \/ (lo DY < j < hi DY /\ (i = lo DX \/ i = hi DX))) by (unfold interior in NI; lia).
      destruct C as [->|[->|[Hj [->| ->]]]].
      + rewrite !KXD, !KXC. rewrite !(KYD i) by lia. rewrite (VC i Gx). rewrite (KYC i) by lia. ring.
      + rewrite !KXD. rewrite (VD i Gx). rewrite (KYD i) by lia. ring.
      + rewrite !KXD, !KXC. rewrite !(KYD (lo DX)) by lia. rewrite !(KYC (lo DX)) by lia. rewrite (VB j) by lia. rewrite (KXB (lo DX)) by lia. rewrite !KYB. ring.
      + rewrite !KXD, !KXC. rewrite !(KYD (hi DX)) by lia. rewrite !(KYC (hi DX)) by lia. rewrite !KXB by lia. rewrite !KYB.
        rewrite !KX0'. rewrite !(KY0' (hi DX)) by (right; lia). rewrite (VA j) by lia. rewrite !KYA. rewrite (KXA (hi DX - 1)%Z) by lia. ring.
  Qed.
  (** faces of cells of the grid *)
  Lemma nrml m x : let m' := ex 0 [MXVN GC x] m in 0 <= x ->
    (forall i j, lo DY <= j <= hi DY -> X m' i j = X m i j) /\ (forall i j, lo DX <= i <= hi DX -> Y m' i j = Y m i j).
  Proof.
    cbv zeta. intros Hx. unfold ProofsWalls2D.ex, expand_eq2. cbn [flat_map expand2]. rewrite app_nil_r.
    cbn [app]. rewrite go_bar, go_ph, go_bar, go_ph.
    change (go (map (inst_i 0) [TBar; TBar]) ?x) with x.
    unfold fn_rght, fn_left. rewrite !BL, !BR. set (h := s_halo r) in *.
    split; intros i j Hj; unfold va.
    - rewrite goL_keeps by (intros s Hin; inmap Hin k Hk; cbn [at2d]; offs).
      apply goL_keeps. intros s Hin. rewrite !in_app_iff in Hin. destruct Hin as [Hin|[Hin|Hin]]; inmap Hin k Hk; cbn [at2d]; offs.
    - rewrite goL_keeps by (intros s Hin; inmap Hin k Hk; cbn [at2d]; offs).
      apply goL_keeps. intros s Hin. rewrite !in_app_iff in Hin. destruct Hin as [Hin|[Hin|Hin]]; inmap Hin k Hk; cbn [at2d]; offs.
  Qed.
  Notation G m i j := (G2of (nug o) m i j).
  Definition tame (m m' : mem) : Prop :=
    (forall i j, lo DX <= i < hi DX -> lo DY <= j <= hi DY -> X m' i j = X m i j) /\
    (forall i j, lo DX <= i <= hi DX -> lo DY <= j < hi DY -> Y m' i j = Y m i j) /\
    (forall i j, on_grid lo hi i j -> ~ interior lo hi i j -> (X m' i j - X m' (i - 1) j + (Y m' i j - Y m' i (j - 1)) = 0)%R) /\
    (forall i j, on_grid lo hi i j -> G m' i j = G m i j).
  Lemma ante_tame m : tame m (ex 0 (ante2 o) m) /\ forall e b i, ex 0 (ante2 o) m ((e, Psi b), i) = m ((e, Psi b), i).
  Proof.
    destruct osize as [Sx Sy]. pose proof ohalo as H1. unfold s_halo in H1. split.
    - unfold ante2. change ([MBar; MXVA GC false] ++ ?p) with (MBar :: MXVA GC false :: p). rewrite ex_cons, ex_bar, ex_cons, !ex_app.
      set (m1 := ex 0 [MXVA GC false] m). set (m2 := ex 0 (if nug o then _ else _) m1). set (m3 := ex 0 [MXVN GC _] m2). set (m4 := ex 0 (if div3dt o || div3 o then _ else _) m3).
      rewrite ex_bar.
      destruct (alng m) as (A1 & A2 & A3). fold m1 in A1, A2, A3.
      assert (B1 : forall d i, m2 ((O, GC d), i) = m1 ((O, GC d), i)).
      { intros d i. unfold m2. destruct (nug o); [|reflexivity]. apply ex_arrs. intros x [<-|[]] [H|[]]. discriminate. }
      destruct (nrml m2 (halo o - 1)) as (N1 & N2); [lia|]. fold m3 in N1, N2.
      assert (B4 : forall a i, (exists d, a = (O, GC d)) \/ a = (O, Gf) -> m4 (a, i) = m3 (a, i)).
      { intros a i Ha. unfold m4. apply ex_arrs. intros x Hin HI. destruct (div3dt o || div3 o); [|destruct Hin]. cbn [In] in Hin.
        repeat (destruct Hin as [<-|Hin]; [cbn in HI; destruct Ha as [[d ->]| ->]; repeat (destruct HI as [HI|HI]; [discriminate|]); exact HI|]). exact Hin. }
      assert (CX : forall i j, lo DY <= j <= hi DY -> X m4 i j = X m1 i j).
      { intros i j Hj. unfold va. cbn [tag]. rewrite B4 by eauto. rewrite <- (B1 DX). apply (N1 i j Hj). }
      assert (CY : forall i j, lo DX <= i <= hi DX -> Y m4 i j = Y m1 i j).
      { intros i j Hj. unfold va. cbn [tag]. rewrite B4 by eauto. rewrite <- (B1 DY). apply (N2 i j Hj). }
      split; [|split; [|split]].
      + intros i j Hi Hj. rewrite CX by lia. apply A1; lia.
      + intros i j Hi Hj. rewrite CY by lia. apply A2; lia.
      + intros i j [Gx Gy] NI. rewrite !CX, !CY by lia. apply A3; auto. split; auto.
      + intros i j Gd. unfold G2of. destruct (nug o) eqn:N; [|reflexivity]. unfold gfac2. rewrite B4 by auto.
        unfold m3. rewrite (ex_arr 0 _ m2) by (cbn; intuition discriminate).
        destruct (scalar_halos 0 Gf m1) as (S1 & _). transitivity (m1 (O, Gf, (i, j, 0))); [exact (S1 i j Gd)|].
        unfold m1. apply ex_arr. cbn. intuition discriminate.
    - intros e b i. apply ex_arrs. unfold ante2. intros x Hin. rewrite !in_app_iff in Hin.
      destruct (nug o), (div3dt o || div3 o); cbn [In] in Hin; repeat (destruct Hin as [Hin|Hin]; try subst x); try contradiction; cbn; intuition discriminate.
  Qed.

  (** ** One pass *)
  Definition clamp (d : dim) (i : Z) : Z := Z.max (lo d) (Z.min (hi d) i).
  Definition pe (p : Z -> Z -> R) (i j : Z) : R := p (clamp DX i) (clamp DY j).
  Definition ofx (m : mem) (p : Z -> Z -> R) (i j : Z) : R := don (X m i j) (pe p i j) (pe p (i + 1) j).
  Definition ofy (m : mem) (p : Z -> Z -> R) (i j : Z) : R := don (Y m i j) (pe p i j) (pe p i (j + 1)).
  Definition ogain (m : mem) (p : Z -> Z -> R) (i j : Z) : R := ((ofx m p (i - 1) j - ofx m p i j) + (ofy m p i (j - 1) - ofy m p i j))%R.
  Definition oup (m : mem) (p : Z -> Z -> R) (i j : Z) : R := (p i j + ogain m p i j / G m i j)%R.
  Definition aside (e : nat) (m m' : mem) : Prop :=
    forall a i, (exists d, a = (O, GC d)) \/ a = (O, Gf) \/ (exists e' b, a = (e', Psi b) /\ e' <> e) -> m' (a, i) = m (a, i).

  Lemma open_flux e b m : let m' := ex e (flux2 (s_forms r) (Psi b) GC ++ [MXF Flux]) m in
    (forall i j, lo DX - 1 <= i <= hi DX -> lo DY <= j <= hi DY -> va e (Flux DX) m' i j = don (X m i j) (va e (Psi b) m i j) (va e (Psi b) m (i + 1) j)) /\
    (forall i j, lo DX <= i <= hi DX -> lo DY - 1 <= j <= hi DY -> va e (Flux DY) m' i j = don (Y m i j) (va e (Psi b) m i j) (va e (Psi b) m i (j + 1))).
  Proof.
    cbv zeta. rewrite ex_app. unfold flux2. rewrite (ex_cons _ _ _ _ e (MDo _) [_]), !ex_do.
    assert (EF : forall m0, ex e [MXF Flux] m0 = m0).
    { intros m0. unfold ProofsWalls2D.ex, expand_eq2. cbn [flat_map expand2]. unfold ff_left, ff_rght. rewrite !BL, !BR. reflexivity. }
    rewrite EF. split; intros i j Hi Hj; unfold va at 1.
    - rewrite st_other by (cbn; congruence).
      rewrite st_at; [|assumption|assumption|assumption|reflexivity|reflexivity|unfold in_rng, first, last; cbn; lia|unfold in_rng, first, last; cbn; lia|reflexivity].
      cbn [t_exp at2 s_forms forms2 f_flux]. unfold make_flux2. rewrite ev_Fx. unfold P2, V2, x2. cbn [ev].
      unfold rd, iadd, va. cbn [fst snd tag]. rewrite !Z.add_0_r. reflexivity.
    - rewrite st_at; [|assumption|assumption|assumption|reflexivity|reflexivity|unfold in_rng, first, last; cbn; lia|unfold in_rng, first, last; cbn; lia|reflexivity].
      cbn [t_exp at2 s_forms forms2 f_flux]. unfold make_flux2. rewrite ev_Fx. unfold P2, V2, x2. cbn [ev].
      unfold rd, iadd, va. cbn [fst snd tag od]. rewrite !Z.add_0_r. rewrite !st_other by (cbn; congruence). reflexivity.
  Qed.

  Lemma G_aside e m m' i j : aside e m m' -> G m' i j = G m i j.
  Proof. intros A. unfold G2of. destruct (nug o); [|reflexivity]. apply A. auto. Qed.
  Lemma GC_aside e m m' d i j : aside e m m' -> va 0 (GC d) m' i j = va 0 (GC d) m i j.
  Proof. intros A. apply A. left. exists d. reflexivity. Qed.
  Lemma aside_trans e m1 m2 m3 : aside e m1 m2 -> aside e m2 m3 -> aside e m1 m3.
  Proof. intros A B a i H. rewrite B, A; auto. Qed.
  Lemma aside_arrs e p m : (forall x, In x p -> forall a, In a (arrs x) -> match a with GC _ | Gf => False | _ => True end) -> aside e m (ex e p m).
  Proof.
    intros H a i Ha. apply ex_arrs. intros x Hx HI. apply in_map_iff in HI. destruct HI as (y & E & Hy). specialize (H x Hx y Hy).
    destruct Ha as [[d ->]|[->|(e' & b & -> & NE)]]; destruct y; cbn in E; try contradiction; congruence.
  Qed.
  Lemma clamp_in d i : lo d <= i <= hi d -> clamp d i = i.
  Proof. unfold clamp. lia. Qed.

  Lemma open_pass e b m : let m' := ex e (([MXS (Psi b) (halo o)] ++ fct_init2 o (s_forms r) (Psi b)) ++ upstream2 o (s_forms r) (Psi b) (Psi (negb b))) m in
    (forall i j, on_grid lo hi i j -> cel eps tiny e (negb b) m' i j = oup m (cel eps tiny e b m) i j) /\ aside e m m'.
  Proof.
    cbv zeta. destruct osize as [Sx Sy]. rewrite ex_app. rewrite (ex_app r n eps tiny e [MXS _ _]). set (m1 := ex e [MXS (Psi b) (halo o)] m). set (m2 := ex e (fct_init2 o (s_forms r) (Psi b)) m1).
    unfold upstream2. rewrite app_assoc, ex_app. set (m3 := ex e (flux2 _ _ _ ++ _) m2).
    assert (A1 : aside e m m1) by (apply aside_arrs; intros x [<-|[]] a [<-|[]]; exact I).
    assert (A2 : aside e m1 m2).
    { apply aside_arrs. intros x Hx. unfold fct_init2 in Hx. destruct (fct o); [|destruct Hx]. destruct Hx as [<-|[<-|[]]]; intros a [<-|[]]; exact I. }
    assert (A3 : aside e m2 m3).
    { apply aside_arrs. intros x Hx. unfold flux2 in Hx. cbn [app In] in Hx. destruct Hx as [<-|[<-|[<-|[]]]]; cbn; intuition (subst; exact I). }
    assert (P2' : forall i, m2 ((e, Psi b), i) = m1 ((e, Psi b), i)).
    { intros i. apply ex_arrs. intros x Hx. unfold fct_init2 in Hx. destruct (fct o); [|destruct Hx]. destruct Hx as [<-|[<-|[]]]; cbn; intuition discriminate. }
    assert (P3 : forall i, m3 ((e, Psi b), i) = m2 ((e, Psi b), i)).
    { intros i. apply ex_arrs. intros x Hx. unfold flux2 in Hx. cbn [app In] in Hx. destruct Hx as [<-|[<-|[<-|[]]]]; cbn; intuition discriminate. }
    destruct (scalar_halos e (Psi b) m) as (S1 & S2 & S3). fold m1 in S1, S2, S3.
    assert (PE : forall i j, (lo DX - 1 <= i <= hi DX + 1 /\ lo DY <= j <= hi DY) \/ (lo DX <= i <= hi DX /\ lo DY - 1 <= j <= hi DY + 1) ->
      va e (Psi b) m2 i j = pe (cel eps tiny e b m) i j).
    { intros i j H. unfold va. cbn [tag]. rewrite P2'. unfold pe, cel.
      change (va e (Psi b) m1 i j = va e (Psi b) m (clamp DX i) (clamp DY j)).
      destruct (Z.eq_dec i (lo DX - 1)) as [->|N1].
      { replace (clamp DX (lo DX - 1)) with (lo DX) by (unfold clamp; lia). rewrite clamp_in by lia. apply S2. lia. }
      destruct (Z.eq_dec i (hi DX + 1)) as [->|N2].
      { replace (clamp DX (hi DX + 1)) with (hi DX) by (unfold clamp; lia). rewrite clamp_in by lia. apply S2. lia. }
      rewrite (clamp_in DX) by lia.
      destruct (Z.eq_dec j (lo DY - 1)) as [->|N3].
      { replace (clamp DY (lo DY - 1)) with (lo DY) by (unfold clamp; lia). apply S3. lia. }
      destruct (Z.eq_dec j (hi DY + 1)) as [->|N4].
      { replace (clamp DY (hi DY + 1)) with (hi DY) by (unfold clamp; lia). apply S3. lia. }
      rewrite clamp_in by lia. apply S1. split; lia. }
    pose proof (aside_trans e _ _ _ A1 A2) as A12. pose proof (aside_trans e _ _ _ A12 A3) as A13.
    destruct (open_flux e b m2) as (FX & FY). fold m3 in FX, FY.
    destruct (sum_new r n eps tiny RK Hn Hs e b (negb b) Flux m3 eq_refl eq_refl eq_refl) as [V K]; try (intros; discriminate).
    set (m4 := ex e (sum2 _ _ _ _ _) m3) in *.
    split.
    - intros i j Gd. unfold cel at 1. rewrite V by auto. unfold oup.
      replace (cell2 m3 e b i j) with (cel eps tiny e b m i j).
      2:{ symmetry. unfold cell2. rewrite P3. destruct Gd as [Gx Gy]. specialize (PE i j). unfold pe in PE. rewrite !clamp_in in PE by lia. apply PE. lia. }
      rewrite (G_aside e m m3 i j A13). unfold gain, fa. destruct Gd as [Gx Gy]. fold (va e (Flux DX) m3 (i - 1) j) (va e (Flux DX) m3 i j) (va e (Flux DY) m3 i (j - 1)) (va e (Flux DY) m3 i j).
      rewrite !FX, !FY by lia. rewrite !PE by lia. rewrite !(GC_aside e m m2 _ _ _ A12). reflexivity.
    - apply (aside_trans e _ _ _ A13). intros a i Ha. apply K. split.
      + destruct Ha as [[d ->]|[->|(e' & b' & -> & NE)]]; cbn; congruence.
      + intros k. destruct Ha as [[d ->]|[->|(e' & b' & -> & NE)]]; congruence.
  Qed.

  Lemma ofx_ext m m' p p' i j : (forall d i j, va 0 (GC d) m' i j = va 0 (GC d) m i j) -> (forall i j, on_grid lo hi i j -> p' i j = p i j) ->
    ogain m' p' i j = ogain m p i j.
  Proof.
    intros C P. destruct osize as [Sx Sy]. assert (E : forall i j, pe p' i j = pe p i j) by (intros; unfold pe; apply P; unfold on_grid, clamp; lia).
    unfold ogain, ofx, ofy. rewrite !C, !E. reflexivity.
  Qed.
  Lemma oup_ext m m' p p' : (forall d i j, va 0 (GC d) m' i j = va 0 (GC d) m i j) -> (forall i j, G m' i j = G m i j) ->
    (forall i j, on_grid lo hi i j -> p' i j = p i j) -> forall i j, on_grid lo hi i j -> oup m' p' i j = oup m p i j.
  Proof. intros C Gs P i j Gd. unfold oup. rewrite P by auto. rewrite Gs. rewrite (ofx_ext m m' p p') by auto. reflexivity. Qed.
  Lemma ogain_mul m k p i j : ogain m (fun i j => k * p i j)%R i j = (k * ogain m p i j)%R.
  Proof. unfold ogain, ofx, ofy, pe, don. ring. Qed.

  Lemma body_open e x le b m : let m' := ex e (body2 o (s_forms r) (s_nit r) 1 x le b) m in
    (forall i j, on_grid lo hi i j -> cel eps tiny e (negb b) m' i j = oup m (cel eps tiny e b m) i j) /\ aside e m m'.
  Proof.
    cbv zeta. unfold body2. cbn [Nat.sub passes2]. rewrite !app_nil_l.
    replace (lev b 1) with (negb b) by (rewrite (lev_next b 0); unfold lev; cbn; destruct b; reflexivity).
    rewrite ex_app. destruct (scale_cell r n eps tiny RK Hn Hs e b x m) as [A1 K1]. set (m1 := ex e _ m) in *.
    replace ([MXS (Psi b) (halo o)] ++ fct_init2 o (s_forms r) (Psi b) ++ upstream2 o (s_forms r) (Psi b) (Psi (negb b)) ++
       (if le then [] else [MBar]) ++ cyc_bars le ++ scale2 (Psi (negb b)) (- x))
      with ((([MXS (Psi b) (halo o)] ++ fct_init2 o (s_forms r) (Psi b)) ++ upstream2 o (s_forms r) (Psi b) (Psi (negb b))) ++
       ((if le then [] else [MBar]) ++ cyc_bars le) ++ scale2 (Psi (negb b)) (- x)) by (rewrite <- !app_assoc; reflexivity).
    rewrite ex_app. destruct (open_pass e b m1) as [A2 K2]. set (m2 := ex e _ m1) in *. rewrite ex_app.
    assert (B3 : ex e ((if le then [] else [MBar]) ++ cyc_bars le) m2 = m2) by (destruct le; reflexivity).
    rewrite B3. clear B3. destruct (scale_cell r n eps tiny RK Hn Hs e (negb b) (- x) m2) as [A4 K4]. set (m4 := ex e _ m2) in *.
    assert (S1 : aside e m m1) by (intros a i Ha; apply K1; destruct Ha as [[d ->]|[->|(e' & b' & -> & NE)]]; congruence).
    assert (S4 : aside e m2 m4) by (intros a i Ha; apply K4; destruct Ha as [[d ->]|[->|(e' & b' & -> & NE)]]; congruence).
    split; [|exact (aside_trans e _ _ _ S1 (aside_trans e _ _ _ K2 S4))].
    intros i j Gd. rewrite A4, A2 by auto.
    rewrite (oup_ext m m1 (fun i j => scf x * cel eps tiny e b m i j)%R _ (fun d i j => GC_aside e m m1 d i j S1) (fun i j => G_aside e m m1 i j S1) A1 i j Gd).
    unfold oup. rewrite (ogain_mul m (scf x)). refine (eq_trans (alg_s _ _ _ _ _) _). rewrite (scf_inv n Hn). apply Rmult_1_l.
  Qed.

  Lemma eqs_open es : forall lv m, NoDup es ->
    let m' := go (eqs_prog2 r 1 es lv) m in
    (forall e i j, on_grid lo hi i j ->
      cel eps tiny e (if existsb (Nat.eqb e) es then negb (lv e) else lv e) m' i j =
      if existsb (Nat.eqb e) es then oup m (cel eps tiny e (lv e) m) i j else cel eps tiny e (lv e) m i j) /\
    (forall d i j, va 0 (GC d) m' i j = va 0 (GC d) m i j) /\ (forall i j, G m' i j = G m i j).
  Proof.
    induction es as [|e es IH]; intros lv m ND; cbv zeta.
    - split; [reflexivity|split; reflexivity].
    - cbn [eqs_prog2]. rewrite go_app. inversion ND as [|? ? NI ND']; subst.
      destruct (body_open e (s_scale r e) (is_last_eqn (s_cfg r) e) (lv e) m) as [A K].
      unfold ProofsWalls2D.ex in A, K. set (m1 := go _ m) in *.
      assert (L1 : lev (lv e) 1 = negb (lv e)) by (rewrite (lev_next (lv e) 0); unfold lev; cbn; destruct (lv e); reflexivity). rewrite L1.
      destruct (IH (ModelRun.upd lv e (negb (lv e))) m1 ND') as (B & C1 & C2). set (m2 := go _ m1) in *.
      split; [|split].
      + intros e' i j Gd. specialize (B e' i j Gd). cbn [existsb]. unfold ModelRun.upd in B. destruct (Nat.eqb_spec e' e) as [->|NE]; cbn [orb].
        * assert (F : existsb (Nat.eqb e) es = false).
          { apply not_true_is_false. intros H. apply existsb_exists in H. destruct H as (x & Hx & Hq). apply Nat.eqb_eq in Hq. subst. auto. }
          rewrite F in B. rewrite B. apply A. exact Gd.
        * rewrite B. assert (C : forall i j, on_grid lo hi i j -> cel eps tiny e' (lv e') m1 i j = cel eps tiny e' (lv e') m i j).
          { intros i0 j0 G0. apply K. right; right. eauto. }
          destruct (existsb _ es); [|apply C; exact Gd]. apply oup_ext; auto; intros; [apply (GC_aside e)|apply (G_aside e)]; exact K.
      + intros. rewrite C1. apply (GC_aside e). exact K.
      + intros. rewrite C2. apply (G_aside e). exact K.
  Qed.

  Hypothesis N1 : s_nit r = 1%nat.
  Lemma steps_open nt : forall ts lv m e, (e < n_eqns (s_cfg r))%nat ->
    (forall i j, on_grid lo hi i j -> cel eps tiny e (level_after2 r nt ts (lv e)) (go (steps_prog2 r nt ts lv) m) i j = Nat.iter nt (oup m) (cel eps tiny e (lv e) m) i j).
  Proof.
    induction nt as [|k IH]; intros ts lv m e He i j Gd; [reflexivity|]. cbn [steps_prog2 level_after2].
    rewrite !go_app. change (go [DBar] m) with m. rewrite (one_pass r N1).
    destruct (eqs_open (eq_order2 r) lv m (eq_order_nodup2 r)) as (A & C1 & C2). set (m1 := go _ m) in *.
    set (lv' := fun e => if existsb (Nat.eqb e) (eq_order2 r) then lev (lv e) 1 else lv e).
    assert (XX : existsb (Nat.eqb e) (eq_order2 r) = true).
    { apply existsb_exists. exists e. split; [apply in_eq_order2; exact He|apply Nat.eqb_refl]. }
    assert (L : lv' e = negb (lv e)).
    { unfold lv'. rewrite XX. rewrite (lev_next (lv e) 0). unfold lev; cbn; destruct (lv e); reflexivity. }
    assert (L1 : lev (lv e) 1 = negb (lv e)) by (rewrite (lev_next (lv e) 0); unfold lev; cbn; destruct (lv e); reflexivity).
    rewrite L1, <- L. rewrite IH by auto. rewrite L. rewrite iter_r.
    apply (iter_ext r); auto.
    - intros p p' P i0 j0 G0. apply oup_ext; auto.
    - intros i0 j0 G0. specialize (A e i0 j0 G0). rewrite XX in A. exact A.
  Qed.
  Lemma run_open nt m e : (e < n_eqns (s_cfg r))%nat -> exists mT, tame m mT /\
    forall i j, on_grid lo hi i j -> cel eps tiny e (level_after2 r nt 0 false) (go (run_prog2 r nt) m) i j = Nat.iter nt (oup mT) (cel eps tiny e false m) i j.
  Proof.
    intros He. destruct (ante_tame m) as [T P]. exists (ex 0 (ante2 o) m). split; [exact T|]. intros i j Gd. unfold run_prog2. rewrite !go_app.
    change (go (expand_eq2 r 0 (ante2 o)) m) with (ex 0 (ante2 o) m).
    set (m1 := ex 0 (ante2 o) m) in *.
    change (go [DBar] ?x) with x. rewrite (steps_open nt 0 (fun _ => false) m1 e He i j Gd). apply (iter_ext r); auto.
    - intros p p' P' i0 j0 G0. apply oup_ext; auto.
    - intros i0 j0 G0. apply P.
  Qed.
End Pass.
