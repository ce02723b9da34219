(** Runs of one pass per step in a box with rigid walls. *)
From Coq Require Import ZArith List Bool Lia Reals Lra.
From Verif Require Import ModelIndex ModelRun Lang ProofsLang Stencil ProofsStencil FormCommon Form2D Solver1D Solver2D
  Proofs1D ProofsThread1D ProofsThread2D ProofsOne2D Arith SpecThreads SpecFields2 SpecNum2 SpecBcond SpecWalls2 SpecWalls3 ProofsRef2D ProofsCyclic2D
  ProofsWalls2D.
Import ListNotations.
Local Open Scope Z_scope.

(** ** One update *)
Section Update.
  Variables lo hi : dim -> Z.
  Local Open Scope R_scope.
  (** flux through the face between [a] and [b] *)
  Definition don (c a b : R) : R := Rmax 0 c * a + Rmin 0 c * b.
  Variables (cx cy p : Z -> Z -> R).
  Definition fin (d : dim) (i j : Z) : R := match d with DX => don (cx i j) (p i j) (p (i + 1)%Z j) | _ => don (cy i j) (p i j) (p i (j + 1)%Z) end.
  Definition fxw (i j : Z) : R := if (i <? lo DX)%Z then - fin DX (lo DX) j else if (hi DX <=? i)%Z then - fin DX (hi DX - 1) j else fin DX i j.
  Definition fyw (i j : Z) : R := if (j <? lo DY)%Z then - fin DY i (lo DY) else if (hi DY <=? j)%Z then - fin DY i (hi DY - 1) else fin DY i j.
  Definition bgain (i j : Z) : R := (fxw (i - 1) j - fxw i j) + (fyw i (j - 1) - fyw i j).
End Update.

Lemma rmax_opp c : (Rmax 0 (- c) = - Rmin 0 c)%R.
Proof. unfold Rmax, Rmin. repeat destruct Rle_dec; lra. Qed.
Lemma rmin_opp c : (Rmin 0 (- c) = - Rmax 0 c)%R.
Proof. unfold Rmax, Rmin. repeat destruct Rle_dec; lra. Qed.
Lemma rmaxmin c : (Rmax 0 c + Rmin 0 c = c)%R.
Proof. unfold Rmax, Rmin. repeat destruct Rle_dec; lra. Qed.
Lemma rmax_nn c : (0 <= Rmax 0 c)%R. Proof. apply Rmax_l. Qed.
Lemma rmin_np c : (Rmin 0 c <= 0)%R. Proof. apply Rmin_l. Qed.

Section Signs.
  Variables lo hi : dim -> Z.
  Variable nug : bool.
  Variable m : loc -> R.
  Hypothesis Sx : lo DX < hi DX.
  Hypothesis Sy : lo DY < hi DY.
  Local Open Scope R_scope.
  Notation cx := (face2 m DX).
  Notation cy := (face2 m DY).
  (** the value beyond each face of a cell *)
  Lemma gain_x p i j : (lo DX <= i <= hi DX)%Z -> exists u v : Z, (lo DX <= u <= hi DX)%Z /\ (lo DX <= v <= hi DX)%Z /\
    fxw lo hi cx cy p (i - 1) j - fxw lo hi cx cy p i j =
    Rmax 0 (b_west lo m i j) * p u j - Rmin 0 (b_east hi m i j) * p v j - (Rmax 0 (b_east hi m i j) - Rmin 0 (b_west lo m i j)) * p i j.
  Proof.
    intros H. unfold fxw, b_east, b_west, fin, don.
    destruct (Z.eqb_spec i (lo DX)) as [->|NL].
    - exists (lo DX + 1)%Z, (lo DX + 1)%Z. split; [lia|]. split; [lia|].
      destruct (Z.ltb_spec (lo DX - 1) (lo DX)); [|lia]. destruct (Z.ltb_spec (lo DX) (lo DX)); [lia|].
      destruct (Z.leb_spec (hi DX) (lo DX)); [lia|]. destruct (Z.eqb_spec (lo DX) (hi DX)); [lia|].
      rewrite rmax_opp, rmin_opp. lra.
    - destruct (Z.eqb_spec i (hi DX)) as [->|NR].
      + exists (hi DX - 1)%Z, (hi DX - 1)%Z. split; [lia|]. split; [lia|].
        destruct (Z.ltb_spec (hi DX - 1) (lo DX)); [lia|]. destruct (Z.leb_spec (hi DX) (hi DX - 1)); [lia|].
        destruct (Z.ltb_spec (hi DX) (lo DX)); [lia|]. destruct (Z.leb_spec (hi DX) (hi DX)); [|lia].
        replace (hi DX - 1 + 1)%Z with (hi DX) by lia. rewrite rmax_opp, rmin_opp. lra.
      + exists (i - 1)%Z, (i + 1)%Z. split; [lia|]. split; [lia|].
        destruct (Z.ltb_spec (i - 1) (lo DX)); [lia|]. destruct (Z.leb_spec (hi DX) (i - 1)); [lia|].
        destruct (Z.ltb_spec i (lo DX)); [lia|]. destruct (Z.leb_spec (hi DX) i); [lia|].
        replace (i - 1 + 1)%Z with i by lia. lra.
  Qed.
  Lemma gain_y p i j : (lo DY <= j <= hi DY)%Z -> exists u v : Z, (lo DY <= u <= hi DY)%Z /\ (lo DY <= v <= hi DY)%Z /\
    fyw lo hi cx cy p i (j - 1) - fyw lo hi cx cy p i j =
    Rmax 0 (b_south lo m i j) * p i u - Rmin 0 (b_north hi m i j) * p i v - (Rmax 0 (b_north hi m i j) - Rmin 0 (b_south lo m i j)) * p i j.
  Proof.
    intros H. unfold fyw, b_north, b_south, fin, don.
    destruct (Z.eqb_spec j (lo DY)) as [->|NL].
    - exists (lo DY + 1)%Z, (lo DY + 1)%Z. split; [lia|]. split; [lia|].
      destruct (Z.ltb_spec (lo DY - 1) (lo DY)); [|lia]. destruct (Z.ltb_spec (lo DY) (lo DY)); [lia|].
      destruct (Z.leb_spec (hi DY) (lo DY)); [lia|]. destruct (Z.eqb_spec (lo DY) (hi DY)); [lia|].
      rewrite rmax_opp, rmin_opp. lra.
    - destruct (Z.eqb_spec j (hi DY)) as [->|NR].
      + exists (hi DY - 1)%Z, (hi DY - 1)%Z. split; [lia|]. split; [lia|].
        destruct (Z.ltb_spec (hi DY - 1) (lo DY)); [lia|]. destruct (Z.leb_spec (hi DY) (hi DY - 1)); [lia|].
        destruct (Z.ltb_spec (hi DY) (lo DY)); [lia|]. destruct (Z.leb_spec (hi DY) (hi DY)); [|lia].
        replace (hi DY - 1 + 1)%Z with (hi DY) by lia. rewrite rmax_opp, rmin_opp. lra.
      + exists (j - 1)%Z, (j + 1)%Z. split; [lia|]. split; [lia|].
        destruct (Z.ltb_spec (j - 1) (lo DY)); [lia|]. destruct (Z.leb_spec (hi DY) (j - 1)); [lia|].
        destruct (Z.ltb_spec j (lo DY)); [lia|]. destruct (Z.leb_spec (hi DY) j); [lia|].
        replace (j - 1 + 1)%Z with j by lia. lra.
  Qed.

  Definition bup (p : Z -> Z -> R) (i j : Z) : R := p i j + bgain lo hi cx cy p i j / G2of nug m i j.
  Lemma bup_sign p : box_outflow_ok lo hi nug m -> (forall i j, on_grid lo hi i j -> 0 <= p i j) ->
    forall i j, on_grid lo hi i j -> 0 <= bup p i j.
  Proof.
    intros O P i j [Gx Gy]. destruct (O i j (conj Gx Gy)) as [GP OO]. unfold bup, bgain.
    destruct (gain_x p i j Gx) as (u & v & U & V & ->). destruct (gain_y p i j Gy) as (u' & v' & U' & V' & ->).
    pose proof (P u j (conj U Gy)). pose proof (P v j (conj V Gy)). pose proof (P i u' (conj Gx U')). pose proof (P i v' (conj Gx V')).
    pose proof (P i j (conj Gx Gy)).
    set (w := b_west lo m i j) in *. set (e := b_east hi m i j) in *. set (s := b_south lo m i j) in *. set (n := b_north hi m i j) in *.
    set (g := G2of nug m i j) in *.
    replace (p i j + _) with ((Rmax 0 w * p u j + (- Rmin 0 e) * p v j + Rmax 0 s * p i u' + (- Rmin 0 n) * p i v' +
      (g - (Rmax 0 e - Rmin 0 w + (Rmax 0 n - Rmin 0 s))) * p i j) / g) by (field; lra).
    apply Rmult_le_pos; [|left; apply Rinv_0_lt_compat; exact GP].
    pose proof (rmax_nn w). pose proof (rmax_nn s). pose proof (rmin_np e). pose proof (rmin_np n).
    repeat apply Rplus_le_le_0_compat; apply Rmult_le_pos; lra.
  Qed.
  (** differences of fields, and constants *)
  Lemma fxw_minus p p' i j : fxw lo hi cx cy (fun i j => p i j - p' i j) i j = fxw lo hi cx cy p i j - fxw lo hi cx cy p' i j.
  Proof. unfold fxw, fin, don. destruct (i <? lo DX)%Z, (hi DX <=? i)%Z; ring. Qed.
  Lemma fyw_minus p p' i j : fyw lo hi cx cy (fun i j => p i j - p' i j) i j = fyw lo hi cx cy p i j - fyw lo hi cx cy p' i j.
  Proof. unfold fyw, fin, don. destruct (j <? lo DY)%Z, (hi DY <=? j)%Z; ring. Qed.
  Lemma bgain_minus p p' i j : bgain lo hi cx cy (fun i j => p i j - p' i j) i j = bgain lo hi cx cy p i j - bgain lo hi cx cy p' i j.
  Proof. unfold bgain. rewrite !(fxw_minus p p'), !(fyw_minus p p'). ring. Qed.
  Lemma fxw_mul k p i j : fxw lo hi cx cy (fun i j => k * p i j) i j = k * fxw lo hi cx cy p i j.
  Proof. unfold fxw, fin, don. destruct (i <? lo DX)%Z, (hi DX <=? i)%Z; ring. Qed.
  Lemma fyw_mul k p i j : fyw lo hi cx cy (fun i j => k * p i j) i j = k * fyw lo hi cx cy p i j.
  Proof. unfold fyw, fin, don. destruct (j <? lo DY)%Z, (hi DY <=? j)%Z; ring. Qed.
  Lemma bgain_mul k p i j : bgain lo hi cx cy (fun i j => k * p i j) i j = k * bgain lo hi cx cy p i j.
  Proof. unfold bgain. rewrite !(fxw_mul k p), !(fyw_mul k p). ring. Qed.
  Lemma bgain_const c i j : on_grid lo hi i j -> box_divergence_free lo hi m -> bgain lo hi cx cy (fun _ _ => c) i j = 0.
  Proof.
    intros [Gx Gy] D. specialize (D i j (conj Gx Gy)). unfold bgain.
    destruct (gain_x (fun _ _ => c) i j Gx) as (u & v & U & V & ->). destruct (gain_y (fun _ _ => c) i j Gy) as (u' & v' & U' & V' & ->).
    pose proof (rmaxmin (b_west lo m i j)). pose proof (rmaxmin (b_east hi m i j)). pose proof (rmaxmin (b_south lo m i j)). pose proof (rmaxmin (b_north hi m i j)).
    replace (_ + _) with (c * (- ((Rmax 0 (b_east hi m i j) + Rmin 0 (b_east hi m i j)) - (Rmax 0 (b_west lo m i j) + Rmin 0 (b_west lo m i j)) +
      ((Rmax 0 (b_north hi m i j) + Rmin 0 (b_north hi m i j)) - (Rmax 0 (b_south lo m i j) + Rmin 0 (b_south lo m i j)))))) by ring.
    rewrite !rmaxmin, D. ring.
  Qed.
  Lemma bup_lower a p : box_outflow_ok lo hi nug m -> box_divergence_free lo hi m -> (forall i j, on_grid lo hi i j -> a <= p i j) ->
    forall i j, on_grid lo hi i j -> a <= bup p i j.
  Proof.
    intros O D P i j Gd. assert (H : 0 <= bup (fun i j => p i j - a) i j) by (apply bup_sign; auto; intros; specialize (P i0 j0 H); lra).
    unfold bup in *. rewrite (bgain_minus p (fun _ _ => a)), (bgain_const a i j Gd D), Rminus_0_r in H. lra.
  Qed.
  Lemma bup_upper a p : box_outflow_ok lo hi nug m -> box_divergence_free lo hi m -> (forall i j, on_grid lo hi i j -> p i j <= a) ->
    forall i j, on_grid lo hi i j -> bup p i j <= a.
  Proof.
    intros O D P i j Gd. assert (H : 0 <= bup (fun i j => a - p i j) i j) by (apply bup_sign; auto; intros; specialize (P i0 j0 H); lra).
    unfold bup in *. rewrite (bgain_minus (fun _ _ => a) p), (bgain_const a i j Gd D) in H. unfold Rdiv in *. lra.
  Qed.
End Signs.

(** ** One pass of the program *)
Section Pass.
  Variable r : run2.
  Variable n : nat.
  Variables eps tiny : R.
  Hypothesis RK : run2_ok r.
  Hypothesis Hn : (0 < n)%nat.
  Hypothesis Hs : Z.of_nat n <= s_hi r DX - s_lo r DX + 1.
  Hypothesis BL : forall d, s_bl r d = Rigid2.
  Hypothesis BR : forall d, s_br r d = Rigid2.
  Notation AR := (arithR eps tiny).
  Notation g := (geom2 r n).
  Notation o := (s_o r).
  Notation lo := (s_lo r).
  Notation hi := (s_hi r).
  Notation mem := (ProofsWalls2D.mem eps tiny).
  Notation st := (ProofsWalls2D.st r n eps tiny).
  Notation go := (ProofsWalls2D.go r n eps tiny).
  Notation ex := (ProofsWalls2D.ex r n eps tiny).
  Notation rd := (ProofsWalls2D.rd eps tiny).
  Notation held := (ProofsWalls2D.held r).
  Let OK : geom_ok g := geom2_ok r n RK Hn Hs.

  (** *** Velocities at inner faces stay *)
  Definition gheld (l : loc) : Prop := match l with
    | ((O, GC DX), (i, j, _)) => lo DX <= i < hi DX /\ lo DY <= j <= hi DY
    | ((O, GC DY), (i, j, _)) => lo DX <= i <= hi DX /\ lo DY <= j < hi DY
    | _ => False end.
  Definition is_gc (a : arr) : option dim := match a with GC d => Some d | _ => None end.
  Definition outf (rd : rdesc) : bool := match rd with AtFirst _ b => b <? 0 | AtLast a _ => 0 <=? a | _ => false end.
  Definition gmild (s : tdesc) : bool := match is_gc (t_arr s) with
    | Some DX => outf (t_x s) || outside (t_y s) | Some DY => outside (t_x s) || outf (t_y s) | Some DZ => true | None => true end.
  Lemma out_of_faces t d rd x : outf rd = true -> in_rng x (trng (cut_of g d) rd t) -> ~ lo_of g d <= x < hi_of g d.
  Proof.
    unfold lo_of, hi_of. intros H Hin. destruct rd as [|a b|a b]; cbn [outf] in H; [discriminate|apply Z.ltb_lt in H|apply Z.leb_le in H]; cbn [trng] in Hin;
      destruct Nat.eqb; unfold in_rng, first, last in Hin; cbn [fst snd] in Hin; lia.
  Qed.
  Lemma gmild_keeps e s m l : gmild s = true -> gheld l -> st (inst e s) m l = m l.
  Proof.
    intros M H. unfold ProofsWalls2D.st. apply run_stmt_out. intros t Ht Hin. apply in_el in Hin. destruct Hin as [A B].
    destruct l as [[e' a] [[i j] k]]. cbn [fst snd inst d_arr] in A.
    destruct e'; [|cbn in H; contradiction]. destruct a as [|d| | | | | | | | | | | |]; cbn [gheld] in H; try contradiction.
    assert (A' : t_arr s = GC d) by (destruct (t_arr s); cbn in A; congruence).
    unfold gmild in M. rewrite A' in M. cbn [is_gc] in M.
    assert (BX := B DX). assert (BY := B DY). unfold drng in BX, BY. cbn [d_r inst d_x d_y comp fst snd] in BX, BY.
    destruct d; [| |contradiction]; apply orb_true_iff in M; destruct M as [M|M];
      first [apply (out_of_faces _ DX _ _ M) in BX | apply (out_of_grid r n Hn BL BR _ DX _ _ M) in BX | apply (out_of_faces _ DY _ _ M) in BY | apply (out_of_grid r n Hn BL BR _ DY _ _ M) in BY];
      rewrite (lo_g r n Hn), (hi_g r n Hn Hs) in *; tauto.
  Qed.
  Lemma go_gmild e p m l : forallb (fun i => match i with TDo s => gmild s | TBar => true end) p = true -> gheld l -> go (map (inst_i e) p) m l = m l.
  Proof.
    revert m. induction p as [|i p IH]; intros m F H; [reflexivity|]. cbn [forallb] in F. apply andb_true_iff in F. destruct F as [F1 F2].
    change (i :: p) with ([i] ++ p). rewrite map_app, go_app. rewrite IH by auto. destruct i as [s|]; [|reflexivity].
    change (go (map (inst_i e) [TDo s]) m) with (st (inst e s) m). apply gmild_keeps; auto.
  Qed.
  Definition fits (a : arr) (d : dim) : bool := match is_gc a with None => true | Some d' => dim_eqb d' d end.
  Definition calm (x : minstr) : bool := match x with
    | MDo s => gmild s | MBar | MXS _ _ | MXVN _ _ => true
    | MXVA v _ | MXF v => fits (v DX) DX && fits (v DY) DY end.
  Lemma gforall_ph l : forallb (fun i => match i with TDo s => gmild s | TBar => true end) (ph l) = forallb gmild l.
  Proof. unfold ph. induction l as [|s l IH]; [reflexivity|]. cbn [map forallb]. rewrite IH. reflexivity. Qed.
  Lemma gmild_map {A} (f : A -> tdesc) l : (forall x, In x l -> gmild (f x) = true) -> forallb gmild (map f l) = true.
  Proof. intros H. apply forallb_forall. intros s Hin. apply in_map_iff in Hin. destruct Hin as (x & <- & Hx). auto. Qed.
  Lemma gneg d a ro k ee : (d = DX \/ d = DY) -> k <= -1 -> gmild (at2d d a (AtFirst k k) ro ee) = true.
  Proof.
    intros D H. assert (K : k <? 0 = true) by (apply Z.ltb_lt; lia). unfold gmild.
    destruct D as [-> | ->]; cbn [at2d at2 t_arr t_x t_y outf outside]; rewrite K; destruct (is_gc a) as [[]|]; rewrite ?orb_true_r; reflexivity.
  Qed.
  Lemma gpos d a ro k ee : (d = DX \/ d = DY) -> 1 <= k -> gmild (at2d d a (AtLast k k) ro ee) = true.
  Proof.
    intros D H. assert (K : 0 <? k = true) by (apply Z.ltb_lt; lia). assert (K' : 0 <=? k = true) by (apply Z.leb_le; lia). unfold gmild.
    destruct D as [-> | ->]; cbn [at2d at2 t_arr t_x t_y outf outside]; rewrite K, K'; destruct (is_gc a) as [[]|]; rewrite ?orb_true_r; reflexivity.
  Qed.
  Lemma gpos0 d a ro k ee : (d = DX \/ d = DY) -> 0 <= k -> fits a d = true -> gmild (at2d d a (AtLast k k) ro ee) = true.
  Proof.
    intros D H F. assert (K' : 0 <=? k = true) by (apply Z.leb_le; lia). unfold gmild. unfold fits in F.
    destruct D as [-> | ->]; cbn [at2d at2 t_arr t_x t_y outf outside]; rewrite K'; destruct (is_gc a) as [[]|]; try discriminate; rewrite ?orb_true_r; reflexivity.
  Qed.
  Lemma gfs d a ro : (d = DX \/ d = DY) -> forallb gmild (fs_left (s_halo r) (s_per r) (s_bl r) d a ro) = true /\
    forallb gmild (fs_rght (s_halo r) (s_per r) (s_br r) d a ro) = true.
  Proof.
    intros D. unfold fs_left, fs_rght. rewrite BL, BR. split; apply gmild_map; intros k Hk; apply in_zseq in Hk; unfold in_rng, first, last in Hk; cbn [fst snd] in Hk;
      [apply gneg|apply gpos]; auto; lia.
  Qed.
  Lemma gfv d v ad ro : (d = DX \/ d = DY) -> fits (v d) d = true -> forallb gmild (fv_left (s_halo r) (s_per r) (s_bl r) d v ad ro) = true /\
    forallb gmild (fv_rght (s_halo r) (s_per r) (s_br r) d v ad ro) = true.
  Proof.
    intros D F. unfold fv_left, fv_rght. rewrite BL, BR. split; apply gmild_map; intros k Hk; apply in_zseq in Hk; unfold in_rng, first, last in Hk; cbn [fst snd] in Hk;
      [apply gneg|apply gpos0]; auto; destruct ad; lia.
  Qed.
  Lemma calm_keeps e x m l : calm x = true -> gheld l -> ex e [x] m l = m l.
  Proof.
    intros Q H. unfold ProofsWalls2D.ex, expand_eq2. cbn [flat_map]. rewrite app_nil_r. apply go_gmild; [|exact H].
    assert (DX2 : DX = DX \/ DX = DY) by auto. assert (DY2 : DY = DX \/ DY = DY) by auto.
    destruct x as [s| |a xt|v ad|v xt|v]; cbn [calm] in Q; cbn [expand2].
    - cbn. rewrite Q. reflexivity.
    - reflexivity.
    - repeat (rewrite forallb_app || rewrite gforall_ph). cbn [forallb].
      rewrite !(proj1 (gfs _ _ _ DX2)), !(proj2 (gfs _ _ _ DX2)), !(proj1 (gfs _ _ _ DY2)), !(proj2 (gfs _ _ _ DY2)). reflexivity.
    - apply andb_true_iff in Q. destruct Q as [Q1 Q2]. repeat (rewrite forallb_app || rewrite gforall_ph). cbn [forallb].
      rewrite !(proj1 (gfv _ _ _ _ DX2 Q1)), !(proj2 (gfv _ _ _ _ DX2 Q1)), !(proj1 (gfv _ _ _ _ DY2 Q2)), !(proj2 (gfv _ _ _ _ DY2 Q2)). reflexivity.
    - unfold fn_left, fn_rght. rewrite !BL, !BR. repeat (rewrite forallb_app || rewrite gforall_ph). cbn [forallb].
      rewrite !(proj1 (gfs _ _ _ DX2)), !(proj2 (gfs _ _ _ DX2)), !(proj1 (gfs _ _ _ DY2)), !(proj2 (gfs _ _ _ DY2)). reflexivity.
    - apply andb_true_iff in Q. destruct Q as [Q1 Q2]. repeat (rewrite forallb_app || rewrite gforall_ph). cbn [forallb].
      unfold ff_left, ff_rght. rewrite !BL, !BR. cbn [forallb].
      rewrite !gneg by (auto; lia). rewrite !gpos0 by (auto; lia). reflexivity.
  Qed.
  Lemma calm_all e p m l : forallb calm p = true -> gheld l -> ex e p m l = m l.
  Proof.
    revert m. induction p as [|x p IH]; intros m F H; [reflexivity|]. cbn [forallb] in F. apply andb_true_iff in F. destruct F as [F1 F2].
    rewrite ex_cons. rewrite IH by auto. apply calm_keeps; auto.
  Qed.

  (** *** Fluxes *)
  Lemma ev_Fx (m : mem) e i a b c : ev AR (rd e m i) (Fx o a b c) = don (ev AR (rd e m i) c) (ev AR (rd e m i) a) (ev AR (rd e m i) b).
  Proof.
    unfold Fx, don, pospart, negpart, sabs, smin, smax, q. destruct (npa o); cbn [ev abin aun acst arithR Rcst].
    - set (x := ev AR (rd e m i) c). change (car AR) with R in *. unfold Rmax, Rmin, Rabs.
      destruct (Rcase_abs x), (Rle_dec 0 x); try (exfalso; lra); cbn [car arithR]; field.
    - replace (0 / 1)%R with 0%R by field. reflexivity.
  Qed.
  Definition cel (e : nat) (b : bool) (m : mem) (i j : Z) : R := cell2 m e b i j.
  Definition fcx (m : mem) (i j : Z) : R := face2 m DX i j.
  Definition fcy (m : mem) (i j : Z) : R := face2 m DY i j.
  Definition flxX (m : mem) (i j : Z) : R := m ((O, Flux DX), (i, j, 0)).
  Definition flxY (m : mem) (i j : Z) : R := m ((O, Flux DY), (i, j, 0)).

  Lemma flux_inner e b m : let m' := ex e (flux2 (s_forms r) (Psi b) GC ++ [MXF Flux]) m in
    (forall i j, lo DX <= i < hi DX -> lo DY <= j <= hi DY -> flxX m' i j = fin (fcx m) (fcy m) (cel e b m) DX i j) /\
    (forall i j, lo DX <= i <= hi DX -> lo DY <= j < hi DY -> flxY m' i j = fin (fcx m) (fcy m) (cel e b m) DY i j).
  Proof.
    cbv zeta. rewrite ex_app. unfold flux2. rewrite (ex_cons _ _ _ _ e (MDo _) [_]), !ex_do.
    set (sx := inst e (at2 (Flux DX) xIM yJ _)). set (sy := inst e (at2 (Flux DY) xI yJM _)).
    unfold ProofsWalls2D.ex, expand_eq2. cbn [flat_map expand2]. rewrite app_nil_r.
    unfold ff_left, ff_rght. rewrite !BL, !BR. cbn [ph map app inst_i at2d]. unfold x2.
    set (s1 := inst e (at2 (Flux DX) (AtLast 0 0) yJ _)). set (s2 := inst e (at2 (Flux DX) (AtFirst (-1) (-1)) yJ _)).
    set (s3 := inst e (at2 (Flux DY) xI (AtFirst (-1) (-1)) _)). set (s4 := inst e (at2 (Flux DY) xI (AtLast 0 0) _)).
    change (ProofsWalls2D.go r n eps tiny _ ?m0) with (st s4 (st s3 (st s2 (st s1 m0)))).
    assert (K1 : slab_ok g s1) by reflexivity. assert (K2 : slab_ok g s2) by reflexivity.
    assert (K3 : slab_ok g s3) by reflexivity. assert (K4 : slab_ok g s4) by reflexivity.
    assert (KX : slab_ok g sx) by reflexivity. assert (KY : slab_ok g sy) by reflexivity.
    Ltac off2 := rewrite st_off; [|assumption|assumption|assumption|assumption|first [left; cbn; congruence | right; left; unfold in_rng, first, last; cbn; lia | right; right; unfold in_rng, first, last; cbn; lia]].
    Ltac on2 := rewrite st_at; [|assumption|assumption|assumption|assumption|reflexivity|unfold in_rng, first, last; cbn; lia|unfold in_rng, first, last; cbn; lia|reflexivity].
    unfold s1, s2, s3, s4, sx, sy in *. split; intros i j Hi Hj; unfold flxX, flxY.
    - do 4 off2. off2. on2. cbn [t_exp at2 s_forms forms2 f_flux]. unfold make_flux2. rewrite ev_Fx. unfold P2, V2, x2, fin. cbn [ev].
      unfold rd, iadd, fcx, cel, face2, cell2. cbn [fst snd tag]. rewrite !Z.add_0_r. reflexivity.
    - do 4 off2. on2. cbn [t_exp at2 s_forms forms2 f_flux]. unfold make_flux2. rewrite ev_Fx. unfold P2, V2, x2, fin. cbn [ev].
      unfold rd, iadd, fcy, cel, face2, cell2. cbn [fst snd tag od]. rewrite !Z.add_0_r. rewrite !st_other by (cbn; congruence). reflexivity.
  Qed.

  (** *** One time step of one equation *)
  Definition scf (x : Z) : R := if Z.eqb x 0 then 1 else if Z.ltb 0 x then / IZR (2 ^ x) else IZR (2 ^ (- x)).
  Lemma scf_inv x : (scf (- x) * scf x = 1)%R.
  Proof.
    unfold scf. destruct (Z.eqb_spec x 0) as [->|Hx]; [cbn; ring|]. destruct (Z.eqb_spec (- x) 0); [lia|].
    destruct (Z.ltb_spec 0 x); destruct (Z.ltb_spec 0 (- x)); try lia; rewrite ?Z.opp_involutive.
    + apply Rinv_r. apply not_0_IZR. pose proof (Z.pow_pos_nonneg 2 x). lia.
    + apply Rinv_l. apply not_0_IZR. pose proof (Z.pow_pos_nonneg 2 (- x)). lia.
  Qed.
  Ltac toR := cbn [car arithR]; match goal with |- @eq _ ?a ?b => change (@eq R a b) end.
  Lemma scale_cell e b x m : let m' := ex e (scale2 (Psi b) x) m in
    (forall i j, on_grid lo hi i j -> cel e b m' i j = (scf x * cel e b m i j)%R) /\
    (forall a i, a <> (e, Psi b) -> m' (a, i) = m (a, i)).
  Proof.
    cbv zeta. unfold scale2, scf. destruct (x =? 0); [split; [intros i j _; cbn; unfold ProofsWalls2D.ex; cbn; rewrite Rmult_1_l; reflexivity|reflexivity]|].
    destruct (0 <? x); rewrite ex_do; (split; [|intros a i Ha; apply st_other; exact Ha]); intros i j Gd; unfold cel, cell2; change (e, Psi b) with (tag e (Psi b)) at 1;
      rewrite (st_grid r n eps tiny RK Hn Hs) by auto; cbn [ev abin arithR acst Rcst q]; unfold rd; cbn [fst snd tag]; rewrite iadd_0_r.
    - set (a := IZR (2 ^ x)). toR. unfold Rdiv. rewrite Rinv_1, Rmult_1_r. apply Rmult_comm.
    - set (a := IZR (2 ^ (- x))). toR. unfold Rdiv. rewrite Rinv_1, Rmult_1_r. apply Rmult_comm.
  Qed.

  Definition same_flow (m m' : mem) : Prop := forall l, gheld l \/ (held l /\ fst l = (O, Gf)) -> m' l = m l.
  Lemma same_trans m1 m2 m3 : same_flow m1 m2 -> same_flow m2 m3 -> same_flow m1 m3.
  Proof. intros A B l H. rewrite B, A; auto. Qed.
  Notation upd1 m := (bup lo hi (nug o) m).
  Lemma gs : lo DX < hi DX /\ lo DY < hi DY.
  Proof. eapply grid_size; eauto. Qed.
  Lemma fxw_ext (cx cx' cy cy' p p' : Z -> Z -> R) i j : lo DX - 1 <= i <= hi DX -> lo DY <= j <= hi DY ->
    (forall i j, lo DX <= i < hi DX -> lo DY <= j <= hi DY -> cx i j = cx' i j) ->
    (forall i j, on_grid lo hi i j -> p i j = p' i j) -> fxw lo hi cx cy p i j = fxw lo hi cx' cy' p' i j.
  Proof.
    intros Hi Hj C P. destruct gs as [Sx Sy]. unfold fxw, fin, don. destruct (Z.ltb_spec i (lo DX)); [|destruct (Z.leb_spec (hi DX) i)];
      rewrite C by lia; rewrite !P by (split; lia); reflexivity.
  Qed.
  Lemma fyw_ext (cx cx' cy cy' p p' : Z -> Z -> R) i j : lo DX <= i <= hi DX -> lo DY - 1 <= j <= hi DY ->
    (forall i j, lo DX <= i <= hi DX -> lo DY <= j < hi DY -> cy i j = cy' i j) ->
    (forall i j, on_grid lo hi i j -> p i j = p' i j) -> fyw lo hi cx cy p i j = fyw lo hi cx' cy' p' i j.
  Proof.
    intros Hi Hj C P. destruct gs as [Sx Sy]. unfold fyw, fin, don. destruct (Z.ltb_spec j (lo DY)); [|destruct (Z.leb_spec (hi DY) j)];
      rewrite C by lia; rewrite !P by (split; lia); reflexivity.
  Qed.
  Lemma upd1_ext m m' p p' : same_flow m m' -> (forall i j, on_grid lo hi i j -> p' i j = p i j) ->
    forall i j, on_grid lo hi i j -> upd1 m' p' i j = upd1 m p i j.
  Proof.
    intros S P i j Gd. destruct Gd as [Gx Gy]. unfold bup. rewrite P by (split; auto). f_equal. f_equal.
    - assert (CX : forall i j, lo DX <= i < hi DX -> lo DY <= j <= hi DY -> face2 m' DX i j = face2 m DX i j) by (intros; apply S; left; cbn; auto).
      assert (CY : forall i j, lo DX <= i <= hi DX -> lo DY <= j < hi DY -> face2 m' DY i j = face2 m DY i j) by (intros; apply S; left; cbn; auto).
      unfold bgain. f_equal; f_equal; first [apply fxw_ext; auto; lia | apply fyw_ext; auto; lia].
    - unfold G2of. destruct (nug o); [|reflexivity]. apply S. right. split; [split; auto|reflexivity].
  Qed.

  Lemma pass_up e b m p0 : forallb quiet p0 = true -> forallb calm p0 = true ->
    let m' := ex e (p0 ++ upstream2 o (s_forms r) (Psi b) (Psi (negb b))) m in
    (forall i j, on_grid lo hi i j -> cel e (negb b) m' i j = upd1 m (cel e b m) i j) /\
    (forall l, held l \/ gheld l -> fst l <> (e, Psi (negb b)) -> m' l = m l).
  Proof.
    intros Q C. cbv zeta. rewrite ex_app. set (m1 := ex e p0 m).
    assert (H1 : forall l, held l \/ gheld l -> m1 l = m l).
    { intros l [H|H]; [apply (quiet_all r n eps tiny Hn Hs BL BR); auto|apply calm_all; auto]. }
    unfold upstream2. rewrite app_assoc, ex_app.
    destruct (flux_inner e b m1) as [FX FY].
    set (m2 := ex e (flux2 (s_forms r) (Psi b) GC ++ [MXF Flux]) m1) in *.
    assert (AS : antisym r eps tiny e Flux m2).
    { unfold m2. rewrite ex_app. apply (flux_walls r n eps tiny RK Hn Hs BL BR). cbn. congruence. }
    assert (H2 : forall l, held l \/ gheld l -> m2 l = m1 l).
    { intros l [H|H]; [apply (quiet_all r n eps tiny Hn Hs BL BR); auto|apply calm_all; auto]. }
    destruct (sum_new r n eps tiny RK Hn Hs e b (negb b) Flux m2 eq_refl eq_refl eq_refl) as [V K]; try (intros; discriminate).
    set (m3 := ex e (sum2 _ _ _ _ _) m2) in *.
    split.
    - intros i j Gd. unfold cel. rewrite V by auto. unfold bup.
      assert (CX : forall i j, lo DX <= i < hi DX -> lo DY <= j <= hi DY -> fcx m1 i j = face2 m DX i j) by (intros; apply H1; right; cbn; auto).
      assert (CY : forall i j, lo DX <= i <= hi DX -> lo DY <= j < hi DY -> fcy m1 i j = face2 m DY i j) by (intros; apply H1; right; cbn; auto).
      assert (CP : forall i j, on_grid lo hi i j -> cel e b m1 i j = cel e b m i j) by (intros; apply H1; left; cbn; auto).
      replace (cell2 m2 e b i j) with (cell2 m e b i j) by (symmetry; unfold cell2; rewrite H2, H1; auto).
      replace (G2of (nug o) m2 i j) with (G2of (nug o) m i j).
      2:{ symmetry. unfold G2of. destruct (nug o); [|reflexivity]. unfold gfac2. rewrite H2, H1; auto. }
      destruct gs as [Sx Sy]. destruct Gd as [Gx Gy].
      assert (EX : forall i', lo DX - 1 <= i' <= hi DX -> flxX m2 i' j = fxw lo hi (face2 m DX) (face2 m DY) (cel e b m) i' j).
      { intros i' Hi. rewrite <- (fxw_ext (fcx m1) _ (fcy m1) _ (cel e b m1) _ i' j Hi Gy CX CP). unfold fxw.
        destruct AS as [AX _]. destruct (AX j Gy) as [AL AR'].
        destruct (Z.ltb_spec i' (lo DX)); [|destruct (Z.leb_spec (hi DX) i')].
        - replace i' with (lo DX - 1) by lia. refine (eq_trans AL _). refine (f_equal Ropp _). apply (FX (lo DX) j); lia.
        - replace i' with (hi DX) by lia. refine (eq_trans AR' _). refine (f_equal Ropp _). apply (FX (hi DX - 1) j); lia.
        - apply FX; lia. }
      assert (EY : forall j', lo DY - 1 <= j' <= hi DY -> flxY m2 i j' = fyw lo hi (face2 m DX) (face2 m DY) (cel e b m) i j').
      { intros j' Hj. rewrite <- (fyw_ext (fcx m1) _ (fcy m1) _ (cel e b m1) _ i j' Gx Hj CY CP). unfold fyw.
        destruct AS as [_ AY]. destruct (AY i Gx) as [AL AR'].
        destruct (Z.ltb_spec j' (lo DY)); [|destruct (Z.leb_spec (hi DY) j')].
        - replace j' with (lo DY - 1) by lia. refine (eq_trans AL _). refine (f_equal Ropp _). apply (FY i (lo DY)); lia.
        - replace j' with (hi DY) by lia. refine (eq_trans AR' _). refine (f_equal Ropp _). apply (FY i (hi DY - 1)); lia.
        - apply FY; lia. }
      unfold gain, fa, bgain. change (cel e b m i j) with (cell2 m e b i j).
      rewrite <- !EX by lia. rewrite <- !EY by lia. reflexivity.
    - intros l H NE. destruct l as [a i]. cbn [fst] in NE. unfold m3. rewrite K; [rewrite H2, H1; auto|]. split; [exact NE|].
      intros k ->. destruct H as [H|H]; exact H.
  Qed.

  Definition bodyframe (e : nat) (m m' : mem) : Prop := forall l, held l \/ gheld l -> (forall b, fst l <> (e, Psi b)) -> m' l = m l.
  Lemma alg_s (a b p q g : R) : (a * (b * p + b * q / g) = a * b * (p + q / g))%R.
  Proof. unfold Rdiv. ring. Qed.
  Lemma body_up e x le b m :
    let m' := ex e (body2 o (s_forms r) (s_nit r) 1 x le b) m in
    (forall i j, on_grid lo hi i j -> cel e (negb b) m' i j = upd1 m (cel e b m) i j) /\ bodyframe e m m'.
  Proof.
    cbv zeta. unfold body2. cbn [Nat.sub passes2]. rewrite !app_nil_l.
    replace (lev b 1) with (negb b) by (rewrite (lev_next b 0); unfold lev; cbn; destruct b; reflexivity).
    rewrite ex_app. destruct (scale_cell e b x m) as [A1 K1]. set (m1 := ex e _ m) in *.
    replace ([MXS (Psi b) (halo o)] ++ fct_init2 o (s_forms r) (Psi b) ++ upstream2 o (s_forms r) (Psi b) (Psi (negb b)) ++
       (if le then [] else [MBar]) ++ cyc_bars le ++ scale2 (Psi (negb b)) (- x))
      with ((([MXS (Psi b) (halo o)] ++ fct_init2 o (s_forms r) (Psi b)) ++ upstream2 o (s_forms r) (Psi b) (Psi (negb b))) ++
       ((if le then [] else [MBar]) ++ cyc_bars le) ++ scale2 (Psi (negb b)) (- x)) by (rewrite <- !app_assoc; reflexivity).
    rewrite ex_app. destruct (pass_up e b m1 ([MXS (Psi b) (halo o)] ++ fct_init2 o (s_forms r) (Psi b))) as [A2 K2].
    { unfold fct_init2. destruct (fct o); reflexivity. }
    { unfold fct_init2. destruct (fct o); reflexivity. }
    set (m2 := ex e _ m1) in *. rewrite ex_app.
    assert (B3 : ex e ((if le then [] else [MBar]) ++ cyc_bars le) m2 = m2) by (destruct le; reflexivity).
    rewrite B3. destruct (scale_cell e (negb b) (- x) m2) as [A4 K4]. set (m4 := ex e _ m2) in *.
    assert (S1 : same_flow m m1).
    { intros [a i] H. apply K1. intros ->. cbn in H. destruct H as [H|[_ H]]; [destruct e; exact H|discriminate]. }
    split.
    - intros i j Gd. rewrite A4, A2 by auto.
      rewrite (upd1_ext m m1 (fun i j => scf x * cel e b m i j)%R _ S1 A1 i j Gd).
      unfold bup. rewrite (bgain_mul lo hi m (scf x) (cel e b m)).
      refine (eq_trans (alg_s _ _ _ _ _) _). rewrite scf_inv. apply Rmult_1_l.
    - intros [a i] H NE. cbn [fst] in NE. rewrite K4 by auto. rewrite K2; [apply K1; auto|exact H|cbn; auto].
  Qed.

  Lemma frame_flow e m m' : bodyframe e m m' -> same_flow m m'.
  Proof.
    intros B [a i] H. apply B.
    - destruct H as [H|[H _]]; auto.
    - intros b. cbn [fst]. intros ->. destruct H as [H|[_ H]]; [cbn in H; destruct e; exact H|discriminate].
  Qed.
  Lemma eqs_up es : forall lv m, NoDup es ->
    let m' := go (eqs_prog2 r 1 es lv) m in
    (forall e i j, on_grid lo hi i j ->
      cel e (if existsb (Nat.eqb e) es then negb (lv e) else lv e) m' i j =
      if existsb (Nat.eqb e) es then upd1 m (cel e (lv e) m) i j else cel e (lv e) m i j) /\ same_flow m m'.
  Proof.
    induction es as [|e es IH]; intros lv m ND; cbv zeta.
    - split; [reflexivity|intros l _; reflexivity].
    - cbn [eqs_prog2]. rewrite go_app. inversion ND as [|? ? NI ND']; subst.
      destruct (body_up e (s_scale r e) (is_last_eqn (s_cfg r) e) (lv e) m) as [A K].
      unfold ProofsWalls2D.ex in A, K. set (m1 := go _ m) in *. pose proof (frame_flow e m m1 K) as S1.
      assert (L1 : lev (lv e) 1 = negb (lv e)) by (rewrite (lev_next (lv e) 0); unfold lev; cbn; destruct (lv e); reflexivity). rewrite L1.
      destruct (IH (ModelRun.upd lv e (negb (lv e))) m1 ND') as [B S2]. set (m2 := go _ m1) in *.
      split; [|exact (same_trans m m1 m2 S1 S2)].
      intros e' i j Gd. specialize (B e' i j Gd). cbn [existsb]. unfold ModelRun.upd in B. destruct (Nat.eqb_spec e' e) as [->|NE]; cbn [orb].
      + assert (F : existsb (Nat.eqb e) es = false).
        { apply not_true_is_false. intros H. apply existsb_exists in H. destruct H as (x & Hx & Hq). apply Nat.eqb_eq in Hq. subst. auto. }
        rewrite F in B. rewrite B. apply A. exact Gd.
      + rewrite B. assert (C : forall i j, on_grid lo hi i j -> cel e' (lv e') m1 i j = cel e' (lv e') m i j).
        { intros i0 j0 G0. apply K; [left; exact G0|]. intros b. cbn. congruence. }
        destruct (existsb _ es); [|apply C; exact Gd]. apply upd1_ext; auto.
  Qed.

  Hypothesis N1 : s_nit r = 1%nat.
  Lemma one_pass ts : passes (s_nit r) (s_freq r) ts = 1%nat.
  Proof. unfold passes. rewrite N1. destruct (_ && _); reflexivity. Qed.
  Lemma iter_ext (f f' : (Z -> Z -> R) -> Z -> Z -> R) k : forall p p',
    (forall p p', (forall i j, on_grid lo hi i j -> p' i j = p i j) -> forall i j, on_grid lo hi i j -> f' p' i j = f p i j) ->
    (forall i j, on_grid lo hi i j -> p' i j = p i j) -> forall i j, on_grid lo hi i j -> Nat.iter k f' p' i j = Nat.iter k f p i j.
  Proof. induction k as [|k IH]; intros p p' F P i j Gd; [apply P; exact Gd|]. cbn [Nat.iter nat_rect]. apply F; auto. apply IH; auto. Qed.
  Lemma iter_r {A} (f : A -> A) k x : Nat.iter (S k) f x = Nat.iter k f (f x).
  Proof. induction k as [|k IH]; [reflexivity|]. cbn [Nat.iter nat_rect] in *. rewrite IH. reflexivity. Qed.
  Lemma steps_up nt : forall ts lv m e, (e < n_eqns (s_cfg r))%nat ->
    (forall i j, on_grid lo hi i j -> cel e (level_after2 r nt ts (lv e)) (go (steps_prog2 r nt ts lv) m) i j = Nat.iter nt (upd1 m) (cel e (lv e) m) i j).
  Proof.
    induction nt as [|k IH]; intros ts lv m e He i j Gd; [reflexivity|]. cbn [steps_prog2 level_after2].
    rewrite !go_app. change (go [DBar] m) with m. rewrite one_pass.
    destruct (eqs_up (eq_order2 r) lv m (eq_order_nodup2 r)) as [A S]. set (m1 := go _ m) in *.
    set (lv' := fun e => if existsb (Nat.eqb e) (eq_order2 r) then lev (lv e) 1 else lv e).
    assert (X : existsb (Nat.eqb e) (eq_order2 r) = true).
    { apply existsb_exists. exists e. split; [apply in_eq_order2; exact He|apply Nat.eqb_refl]. }
    assert (L : lv' e = negb (lv e)).
    { unfold lv'. rewrite X. rewrite (lev_next (lv e) 0). unfold lev; cbn; destruct (lv e); reflexivity. }
    assert (L1 : lev (lv e) 1 = negb (lv e)) by (rewrite (lev_next (lv e) 0); unfold lev; cbn; destruct (lv e); reflexivity).
    rewrite L1, <- L. rewrite IH by auto. rewrite L. rewrite iter_r.
    apply iter_ext; auto.
    - intros p p' P i0 j0 G0. apply upd1_ext; auto.
    - intros i0 j0 G0. specialize (A e i0 j0 G0). rewrite X in A. exact A.
  Qed.
  Lemma run_up nt m e : (e < n_eqns (s_cfg r))%nat ->
    forall i j, on_grid lo hi i j -> cel e (level_after2 r nt 0 false) (go (run_prog2 r nt) m) i j = Nat.iter nt (upd1 m) (cel e false m) i j.
  Proof.
    intros He i j Gd. unfold run_prog2. rewrite !go_app.
    change (go (expand_eq2 r 0 (ante2 o)) m) with (ex 0 (ante2 o) m).
    set (m1 := ex 0 (ante2 o) m).
    assert (H1 : forall l, held l \/ gheld l -> m1 l = m l).
    { intros l [H|H]; [apply (quiet_all r n eps tiny Hn Hs BL BR)|apply calm_all]; auto; unfold ante2; destruct (nug o), (div3dt o), (div3 o); reflexivity. }
    change (go [DBar] ?x) with x. rewrite (steps_up nt 0 (fun _ => false) m1 e He i j Gd). apply iter_ext; auto.
    - intros p p' P i0 j0 G0. apply upd1_ext; auto. intros l [H|[H _]]; apply H1; auto.
    - intros i0 j0 G0. apply H1. left. exact G0.
  Qed.
End Pass.

(** ** Runs *)
Section Runs.
  Variables (eps tiny : R) (r : run2) (n nt : nat) (m m' : loc -> R) (e : nat).
  Hypothesis W : walled_end2 (arithR eps tiny) r n nt m m'.
  Hypothesis He : (e < n_eqns (s_cfg r))%nat.
  Hypothesis N1 : s_nit r = 1%nat.
  Notation lo := (s_lo r).
  Notation hi := (s_hi r).
  Notation upd1 := (bup lo hi (nug (s_o r)) m).
  Lemma box_upwind i j : on_grid lo hi i j -> cell2 m' e (newest2 r nt) i j = Nat.iter nt upd1 (cell2 m e false) i j.
  Proof.
    destruct W as [RK BL BR Hn Hs T E]. intros Gd.
    pose proof (can_end_run2 r RK n Hn Hs (arithR eps tiny) nt m m' T E) as V.
    unfold cell2 at 1, newest2. rewrite V. exact (run_up r n eps tiny RK Hn Hs BL BR N1 nt m e He i j Gd).
  Qed.
  Lemma box_size : lo DX < hi DX /\ lo DY < hi DY.
  Proof. destruct W as [RK BL BR Hn Hs T E]. pose proof (ok2_grid r RK DX (or_introl eq_refl)). pose proof (ok2_grid r RK DY (or_intror eq_refl)). pose proof (halo_pos (s_o r)). lia. Qed.
  Lemma box_keeps_sign : box_outflow_ok lo hi (nug (s_o r)) m -> (forall i j, on_grid lo hi i j -> (0 <= cell2 m e false i j)%R) ->
    forall i j, on_grid lo hi i j -> (0 <= cell2 m' e (newest2 r nt) i j)%R.
  Proof.
    intros O P i j Gd. rewrite box_upwind by auto. revert i j Gd. destruct box_size as [Sx Sy]. generalize nt as k. induction k as [|k IH]; [exact P|].
    cbn [Nat.iter nat_rect]. apply bup_sign; auto.
  Qed.
  Lemma box_keeps_bounds a b : box_outflow_ok lo hi (nug (s_o r)) m -> box_divergence_free lo hi m ->
    (forall i j, on_grid lo hi i j -> (a <= cell2 m e false i j <= b)%R) ->
    forall i j, on_grid lo hi i j -> (a <= cell2 m' e (newest2 r nt) i j <= b)%R.
  Proof.
    intros O D P i j Gd. rewrite box_upwind by auto. revert i j Gd. destruct box_size as [Sx Sy]. generalize nt as k. induction k as [|k IH]; [exact P|].
    cbn [Nat.iter nat_rect]. intros i j Gd. split; [apply bup_lower|apply bup_upper]; auto; intros; apply IH; auto.
  Qed.
End Runs.
