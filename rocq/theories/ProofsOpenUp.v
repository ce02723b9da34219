(** Sign and bounds of upwind transport in a domain with open edges. *)
From Coq Require Import ZArith List Bool Lia Reals Lra.
From Verif Require Import ModelIndex ModelRun Lang Stencil FormCommon Form2D Solver1D Solver2D
  ProofsThread2D ProofsOne2D Arith SpecThreads SpecFields2 SpecNum2 SpecSym2 SpecWalls3 SpecOpen2 ProofsCyclic2D
  ProofsWalls2D ProofsWallsUp ProofsOpen2D.
Import ListNotations.
Local Open Scope R_scope.

Section Up.
  Variables (eps tiny : R) (r : run2).
  Notation lo := (s_lo r).
  Notation hi := (s_hi r).
  Variables m mT : loc -> R.
  Hypothesis T : tame r eps tiny m mT.
  Hypothesis Sx : (lo DX < hi DX)%Z.
  Hypothesis Sy : (lo DY < hi DY)%Z.
  Notation oup := (oup r eps tiny).
  Notation g i j := (G2of (nug (s_o r)) m i j).
  Notation X i j := (face2 m DX i j).
  Notation Y i j := (face2 m DY i j).
  Definition wW i j := Rmax 0 (inner (i =? lo DX)%Z (X (i - 1) j)).
  Definition wE i j := - Rmin 0 (inner (i =? hi DX)%Z (X i j)).
  Definition wS i j := Rmax 0 (inner (j =? lo DY)%Z (Y i (j - 1))).
  Definition wN i j := - Rmin 0 (inner (j =? hi DY)%Z (Y i j)).
  Lemma wpos i j : 0 <= wW i j /\ 0 <= wE i j /\ 0 <= wS i j /\ 0 <= wN i j.
  Proof. unfold wW, wE, wS, wN. pose proof rmax_nn. pose proof rmin_np. repeat split; auto; match goal with |- 0 <= - Rmin 0 ?x => specialize (H0 x); lra end. Qed.
  (** neighbours, the cell itself beyond edges *)
  Definition pW (p : Z -> Z -> R) i j := p (Z.max (lo DX) (i - 1)) j.
  Definition pE (p : Z -> Z -> R) i j := p (Z.min (hi DX) (i + 1)) j.
  Definition pS (p : Z -> Z -> R) i j := p i (Z.max (lo DY) (j - 1)).
  Definition pN (p : Z -> Z -> R) i j := p i (Z.min (hi DY) (j + 1)).
  Definition average (p : Z -> Z -> R) i j : R :=
    p i j + (wW i j * (pW p i j - p i j) + wE i j * (pE p i j - p i j) + wS i j * (pS p i j - p i j) + wN i j * (pN p i j - p i j)) / g i j.

  Lemma pe_in (p : Z -> Z -> R) i j : on_grid lo hi i j -> pe r p i j = p i j /\ pe r p (i - 1) j = pW p i j /\ pe r p (i + 1) j = pE p i j /\
    pe r p i (j - 1) = pS p i j /\ pe r p i (j + 1) = pN p i j.
  Proof.
    intros [Gx Gy]. unfold pe, pW, pE, pS, pN, clamp. repeat split; f_equal; lia.
  Qed.
  Lemma gain_parts (p : Z -> Z -> R) i j : on_grid lo hi i j ->
    let xw := va eps tiny 0 (GC DX) mT (i - 1) j in let xe := va eps tiny 0 (GC DX) mT i j in
    let ys := va eps tiny 0 (GC DY) mT i (j - 1) in let yn := va eps tiny 0 (GC DY) mT i j in
    ogain r eps tiny mT p i j = (Rmax 0 xw * pW p i j + Rmin 0 xw * p i j) - (Rmax 0 xe * p i j + Rmin 0 xe * pE p i j) +
      ((Rmax 0 ys * pS p i j + Rmin 0 ys * p i j) - (Rmax 0 yn * p i j + Rmin 0 yn * pN p i j)).
  Proof.
    intros Gd. cbv zeta. destruct (pe_in p i j Gd) as (E0 & E1 & E2 & E3 & E4). unfold ogain, ofx, ofy, don.
    replace (i - 1 + 1)%Z with i by lia. replace (j - 1 + 1)%Z with j by lia. rewrite E0, E1, E2, E3, E4. reflexivity.
  Qed.
  (** weights beyond the edges do not matter *)
  Lemma partW (p : Z -> Z -> R) i j : on_grid lo hi i j -> Rmax 0 (va eps tiny 0 (GC DX) mT (i - 1) j) * (pW p i j - p i j) = wW i j * (pW p i j - p i j).
  Proof.
    intros [Gx Gy]. unfold wW, pW. destruct (Z.eqb_spec i (lo DX)) as [->|N].
    - replace (Z.max (lo DX) (lo DX - 1)) with (lo DX) by lia. ring.
    - destruct T as (TX & _). cbn [inner]. rewrite TX by lia. reflexivity.
  Qed.
  Lemma partE (p : Z -> Z -> R) i j : on_grid lo hi i j -> - Rmin 0 (va eps tiny 0 (GC DX) mT i j) * (pE p i j - p i j) = wE i j * (pE p i j - p i j).
  Proof.
    intros [Gx Gy]. unfold wE, pE. destruct (Z.eqb_spec i (hi DX)) as [->|N].
    - replace (Z.min (hi DX) (hi DX + 1)) with (hi DX) by lia. ring.
    - destruct T as (TX & _). cbn [inner]. rewrite TX by lia. reflexivity.
  Qed.
  Lemma partS (p : Z -> Z -> R) i j : on_grid lo hi i j -> Rmax 0 (va eps tiny 0 (GC DY) mT i (j - 1)) * (pS p i j - p i j) = wS i j * (pS p i j - p i j).
  Proof.
    intros [Gx Gy]. unfold wS, pS. destruct (Z.eqb_spec j (lo DY)) as [->|N].
    - replace (Z.max (lo DY) (lo DY - 1)) with (lo DY) by lia. ring.
    - destruct T as (_ & TY & _). cbn [inner]. rewrite TY by lia. reflexivity.
  Qed.
  Lemma partN (p : Z -> Z -> R) i j : on_grid lo hi i j -> - Rmin 0 (va eps tiny 0 (GC DY) mT i j) * (pN p i j - p i j) = wN i j * (pN p i j - p i j).
  Proof.
    intros [Gx Gy]. unfold wN, pN. destruct (Z.eqb_spec j (hi DY)) as [->|N].
    - replace (Z.min (hi DY) (hi DY + 1)) with (hi DY) by lia. ring.
    - destruct T as (_ & TY & _). cbn [inner]. rewrite TY by lia. reflexivity.
  Qed.
  Lemma div0 i j : on_grid lo hi i j -> (interior lo hi i j -> X i j - X (i - 1) j + (Y i j - Y i (j - 1)) = 0) ->
    va eps tiny 0 (GC DX) mT i j - va eps tiny 0 (GC DX) mT (i - 1) j + (va eps tiny 0 (GC DY) mT i j - va eps tiny 0 (GC DY) mT i (j - 1)) = 0.
  Proof.
    intros Gd D. destruct T as (TX & TY & TD & _).
    assert (I : interior lo hi i j \/ ~ interior lo hi i j) by (unfold interior; lia).
    destruct I as [I|NI]; [|apply TD; auto]. destruct I as [Ix Iy]. rewrite !TX, !TY by lia. apply D. split; auto.
  Qed.
  Lemma oup_average p i j : on_grid lo hi i j -> (interior lo hi i j -> X i j - X (i - 1) j + (Y i j - Y i (j - 1)) = 0) ->
    oup mT p i j = average p i j.
  Proof.
    intros Gd D. pose proof (div0 i j Gd D) as Z0. unfold ProofsOpen2D.oup, average. destruct T as (_ & _ & _ & TG). rewrite (TG i j Gd).
    rewrite <- (partW p i j Gd), <- (partE p i j Gd), <- (partS p i j Gd), <- (partN p i j Gd). rewrite (gain_parts p i j Gd). cbv zeta.
    set (xw := va eps tiny 0 (GC DX) mT (i - 1) j) in *. set (xe := va eps tiny 0 (GC DX) mT i j) in *.
    set (ys := va eps tiny 0 (GC DY) mT i (j - 1)) in *. set (yn := va eps tiny 0 (GC DY) mT i j) in *.
    f_equal. f_equal. pose proof (rmaxmin xw). pose proof (rmaxmin xe). pose proof (rmaxmin ys). pose proof (rmaxmin yn).
    assert (Z1 : (Rmax 0 xe + Rmin 0 xe - (Rmax 0 xw + Rmin 0 xw) + (Rmax 0 yn + Rmin 0 yn - (Rmax 0 ys + Rmin 0 ys))) * p i j = 0) by (rewrite !rmaxmin, Z0; ring).
    lra.
  Qed.
  Lemma edge_dec i j : on_grid lo hi i j -> (on_edge lo hi i j = true /\ ~ interior lo hi i j) \/ (on_edge lo hi i j = false /\ interior lo hi i j).
  Proof.
    intros [Gx Gy]. unfold on_edge, interior.
    destruct (Z.eqb_spec i (lo DX)); destruct (Z.eqb_spec i (hi DX)); destruct (Z.eqb_spec j (lo DY)); destruct (Z.eqb_spec j (hi DY)); cbn [orb]; first [left; split; [reflexivity|lia]|right; split; [reflexivity|lia]].
  Qed.
  Lemma oup_step p i j : on_grid lo hi i j -> oup mT p i j = open_step lo hi (nug (s_o r)) m p i j.
  Proof.
    intros Gd. unfold open_step. destruct (edge_dec i j Gd) as [[-> NI]|[-> I]].
    - rewrite (oup_average p i j Gd) by (intros; contradiction). unfold average, wW, wE, wS, wN, pW, pE, pS, pN. f_equal. f_equal. destruct Gd as [Gx Gy].
      assert (Q0 : Rmax 0 0 = 0) by (apply Rmax_left; lra). assert (Q1 : Rmin 0 0 = 0) by (apply Rmin_left; lra).
      assert (A1 : Rmax 0 (inner (i =? lo DX)%Z (X (i - 1) j)) * (p (Z.max (lo DX) (i - 1)) j - p i j) = Rmax 0 (inner (i =? lo DX)%Z (X (i - 1) j)) * (p (i - 1)%Z j - p i j))
        by (destruct (Z.eqb_spec i (lo DX)); cbn [inner]; [rewrite Q0; ring|replace (Z.max (lo DX) (i - 1)) with (i - 1)%Z by lia; reflexivity]).
      assert (A2 : Rmin 0 (inner (i =? hi DX)%Z (X i j)) * (p (Z.min (hi DX) (i + 1)) j - p i j) = Rmin 0 (inner (i =? hi DX)%Z (X i j)) * (p (i + 1)%Z j - p i j))
        by (destruct (Z.eqb_spec i (hi DX)); cbn [inner]; [rewrite Q1; ring|replace (Z.min (hi DX) (i + 1)) with (i + 1)%Z by lia; reflexivity]).
      assert (A3 : Rmax 0 (inner (j =? lo DY)%Z (Y i (j - 1))) * (p i (Z.max (lo DY) (j - 1)) - p i j) = Rmax 0 (inner (j =? lo DY)%Z (Y i (j - 1))) * (p i (j - 1)%Z - p i j))
        by (destruct (Z.eqb_spec j (lo DY)); cbn [inner]; [rewrite Q0; ring|replace (Z.max (lo DY) (j - 1)) with (j - 1)%Z by lia; reflexivity]).
      assert (A4 : Rmin 0 (inner (j =? hi DY)%Z (Y i j)) * (p i (Z.min (hi DY) (j + 1)) - p i j) = Rmin 0 (inner (j =? hi DY)%Z (Y i j)) * (p i (j + 1)%Z - p i j))
        by (destruct (Z.eqb_spec j (hi DY)); cbn [inner]; [rewrite Q1; ring|replace (Z.min (hi DY) (j + 1)) with (j + 1)%Z by lia; reflexivity]).
      lra.
    - unfold ProofsOpen2D.oup. rewrite (gain_parts p i j Gd). cbv zeta. destruct T as (TX & TY & _ & TG). rewrite (TG i j Gd). destruct I as [Ix Iy].
      rewrite !TX, !TY by lia. change (va eps tiny 0 (GC DX) m (i - 1) j) with (X (i - 1) j). change (va eps tiny 0 (GC DX) m i j) with (X i j).
      change (va eps tiny 0 (GC DY) m i (j - 1)) with (Y i (j - 1)). change (va eps tiny 0 (GC DY) m i j) with (Y i j). unfold pW, pE, pS, pN, upwind.
      replace (Z.max (lo DX) (i - 1)) with (i - 1)%Z by lia. replace (Z.min (hi DX) (i + 1)) with (i + 1)%Z by lia.
      replace (Z.max (lo DY) (j - 1)) with (j - 1)%Z by lia. replace (Z.min (hi DY) (j + 1)) with (j + 1)%Z by lia. reflexivity.
  Qed.
  Lemma step_ext p q : (forall i j, on_grid lo hi i j -> p i j = q i j) -> forall i j, on_grid lo hi i j -> open_step lo hi (nug (s_o r)) m p i j = open_step lo hi (nug (s_o r)) m q i j.
  Proof.
    intros H i j Gd. rewrite <- !oup_step by auto. unfold ProofsOpen2D.oup. rewrite !gain_parts by auto. cbv zeta. unfold pW, pE, pS, pN. destruct Gd as [Gx Gy].
    rewrite !H by (unfold on_grid; lia). reflexivity.
  Qed.
  Definition flow_ok := open_flow_ok lo hi (nug (s_o r)) m.
  Lemma p_in (p : Z -> Z -> R) (P : R -> Prop) i j : (forall i j, on_grid lo hi i j -> P (p i j)) -> on_grid lo hi i j ->
    P (p i j) /\ P (pW p i j) /\ P (pE p i j) /\ P (pS p i j) /\ P (pN p i j).
  Proof. intros H [Gx Gy]. unfold pW, pE, pS, pN. repeat split; apply H; unfold on_grid; lia. Qed.
  Lemma avg_sign (p : Z -> Z -> R) i j : wW i j + wE i j + (wS i j + wN i j) <= g i j -> 0 < g i j ->
    0 <= p i j -> 0 <= pW p i j -> 0 <= pE p i j -> 0 <= pS p i j -> 0 <= pN p i j -> 0 <= average p i j.
  Proof.
    intros O GP P0 P1 P2 P3 P4. destruct (wpos i j) as (W1 & W2 & W3 & W4). unfold average.
    replace (p i j + _) with ((wW i j * pW p i j + wE i j * pE p i j + wS i j * pS p i j + wN i j * pN p i j +
      (g i j - (wW i j + wE i j + (wS i j + wN i j))) * p i j) / g i j) by (field; lra).
    apply Rmult_le_pos; [|left; apply Rinv_0_lt_compat; exact GP].
    repeat apply Rplus_le_le_0_compat; apply Rmult_le_pos; lra.
  Qed.
  Lemma edge_w i j : flow_ok -> on_grid lo hi i j -> ~ interior lo hi i j -> wW i j + wE i j + (wS i j + wN i j) <= g i j.
  Proof. intros F Gd NI. destruct (F i j Gd) as (_ & _ & B). specialize (B NI). unfold inner_inflow in B. unfold wW, wE, wS, wN. lra. Qed.
  Lemma in_w i j : flow_ok -> on_grid lo hi i j -> interior lo hi i j -> X i j - X (i - 1) j + (Y i j - Y i (j - 1)) = 0 -> wW i j + wE i j + (wS i j + wN i j) <= g i j.
  Proof.
    intros F Gd I D. destruct (F i j Gd) as (_ & B & _). specialize (B I). unfold wW, wE, wS, wN. destruct I as [Ix Iy].
    destruct (Z.eqb_spec i (lo DX)); [lia|]. destruct (Z.eqb_spec i (hi DX)); [lia|]. destruct (Z.eqb_spec j (lo DY)); [lia|]. destruct (Z.eqb_spec j (hi DY)); [lia|].
    cbn [inner]. pose proof (rmaxmin (X i j)). pose proof (rmaxmin (X (i - 1) j)). pose proof (rmaxmin (Y i j)). pose proof (rmaxmin (Y i (j - 1))). lra.
  Qed.
  Lemma oup_sign (p : Z -> Z -> R) : flow_ok -> (forall i j, on_grid lo hi i j -> 0 <= p i j) -> forall i j, on_grid lo hi i j -> 0 <= oup mT p i j.
  Proof.
    intros F P i j Gd. destruct (p_in p (fun x => 0 <= x) i j P Gd) as (P0 & P1 & P2 & P3 & P4). destruct (F i j Gd) as (GP & FI & _).
    assert (I : interior lo hi i j \/ ~ interior lo hi i j) by (unfold interior; lia).
    destruct I as [I|NI].
    - specialize (FI I). unfold ProofsOpen2D.oup. rewrite (gain_parts p i j Gd). cbv zeta. destruct T as (TX & TY & _ & TG). rewrite (TG i j Gd). destruct I as [Ix Iy].
      rewrite !TX, !TY by lia. change (va eps tiny 0 (GC DX) m (i - 1) j) with (X (i - 1) j). change (va eps tiny 0 (GC DX) m i j) with (X i j).
      change (va eps tiny 0 (GC DY) m i (j - 1)) with (Y i (j - 1)). change (va eps tiny 0 (GC DY) m i j) with (Y i j).
      set (xw := X (i - 1) j) in *. set (xe := X i j) in *. set (ys := Y i (j - 1)) in *. set (yn := Y i j) in *. set (q := g i j) in *.
      replace (p i j + _) with ((Rmax 0 xw * pW p i j + (- Rmin 0 xe) * pE p i j + Rmax 0 ys * pS p i j + (- Rmin 0 yn) * pN p i j +
        (q - (Rmax 0 xe - Rmin 0 xw + (Rmax 0 yn - Rmin 0 ys))) * p i j) / q) by (field; lra).
      apply Rmult_le_pos; [|left; apply Rinv_0_lt_compat; exact GP].
      pose proof (rmax_nn xw). pose proof (rmax_nn ys). pose proof (rmin_np xe). pose proof (rmin_np yn).
      repeat apply Rplus_le_le_0_compat; apply Rmult_le_pos; lra.
    - rewrite (oup_average p i j Gd) by (intros; contradiction). apply avg_sign; auto. apply edge_w; auto.
  Qed.
  Lemma avg_bounds (p : Z -> Z -> R) a b i j : wW i j + wE i j + (wS i j + wN i j) <= g i j -> 0 < g i j ->
    (forall i j, on_grid lo hi i j -> a <= p i j <= b) -> on_grid lo hi i j -> a <= average p i j <= b.
  Proof.
    intros O GP P Gd. destruct (p_in p (fun x => a <= x <= b) i j P Gd) as (P0 & P1 & P2 & P3 & P4).
    assert (L : 0 <= average (fun i j => p i j - a) i j) by (apply avg_sign; auto; unfold pW, pE, pS, pN in *; lra).
    assert (U : 0 <= average (fun i j => b - p i j) i j) by (apply avg_sign; auto; unfold pW, pE, pS, pN in *; lra).
    replace (average (fun i j => p i j - a) i j) with (average p i j - a) in L by (unfold average, pW, pE, pS, pN; field; lra).
    replace (average (fun i j => b - p i j) i j) with (b - average p i j) in U by (unfold average, pW, pE, pS, pN; field; lra). lra.
  Qed.
  Lemma oup_bounds (p : Z -> Z -> R) a b : flow_ok -> open_divergence_free lo hi m -> (forall i j, on_grid lo hi i j -> a <= p i j <= b) ->
    forall i j, on_grid lo hi i j -> a <= oup mT p i j <= b.
  Proof.
    intros F D P i j Gd. rewrite (oup_average p i j Gd) by (intros I; apply (D i j I)). destruct (F i j Gd) as (GP & _).
    assert (I : interior lo hi i j \/ ~ interior lo hi i j) by (unfold interior; lia).
    apply avg_bounds; auto. destruct I as [I|NI]; [apply in_w; auto; apply (D i j I)|apply edge_w; auto].
  Qed.
End Up.

Section Runs.
  Variables (eps tiny : R) (r : run2) (n nt : nat) (m m' : loc -> R) (e : nat).
  Hypothesis W : open_end2 (arithR eps tiny) r n nt m m'.
  Hypothesis He : (e < n_eqns (s_cfg r))%nat.
  Hypothesis N1 : s_nit r = 1%nat.
  Notation lo := (s_lo r).
  Notation hi := (s_hi r).
  Lemma open_upwind : exists mT, tame r eps tiny m mT /\
    forall i j, on_grid lo hi i j -> cell2 m' e (newest2 r nt) i j = Nat.iter nt (oup r eps tiny mT) (cell2 m e false) i j.
  Proof.
    destruct W as [RK BL BR Hn Hs ST E].
    pose proof (can_end_run2 r RK n Hn Hs (arithR eps tiny) nt m m' ST E) as V.
    destruct (run_open r n eps tiny RK Hn Hs BL BR N1 nt m e He) as (mT & T & F). exists mT. split; [exact T|].
    intros i j Gd. unfold cell2 at 1, newest2. rewrite V. exact (F i j Gd).
  Qed.
  Lemma open_size : (lo DX < hi DX)%Z /\ (lo DY < hi DY)%Z.
  Proof. destruct W as [RK BL BR Hn Hs ST E]. eapply osize; eauto. Qed.
  Lemma open_run i j : on_grid lo hi i j -> cell2 m' e (newest2 r nt) i j = Nat.iter nt (open_step lo hi (nug (s_o r)) m) (cell2 m e false) i j.
  Proof.
    destruct open_upwind as (mT & T & V). destruct open_size as [Sx Sy]. intros Gd. rewrite V by auto. revert i j Gd. generalize nt as k. induction k as [|k IH]; [reflexivity|].
    intros i j Gd. cbn [Nat.iter nat_rect]. rewrite (oup_step eps tiny r m mT T) by auto. apply (step_ext eps tiny r m mT T); auto.
  Qed.
  Lemma open_keeps_sign : open_flow_ok lo hi (nug (s_o r)) m -> (forall i j, on_grid lo hi i j -> 0 <= cell2 m e false i j) ->
    forall i j, on_grid lo hi i j -> 0 <= cell2 m' e (newest2 r nt) i j.
  Proof.
    destruct open_upwind as (mT & T & V). destruct open_size as [Sx Sy]. intros O P i j Gd. rewrite V by auto. revert i j Gd. generalize nt as k. induction k as [|k IH]; [exact P|].
    cbn [Nat.iter nat_rect]. apply (oup_sign eps tiny r m mT T); auto.
  Qed.
  Lemma open_keeps_bounds a b : open_flow_ok lo hi (nug (s_o r)) m -> open_divergence_free lo hi m ->
    (forall i j, on_grid lo hi i j -> a <= cell2 m e false i j <= b) ->
    forall i j, on_grid lo hi i j -> a <= cell2 m' e (newest2 r nt) i j <= b.
  Proof.
    destruct open_upwind as (mT & T & V). destruct open_size as [Sx Sy]. intros O D P i j Gd. rewrite V by auto. revert i j Gd. generalize nt as k. induction k as [|k IH]; [exact P|].
    cbn [Nat.iter nat_rect]. apply (oup_bounds eps tiny r m mT T); auto.
  Qed.
End Runs.

(** exchange of the axes *)
Section Transp.
  Variables (lo hi : dim -> Z) (nug : bool).
  Notation lo' := (fun d => lo (swap_axis d)).
  Notation hi' := (fun d => hi (swap_axis d)).
  Variables m1 m2 : loc -> R.
  Hypothesis FX : forall i j, (lo' DX <= i < hi' DX)%Z -> (lo' DY <= j <= hi' DY)%Z -> face2 m2 DX i j = face2 m1 DY j i.
  Hypothesis FY : forall i j, (lo' DX <= i <= hi' DX)%Z -> (lo' DY <= j < hi' DY)%Z -> face2 m2 DY i j = face2 m1 DX j i.
  Hypothesis FG : nug = true -> forall i j, (lo' DX <= i <= hi' DX)%Z -> (lo' DY <= j <= hi' DY)%Z -> gfac2 m2 i j = gfac2 m1 j i.
  Lemma inner_ext b x y : (b = false -> x = y) -> inner b x = inner b y.
  Proof. destruct b; cbn [inner]; auto. Qed.
  Lemma step_transp p q : (forall i j, q i j = p j i) -> forall i j, on_grid lo' hi' i j -> open_step lo' hi' nug m2 q i j = open_step lo hi nug m1 p j i.
  Proof.
    intros H i j [Gx Gy]. cbn in Gx, Gy. unfold open_step. rewrite !H.
    assert (GG : G2of nug m2 i j = G2of nug m1 j i).
    { unfold G2of. destruct nug; [|reflexivity]. apply FG; auto. }
    rewrite GG. f_equal. f_equal.
    replace (on_edge lo' hi' i j) with (on_edge lo hi j i) by (unfold on_edge; cbn; destruct (i =? lo DY)%Z, (i =? hi DY)%Z, (j =? lo DX)%Z, (j =? hi DX)%Z; reflexivity).
    destruct (on_edge lo hi j i) eqn:E.
    - cbn [swap_axis].
      rewrite (inner_ext (i =? lo DY)%Z (face2 m2 DX (i - 1) j) (face2 m1 DY j (i - 1))) by (destruct (Z.eqb_spec i (lo DY)); [discriminate|intros _; apply FX; cbn; lia]).
      rewrite (inner_ext (i =? hi DY)%Z (face2 m2 DX i j) (face2 m1 DY j i)) by (destruct (Z.eqb_spec i (hi DY)); [discriminate|intros _; apply FX; cbn; lia]).
      rewrite (inner_ext (j =? lo DX)%Z (face2 m2 DY i (j - 1)) (face2 m1 DX (j - 1) i)) by (destruct (Z.eqb_spec j (lo DX)); [discriminate|intros _; apply FY; cbn; lia]).
      rewrite (inner_ext (j =? hi DX)%Z (face2 m2 DY i j) (face2 m1 DX j i)) by (destruct (Z.eqb_spec j (hi DX)); [discriminate|intros _; apply FY; cbn; lia]).
      ring.
    - unfold on_edge in E. apply orb_false_elim in E as [E E4]. apply orb_false_elim in E as [E E3]. apply orb_false_elim in E as [E1 E2].
      apply Z.eqb_neq in E1, E2, E3, E4.
      rewrite !FX, !FY by (cbn; lia). ring.
  Qed.
End Transp.
Lemma open_transp eps tiny r n1 n2 nt (m1 m1' m2 m2' : loc -> R) e :
  open_end2 (arithR eps tiny) r n1 nt m1 m1' -> open_end2 (arithR eps tiny) (transpose_run r) n2 nt m2 m2' ->
  transposed2 (s_lo (transpose_run r)) (s_hi (transpose_run r)) (n_eqns (s_cfg r)) (nug (s_o r)) m1 m2 ->
  (e < n_eqns (s_cfg r))%nat -> s_nit r = 1%nat ->
  forall i j, on_grid (s_lo (transpose_run r)) (s_hi (transpose_run r)) i j -> cell2 m2' e (newest2 r nt) i j = cell2 m1' e (newest2 r nt) j i.
Proof.
  intros W1 W2 (TC & TX & TY & TG) He N1 i j Gd.
  assert (Gd' : on_grid (s_lo r) (s_hi r) j i) by (destruct Gd; split; cbn in *; lia).
  change (newest2 r nt) with (newest2 (transpose_run r) nt) at 1.
  rewrite (open_run eps tiny (transpose_run r) n2 nt m2 m2' e W2 He N1 i j Gd), (open_run eps tiny r n1 nt m1 m1' e W1 He N1 j i Gd').
  change (nug (s_o (transpose_run r))) with (nug (s_o r)).
  set (q0 := fun i j => cell2 m1 e false j i).
  assert (H0 : forall k, forall i j, on_grid (s_lo (transpose_run r)) (s_hi (transpose_run r)) i j ->
    Nat.iter k (open_step (s_lo (transpose_run r)) (s_hi (transpose_run r)) (nug (s_o r)) m2) (cell2 m2 e false) i j =
    Nat.iter k (open_step (s_lo (transpose_run r)) (s_hi (transpose_run r)) (nug (s_o r)) m2) q0 i j).
  { destruct (open_upwind eps tiny (transpose_run r) n2 nt m2 m2' e W2 He N1) as (mT & T & _). destruct (open_size eps tiny (transpose_run r) n2 nt m2 m2' W2) as [Sx Sy].
    induction k as [|k IH]; intros a b G; [cbn [Nat.iter nat_rect]; unfold q0; destruct G; apply TC; auto|].
    cbn [Nat.iter nat_rect]. apply (step_ext eps tiny (transpose_run r) m2 mT T); auto. }
  rewrite (H0 nt i j Gd). clear H0.
  assert (H1 : forall k i j, on_grid (s_lo (transpose_run r)) (s_hi (transpose_run r)) i j ->
    Nat.iter k (open_step (s_lo (transpose_run r)) (s_hi (transpose_run r)) (nug (s_o r)) m2) q0 i j =
    Nat.iter k (open_step (s_lo r) (s_hi r) (nug (s_o r)) m1) (cell2 m1 e false) j i).
  { destruct (open_upwind eps tiny (transpose_run r) n2 nt m2 m2' e W2 He N1) as (mT & T & _). destruct (open_size eps tiny (transpose_run r) n2 nt m2 m2' W2) as [Sx Sy].
    induction k as [|k IH]; intros a b G; [reflexivity|]. cbn [Nat.iter nat_rect].
    rewrite (step_ext eps tiny (transpose_run r) m2 mT T Sx Sy _ (fun i j => Nat.iter k (open_step (s_lo r) (s_hi r) (nug (s_o r)) m1) (cell2 m1 e false) j i)); auto.
    apply (step_transp (s_lo r) (s_hi r) (nug (s_o r)) m1 m2); auto. }
  apply H1; auto.
Qed.
