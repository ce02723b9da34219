(** Symmetries of the functions of FunN.v over the reals, in any number of
    dimensions: permutations of the axes and mirror images, possibly together
    with a change of options that does not matter over the reals. *)
From Coq Require Import ZArith List Bool Lia ZifyBool Reals Lra.
From Verif Require Import ModelRun Lang ProofsLang Stencil FormCommon Solver1D Fun1D FunN Arith SpecReal
  ProofsReal1D ProofsNum1D ProofsSign1D ProofsSym1D ProofsFunN ProofsNumN.
Import ListNotations.
Local Open Scope R_scope.

Lemma nbmax_nx ds psi x d : In d ds -> psi (nx d x) <= nbmax ds psi x.
Proof.
  induction ds as [|e l IH]; intros []; cbn; [subst; apply Rmax_l|].
  eapply Rle_trans; [|apply Rmax_r]. eapply Rle_trans; [|apply Rmax_r]. auto.
Qed.
Lemma nbmax_pv ds psi x d : In d ds -> psi (pv d x) <= nbmax ds psi x.
Proof.
  induction ds as [|e l IH]; intros []; cbn; eapply Rle_trans; [|apply Rmax_r| |apply Rmax_r].
  - subst. apply Rmax_l.
  - eapply Rle_trans; [|apply Rmax_r]. auto.
Qed.
Lemma nbmin_nx ds psi x d : In d ds -> nbmin ds psi x <= psi (nx d x).
Proof.
  induction ds as [|e l IH]; intros []; cbn; [subst; apply Rmin_l|].
  eapply Rle_trans; [apply Rmin_r|]. eapply Rle_trans; [apply Rmin_r|]. auto.
Qed.
Lemma nbmin_pv ds psi x d : In d ds -> nbmin ds psi x <= psi (pv d x).
Proof.
  induction ds as [|e l IH]; intros []; cbn; eapply Rle_trans; [apply Rmin_r| |apply Rmin_r|].
  - subst. apply Rmin_l.
  - eapply Rle_trans; [apply Rmin_r|]. auto.
Qed.

Section Sym.
  Variables eps tiny : R.
  Notation AR := (arithR eps tiny).
  Variables (o o' : fl) (F F' : forms) (ds : list dim).
  Hypothesis CF : closed o ds eps tiny F.
  Hypothesis CF' : closed o' ds eps tiny F'.
  Hypothesis Efct : fct o' = fct o.
  Hypothesis Eiga : iga o' = iga o.
  Hypothesis Eabs : oabs o' = oabs o.
  Hypothesis Enug : nug o' = nug o.
  (** cells move by [h]; axis [d] becomes axis [pi d], reversed if [neg d]; faces move by [hf] *)
  Variables (h : idx -> idx) (pi : dim -> dim) (neg : dim -> bool) (hf : dim -> idx -> idx).
  Hypothesis HS : forall f, dsum ds (fun d => f (pi d)) = dsum ds f.
  Hypothesis HI : forall d, In d ds -> In (pi d) ds.
  Hypothesis HO : forall d, In d ds -> exists d', In d' ds /\ pi d' = d.
  Hypothesis HN : forall d x, In d ds -> h (nx d x) = if neg d then pv (pi d) (h x) else nx (pi d) (h x).
  Hypothesis HV : forall d x, In d ds -> h (pv d x) = if neg d then nx (pi d) (h x) else pv (pi d) (h x).
  Hypothesis HF : forall d x, In d ds -> hf d x = if neg d then pv (pi d) (h x) else h x.

  Definition sg (d : dim) (r : R) : R := if neg d then - r else r.
  Definition crel (f f' : idx -> R) : Prop := forall x, f' x = f (h x).
  Definition frel (c c' : dim -> idx -> R) : Prop := forall d x, In d ds -> c' d x = sg d (c (pi d) (hf d x)).

  Variables X X' : fixedN AR.
  Hypothesis HC : frel (nC AR X) (nC AR X').
  Hypothesis HG : nug o = true -> crel (nG AR X) (nG AR X').
  Hypothesis HA : forall (psi psin psi' psin' : idx -> R) c c', crel psi psi' -> crel psin psin' -> frel c c' ->
    frel (corrN AR F X psi psin c) (corrN AR F' X' psi' psin' c').

  Lemma y_g : crel (gN o (nG AR X)) (gN o' (nG AR X')).
  Proof. intros x. unfold gN. rewrite Enug. destruct (nug o); auto. apply HG. reflexivity. Qed.
  Lemma y_don psi psi' c c' : crel psi psi' -> frel c c' -> frel (donN psi c) (donN psi' c').
  Proof.
    intros Hp Hc d x Hd. unfold donN. rewrite (Hc d x Hd), !Hp, HN, HF by auto. unfold sg. destruct (neg d); [|reflexivity].
    rewrite Rmax_opp, Rmin_opp, nx_pv. ring.
  Qed.
  Lemma y_flux (psi psi' : idx -> R) c c' : crel psi psi' -> frel c c' -> frel (fluxN AR F psi c) (fluxN AR F' psi' c').
  Proof.
    intros Hp Hc d x Hd. rewrite (cl_flux _ _ _ _ _ CF), (cl_flux _ _ _ _ _ CF') by auto. apply (y_don psi psi' c c'); auto.
  Qed.
  Lemma y_fpv d x : In d ds -> hf d (pv d x) = if neg d then h x else pv (pi d) (h x).
  Proof. intros Hd. rewrite HF, HV by auto. destruct (neg d); auto. apply pv_nx. Qed.
  Lemma y_div phi phi' : frel phi phi' -> crel (divN ds phi) (divN ds phi').
  Proof.
    intros H x. unfold divN. rewrite <- (HS (fun d => phi d (h x) - phi d (pv d (h x)))). apply dsum_ext. intros d Hd.
    rewrite !H, y_fpv, HF by auto. unfold sg. destruct (neg d); ring.
  Qed.
  Lemma y_in phi phi' : frel phi phi' -> crel (inN ds phi) (inN ds phi').
  Proof.
    intros H x. unfold inN. rewrite <- (HS (fun d => Rmax 0 (phi d (pv d (h x))) - Rmin 0 (phi d (h x)))). apply dsum_ext. intros d Hd.
    rewrite !H, y_fpv, HF by auto. unfold sg. destruct (neg d); rewrite ?Rmax_opp, ?Rmin_opp; ring.
  Qed.
  Lemma y_out phi phi' : frel phi phi' -> crel (outN ds phi) (outN ds phi').
  Proof.
    intros H x. unfold outN. rewrite <- (HS (fun d => Rmax 0 (phi d (h x)) - Rmin 0 (phi d (pv d (h x))))). apply dsum_ext. intros d Hd.
    rewrite !H, y_fpv, HF by auto. unfold sg. destruct (neg d); rewrite ?Rmax_opp, ?Rmin_opp; ring.
  Qed.
  Lemma y_max psi psi' : crel psi psi' -> crel (nbmax ds psi) (nbmax ds psi').
  Proof.
    intros Hp x. apply Rle_antisym; apply nbmax_lub.
    - rewrite Hp. apply nbmax_ge.
    - intros d Hd. rewrite !Hp, HN, HV by auto. destruct (neg d); auto using nbmax_nx, nbmax_pv.
    - rewrite <- Hp. apply nbmax_ge.
    - intros d Hd. destruct (HO d Hd) as (d' & Hd' & <-).
      pose proof (HN d' x Hd') as N. pose proof (HV d' x Hd') as V. destruct (neg d').
      + rewrite <- N, <- V, <- !Hp. auto using nbmax_nx, nbmax_pv.
      + rewrite <- N, <- V, <- !Hp. auto using nbmax_nx, nbmax_pv.
  Qed.
  Lemma y_min psi psi' : crel psi psi' -> crel (nbmin ds psi) (nbmin ds psi').
  Proof.
    intros Hp x. apply Rle_antisym; apply nbmin_glb.
    - rewrite <- Hp. apply nbmin_le.
    - intros d Hd. destruct (HO d Hd) as (d' & Hd' & <-).
      pose proof (HN d' x Hd') as N. pose proof (HV d' x Hd') as V. destruct (neg d').
      + rewrite <- N, <- V, <- !Hp. auto using nbmin_nx, nbmin_pv.
      + rewrite <- N, <- V, <- !Hp. auto using nbmin_nx, nbmin_pv.
    - rewrite Hp. apply nbmin_le.
    - intros d Hd. rewrite !Hp, HN, HV by auto. destruct (neg d); auto using nbmin_nx, nbmin_pv.
  Qed.
  Lemma y_sum psi psi' phi phi' : crel psi psi' -> frel phi phi' ->
    crel (sumN AR o F psi phi (nG AR X)) (sumN AR o' F' psi' phi' (nG AR X')).
  Proof. intros Hp Hf x. rewrite (cl_sum _ _ _ _ _ CF), (cl_sum _ _ _ _ _ CF'), Hp, (y_div phi phi' Hf x), (y_g x). reflexivity. Qed.
  Lemma y_flx psi psi' c c' : crel psi psi' -> frel c c' ->
    frel (if iga o then c else fluxN AR F psi c) (if iga o' then c' else fluxN AR F' psi' c').
  Proof. intros. rewrite Eiga. destruct (iga o); auto. apply y_flux; auto. Qed.
  Lemma y_lim psi psi' c c' mn mn' mx mx' : crel psi psi' -> frel c c' -> crel mn mn' -> crel mx mx' ->
    frel (limN AR o F X psi c mn mx) (limN AR o' F' X' psi' c' mn' mx').
  Proof.
    intros Hp Hc Hn Hx. unfold FunN.limN. cbv zeta. rewrite Efct. destruct (fct o); auto.
    pose proof (y_flx psi psi' c c' Hp Hc) as HFl.
    set (phi := if iga o then c else fluxN AR F psi c) in HFl. set (phi' := if iga o' then c' else fluxN AR F' psi' c') in HFl.
    change (frel (monoN AR F psi c (bupN AR F psi mx phi (nG AR X)) (bdnN AR F psi mn phi (nG AR X)))
                 (monoN AR F' psi' c' (bupN AR F' psi' mx' phi' (nG AR X')) (bdnN AR F' psi' mn' phi' (nG AR X')))).
    assert (U : crel (bupN AR F psi mx phi (nG AR X)) (bupN AR F' psi' mx' phi' (nG AR X'))).
    { intros x. rewrite (cl_bup _ _ _ _ _ CF), (cl_bup _ _ _ _ _ CF'), Hx, (y_max psi psi' Hp x), Hp, (y_g x), (y_in phi phi' HFl x). reflexivity. }
    assert (D : crel (bdnN AR F psi mn phi (nG AR X)) (bdnN AR F' psi' mn' phi' (nG AR X'))).
    { intros x. rewrite (cl_bdn _ _ _ _ _ CF), (cl_bdn _ _ _ _ _ CF'), Hn, (y_min psi psi' Hp x), Hp, (y_g x), (y_out phi phi' HFl x). reflexivity. }
    set (up := bupN AR F psi mx phi (nG AR X)) in *. set (up' := bupN AR F' psi' mx' phi' (nG AR X')) in *.
    set (dn := bdnN AR F psi mn phi (nG AR X)) in *. set (dn' := bdnN AR F' psi' mn' phi' (nG AR X')) in *.
    clearbody up up' dn dn'.
    intros d x Hd. rewrite (cl_mono _ _ _ _ _ CF), (cl_mono _ _ _ _ _ CF') by auto. unfold limfacN, limAN, limBN. rewrite Eiga, Eabs, (Hc d x Hd), !U, !D, !Hp, !HN, !HF by auto.
    unfold sg. destruct (neg d); [|reflexivity]. rewrite nx_pv.
    set (y := pv (pi d) (h x)). set (w := c (pi d) y). unfold gtb.
    destruct (Rlt_dec 0 w), (Rlt_dec 0 (- w)); try lra.
    - destruct (negb (iga o) && oabs o); [|rewrite (Rmin_comm (up (h x))); ring].
      destruct (Rlt_dec 0 (psi y)); [rewrite (Rmin_comm (up (h x)))|rewrite (Rmin_comm (dn (h x)))]; ring.
    - destruct (negb (iga o) && oabs o); [|rewrite (Rmin_comm (dn (h x))); ring].
      destruct (Rlt_dec 0 (psi (h x))); [rewrite (Rmin_comm (dn (h x)))|rewrite (Rmin_comm (up (h x)))]; ring.
    - assert (w = 0) as -> by lra. rewrite Ropp_0. ring.
  Qed.
  Lemma y_passes mn mn' mx mx' more : crel mn mn' -> crel mx mx' -> forall (psin psin' psi psi' : idx -> R) c c',
    crel psin psin' -> crel psi psi' -> frel c c' ->
    crel (passesN AR o F X mn mx more psin psi c) (passesN AR o' F' X' mn' mx' more psin' psi' c').
  Proof.
    intros Hn Hx. induction more as [|k IH]; intros psin psin' psi psi' c c' Hq Hp Hc; cbn [passesN]; auto.
    assert (HK := HA psi psin psi' psin' c c' Hp Hq Hc).
    apply IH; auto. unfold finN. apply y_sum; auto. apply y_flx; auto. apply y_lim; auto.
  Qed.
  Lemma y_scale ex (psi psi' : idx -> R) : crel psi psi' -> crel (scaleN AR ex psi) (scaleN AR ex psi').
  Proof. intros H x. rewrite !scaleN_R, H. reflexivity. Qed.
  Lemma y_step k ex (psi psi' : idx -> R) : crel psi psi' -> crel (stepN AR o F X k ex psi) (stepN AR o' F' X' k ex psi').
  Proof.
    intros H. unfold stepN. apply y_scale. apply (y_scale ex) in H. apply y_passes; auto.
    - intros x. rewrite (cl_min _ _ _ _ _ CF), (cl_min _ _ _ _ _ CF'). apply y_min; auto.
    - intros x. rewrite (cl_max _ _ _ _ _ CF), (cl_max _ _ _ _ _ CF'). apply y_max; auto.
    - unfold upN. apply y_sum; auto. apply y_flux; auto.
  Qed.
  Lemma y_steps nit freq ex nt : forall ts (psi psi' : idx -> R), crel psi psi' ->
    crel (stepsN AR o F X nit freq ex nt ts psi) (stepsN AR o' F' X' nit freq ex nt ts psi').
  Proof. induction nt as [|k IH]; intros ts psi psi' H; cbn [stepsN]; auto. apply IH, y_step, H. Qed.
End Sym.
