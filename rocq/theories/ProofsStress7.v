(** Stresses of uniformly sheared flows. *)
From Coq Require Import ZArith Reals Lra Lia Field.
From Verif Require Import Stencil SpecReal SpecStress SpecStress2 ModelStress ProofsStress2 ProofsStress3.
Local Open Scope R_scope.

Section Main.
  Variable dx : nat -> R.
  Variable nug : bool.
  Variable G : field.
  Hypothesis Hdx : forall d, dx d <> 0.

  Definition sym (w : nat -> nat -> R) (d e : nat) : R := w d e + w e d.
  Definition sym_at (nd : ndims) (df : sdiff) (w : nat -> nat -> R) (c : nat) : R :=
    match nd, df with
    | two, compact => match c with 0%nat => sym w 0 0 | 1%nat => sym w 1 1 | _ => sym w 0 1 end
    | two, _ => match c with 0%nat => sym w 0 0 | 1%nat => sym w 0 1 | _ => sym w 1 1 end
    | three, compact => match c with 0%nat => sym w 0 0 | 1%nat => sym w 1 1 | 2%nat => sym w 2 2
                                   | 3%nat => sym w 0 1 | 4%nat => sym w 0 2 | _ => sym w 1 2 end
    | three, _ => match c with 0%nat => sym w 0 0 | 1%nat => sym w 0 1 | 2%nat => sym w 0 2
                             | 3%nat => sym w 1 1 | 4%nat => sym w 1 2 | _ => sym w 2 2 end
    end.

  Lemma deform_shear nd df c w : (df = compact -> nug = false) ->
    forall e i, deform dx nug G nd df (uniform_shear dx nd c w) e i = sym_at nd df w e.
  Proof.
    intros Hg e i.
    assert (L : forall d f i, (d < ndn nd)%nat -> grad d (uniform_shear dx nd c w f) (dx d) i = w f d).
    { intros d f j Hd. unfold uniform_shear. apply grad_linear; assumption. }
    assert (P : forall d f i, (d < ndn nd)%nat -> pade_wrk 3 d (grad d (uniform_shear dx nd c w f) (dx d)) i = w f d).
    { intros d f j Hd. rewrite (pade_ext 3 d _ (fun _ => w f d)) by (intros; apply L; assumption). apply pade_const. }
    destruct df.
    - destruct nd; cbn [deform]; destruct e as [|[|[|[|[|e]]]]]; cbn [calc_deform calc_deform2 calc_deform3 calc_vgrad calc_vgrad2 calc_vgrad3];
        rewrite ?L by (cbn; lia); cbn [sym_at]; unfold sym; ring.
    - destruct nd; cbn [deform]; unfold pade_deriv; destruct e as [|[|[|[|[|e]]]]];
        cbn [calc_deform calc_deform2 calc_deform3 calc_vgrad calc_vgrad2 calc_vgrad3 pade_dir];
        rewrite ?P by (cbn; lia); cbn [sym_at]; unfold sym; ring.
    - rewrite (Hg eq_refl). destruct i as [[x y] z].
      pose proof (Hdx 0). pose proof (Hdx 1). pose proof (Hdx 2).
      destruct nd; cbn [deform]; destruct e as [|[|[|[|[|e]]]]];
        cbn [calc_deform_cmpct calc_deform_cmpct2 calc_deform_cmpct3 calc_vip_div_cmpct];
        unfold uniform_shear, linear, pos; cbn [ndn axes coord fst snd]; rewrite ?plus_IZR;
        cbn [sym_at]; unfold sym; field; auto.
  Qed.

  Definition sq (nd : ndims) (w : nat -> nat -> R) : R := axes (ndn nd) (fun f => axes (ndn nd) (fun g => sym w f g * sym w f g)) / 2.

  Lemma max_same a : Rmax a a = a.
  Proof. apply Rmax_left. lra. Qed.

  Lemma visc_shear nd df s w : (df = compact -> nug = false) ->
    forall e i, (e < match nd with two => 3 | three => 6 end)%nat ->
    multiply_sgs_visc dx nug G nd df (Smg s) (fun e _ => sym_at nd df w e) e i = pow2 (s * dlta dx nd) * sq nd w * sym_at nd df w e.
  Proof.
    intros Hg e [[x y] z] He.
    destruct df.
    - destruct nd; cbn [multiply_sgs_visc k_m fst tdef_sq]; unfold calc_tdef_sq2, calc_tdef_sq3, sq, pow2;
        cbn [sym_at ndn axes]; unfold sym; field.
    - destruct nd; cbn [multiply_sgs_visc k_m fst tdef_sq]; unfold calc_tdef_sq2, calc_tdef_sq3, sq, pow2;
        cbn [sym_at ndn axes]; unfold sym; field.
    - cbn [multiply_sgs_visc]. unfold multiply_tnsr_cmpct.
      assert (Q : forall i, tdef_sq_cmpct nd (fun e _ => sym_at nd compact w e) i = sq nd w).
      { intros [[a b] d]. unfold tdef_sq_cmpct, calc_tdef_sq_cmpct2, calc_tdef_sq_cmpct3, max4, sq.
        destruct nd; rewrite !max_same; cbn [sym_at ndn axes]; unfold sym, pow2; field. }
      assert (K : forall i, fst (k_m dx nd (Smg s) (tdef_sq_cmpct nd (fun e _ => sym_at nd compact w e))) i = pow2 (s * dlta dx nd) * sq nd w) by
        (intros; cbn [k_m fst]; rewrite Q; reflexivity).
      assert (K' : forall i, snd (k_m dx nd (Smg s) (tdef_sq_cmpct nd (fun e _ => sym_at nd compact w e))) i = pow2 (s * dlta dx nd) * sq nd w) by
        (intros; cbn [k_m snd]; rewrite Q; reflexivity).
      generalize dependent (k_m dx nd (Smg s) (tdef_sq_cmpct nd (fun e _ => sym_at nd compact w e))). intros k K K'.
      unfold multiply_tnsr_cmpct2, multiply_tnsr_cmpct3, Gop. rewrite (Hg eq_refl).
      destruct nd; destruct e as [|[|[|[|[|[|e]]]]]]; try lia; rewrite ?K, ?K'; cbn [sym_at]; field.
  Qed.

  Lemma sym_comm w d e : sym w d e = sym w e d.
  Proof. unfold sym. ring. Qed.

  Lemma entry_ok nd df w d e : (d < ndn nd)%nat -> (e < ndn nd)%nat ->
    (entry nd df d e < match nd with two => 3 | three => 6 end)%nat /\ sym_at nd df w (entry nd df d e) = sym w d e.
  Proof.
    intros Hd He. destruct nd, df; cbn in Hd, He; destruct d as [|[|[|d]]]; try lia; destruct e as [|[|[|e]]]; try lia;
      cbn; (split; [lia|]); solve [reflexivity | apply sym_comm].
  Qed.

  Lemma stress_shear nd df s c w i d e : (df = compact -> nug = false) -> (d < ndn nd)%nat -> (e < ndn nd)%nat ->
    stress dx nug G nd df (Smg s) (uniform_shear dx nd c w) i d e = pow2 (s * dlta dx nd) * sq nd w * sym w d e.
  Proof.
    intros Hg Hd He. unfold stress. destruct (entry_ok nd df w d e Hd He) as [A B].
    rewrite (visc_ext dx nug G nd df (Smg s) _ (fun e _ => sym_at nd df w e)) by (intros; apply deform_shear; exact Hg).
    rewrite visc_shear by assumption. rewrite B. reflexivity.
  Qed.
  Lemma stress_shear_dns nd df eta c w i d e : (df = compact -> nug = false) -> (d < ndn nd)%nat -> (e < ndn nd)%nat ->
    stress dx nug G nd df (Dns eta) (uniform_shear dx nd c w) i d e = eta * sym w d e.
  Proof.
    intros Hg Hd He. unfold stress. destruct (entry_ok nd df w d e Hd He) as [A B].
    rewrite (visc_ext dx nug G nd df (Dns eta) _ (fun e _ => sym_at nd df w e)) by (intros; apply deform_shear; exact Hg).
    destruct df; cbn [multiply_sgs_visc]; unfold multiply_tnsr_const; rewrite B; ring.
  Qed.
End Main.

(** ** Rotations *)
Lemma rot_sym k q w d e : sym (rotated k q w) d e = rotated k q (sym w) d e.
Proof.
  unfold sym, rotated.
  assert (A : forall n f g, axes n f + axes n g = axes n (fun x => f x + g x)).
  { intros n f g. induction n as [|n IH]; cbn [axes]; [ring|rewrite <- IH; ring]. }
  assert (X : forall n f g, (forall x, f x = g x) -> axes n f = axes n g).
  { intros n f g H. induction n as [|n IH]; cbn [axes]; [reflexivity|rewrite IH, H; reflexivity]. }
  assert (Z : forall n, axes n (fun _ => 0) = 0) by (intros n; induction n as [|n IH]; cbn [axes]; [reflexivity|rewrite IH; ring]).
  assert (S : forall n m f, axes n (fun x => axes m (fun y => f x y)) = axes m (fun y => axes n (fun x => f x y))).
  { intros n m f. induction n as [|n IH]; cbn [axes]; [symmetry; apply Z|]. rewrite IH, A. reflexivity. }
  rewrite (S k k (fun f g => q e f * w f g * q d g)). rewrite A. apply X. intros f. rewrite A. apply X. intros g. ring.
Qed.

(** vectors keep their length *)
Lemma len2 a b c d x y : a * a + c * c = 1 -> b * b + d * d = 1 -> a * b + c * d = 0 ->
  (a * x + b * y) * (a * x + b * y) + (c * x + d * y) * (c * x + d * y) = x * x + y * y.
Proof.
  intros A B C. replace ((a * x + b * y) * (a * x + b * y) + (c * x + d * y) * (c * x + d * y))
    with ((a * a + c * c) * (x * x) + (b * b + d * d) * (y * y) + 2 * (a * b + c * d) * (x * y)) by ring.
  rewrite A, B, C. ring.
Qed.
Lemma len3 a b c d e f g h k x y z : a * a + d * d + g * g = 1 -> b * b + e * e + h * h = 1 -> c * c + f * f + k * k = 1 ->
  a * b + d * e + g * h = 0 -> a * c + d * f + g * k = 0 -> b * c + e * f + h * k = 0 ->
  (a * x + b * y + c * z) * (a * x + b * y + c * z) + (d * x + e * y + f * z) * (d * x + e * y + f * z) +
  (g * x + h * y + k * z) * (g * x + h * y + k * z) = x * x + y * y + z * z.
Proof.
  intros A B C D E F.
  replace ((a * x + b * y + c * z) * (a * x + b * y + c * z) + (d * x + e * y + f * z) * (d * x + e * y + f * z) +
    (g * x + h * y + k * z) * (g * x + h * y + k * z))
    with ((a * a + d * d + g * g) * (x * x) + (b * b + e * e + h * h) * (y * y) + (c * c + f * f + k * k) * (z * z) +
          2 * (a * b + d * e + g * h) * (x * y) + 2 * (a * c + d * f + g * k) * (x * z) + 2 * (b * c + e * f + h * k) * (y * z)) by ring.
  rewrite A, B, C, D, E, F. ring.
Qed.

(** sums of squares of all entries *)
Definition norm2 (k : nat) (t : nat -> nat -> R) : R := axes k (fun f => axes k (fun g => t f g * t f g)).
Definition left (k : nat) (q t : nat -> nat -> R) (d g : nat) : R := axes k (fun f => q d f * t f g).

Lemma norm_left nd q t : orthogonal (ndn nd) q -> norm2 (ndn nd) (left (ndn nd) q t) = norm2 (ndn nd) t.
Proof.
  intros O. destruct nd; cbn [ndn] in *.
  - assert (A : forall d e, (d < 2)%nat -> (e < 2)%nat -> q 0%nat d * q 0%nat e + q 1%nat d * q 1%nat e = delta d e).
    { intros d e Hd He. destruct (O d e Hd He) as [_ H]. cbn [axes] in H. rewrite <- H. ring. }
    pose proof (fun x y => len2 (q 0%nat 0%nat) (q 0%nat 1%nat) (q 1%nat 0%nat) (q 1%nat 1%nat) x y
      (A 0%nat 0%nat ltac:(lia) ltac:(lia)) (A 1%nat 1%nat ltac:(lia) ltac:(lia)) (A 0%nat 1%nat ltac:(lia) ltac:(lia))) as L.
    unfold norm2, left. cbn [axes].
    pose proof (L (t 0%nat 0%nat) (t 1%nat 0%nat)). pose proof (L (t 0%nat 1%nat) (t 1%nat 1%nat)). lra.
  - assert (A : forall d e, (d < 3)%nat -> (e < 3)%nat -> q 0%nat d * q 0%nat e + q 1%nat d * q 1%nat e + q 2%nat d * q 2%nat e = delta d e).
    { intros d e Hd He. destruct (O d e Hd He) as [_ H]. cbn [axes] in H. rewrite <- H. ring. }
    pose proof (fun x y z => len3 (q 0%nat 0%nat) (q 0%nat 1%nat) (q 0%nat 2%nat) (q 1%nat 0%nat) (q 1%nat 1%nat) (q 1%nat 2%nat)
      (q 2%nat 0%nat) (q 2%nat 1%nat) (q 2%nat 2%nat) x y z
      (A 0%nat 0%nat ltac:(lia) ltac:(lia)) (A 1%nat 1%nat ltac:(lia) ltac:(lia)) (A 2%nat 2%nat ltac:(lia) ltac:(lia))
      (A 0%nat 1%nat ltac:(lia) ltac:(lia)) (A 0%nat 2%nat ltac:(lia) ltac:(lia)) (A 1%nat 2%nat ltac:(lia) ltac:(lia))) as L.
    unfold norm2, left. cbn [axes].
    pose proof (L (t 0%nat 0%nat) (t 1%nat 0%nat) (t 2%nat 0%nat)). pose proof (L (t 0%nat 1%nat) (t 1%nat 1%nat) (t 2%nat 1%nat)).
    pose proof (L (t 0%nat 2%nat) (t 1%nat 2%nat) (t 2%nat 2%nat)). clear L.
    rewrite !Rplus_0_l in *. nra || lra.
Qed.
Lemma norm_flip nd t : norm2 (ndn nd) (fun d e => t e d) = norm2 (ndn nd) t.
Proof. destruct nd; unfold norm2; cbn [ndn axes]; ring. Qed.
Lemma norm_ext nd t u : (forall d e, t d e = u d e) -> norm2 (ndn nd) t = norm2 (ndn nd) u.
Proof. intros H. unfold norm2. destruct nd; cbn [ndn axes]; rewrite !H; reflexivity. Qed.
Lemma norm_rot nd q t : orthogonal (ndn nd) q -> norm2 (ndn nd) (rotated (ndn nd) q t) = norm2 (ndn nd) t.
Proof.
  intros O.
  rewrite (norm_ext nd _ (fun d e => left (ndn nd) q (fun a b => left (ndn nd) q t b a) e d)).
  - rewrite (norm_flip nd (left (ndn nd) q (fun a b => left (ndn nd) q t b a))), norm_left by exact O.
    rewrite (norm_flip nd (left (ndn nd) q t)). apply norm_left. exact O.
  - intros d e. unfold rotated, left. destruct nd; cbn [ndn axes]; ring.
Qed.
Lemma rot_scal nd q t a d e : rotated (ndn nd) q (fun f g => a * t f g) d e = a * rotated (ndn nd) q t d e.
Proof. unfold rotated. destruct nd; cbn [ndn axes]; ring. Qed.
Lemma rot_ext nd q t u d e : (forall f g, (f < ndn nd)%nat -> (g < ndn nd)%nat -> t f g = u f g) ->
  rotated (ndn nd) q t d e = rotated (ndn nd) q u d e.
Proof.
  intros H. unfold rotated. destruct nd; cbn [ndn axes] in *; repeat rewrite (H _ _) by lia; reflexivity.
Qed.

Lemma isotropic : forall nd df cl dx nug G c c' w q i d e, (forall a, dx a <> 0) -> (df = compact -> nug = false) ->
  (forall s, cl <> SmgAni s) -> orthogonal (ndn nd) q -> (d < ndn nd)%nat -> (e < ndn nd)%nat ->
  stress dx nug G nd df cl (uniform_shear dx nd c' (rotated (ndn nd) q w)) i d e =
  rotated (ndn nd) q (stress dx nug G nd df cl (uniform_shear dx nd c w) i) d e.
Proof.
  intros nd df cl dx nug G c c' w q i d e Hx Hg Hc O Hd He. destruct cl as [eta|s|s]; [| |exfalso; exact (Hc s eq_refl)].
  - rewrite stress_shear_dns, rot_sym by assumption. rewrite <- rot_scal. apply rot_ext. intros f g Hf Hgg.
    symmetry. apply stress_shear_dns; assumption.
  - rewrite stress_shear by assumption.
    assert (Q : sq nd (rotated (ndn nd) q w) = sq nd w).
    { change (sq nd (rotated (ndn nd) q w)) with (norm2 (ndn nd) (sym (rotated (ndn nd) q w)) / 2).
      rewrite (norm_ext nd _ (rotated (ndn nd) q (sym w))) by (intros; apply rot_sym).
      rewrite norm_rot by exact O. reflexivity. }
    rewrite Q, rot_sym, <- rot_scal. apply rot_ext. intros f g Hf Hgg. symmetry. apply stress_shear; assumption.
Qed.

Lemma shear_stress : forall nd df s dx nug G c w i d e, (forall a, dx a <> 0) -> (df = compact -> nug = false) ->
  (d < ndn nd)%nat -> (e < ndn nd)%nat ->
  stress dx nug G nd df (Smg s) (uniform_shear dx nd c w) i d e =
  (s * (axes (ndn nd) dx / 3)) ^ 2 * (axes (ndn nd) (fun f => axes (ndn nd) (fun g => (w f g + w g f) ^ 2)) / 2) * (w d e + w e d).
Proof.
  intros. rewrite stress_shear by assumption. unfold sq, sym, pow2, dlta. destruct nd; cbn [ndn axes]; field.
Qed.
