(** Fields mirrored at a wall: the parts of a step of the 2D solver keep them so (exact
    arithmetic). *)
From Coq Require Import ZArith List Bool Lia ZifyBool Reals Lra.
From Verif Require Import ModelRun Lang ProofsLang Stencil ProofsStencil FormCommon Form2D Solver1D Solver2D Macro ProofsMacro Lattice
  Fun1D ProofsFun1D FunN ProofsFunN ProofsFun2D Arith SpecReal ProofsReal1D ProofsNum1D ProofsSign1D ProofsSym1D
  ProofsNumN ProofsSymN ProofsReal2D ProofsNat2D ProofsSymRun2D.
Import ListNotations.
Local Open Scope R_scope.

(** how an array is mirrored: [Some true]: normal components at faces *)
Definition par (a : arr) : option bool :=
  match a with
  | Khn _ | Aux _ => None
  | GC d | Cor _ d | Mono d | Flux d | NdtGC d | NdttGC d => match d with DX => Some false | DY => Some true | DZ => None end
  | _ => Some false
  end.

Section Pt.
  Variables eps tiny : R.
  Notation AR := (arithR eps tiny).
  Variables (o : fl) (sp : sptl) (tp : tmprl).
  Hypothesis OK : fl_ok2 o = true.
  Notation F := (forms2 o sp tp).
  Variable S : Z.
  Notation h := (mh DY S).
  Notation neg := (mneg DY).
  Notation hf := (mhf DY S).
  Notation fld := (idx -> R).
  Notation st := (arr -> idx -> R).
  Notation crel f := (crel h f f).
  Notation frel c := (frel ds2 (fun d => d) neg hf c c).
  Definition symA (a : arr) (f : fld) : Prop :=
    match par a with
    | None => True
    | Some false => forall x, f x = f (h x)
    | Some true => forall x, f x = - f (pv DY (h x))
    end.
  Definition symS (g : st) : Prop := forall a, symA a (g a).

  Let NAT : natural AR F ds2 := natural2 AR o sp tp OK.
  Let CF : closed o ds2 eps tiny F := closed2 eps tiny o sp tp.
  Let HI : forall d, In d ds2 -> In d ds2 := fun d H => H.
  Lemma i_HN d x : In d ds2 -> h (nx d x) = if neg d then pv d (h x) else nx d (h x).
  Proof. intros Hd. destruct x as [[a b] k]. unfold mneg, mh, nx, pv, iadd, uv, un. two_dims Hd; cbn [fst snd dim_eqb]; ixs. Qed.
  Lemma i_HV d x : In d ds2 -> h (pv d x) = if neg d then nx d (h x) else pv d (h x).
  Proof. intros Hd. destruct x as [[a b] k]. unfold mneg, mh, nx, pv, iadd, uv, un. two_dims Hd; cbn [fst snd dim_eqb]; ixs. Qed.
  Lemma i_HF d x : In d ds2 -> hf d x = if neg d then pv d (h x) else h x.
  Proof. intros Hd. unfold mhf. reflexivity. Qed.

  Definition vecs : list (dim -> arr) := [GC; Flux; Mono; Cor true; Cor false; NdtGC; NdttGC].
  Ltac each_v Hv := cbn [In vecs] in Hv; repeat match goal with H : _ \/ _ |- _ => destruct H as [<-|H] | H : False |- _ => destruct H end.
  Lemma of_vec v g : In v vecs -> symS g -> frel (fun d => g (v d)).
  Proof.
    intros Hv H d x Hd. unfold sg, mhf, mneg. pose proof (H (v d)) as A. unfold symA in A.
    two_dims Hd; cbn [dim_eqb]; each_v Hv; cbn [par] in A; apply A.
  Qed.
  Lemma to_vec v d (c : dim -> fld) : In v vecs -> In d ds2 -> frel c -> symA (v d) (c d).
  Proof.
    intros Hv Hd H. unfold symA. pose proof (fun x => H d x Hd) as A. unfold sg, mhf, mneg in A.
    two_dims Hd; cbn [dim_eqb] in A; each_v Hv; cbn [par]; apply A.
  Qed.
  Definition scal (a : arr) : Prop := par a = Some false.
  Lemma of_scal a g : scal a -> symS g -> crel (g a).
  Proof. intros E H x. pose proof (H a) as A. unfold symA in A. rewrite E in A. apply A. Qed.
  Lemma to_scal a f : scal a -> crel f -> symA a f.
  Proof. intros E H. unfold symA. rewrite E. exact H. Qed.
  Lemma symA_ext a f f' : (forall x, f x = f' x) -> symA a f' -> symA a f.
  Proof. unfold symA. intros E. destruct (par a) as [[]|]; auto; intros H x; rewrite !E; apply H. Qed.
  Lemma symS_ext g g' : (forall a x, g a x = g' a x) -> symS g' -> symS g.
  Proof. intros E H a. apply (symA_ext a _ (g' a)); auto. Qed.

  (** one statement *)
  Lemma sym_do a E g : symS g -> symA a (evd AR g E) -> symS (ln_do AR g (a, E)).
  Proof.
    intros H HE b. destruct (arr_eqb b a) eqn:Q.
    - apply arr_eqb_eq in Q. subst b. apply (symA_ext a _ (evd AR g E)); [apply (ln_here AR)|exact HE].
    - apply (symA_ext b _ (g b)); [|apply H]. apply (ln_other AR). intros ->. rewrite arr_eqb_refl in Q. discriminate.
  Qed.

  Lemma sym_flux b v g d : In v vecs -> In d ds2 -> symS g -> symS (ln_do AR g (Flux d, f_flux F d (Psi b) (v d))).
  Proof.
    intros Hv Hd H. apply sym_do; auto.
    apply (symA_ext _ _ (fluxN AR F (g (Psi b)) (fun d => g (v d)) d)); [intros x; rewrite (n_flux _ _ _ NAT) by auto; reflexivity|].
    apply to_vec; [cbn; auto|auto|].
    apply (y_flux eps tiny o o F F ds2 CF CF h (fun d => d) neg hf HI i_HN i_HF); [apply (of_scal (Psi b)); auto; reflexivity|apply of_vec; auto].
  Qed.
  Lemma sym_min b g : symS g -> symS (ln_do AR g (PsiMin, f_min F (Psi b))).
  Proof.
    intros H. apply sym_do; auto. apply (symA_ext _ _ (nbmin ds2 (g (Psi b)))).
    - intros x. rewrite (n_min _ _ _ NAT). apply (cl_min _ _ _ _ _ CF).
    - apply to_scal; [reflexivity|]. apply (y_min ds2 h (fun d => d) neg HI); [intros d Hd; eauto|apply i_HN|apply i_HV|]. apply (of_scal (Psi b)); auto. reflexivity.
  Qed.
  Lemma sym_max b g : symS g -> symS (ln_do AR g (PsiMax, f_max F (Psi b))).
  Proof.
    intros H. apply sym_do; auto. apply (symA_ext _ _ (nbmax ds2 (g (Psi b)))).
    - intros x. rewrite (n_max _ _ _ NAT). apply (cl_max _ _ _ _ _ CF).
    - apply to_scal; [reflexivity|]. apply (y_max ds2 h (fun d => d) neg HI); [intros d Hd; eauto|apply i_HN|apply i_HV|]. apply (of_scal (Psi b)); auto. reflexivity.
  Qed.
  Lemma sym_scale b ex g : symS g -> symS (ln_prog AR (scaleE (Psi b) ex) g).
  Proof.
    intros H. unfold scaleE. destruct (ex =? 0)%Z; [exact H|]. pose proof (of_scal (Psi b) g eq_refl H) as C.
    destruct (0 <? ex)%Z; cbn [ln_prog fold_left]; apply sym_do; auto; apply to_scal; try reflexivity; intros x; unfold evd; cbn [ev fst snd]; rewrite !iadd_z; rewrite <- C; reflexivity.
  Qed.
  Lemma sym_anti b u c d g : In u vecs -> In d ds2 -> symS g ->
    symS (ln_do AR g (Cor c d, f_antidiff F d (Psi b) (Psi (negb b)) u)).
  Proof.
    intros Hu Hd H. apply sym_do; auto.
    set (X := Build_fixedN AR (fun d => g (GC d)) (g Gf) (fun d => g (NdtGC d)) (fun d => g (NdttGC d))).
    apply (symA_ext _ _ (corrN AR F X (g (Psi b)) (g (Psi (negb b))) (fun d => g (u d)) d)).
    - intros x. rewrite (n_anti _ _ _ NAT) by auto. reflexivity.
    - apply (to_vec (Cor c)); [destruct c; cbn; auto 10|auto|].
      apply (mir_anti eps tiny o sp tp X X DY ltac:(cbn; auto) S).
      + intros _. apply (of_scal Gf); auto. reflexivity.
      + apply (of_vec NdtGC); cbn; auto 10.
      + apply (of_vec NdttGC); cbn; auto 10.
      + apply (of_scal (Psi b)); auto. reflexivity.
      + apply (of_scal (Psi (negb b))); auto. reflexivity.
      + apply of_vec; auto.
  Qed.
  Lemma i_g g : symS g -> crel (gN o (g Gf)).
  Proof. intros H x. unfold gN. destruct (nug o); auto. apply (of_scal Gf g); auto. reflexivity. Qed.
  Let HS : forall f : dim -> R, dsum ds2 (fun d => f d) = dsum ds2 f := fun f => eq_refl.
  Lemma sym_bup b v g : In v vecs -> symS g -> symS (ln_do AR g (BetaUp, f_bup F (Psi b) v)).
  Proof.
    intros Hv H. apply sym_do; auto. apply to_scal; [reflexivity|]. intros x.
    rewrite !(n_bup _ _ _ NAT), !(cl_bup _ _ _ _ _ CF).
    rewrite <- (of_scal PsiMax g eq_refl H x), <- (of_scal (Psi b) g eq_refl H x), <- (i_g g H x).
    rewrite <- (y_max ds2 h (fun d => d) neg HI ltac:(intros d Hd; eauto) i_HN i_HV _ _ (of_scal (Psi b) g eq_refl H) x).
    rewrite <- (y_in ds2 h (fun d => d) neg hf HS i_HV i_HF _ _ (of_vec v g Hv H) x). reflexivity.
  Qed.
  Lemma sym_bdn b v g : In v vecs -> symS g -> symS (ln_do AR g (BetaDn, f_bdn F (Psi b) v)).
  Proof.
    intros Hv H. apply sym_do; auto. apply to_scal; [reflexivity|]. intros x.
    rewrite !(n_bdn _ _ _ NAT), !(cl_bdn _ _ _ _ _ CF).
    rewrite <- (of_scal PsiMin g eq_refl H x), <- (of_scal (Psi b) g eq_refl H x), <- (i_g g H x).
    rewrite <- (y_min ds2 h (fun d => d) neg HI ltac:(intros d Hd; eauto) i_HN i_HV _ _ (of_scal (Psi b) g eq_refl H) x).
    rewrite <- (y_out ds2 h (fun d => d) neg hf HS i_HV i_HF _ _ (of_vec v g Hv H) x). reflexivity.
  Qed.
  Lemma sym_mono b v d g : In v vecs -> In d ds2 -> symS g -> symS (ln_do AR g (Mono d, f_mono F d (Psi b) (v d))).
  Proof.
    intros Hv Hd H. apply sym_do; auto.
    apply (symA_ext _ _ (monoN AR F (g (Psi b)) (fun d => g (v d)) (g BetaUp) (g BetaDn) d)); [intros x; rewrite (n_mono _ _ _ NAT) by auto; reflexivity|].
    pose proof (of_scal BetaUp g eq_refl H) as U. pose proof (of_scal BetaDn g eq_refl H) as D.
    pose proof (of_scal (Psi b) g eq_refl H) as P. pose proof (of_vec v g Hv H) as C.
    set (up := g BetaUp) in *. set (dn := g BetaDn) in *. set (psi := g (Psi b)) in *. set (c := fun d => g (v d)) in *.
    clearbody up dn psi c.
    apply (to_vec Mono); [cbn; auto|auto|]. clear d Hd. intros d x Hd.
    rewrite !(cl_mono _ _ _ _ _ CF) by auto. unfold limfacN, limAN, limBN. unfold sg.
    pose proof (C d x Hd) as Cx. unfold sg in Cx. pose proof (i_HN d x Hd) as Nx. rewrite (i_HF d x Hd) in *.
    rewrite (U x), (D x), (P x), (U (nx d x)), (D (nx d x)), (P (nx d x)), Nx, Cx. destruct (neg d); [|reflexivity]. rewrite nx_pv.
    set (y := pv d (h x)). set (w := c d y). unfold gtb.
    destruct (Rlt_dec 0 w), (Rlt_dec 0 (- w)); try lra.
    - destruct (negb (iga o) && oabs o); [|rewrite (Rmin_comm (up (h x))); ring].
      destruct (Rlt_dec 0 (psi y)); [rewrite (Rmin_comm (up (h x)))|rewrite (Rmin_comm (dn (h x)))]; ring.
    - destruct (negb (iga o) && oabs o); [|rewrite (Rmin_comm (dn (h x))); ring].
      destruct (Rlt_dec 0 (psi (h x))); [rewrite (Rmin_comm (dn (h x)))|rewrite (Rmin_comm (up (h x)))]; ring.
    - assert (w = 0) as -> by lra. rewrite Ropp_0. ring.
  Qed.
  Lemma sym_sum b v g : In v [GC; Flux; Mono; Cor true; Cor false] -> symS g ->
    symS (ln_prog AR (sumE o F (Psi b) (Psi (negb b)) v) g).
  Proof.
    intros Hv H. assert (Hv' : In v vecs) by (each_v Hv; cbn; auto 10).
    destruct (sum_ln AR o F ds2 NAT b v g Hv) as [A B]. cbv zeta in A, B.
    intros a. destruct (arr_eqb a (Psi (negb b))) eqn:Q.
    - apply arr_eqb_eq in Q. subst a. eapply symA_ext; [exact A|]. apply to_scal; [reflexivity|]. intros x.
      rewrite !(cl_sum _ _ _ _ _ CF). rewrite <- (of_scal (Psi b) g eq_refl H x), <- (i_g g H x).
      rewrite <- (y_div ds2 h (fun d => d) neg hf HS i_HV i_HF _ _ (of_vec v g Hv' H) x). reflexivity.
    - destruct (khn_arr a) eqn:K; [destruct a; try discriminate; exact I|].
      eapply symA_ext; [apply B; [intros ->; rewrite arr_eqb_refl in Q; discriminate|exact K]|]. apply H.
  Qed.
  Lemma sym_zero v d g : In v vecs -> In d ds2 -> symS g -> symS (ln_do AR g (v d, q 0)).
  Proof.
    intros Hv Hd H. apply sym_do; auto. apply (to_vec v d (fun _ _ => evd AR g (q 0) izero)); auto.
    intros d' x _. unfold sg, evd. cbn. destruct (neg d'); cbv [Rcst arithR acst]; cbn; lra.
  Qed.
End Pt.
