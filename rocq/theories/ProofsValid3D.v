(** 3D solver on a cyclic grid: which parts of the arrays are meaningful when. *)
From Coq Require Import ZArith List Bool Lia ZifyBool.
From Verif Require Import SpecIndex ModelIndex ProofsIndex ModelRun Lang ProofsLang Stencil ProofsStencil
  FormCommon Form3D Solver1D Solver3D Macro ProofsMacro Foot1D Foot3D Proofs1D Proofs2D Proofs3D ProofsThread1D
  ProofsValid ProofsValid1D Boxes ProofsBoxes Boxes3 ProofsBoxes3 ProofsValid2D.
Import ListNotations.
Local Open Scope Z_scope.

Definition b3 (a b c d e f : Z) : ext3 := ((a, b), (c, d), (e, f)).
(** extensions [a b] along [d], [c c] along the next dimension, [e e] along the one after *)
Definition vb (d : dim) (a b c e : Z) : ext3 :=
  match d with DX => b3 a b c c e e | DY => b3 e e a b c c | DZ => b3 c c e e a b end.
Definition differ3 (v : dim -> arr) : bool :=
  negb (arr_eqb (v DX) (v DY)) && negb (arr_eqb (v DX) (v DZ)) && negb (arr_eqb (v DY) (v DZ)).
Definition upd3 (V : bmap) (v : dim -> arr) (L : dim -> list ext3) : bmap :=
  bset (bset (bset V (v DX) (L DX)) (v DY) (L DY)) (v DZ) (L DZ).
(** boxes that do not extend across [d] *)
Definition thin (d : dim) (B : ext3) : bool :=
  let no d := (fst (e_d B d) <=? 0) && (snd (e_d B d) <=? 0) in no (dp d) && no (dm d).

(** box added by an exchange of the components across their own dimensions *)
Definition vn3 (h ext : Z) (d : dim) : ext3 :=
  match d with DY => vb DY (ext + 1) ext h (ext + 1) | d => vb d (ext + 1) ext (ext + 1) h end.

(** effect of an exchange on validity *)
Definition vx3 (h : Z) (x : minstr) (V : bmap) : option bmap :=
  match x with
  | MXS a ext => if (ext =? h) && bget V (b3 0 0 0 0 0 0) (a, izero) then Some (bset V a [b3 h h h h h h]) else None
  | MXVA v _ => if differ3 v && forallb (fun d => bget V (vb d 0 (-1) 0 0) (v d, izero)) ds3
                then Some (upd3 V v (fun d => vb d h (h - 1) 0 0 :: V (v d))) else None
  | MXVN v ext => if (0 <=? ext) && (ext + 1 <=? h) && differ3 v && forallb (fun d => bget V (vb d (ext + 1) ext 0 0) (v d, izero)) ds3
                  then Some (upd3 V v (fun d => vn3 h ext d :: filter (thin d) (V (v d)))) else None
  | MXF _ => Some V
  | _ => None
  end.

(** valid between time steps *)
Definition shared3 (o : fl) (a : arr) : list ext3 :=
  let h := halo o in
  match a with
  | GC d => [vb d h (h - 1) h h]
  | Gf => if nug o then [b3 h h h h h h] else []
  | NdtGC d | NdttGC d => if div3dt o || div3 o then [vb d h (h - 1) h h] else []
  | _ => []
  end.
Definition vinv3 (o : fl) (b : bool) (a : arr) : list ext3 :=
  if arr_eqb a (Psi b) then [b3 0 0 0 0 0 0] else shared3 o a.
(** ... and before pass [j > 0]; [k]: the advector read, [None] in the first corrective pass *)
Definition vrest3 (o : fl) (b : bool) (a : arr) : list ext3 :=
  let h := halo o in
  if fct o && (arr_eqb a PsiMin || arr_eqb a PsiMax) then [b3 1 1 1 1 1 1]
  else if arr_eqb a (Psi (negb b)) then [b3 h h h h h h] else vinv3 o b a.
Definition vcor3 (o : fl) (d : dim) : list ext3 :=
  let h := halo o in vn3 h 0 d :: (if fct o || dfl o then [vb d h (h - 1) 0 0] else []).
Definition vpass3 (o : fl) (b : bool) (k : option bool) (a : arr) : list ext3 :=
  match k with
  | Some c => if arr_eqb a (Cor c DX) then vcor3 o DX else if arr_eqb a (Cor c DY) then vcor3 o DY
              else if arr_eqb a (Cor c DZ) then vcor3 o DZ else vrest3 o b a
  | None => vrest3 o b a
  end.
(** what the user provides before the first step *)
Definition vuser3 (o : fl) (a : arr) : list ext3 :=
  match a with
  | Psi false => [b3 0 0 0 0 0 0]
  | GC d => [vb d 0 (-1) 0 0]
  | Gf => if nug o then [b3 0 0 0 0 0 0] else []
  | _ => []
  end.

Definition arrs3 : list arr :=
  [Psi true; Psi false; PsiMin; PsiMax; Gf] ++
  flat_map (fun d => [GC d; Cor true d; Cor false d; NdtGC d; NdttGC d]) ds3.

Definition vok3 (h : Z) (p : list minstr) (V W : bmap) : bool :=
  match bxrun3 (vx3 h) p V with Some V' => bcovers V' W arrs3 | None => false end.

(** the divergence-form antidiffusive velocity reads neighbouring faces of the
    previous pass's result *)
Definition no_stale3 (o : fl) (nit : nat) : bool := negb (div2 o) || (fct o && negb (div3 o)) || Nat.leb nit 2.

Definition shape3b (p : list minstr) : bool := mslab_check DY p && forallb selfb p.

Definition valid3_check (o : fl) : bool :=
  let h := halo o in
  vok3 h (ante3 o) (vuser3 o) (vinv3 o false) && shape3b (ante3 o) &&
  forallb (fun b =>
    let up := MXS (Psi b) h :: fct_init3 o (canon3 o) (Psi b) ++ upstream3 o (canon3 o) (Psi b) (Psi (negb b)) in
    vok3 h up (vinv3 o b) (vpass3 o (negb b) None) && shape3b up &&
    forallb (fun k => forallb (fun l =>
      let co := MXS (Psi b) h :: corrective3 o (canon3 o) (Psi b) (Psi (negb b)) (unco_of k) (Cor (corr_of k)) l in
      shape3b co && (negb (no_stale3 o (match k with None => 0 | _ => 3 end)) ||
       vok3 h co (vpass3 o b k) (if l then vinv3 o (negb b) else vpass3 o (negb b) (Some (corr_of k))))) bools) kopts) bools.

Lemma valid3_check_all : all_fl9k (fun o => negb (fl_ok3 o) || valid3_check o) = true.
Proof. vm_cast_no_check (eq_refl true). Qed.

Lemma valid3_ok o : fl_ok3 o = true -> valid3_check o = true.
Proof.
  intros H. pose proof (all_fl9k_sound _ valid3_check_all o) as C.
  assert (K : fl_ok3 (keep2 o) = true).
  { destruct o as [fc ab to pf np ig nu df kh d2 d3 dt fo]. cbv in H |- *.
    destruct ab, ig, d2, d3, dt, to, df; cbn in *; try discriminate; reflexivity. }
  cbv beta in C. rewrite K in C. exact C.
Qed.

Lemma in_arrs3_inv o b a : vinv3 o b a <> [] -> In a arrs3.
Proof.
  unfold vinv3. destruct (arr_eqb a (Psi b)) eqn:E.
  - apply arr_eqb_eq in E. subst. destruct b; in_arrs.
  - destruct a as [| [] | | | | | | | | | [] | [] | |]; cbn; tauto.
Qed.
Lemma in_arrs3_rest o b a : vrest3 o b a <> [] -> In a arrs3.
Proof.
  unfold vrest3. cbv zeta. destruct (fct o && _) eqn:E2.
  - intros _. apply andb_true_iff in E2. destruct E2 as [_ E2]. apply orb_true_iff in E2.
    destruct E2 as [E2|E2]; apply arr_eqb_eq in E2; subst; in_arrs.
  - destruct (arr_eqb a (Psi (negb b))) eqn:E; [|apply in_arrs3_inv].
    intros _. apply arr_eqb_eq in E. subst. destruct b; in_arrs.
Qed.
Lemma in_arrs3_pass o b k a : vpass3 o b k a <> [] -> In a arrs3.
Proof.
  unfold vpass3. destruct k as [c|]; [|apply in_arrs3_rest].
  destruct (arr_eqb a (Cor c DX)) eqn:E1; [intros _; apply arr_eqb_eq in E1; subst; destruct c; in_arrs|].
  destruct (arr_eqb a (Cor c DY)) eqn:E2; [intros _; apply arr_eqb_eq in E2; subst; destruct c; in_arrs|].
  destruct (arr_eqb a (Cor c DZ)) eqn:E3; [intros _; apply arr_eqb_eq in E3; subst; destruct c; in_arrs|]. apply in_arrs3_rest.
Qed.
