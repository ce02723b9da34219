(** 2D solver on a cyclic grid: which parts of the arrays are meaningful when. *)
From Coq Require Import ZArith List Bool Lia ZifyBool.
From Verif Require Import SpecIndex ModelIndex ProofsIndex ModelRun Lang ProofsLang Stencil ProofsStencil
  FormCommon Form2D Solver1D Solver2D Macro ProofsMacro Foot1D Foot2D Proofs1D Proofs2D ProofsThread1D
  ProofsValid ProofsValid1D Boxes ProofsBoxes.
Import ListNotations.
Local Open Scope Z_scope.

Definition b2 (a b c d : Z) : ext3 := ((a, b), (c, d), (0, 0)).
(** extensions [a b] along [d], [c c'] across *)
Definition bd (d : dim) (a b c c' : Z) : ext3 := match d with DX => b2 a b c c' | _ => b2 c c' a b end.

(** effect of an exchange on validity *)
Definition add_box (V : bmap) (a : arr) (E : ext3) : bmap := bset V a (E :: V a).
Definition vx2 (h : Z) (x : minstr) (V : bmap) : option bmap :=
  match x with
  | MXS a ext => if (ext =? h) && bget V (b2 0 0 0 0) (a, izero) then Some (bset V a [b2 h h h h]) else None
  | MXVA v _ => if negb (arr_eqb (v DX) (v DY)) && bget V (b2 0 (-1) 0 0) (v DX, izero) && bget V (b2 0 0 0 (-1)) (v DY, izero)
                then Some (add_box (add_box V (v DX) (b2 h (h - 1) 0 0)) (v DY) (b2 0 0 h (h - 1))) else None
  | MXVN v ext => if (0 <=? ext) && negb (arr_eqb (v DX) (v DY)) && bget V (b2 (ext + 1) ext 0 0) (v DX, izero) && bget V (b2 0 0 (ext + 1) ext) (v DY, izero)
                  then Some (add_box (add_box V (v DX) (b2 (ext + 1) ext h h)) (v DY) (b2 h h (ext + 1) ext)) else None
  | MXF _ => Some V
  | _ => None
  end.

(** valid between time steps *)
Definition shared2 (o : fl) (a : arr) : list ext3 :=
  let h := halo o in
  match a with
  | GC DX => [b2 h (h - 1) h h]
  | GC DY => [b2 h h h (h - 1)]
  | Gf => if nug o then [b2 h h h h] else []
  | NdtGC DX | NdttGC DX => if div3dt o || div3 o then [b2 h (h - 1) h h] else []
  | NdtGC DY | NdttGC DY => if div3dt o || div3 o then [b2 h h h (h - 1)] else []
  | _ => []
  end.
Definition vinv2 (o : fl) (b : bool) (a : arr) : list ext3 :=
  if arr_eqb a (Psi b) then [b2 0 0 0 0] else shared2 o a.
(** ... and before pass [j > 0]; [k]: the advector read, [None] in the first corrective pass *)
Definition vpass2 (o : fl) (b : bool) (k : option bool) (a : arr) : list ext3 :=
  let h := halo o in
  let rest := if fct o && (arr_eqb a PsiMin || arr_eqb a PsiMax) then [b2 1 1 1 1]
              else if arr_eqb a (Psi (negb b)) then [b2 h h h h] else vinv2 o b a in
  match k with
  | Some c => if arr_eqb a (Cor c DX) then b2 1 0 h h :: (if fct o || dfl o then [b2 h (h - 1) 0 0] else [])
              else if arr_eqb a (Cor c DY) then b2 h h 1 0 :: (if fct o || dfl o then [b2 0 0 h (h - 1)] else [])
              else rest
  | None => rest
  end.
(** what the user provides before the first step *)
Definition vuser2 (o : fl) (a : arr) : list ext3 :=
  match a with
  | Psi false => [b2 0 0 0 0]
  | GC DX => [b2 0 (-1) 0 0]
  | GC DY => [b2 0 0 0 (-1)]
  | Gf => if nug o then [b2 0 0 0 0] else []
  | _ => []
  end.

Definition arrs2 : list arr :=
  [Psi true; Psi false; GC DX; GC DY; Cor true DX; Cor false DX; Cor true DY; Cor false DY; PsiMin; PsiMax; Gf;
   NdtGC DX; NdttGC DX; NdtGC DY; NdttGC DY].

Definition vok2 (h : Z) (p : list minstr) (V W : bmap) : bool :=
  match bxrun (vx2 h) p V with Some V' => bcovers V' W arrs2 | None => false end.

(** the divergence-form antidiffusive velocity reads neighbouring faces of the
    previous pass's result *)
Definition no_stale2 (o : fl) (nit : nat) : bool := negb (div2 o) || (fct o && negb (div3 o)) || Nat.leb nit 2.

(** statements read their own array at the assigned element only *)
Definition selfb (i : minstr) : bool :=
  match i with
  | MDo s => forallb (fun ao => negb (arr_eqb (fst ao) (t_arr s)) || idx_eqb (snd ao) izero) (leaves (t_exp s))
  | _ => true
  end.
Definition shape2b (p : list minstr) : bool := mslab_check DX p && forallb selfb p.

Definition valid2_check (o : fl) : bool :=
  let h := halo o in
  vok2 h (ante2 o) (vuser2 o) (vinv2 o false) && shape2b (ante2 o) &&
  forallb (fun b =>
    let up := MXS (Psi b) h :: fct_init2 o (canon2 o) (Psi b) ++ upstream2 o (canon2 o) (Psi b) (Psi (negb b)) in
    vok2 h up (vinv2 o b) (vpass2 o (negb b) None) && shape2b up &&
    forallb (fun k => forallb (fun l =>
      let co := MXS (Psi b) h :: corrective2 o (canon2 o) (Psi b) (Psi (negb b)) (unco_of k) (Cor (corr_of k)) l in
      shape2b co && (negb (no_stale2 o (match k with None => 0 | _ => 3 end)) ||
       vok2 h co (vpass2 o b k) (if l then vinv2 o (negb b) else vpass2 o (negb b) (Some (corr_of k))))) bools) kopts) bools.

Lemma valid2_check_all : all_fl9k (fun o => negb (fl_ok2 o) || valid2_check o) = true.
Proof. vm_compute. reflexivity. Qed.

Lemma valid2_ok o : fl_ok2 o = true -> valid2_check o = true.
Proof.
  intros H. pose proof (all_fl9k_sound _ valid2_check_all o) as C.
  assert (K : fl_ok2 (keep2 o) = true).
  { destruct o as [fc ab to pf np ig nu df kh d2 d3 dt fo]. cbv in H |- *.
    destruct ab, ig, d2, d3, dt, to, df, fo; cbn in *; try discriminate; reflexivity. }
  cbv beta in C. rewrite K in C. exact C.
Qed.

Ltac in_arrs := cbn; auto 20.
Lemma in_arrs2_inv o b a : vinv2 o b a <> [] -> In a arrs2.
Proof.
  unfold vinv2. destruct (arr_eqb a (Psi b)) eqn:E.
  - apply arr_eqb_eq in E. subst. destruct b; in_arrs.
  - destruct a as [| [] | | | | | | | | | [] | [] | |]; cbn; tauto.
Qed.
Lemma in_arrs2_pass o b k a : vpass2 o b k a <> [] -> In a arrs2.
Proof.
  unfold vpass2. cbv zeta.
  assert (R : (if fct o && (arr_eqb a PsiMin || arr_eqb a PsiMax) then [b2 1 1 1 1]
              else if arr_eqb a (Psi (negb b)) then [b2 (halo o) (halo o) (halo o) (halo o)] else vinv2 o b a) <> [] -> In a arrs2).
  { destruct (fct o && _) eqn:E2.
    - intros _. apply andb_true_iff in E2. destruct E2 as [_ E2]. apply orb_true_iff in E2.
      destruct E2 as [E2|E2]; apply arr_eqb_eq in E2; subst; in_arrs.
    - destruct (arr_eqb a (Psi (negb b))) eqn:E; [|apply in_arrs2_inv].
      intros _. apply arr_eqb_eq in E. subst. destruct b; in_arrs. }
  destruct k as [c|]; auto.
  destruct (arr_eqb a (Cor c DX)) eqn:E1; [intros _; apply arr_eqb_eq in E1; subst; destruct c; in_arrs|].
  destruct (arr_eqb a (Cor c DY)) eqn:E2; [intros _; apply arr_eqb_eq in E2; subst; destruct c; in_arrs|]. auto.
Qed.
