(** 1D solver: which parts of the arrays are meaningful when. *)
From Coq Require Import ZArith List Bool Lia ZifyBool.
From Verif Require Import SpecIndex ModelIndex ProofsIndex ModelRun Lang ProofsLang Stencil ProofsStencil
  FormCommon Form1D Solver1D Macro ProofsMacro Foot1D Proofs1D ProofsThread1D ProofsValid.
Import ListNotations.
Local Open Scope Z_scope.

Definition bx (a b : Z) : ext3 := ((a, b), (0, 0), (0, 0)).

(** effect of an exchange on validity (both boundary conditions) *)
Definition vx1 (h : Z) (x : minstr) (V : vmap) : option vmap :=
  match x with
  | MXS a _ => match V a with
               | Some B => if ext3_leb (bx 0 0) izero B then Some (vset V a (bx h h)) else None
               | None => None
               end
  | MXVA v ad => match V (v DX) with
                 | Some B => if ext3_leb (if ad then bx 1 0 else bx 0 (-1)) izero B
                             then Some (vset V (v DX) (bx h (h - 1))) else None
                 | None => None
                 end
  | _ => None
  end.

(** valid between time steps *)
Definition shared1 (o : fl) (a : arr) : option ext3 :=
  match a with
  | GC DX => Some (bx (halo o) (halo o - 1))
  | Gf => if nug o then Some (bx (halo o) (halo o)) else None
  | NdtGC DX | NdttGC DX => if div3dt o || div3 o then Some (bx (halo o) (halo o - 1)) else None
  | _ => None
  end.
Definition vinv (o : fl) (b : bool) (a : arr) : option ext3 :=
  if arr_eqb a (Psi b) then Some (bx 0 0) else shared1 o a.
(** ... and before pass [j > 0]; [k]: the advector read, [None] in the first corrective pass *)
Definition vpass (o : fl) (b : bool) (k : option bool) (a : arr) : option ext3 :=
  match k with
  | Some c => if arr_eqb a (Cor c DX) then Some (if fct o || dfl o then bx (halo o) (halo o - 1) else bx 1 0)
              else if fct o && (arr_eqb a PsiMin || arr_eqb a PsiMax) then Some (bx 1 1) else vinv o b a
  | None => if fct o && (arr_eqb a PsiMin || arr_eqb a PsiMax) then Some (bx 1 1) else vinv o b a
  end.
(** what the user provides before the first step *)
Definition vuser (o : fl) (a : arr) : option ext3 :=
  match a with
  | Psi false => Some (bx 0 0)
  | GC DX => Some (bx 0 (-1))
  | Gf => if nug o then Some (bx 0 0) else None
  | _ => None
  end.

Definition arrs : list arr :=
  [Psi true; Psi false; GC DX; Cor true DX; Cor false DX; PsiMin; PsiMax; Gf; NdtGC DX; NdttGC DX].
Lemma in_arrs_inv o b a : vinv o b a <> None -> In a arrs.
Proof.
  unfold vinv. destruct (arr_eqb a (Psi b)) eqn:E.
  - apply arr_eqb_eq in E. subst. destruct b; cbn; auto.
  - destruct a as [| [] | | | | | | | | | [] | [] | |]; cbn; tauto.
Qed.
Lemma in_arrs_pass o b k a : vpass o b k a <> None -> In a arrs.
Proof.
  unfold vpass. destruct k as [c|].
  - destruct (arr_eqb a (Cor c DX)) eqn:E.
    + apply arr_eqb_eq in E. subst. destruct c; cbn; auto 10.
    + destruct (fct o && _) eqn:E2; [|apply in_arrs_inv].
      intros _. apply andb_true_iff in E2. destruct E2 as [_ E2]. apply orb_true_iff in E2.
      destruct E2 as [E2|E2]; apply arr_eqb_eq in E2; subst; cbn; auto 10.
  - destruct (fct o && _) eqn:E2; [|apply in_arrs_inv].
    intros _. apply andb_true_iff in E2. destruct E2 as [_ E2]. apply orb_true_iff in E2.
    destruct E2 as [E2|E2]; apply arr_eqb_eq in E2; subst; cbn; auto 10.
Qed.

Definition vok (h : Z) (p : list minstr) (V W : vmap) : bool :=
  match vrun (vx1 h) p V with Some V' => vcovers V' W arrs | None => false end.

(** the divergence-form antidiffusive velocity reads neighbouring faces of the
    previous pass's result, whose halo is exchanged with [fct] or [dfl] only *)
Definition no_stale (o : fl) (nit : nat) : bool := fct o || negb (div2 o) || Nat.leb nit 2.

Definition unco_of (k : option bool) : dim -> arr := match k with None => GC | Some c => Cor c end.
Definition corr_of (k : option bool) : bool := match k with None => true | Some c => negb c end.
Definition kopts : list (option bool) := [None; Some true; Some false].

Definition alloc1 (o : fl) (a : arr) : ext3 :=
  match a with
  | Psi _ | PsiMin | PsiMax | BetaUp | BetaDn | Gf | Khn _ | Aux _ => bx (halo o) (halo o)
  | _ => bx (halo o) (halo o - 1)
  end.

Definition valid1_check (o : fl) : bool :=
  let h := halo o in
  vok h (ante1 o) (vuser o) (vinv o false) && brun (alloc1 o) (ante1 o) &&
  forallb (fun b =>
    let up := MXS (Psi b) 0 :: fct_init1 o (canon1 o) (Psi b) ++ upstream1 o (canon1 o) (Psi b) (Psi (negb b)) in
    vok h up (vinv o b) (vpass o (negb b) None) && brun (alloc1 o) up &&
    forallb (fun k => forallb (fun l =>
      let co := MXS (Psi b) 0 :: corrective1 o (canon1 o) (Psi b) (Psi (negb b)) (unco_of k) (Cor (corr_of k)) l in
      brun (alloc1 o) co &&
      ((negb (fct o) && div2 o && match k with None => false | _ => true end) ||
       vok h co (vpass o b k) (if l then vinv o (negb b) else vpass o (negb b) (Some (corr_of k))))) bools) kopts) bools.

Definition keepv (o : fl) : fl :=
  mkfl (fct o) false (tot o) false false (iga o) (nug o) (dfl o) (khn o) (div2 o) (div3 o) (div3dt o) false.
Definition all_flv (p : fl -> bool) : bool :=
  forallb (fun fc => forallb (fun to => forallb (fun ig => forallb (fun nu => forallb (fun df => forallb (fun kh =>
  forallb (fun d2 => forallb (fun d3 => forallb (fun dt => p (mkfl fc false to false false ig nu df kh d2 d3 dt false))
  bools) bools) bools) bools) bools) bools) bools) bools) bools.
Lemma all_flv_sound p : all_flv p = true -> forall o, p (keepv o) = true.
Proof.
  unfold all_flv, keepv. intros C [fc ab to pf np ig nu df kh d2 d3 dt fo]. cbn.
  spec_bool C fc. spec_bool C to. spec_bool C ig. spec_bool C nu. spec_bool C df. spec_bool C kh.
  spec_bool C d2. spec_bool C d3. spec_bool C dt. exact C.
Qed.

Lemma valid1_check_all : all_flv valid1_check = true.
Proof. vm_compute. reflexivity. Qed.
