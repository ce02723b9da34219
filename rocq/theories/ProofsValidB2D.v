(** 2D solver in a box closed by rigid walls, compared with a lattice mirrored at the
    walls: which parts of the arrays agree when. *)
From Coq Require Import ZArith List Bool Lia ZifyBool.
From Verif Require Import SpecIndex ModelIndex ProofsIndex ModelRun Lang ProofsLang Stencil ProofsStencil
  FormCommon Form2D Solver1D Solver2D Macro ProofsMacro Foot1D Foot2D Proofs1D Proofs2D ProofsThread1D
  ProofsValid ProofsValid1D Boxes ProofsBoxes ProofsValid2D ProofsValidC2D ProofsValidI2D.
Import ListNotations.
Local Open Scope Z_scope.

(** a box that does not reach beyond column [d] after the last one *)
Definition lowx (d : Z) (E : ext3) : bool := let '((_, xb), _, _) := E in xb <=? d.

(** boxes of a statement, also those smaller both ways (as Boxes.v) *)
Definition cands4 (E : ext3) : list ext3 := cands E ++ [shrink DX (shrink DY E)].
Definition bdo4 (s : tdesc) (V : bmap) : option bmap :=
  match s_ext s with
  | Some E => Some (bset V (t_arr s) (filter (fun B => forallb (bget V B) (leaves (t_exp s))) (cands4 E)))
  | None => None
  end.
Section Run.
  Variable vx : minstr -> bmap -> option bmap.
  Fixpoint bxrun4 (p : list minstr) (V : bmap) : option bmap :=
    match p with
    | [] => Some V
    | MDo s :: p' => match bdo4 s V with Some V' => bxrun4 p' V' | None => None end
    | MBar :: p' => bxrun4 p' V
    | x :: p' => match vx x V with Some V' => bxrun4 p' V' | None => None end
    end.
End Run.

(** effect of an exchange on agreement with a mirrored field: what the fills write is
    right, except beyond the right walls where the counter of rigid_2d.hpp:154-162
    picks other faces than mirrored ones *)
Definition vxb2 (h : Z) (x : minstr) (V : bmap) : option bmap :=
  match x with
  | MXS a ext => if (ext =? h) && bget V (b2 0 0 0 0) (a, izero) then Some (bset V a [b2 h h h h]) else None
  | MXVA v ad =>
      let k := if ad then 1 else 0 in
      if negb (arr_eqb (v DX) (v DY)) && bget V (b2 k (k - 1) 0 0) (v DX, izero) && bget V (b2 0 0 k (k - 1)) (v DY, izero)
      then Some (if ad then bset (bset V (v DX) (b2 h 0 0 0 :: filter (lowx 0) (V (v DX)))) (v DY) (b2 0 0 h 0 :: filter (low 0) (V (v DY)))
                 else add_box (add_box V (v DX) (b2 h (h - 1) 0 0)) (v DY) (b2 0 0 h (h - 1))) else None
  | MXVN v ext => if (0 <=? ext) && negb (arr_eqb (v DX) (v DY)) && bget V (b2 (ext + 1) ext 0 0) (v DX, izero) && bget V (b2 0 0 (ext + 1) ext) (v DY, izero)
                  then Some (add_box (add_box V (v DX) (b2 (ext + 1) ext h h)) (v DY) (b2 h h (ext + 1) ext)) else None
  | MXF v => if negb (arr_eqb (v DX) (v DY)) && bget V (b2 0 (-1) 0 0) (v DX, izero) && bget V (b2 0 0 0 (-1)) (v DY, izero)
             then Some (add_box (add_box V (v DX) (b2 1 0 0 0)) (v DY) (b2 0 0 1 0)) else None
  | _ => None
  end.

Definition vokb2 (h : Z) (p : list minstr) (V W : bmap) : bool :=
  match bxrun4 (vxb2 h) p V with Some V' => bcovers V' W arrs2 | None => false end.

(** more than one corrective pass only if the next one does not read those rows *)
Definition no_stale_b (o : fl) (nit : nat) : bool :=
  no_stale2 o nit && (negb (fct o) || (negb (div2 o) && negb (dfl o)) || Nat.leb nit 2).

(** a corrective pass leaves behind less of its velocities *)
Definition vpassb2 (o : fl) (b : bool) (k : option bool) (a : arr) : list ext3 :=
  match k with
  | Some c => if fct o && arr_eqb a (Cor c DX) then [b2 1 0 (halo o) (halo o); b2 (halo o) 0 0 0]
            else if fct o && arr_eqb a (Cor c DY) then [b2 (halo o) (halo o) 1 0; b2 0 0 (halo o) 0] else vpass2 o b k a
  | None => vpass2 o b k a
  end.

Definition validb2_check (o : fl) : bool :=
  let h := halo o in
  vokb2 h (ante2 o) (vuser2 o) (vinv2 o false) && shape2b (ante2 o) &&
  forallb (fun b =>
    let up := MXS (Psi b) h :: fct_init2 o (canon2 o) (Psi b) ++ upstream2 o (canon2 o) (Psi b) (Psi (negb b)) in
    vokb2 h up (vinv2 o b) (vpassb2 o (negb b) None) && shape2b up &&
    forallb (fun k => forallb (fun l : bool =>
      let co := MXS (Psi b) h :: corrective2 o (canon2 o) (Psi b) (Psi (negb b)) (unco_of k) (Cor (corr_of k)) l in
      shape2b co && (negb (no_stale_b o (match k with None => if l then 0 else 3 | _ => 3 end)) ||
       vokb2 h co (vpassb2 o b k) (if l then vinv2 o (negb b) else vpassb2 o (negb b) (Some (corr_of k))))) bools) kopts) bools.

Lemma validb2_check_all : all_fl9k (fun o => negb (fl_ok2 o) || validb2_check o) = true.
Proof. vm_compute. reflexivity. Qed.

Lemma validb2_ok o : fl_ok2 o = true -> validb2_check o = true.
Proof.
  intros H. pose proof (all_fl9k_sound _ validb2_check_all o) as C.
  assert (K : fl_ok2 (keep2 o) = true).
  { destruct o as [fc ab to pf np ig nu df kh d2 d3 dt fo]. cbv in H |- *.
    destruct ab, ig, d2, d3, dt, to, df, fo; cbn in *; try discriminate; reflexivity. }
  cbv beta in C. rewrite K in C. exact C.
Qed.
