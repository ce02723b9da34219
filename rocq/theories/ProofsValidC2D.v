(** 2D solver in a channel, cyclic along the first dimension between two rigid walls
    across: which parts of the arrays are meaningful when. *)
From Coq Require Import ZArith List Bool Lia ZifyBool.
From Verif Require Import SpecIndex ModelIndex ProofsIndex ModelRun Lang ProofsLang Stencil ProofsStencil
  FormCommon Form2D Solver1D Solver2D Macro ProofsMacro Foot1D Foot2D Proofs1D Proofs2D ProofsThread1D
  ProofsValid ProofsValid1D Boxes ProofsBoxes ProofsValid2D.
Import ListNotations.
Local Open Scope Z_scope.

(** a box within [a b] along the first dimension, or within [c d] along the second *)
Definition thin (a b c d : Z) (E : ext3) : bool :=
  let '((xa, xb), (ya, yb), _) := E in ((xa <=? a) && (xb <=? b)) || ((ya <=? c) && (yb <=? d)).

(** effect of an exchange on validity: fills at the walls overwrite rows, and
    those of vectors only part of them *)
Definition vxc2 (h : Z) (x : minstr) (V : bmap) : option bmap :=
  match x with
  | MXS a ext => if (ext =? h) && bget V (b2 0 0 0 0) (a, izero) then Some (bset V a [b2 h h h h]) else None
  | MXVA v ad =>
      let k := if ad then 1 else 0 in
      if negb (arr_eqb (v DX) (v DY)) && bget V (b2 0 (-1) 0 0) (v DX, izero) && bget V (b2 0 0 k (k - 1)) (v DY, izero)
      then Some (bset (add_box V (v DX) (b2 h (h - 1) 0 0)) (v DY) (b2 0 0 h (h - 1) :: filter (thin 0 0 k (k - 1)) (V (v DY)))) else None
  | MXVN v ext => if (0 <=? ext) && negb (arr_eqb (v DX) (v DY)) && bget V (b2 (ext + 1) ext 0 0) (v DX, izero) && bget V (b2 0 0 (ext + 1) ext) (v DY, izero)
                  then Some (add_box (bset V (v DX) (b2 (ext + 1) ext h h :: filter (thin (ext + 1) ext 0 0) (V (v DX)))) (v DY) (b2 h h (ext + 1) ext)) else None
  | MXF v => if negb (arr_eqb (v DX) (v DY)) && bget V (b2 0 0 0 (-1)) (v DY, izero)
             then Some (bset V (v DY) (b2 0 0 1 0 :: filter (thin 0 0 0 (-1)) (V (v DY)))) else None
  | _ => None
  end.

Definition vokc2 (h : Z) (p : list minstr) (V W : bmap) : bool :=
  match bxrun (vxc2 h) p V with Some V' => bcovers V' W arrs2 | None => false end.

(** more than one corrective pass only if nothing read in the next one is
    overwritten at the walls of the cells of the grid alone *)
Definition no_stale_ch (o : fl) (nit : nat) : bool :=
  no_stale2 o nit && (fct o || (negb (iga o) && negb (dfl o)) || Nat.leb nit 2).

Definition validc2_check (o : fl) : bool :=
  let h := halo o in
  vokc2 h (ante2 o) (vuser2 o) (vinv2 o false) && shape2b (ante2 o) &&
  forallb (fun b =>
    let up := MXS (Psi b) h :: fct_init2 o (canon2 o) (Psi b) ++ upstream2 o (canon2 o) (Psi b) (Psi (negb b)) in
    vokc2 h up (vinv2 o b) (vpass2 o (negb b) None) && shape2b up &&
    forallb (fun k => forallb (fun l : bool =>
      let co := MXS (Psi b) h :: corrective2 o (canon2 o) (Psi b) (Psi (negb b)) (unco_of k) (Cor (corr_of k)) l in
      shape2b co && (negb (no_stale_ch o (match k with None => if l then 0 else 3 | _ => 3 end)) ||
       vokc2 h co (vpass2 o b k) (if l then vinv2 o (negb b) else vpass2 o (negb b) (Some (corr_of k))))) bools) kopts) bools.

Lemma validc2_check_all : all_fl9k (fun o => negb (fl_ok2 o) || validc2_check o) = true.
Proof. vm_compute. reflexivity. Qed.

Lemma validc2_ok o : fl_ok2 o = true -> validc2_check o = true.
Proof.
  intros H. pose proof (all_fl9k_sound _ validc2_check_all o) as C.
  assert (K : fl_ok2 (keep2 o) = true).
  { destruct o as [fc ab to pf np ig nu df kh d2 d3 dt fo]. cbv in H |- *.
    destruct ab, ig, d2, d3, dt, to, df, fo; cbn in *; try discriminate; reflexivity. }
  cbv beta in C. rewrite K in C. exact C.
Qed.
