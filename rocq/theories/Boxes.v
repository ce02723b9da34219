(** Which parts of the arrays hold meaningful values, when these parts are
    unions of boxes: in two dimensions the halo of a vector field has no
    corners until both exchanges have taken place.  All computable. *)

From Coq Require Import ZArith List Bool Lia.
From Verif Require Import ModelIndex Lang Stencil FormCommon Macro.
Import ListNotations.
Local Open Scope Z_scope.

(** [bmap a]: boxes on which [a] is meaningful *)
Definition bmap := arr -> list ext3.
Definition bset (V : bmap) (a : arr) (l : list ext3) : bmap := fun b => if arr_eqb b a then l else V b.
Definition bget (V : bmap) (E : ext3) (ao : arr * idx) : bool :=
  existsb (ext3_leb E (snd ao)) (V (fst ao)).

(** the box of a statement and the boxes made smaller by one cell across *)
Definition shrink (d : dim) (E : ext3) : ext3 :=
  let s p := (fst p - 1, snd p - 1) in
  match d with
  | DX => (s (fst (fst E)), snd (fst E), snd E)
  | DY => (fst (fst E), s (snd (fst E)), snd E)
  | DZ => (fst (fst E), snd (fst E), s (snd E))
  end.
Definition cands (E : ext3) : list ext3 := [E; shrink DX E; shrink DY E].
Arguments cands : simpl never.

Definition bdo2 (s : tdesc) (V : bmap) : option bmap :=
  match s_ext s with
  | Some E => Some (bset V (t_arr s) (filter (fun B => forallb (bget V B) (leaves (t_exp s))) (cands E)))
  | None => None
  end.

Section Run.
  Variable vx : minstr -> bmap -> option bmap.     (* effect of an exchange *)
  Fixpoint bxrun (p : list minstr) (V : bmap) : option bmap :=
    match p with
    | [] => Some V
    | MDo s :: p' => match bdo2 s V with Some V' => bxrun p' V' | None => None end
    | MBar :: p' => bxrun p' V
    | x :: p' => match vx x V with Some V' => bxrun p' V' | None => None end
    end.
End Run.

(** [V] promises at least what [W] does, on the listed arrays *)
Definition bcovers (V W : bmap) (l : list arr) : bool :=
  forallb (fun a => forallb (fun E => existsb (ext3_leb E izero) (V a)) (W a)) l.
