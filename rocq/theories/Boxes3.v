(** The analysis of Boxes.v for three dimensions: a statement may be meaningful
    on boxes smaller by one cell along any of the dimensions. *)

From Coq Require Import ZArith List Bool Lia.
From Verif Require Import ModelIndex Lang Stencil FormCommon Macro Boxes.
Import ListNotations.
Local Open Scope Z_scope.

Definition cands3 (E : ext3) : list ext3 :=
  [ E; shrink DX E; shrink DY E; shrink DZ E; shrink DX (shrink DY E); shrink DX (shrink DZ E); shrink DY (shrink DZ E) ].
Arguments cands3 : simpl never.

Definition bdo3 (s : tdesc) (V : bmap) : option bmap :=
  match s_ext s with
  | Some E => Some (bset V (t_arr s) (filter (fun B => forallb (bget V B) (leaves (t_exp s))) (cands3 E)))
  | None => None
  end.

Section Run.
  Variable vx : minstr -> bmap -> option bmap.     (* effect of an exchange *)
  Fixpoint bxrun3 (p : list minstr) (V : bmap) : option bmap :=
    match p with
    | [] => Some V
    | MDo s :: p' => match bdo3 s V with Some V' => bxrun3 p' V' | None => None end
    | MBar :: p' => bxrun3 p' V
    | x :: p' => match vx x V with Some V' => bxrun3 p' V' | None => None end
    end.
End Run.
