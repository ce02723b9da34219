(** Static checks on programs with halo exchanges (all computable): phases,
    footprints, and which part of each array holds meaningful values. *)

From Coq Require Import ZArith List Bool Lia.
From Verif Require Import ModelIndex Lang Stencil FormCommon.
Import ListNotations.
Local Open Scope Z_scope.

(** ** Phases: statements between two barriers; every exchange starts and ends
    with a barrier *)
Fixpoint mphases (p : list minstr) : list (list tdesc) :=
  match p with
  | [] => [[]]
  | MDo s :: p' =>
      match mphases p' with ph :: rest => (s :: ph) :: rest | [] => [[s]] end
  | _ :: p' => [] :: mphases p'
  end.

Definition tphase_check (dd : dim) (ph : list tdesc) : bool := phase_check dd (map (inst 0) ph).
Definition trace_check (dd : dim) (ph : list tdesc) : bool := race_check dd (map (inst 0) ph).
Definition mphases_check (dd : dim) (p : list minstr) : bool := forallb (tphase_check dd) (mphases p).

Definition t_r (s : tdesc) (d : dim) : rdesc := match d with DX => t_x s | DY => t_y s | DZ => t_z s end.
Definition mslab_check (dd : dim) (p : list minstr) : bool :=
  forallb (fun i => match i with MDo s => slab_okb true (t_r s dd) | _ => true end) p.

(** ** Coverage of leaves *)
Definition ao_eqb (a b : arr * idx) : bool := arr_eqb (fst a) (fst b) && idx_eqb (snd a) (snd b).
Definition coverb (e e' : sexpr) : bool :=
  forallb (fun ao => existsb (ao_eqb ao) (leaves e')) (leaves e).

(** an expression with given leaves *)
Fixpoint mk (l : list (arr * idx)) : sexpr :=
  match l with [] => q 0 | a :: l' => Bin Add (Leaf a) (mk l') end.

(** ** Boxes around the grid: [(below, above)] in every dimension *)
Definition ext3 := ((Z * Z) * (Z * Z) * (Z * Z))%type.
Definition e_d (E : ext3) (d : dim) : Z * Z :=
  match d with DX => fst (fst E) | DY => snd (fst E) | DZ => snd E end.
Definition ext3_leb (A : ext3) (o : idx) (B : ext3) : bool :=
  forallb (fun d => (fst (e_d A d) - comp d o <=? fst (e_d B d)) && (snd (e_d A d) + comp d o <=? snd (e_d B d)))
          [DX; DY; DZ].
Definition s_ext (s : tdesc) : option ext3 :=
  match gext (t_x s), gext (t_y s), gext (t_z s) with
  | Some a, Some b, Some c => Some (a, b, c)
  | _, _, _ => None
  end.

(** ** Validity: [V a = Some E] means that [a] is meaningful on the box [E] *)
Definition vmap := arr -> option ext3.
Definition vset (V : vmap) (a : arr) (E : ext3) : vmap := fun b => if arr_eqb b a then Some E else V b.
Definition vget (V : vmap) (E : ext3) (ao : arr * idx) : bool :=
  match V (fst ao) with Some B => ext3_leb E (snd ao) B | None => false end.

Definition vdo (s : tdesc) (V : vmap) : option vmap :=
  match s_ext s with
  | Some E => if forallb (vget V E) (leaves (t_exp s)) then Some (vset V (t_arr s) E) else None
  | None => None
  end.

Section Run.
  Variable vx : minstr -> vmap -> option vmap.     (* effect of an exchange *)
  Fixpoint vrun (p : list minstr) (V : vmap) : option vmap :=
    match p with
    | [] => Some V
    | MDo s :: p' => match vdo s V with Some V' => vrun p' V' | None => None end
    | MBar :: p' => vrun p' V
    | x :: p' => match vx x V with Some V' => vrun p' V' | None => None end
    end.
End Run.

(** [V] promises at least what [W] does, on the listed arrays *)
Definition vcovers (V W : vmap) (l : list arr) : bool :=
  forallb (fun a => match W a with
                    | Some E => match V a with Some B => ext3_leb E izero B | None => false end
                    | None => true
                    end) l.

(** ** Memory bounds: all accesses of a statement are inside the allocations *)
Definition bdo (A : arr -> ext3) (s : tdesc) : bool :=
  match s_ext s with
  | Some E => ext3_leb E izero (A (t_arr s)) &&
              forallb (fun ao => ext3_leb E (snd ao) (A (fst ao))) (leaves (t_exp s))
  | None => false
  end.
Definition brun (A : arr -> ext3) (p : list minstr) : bool :=
  forallb (fun i => match i with MDo s => bdo A s | _ => true end) p.
