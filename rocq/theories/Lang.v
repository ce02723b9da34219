(** Array programs: expressions over array elements, arbitrary arithmetic,
    elementwise assignments, barriers, and two semantics: sequential
    whole-array execution and fine-grained interleaving of threads.

    Nothing here is specific to libmpdata++; the programs built from the
    library's source are in Solver1D.v and following. *)

From Coq Require Import ZArith List Bool Lia.
Import ListNotations.

(** ** Arithmetic *)

Inductive cst := CQ (num : Z) (den : positive) | CEps | CTiny.
Inductive unop := Neg | Abs.
Inductive binop := Add | Sub | Mul | Div | Min | Max.
Inductive cmpop := Gt | Ne.

(** An arithmetic is just a carrier with operations: no laws are assumed, so
    floating point of any precision and rounding (including NaNs) is an
    instance, and so are the reals. *)
Record arith := {
  car : Type;
  acst : cst -> car;
  aun : unop -> car -> car;
  abin : binop -> car -> car -> car;
  acmp : cmpop -> car -> car -> bool
}.

(** ** Expressions *)
Inductive expr (A : Type) :=
| Leaf (a : A)
| Cst (c : cst)
| Un (o : unop) (e : expr A)
| Bin (o : binop) (e1 e2 : expr A)
| Ite (c : cmpop) (e1 e2 e3 e4 : expr A).   (* if e1 c e2 then e3 else e4 *)
Arguments Leaf {A}. Arguments Cst {A}. Arguments Un {A}. Arguments Bin {A}. Arguments Ite {A}.

Fixpoint ev (ar : arith) {A} (env : A -> car ar) (e : expr A) : car ar :=
  match e with
  | Leaf a => env a
  | Cst c => acst ar c
  | Un o e => aun ar o (ev ar env e)
  | Bin o e1 e2 => abin ar o (ev ar env e1) (ev ar env e2)
  | Ite c e1 e2 e3 e4 =>
      if acmp ar c (ev ar env e1) (ev ar env e2) then ev ar env e3 else ev ar env e4
  end.

Fixpoint leaves {A} (e : expr A) : list A :=
  match e with
  | Leaf a => [a]
  | Cst _ => []
  | Un _ e => leaves e
  | Bin _ e1 e2 => leaves e1 ++ leaves e2
  | Ite _ e1 e2 e3 e4 => leaves e1 ++ leaves e2 ++ leaves e3 ++ leaves e4
  end.

Fixpoint emap {A B} (f : A -> B) (e : expr A) : expr B :=
  match e with
  | Leaf a => Leaf (f a)
  | Cst c => Cst c
  | Un o e => Un o (emap f e)
  | Bin o e1 e2 => Bin o (emap f e1) (emap f e2)
  | Ite c e1 e2 e3 e4 => Ite c (emap f e1) (emap f e2) (emap f e3) (emap f e4)
  end.

(** ** Statements and programs over locations [L] *)
Record stmt (L : Type) := {
  s_el : nat -> list L;      (* elements assigned by a thread, in order *)
  s_rhs : L -> expr L        (* right-hand side for an element *)
}.
Arguments s_el {L}. Arguments s_rhs {L}.

Inductive instr (L : Type) := Do (s : stmt L) | Bar.
Arguments Do {L}. Arguments Bar {L}.

Section Semantics.
  Context {L : Type} (leq : forall x y : L, {x = y} + {x <> y}).
  Variable ar : arith.
  Notation V := (car ar).
  Definition memory := L -> V.

  Definition upd1 (m : memory) (l : L) (v : V) : memory :=
    fun x => if leq x l then v else m x.

  (** *** Whole-array sequential execution.
      [dom n s l]: some thread below [n] assigns [l] in statement [s]. *)
  Definition domb (n : nat) (s : stmt L) (l : L) : bool :=
    existsb (fun t => if in_dec leq l (s_el s t) then true else false) (seq 0 n).

  Definition run_stmt (n : nat) (s : stmt L) (m : memory) : memory :=
    fun l => if domb n s l then ev ar m (s_rhs s l) else m l.

  Definition run_instr (n : nat) (i : instr L) (m : memory) : memory :=
    match i with Do s => run_stmt n s m | Bar => m end.

  Definition run_prog (n : nat) (p : list (instr L)) (m : memory) : memory :=
    fold_left (fun m i => run_instr n i m) p m.

  (** *** Interleaved execution.
      A thread's code is a list of element assignments and barriers; the
      right-hand side of the assignment in progress may already have some of
      its operands replaced by the values read for them. *)
  Inductive cinstr := Asg (l : L) (e : expr (L + V)) | CBar.

  Definition code_of_instr (t : nat) (i : instr L) : list cinstr :=
    match i with
    | Do s => map (fun l => Asg l (emap inl (s_rhs s l))) (s_el s t)
    | Bar => [CBar]
    end.

  Definition code (p : list (instr L)) (t : nat) : list cinstr :=
    flat_map (code_of_instr t) p.

  (** One operand (any one) is read from memory. *)
  Inductive read_one (m : memory) : expr (L + V) -> expr (L + V) -> Prop :=
  | R_leaf l : read_one m (Leaf (inl l)) (Leaf (inr (m l)))
  | R_un o e e' : read_one m e e' -> read_one m (Un o e) (Un o e')
  | R_bin1 o e1 e1' e2 : read_one m e1 e1' -> read_one m (Bin o e1 e2) (Bin o e1' e2)
  | R_bin2 o e1 e2 e2' : read_one m e2 e2' -> read_one m (Bin o e1 e2) (Bin o e1 e2')
  | R_ite1 c e1 e2 e3 e4 e' : read_one m e1 e' -> read_one m (Ite c e1 e2 e3 e4) (Ite c e' e2 e3 e4)
  | R_ite2 c e1 e2 e3 e4 e' : read_one m e2 e' -> read_one m (Ite c e1 e2 e3 e4) (Ite c e1 e' e3 e4)
  | R_ite3 c e1 e2 e3 e4 e' : read_one m e3 e' -> read_one m (Ite c e1 e2 e3 e4) (Ite c e1 e2 e' e4)
  | R_ite4 c e1 e2 e3 e4 e' : read_one m e4 e' -> read_one m (Ite c e1 e2 e3 e4) (Ite c e1 e2 e3 e').

  (** All operands have been read. *)
  Definition closed (e : expr (L + V)) : Prop := forall l, ~ In (inl l) (leaves e).

  Definition cval (e : expr (L + V)) (m : memory) : V :=
    ev ar (fun x => match x with inl l => m l | inr v => v end) e.

  Definition config := (memory * (nat -> list cinstr))%type.

  Definition tset (c : nat -> list cinstr) (t : nat) (x : list cinstr) : nat -> list cinstr :=
    fun u => if Nat.eqb u t then x else c u.

  Inductive step (n : nat) : config -> config -> Prop :=
  | StepRead m c t l e e' rest :
      t < n -> c t = Asg l e :: rest -> read_one m e e' ->
      step n (m, c) (m, tset c t (Asg l e' :: rest))
  | StepWrite m c t l e rest :
      t < n -> c t = Asg l e :: rest -> closed e ->
      step n (m, c) (upd1 m l (cval e m), tset c t rest)
  | StepBar m c c' :
      0 < n -> (forall t, t < n -> c t = CBar :: c' t) ->
      step n (m, c) (m, c').

  Inductive steps (n : nat) : config -> config -> Prop :=
  | steps_refl c : steps n c c
  | steps_trans c1 c2 c3 : step n c1 c2 -> steps n c2 c3 -> steps n c1 c3.

  Definition finished (n : nat) (c : config) : Prop := forall t, t < n -> snd c t = [].

  (** *** Well-formed phases (statements between two barriers) *)
  Definition phase := list (stmt L).

  Record phase_ok (n : nat) (ph : phase) : Prop := {
    (* an operand that is assigned in the phase is either only assigned by the
       reading thread itself (and, within one statement, is the element being
       assigned), or has been assigned before by the reading thread too *)
    ok_reads : forall k j sk sj t t' l l', t < n -> t' < n ->
      nth_error ph k = Some sk -> nth_error ph j = Some sj ->
      In l (s_el sk t) -> In l' (leaves (s_rhs sk l)) -> In l' (s_el sj t') ->
      (t' = t /\ (j = k -> l' = l)) \/ (j < k /\ In l' (s_el sj t));
    (* elements assigned by two threads are assigned by one statement only *)
    ok_writes : forall k j sk sj t t' l, t < n -> t' < n ->
      nth_error ph k = Some sk -> nth_error ph j = Some sj ->
      In l (s_el sk t) -> In l (s_el sj t') -> t <> t' -> k = j;
    ok_nodup : forall s t, In s ph -> t < n -> NoDup (s_el s t)
  }.

  (** *** Data races in the sense of the C++ memory model *)
  Definition race (n : nat) (ph : phase) : Prop :=
    exists k j sk sj t t' l, t < n /\ t' < n /\ t <> t' /\
      nth_error ph k = Some sk /\ nth_error ph j = Some sj /\
      In l (s_el sk t) /\
      (In l (s_el sj t') \/ exists l2, In l2 (s_el sj t') /\ In l (leaves (s_rhs sj l2))).

  (** Split a program at its barriers. *)
  Fixpoint phases (p : list (instr L)) : list phase :=
    match p with
    | [] => [[]]
    | Bar :: p' => [] :: phases p'
    | Do s :: p' =>
        match phases p' with
        | ph :: rest => (s :: ph) :: rest
        | [] => [[s]]
        end
    end.
End Semantics.
