(** Global reductions over the distributed domain: the [sum], [min] and [max]
    members of the shared-memory object
    (libmpdata++/concurr/detail/sharedmem.hpp:114-246, compiled without MPI),
    as programs of the array language executed by all threads.

    Simplified: the element values are of one arithmetic (the [double] of the
    scratch array and the [real_t] of the fields are not distinguished);
    blitz's own traversal of an array section is a list of cells fixed by the
    shape of the section. *)
From Coq Require Import ZArith List Bool.
From Verif Require Import ModelIndex Lang.
Import ListNotations.
Local Open Scope Z_scope.

(** A cell: its index in the decomposed dimension, and the remaining ones. *)
Definition gcell := (Z * (Z * Z))%type.

(** Memory: fields of the user, [sumtmp] (sharedmem.hpp:38, 110),
    [xtmtmp] (sharedmem.hpp:39, 111) and the value returned to thread [t] by the
    [j]-th call. *)
Inductive rloc :=
| Fld (a : nat) (x : gcell)
| SumTmp (c : Z)
| XtmTmp (t : nat)
| Res (j t : nat).

Lemma rloc_dec (x y : rloc) : {x = y} + {x <> y}.
Proof. repeat decide equality. Defined.

(** blitz::sum: starts from zero and adds in traversal order. *)
Definition sum_e {A} (xs : list (expr A)) : expr A := fold_left (Bin Add) xs (Cst (CQ 0 1)).

(** kahan_reduction.hpp:31-48, [reset] and [operator()]: the pair (sum_, c_). *)
Definition kahan_step {A} (s : expr A * expr A) (x : expr A) : expr A * expr A :=
  let '(sm, c) := s in
  let y := Bin Sub x c in
  let t := Bin Add sm y in
  (t, Bin Sub (Bin Sub t sm) y).
Definition kahan_e {A} (xs : list (expr A)) : expr A :=
  fst (fold_left kahan_step xs (Cst (CQ 0 1), Cst (CQ 0 1))).

(** blitz::min / blitz::max of a non-empty section. *)
Definition ext_e {A} (o : binop) (xs : list (expr A)) : expr A :=
  match xs with [] => Cst (CQ 0 1) | x :: r => fold_left (Bin o) r x end.

(** One call made by every thread. *)
Inductive request :=
| Sum (khn : bool) (a : nat)            (* sharedmem.hpp:115-155 *)
| SumProd (khn : bool) (a b : nat)      (* sharedmem.hpp:158-199 *)
| MinOf (a : nat)                       (* sharedmem.hpp:201-222 *)
| MaxOf (a : nat).                      (* sharedmem.hpp:225-246 *)

Section Grid.
  Variable span : rng.                (* grid_size[shmem_decomp_dim] *)
  Variable rest : list (Z * Z).       (* the other coordinates, in traversal order *)
  Variable n : nat.                   (* number of threads *)

  Definition zs (r : rng) : list Z :=
    map (fun k => first r + Z.of_nat k) (seq 0 (Z.to_nat (rlen r))).
  Definition own (t : nat) : list Z := zs (slab span (Z.of_nat t) (Z.of_nat n)).

  Definition red_e {A} (khn : bool) (xs : list (expr A)) : expr A :=
    if khn then kahan_e xs else sum_e xs.

  (** the loop over the thread's own slices (sharedmem.hpp:119-129, 162-172) *)
  Definition slices (khn : bool) (elt : gcell -> expr rloc) : stmt rloc :=
    {| s_el := fun t => map SumTmp (own t);
       s_rhs := fun l => match l with
                         | SumTmp c => red_e khn (map (fun k => elt (c, k)) rest)
                         | _ => Leaf l
                         end |}.
  (** [result = blitz::sum( *sumtmp)] (sharedmem.hpp:133-136, 177-180) *)
  Definition collect (khn : bool) (j : nat) : stmt rloc :=
    {| s_el := fun t => [Res j t];
       s_rhs := fun _ => red_e khn (map (fun c => Leaf (SumTmp c)) (zs span)) |}.
  (** [( *xtmtmp)(rank) = blitz::min(arr)], [arr] being the thread's section
      of the field (sharedmem.hpp:204, 228) *)
  Definition local_ext (o : binop) (a : nat) : stmt rloc :=
    {| s_el := fun t => [XtmTmp t];
       s_rhs := fun l => match l with
                         | XtmTmp t => ext_e o (flat_map (fun c => map (fun k => Leaf (Fld a (c, k))) rest) (own t))
                         | _ => Leaf l
                         end |}.
  (** [result = blitz::min( *xtmtmp)] (sharedmem.hpp:207, 231) *)
  Definition global_ext (o : binop) (j : nat) : stmt rloc :=
    {| s_el := fun t => [Res j t];
       s_rhs := fun _ => ext_e o (map (fun t => Leaf (XtmTmp t)) (seq 0 n)) |}.

  Definition call (j : nat) (q : request) : list (instr rloc) :=
    match q with
    | Sum khn a => [Do (slices khn (fun x => Leaf (Fld a x))); Bar; Do (collect khn j); Bar]
    | SumProd khn a b =>
        [Do (slices khn (fun x => Bin Mul (Leaf (Fld a x)) (Leaf (Fld b x)))); Bar; Do (collect khn j); Bar]
    | MinOf a => [Do (local_ext Lang.Min a); Bar; Do (global_ext Lang.Min j); Bar]
    | MaxOf a => [Do (local_ext Lang.Max a); Bar; Do (global_ext Lang.Max j); Bar]
    end.

  (** A sequence of calls, numbered from [j]. *)
  Fixpoint calls (j : nat) (qs : list request) : list (instr rloc) :=
    match qs with
    | [] => []
    | q :: qs' => call j q ++ calls (S j) qs'
    end.
End Grid.
