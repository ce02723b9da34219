(** Stencil programs on staggered grids: every statement assigns one array on
    a box of indices from an expression whose operands are arrays at fixed
    offsets.  Up to three dimensions; one dimension is cut into slabs, one per
    thread (libmpdata++/concurr/detail/concurr_common.hpp:255-374). *)

From Coq Require Import ZArith List Bool Lia.
From Verif Require Import ModelIndex Lang.
Import ListNotations.
Local Open Scope Z_scope.

(** ** Indices *)
Inductive dim := DX | DY | DZ.
Definition idx := (Z * Z * Z)%type.
Definition comp (d : dim) (i : idx) : Z :=
  match d with DX => fst (fst i) | DY => snd (fst i) | DZ => snd i end.
Definition iadd (i o : idx) : idx :=
  (fst (fst i) + fst (fst o), snd (fst i) + snd (fst o), snd i + snd o).
Definition izero : idx := (0, 0, 0).
Definition idx_eq_dec (a b : idx) : {a = b} + {a <> b}.
Proof. repeat decide equality. Defined.
Definition idx_eqb (a b : idx) : bool :=
  (comp DX a =? comp DX b) && (comp DY a =? comp DY b) && (comp DZ a =? comp DZ b).
Definition dim_eqb (a b : dim) : bool :=
  match a, b with DX, DX | DY, DY | DZ, DZ => true | _, _ => false end.

(** ** Arrays of the solvers
    [Psi b]: advectee of the equation at hand, time level [b]
    (solvers/detail/solver_common.hpp: mem->psi[e][n]);
    [GC d], [Cor b d], [Mono d], [Flux d]: face-centred vector arrays
    (mem->GC, tmp[b], GC_mono, flux; solvers/detail/mpdata_common.hpp,
    mpdata_fct_common.hpp); the rest as named in the source;
    [Aux k]: other arrays. *)
Inductive arr :=
| Psi (b : bool) | GC (d : dim) | Cor (b : bool) (d : dim) | Mono (d : dim) | Flux (d : dim)
| PsiMin | PsiMax | BetaUp | BetaDn | Gf | NdtGC (d : dim) | NdttGC (d : dim)
| Khn (k : Z) | Aux (k : Z).

Definition arr_eq_dec (a b : arr) : {a = b} + {a <> b}.
Proof. repeat decide equality. Defined.

Definition arr_eqb (a b : arr) : bool :=
  match a, b with
  | Psi x, Psi y => eqb x y
  | GC d, GC e | Mono d, Mono e | Flux d, Flux e | NdtGC d, NdtGC e | NdttGC d, NdttGC e => dim_eqb d e
  | Cor x d, Cor y e => eqb x y && dim_eqb d e
  | PsiMin, PsiMin | PsiMax, PsiMax | BetaUp, BetaUp | BetaDn, BetaDn | Gf, Gf => true
  | Khn k, Khn l | Aux k, Aux l => k =? l
  | _, _ => false
  end.

(** A location: equation tag (0 for arrays shared by all equations), array, index. *)
Definition garr := (nat * arr)%type.
Definition tag (e : nat) (a : arr) : garr := match a with Psi _ => (e, a) | _ => (O, a) end.
Definition loc := (garr * idx)%type.
Definition garr_eq_dec (a b : garr) : {a = b} + {a <> b}.
Proof. repeat decide equality. Defined.
Definition loc_eq_dec (a b : loc) : {a = b} + {a <> b}.
Proof. destruct a as [a i], b as [b j].
  destruct (garr_eq_dec a b); [destruct (idx_eq_dec i j)|]; [left|right|right]; congruence.
Defined.

(** ** Index ranges of threads
    [Slab eF eA eB eL]: the thread's slab extended by [eA] below and [eB]
    above, except that the first thread extends by [eF] below and the last one
    by [eL] above.
    [AtFirst a b]: only the first thread, from [lo + a] to [lo + b];
    [AtLast a b]: only the last thread, from [hi + a] to [hi + b]. *)
Inductive rdesc := Slab (eF eA eB eL : Z) | AtFirst (a b : Z) | AtLast (a b : Z).

(** every thread extends its range alike: [i ^ n], [im], ... *)
Definition Ext (a b : Z) : rdesc := Slab a a b b.
(** only the outer threads extend theirs: solver_common.hpp:140-146 [extend_range] *)
Definition Own (a b : Z) : rdesc := Slab a 0 0 b.

Record cut := { c_n : nat; c_sub : nat -> rng }.
Definition c_lo (c : cut) : Z := first (c_sub c 0%nat).
Definition c_hi (c : cut) : Z := last (c_sub c (c_n c - 1)%nat).
Definition whole (lo hi : Z) : cut := {| c_n := 1; c_sub := fun _ => (lo, hi) |}.

(** consecutive non-empty slabs *)
Record cut_ok (c : cut) : Prop := {
  cut_pos : (0 < c_n c)%nat;
  cut_nonempty : forall t, (t < c_n c)%nat -> first (c_sub c t) <= last (c_sub c t);
  cut_next : forall t, (S t < c_n c)%nat -> first (c_sub c (S t)) = last (c_sub c t) + 1
}.

Definition trng (c : cut) (r : rdesc) (t : nat) : rng :=
  match r with
  | Slab eF eA eB eL =>
      (first (c_sub c t) - (if Nat.eqb t 0 then eF else eA),
       last (c_sub c t) + (if Nat.eqb t (c_n c - 1) then eL else eB))
  | AtFirst a b => if Nat.eqb t 0 then (c_lo c + a, c_lo c + b) else (0, -1)
  | AtLast a b => if Nat.eqb t (c_n c - 1) then (c_hi c + a, c_hi c + b) else (0, -1)
  end.

(** ** Geometry: the cut dimension and the grid in the others *)
Record geom := { g_dd : dim; g_cut : cut; g_grid : dim -> rng }.
Definition g_n (g : geom) : nat := c_n (g_cut g).
Definition cut_of (g : geom) (d : dim) : cut :=
  if dim_eqb d (g_dd g) then g_cut g else whole (first (g_grid g d)) (last (g_grid g d)).
Definition thr (g : geom) (d : dim) (t : nat) : nat := if dim_eqb d (g_dd g) then t else O.

(** ** Statements *)
Record desc := { d_arr : garr; d_x : rdesc; d_y : rdesc; d_z : rdesc; d_exp : expr (garr * idx) }.
Definition d_r (s : desc) (d : dim) : rdesc := match d with DX => d_x s | DY => d_y s | DZ => d_z s end.

Definition drng (g : geom) (s : desc) (t : nat) (d : dim) : rng := trng (cut_of g d) (d_r s d) (thr g d t).

Definition zseq (r : rng) : list Z :=
  map (fun k => first r + Z.of_nat k) (seq 0 (Z.to_nat (last r - first r + 1))).

Definition box_list (rx ry rz : rng) : list idx :=
  list_prod (list_prod (zseq rx) (zseq ry)) (zseq rz).

Definition sh (i : idx) (ao : garr * idx) : loc := (fst ao, iadd i (snd ao)).

Definition stmt_of (g : geom) (s : desc) : stmt loc :=
  {| s_el := fun t => map (pair (d_arr s)) (box_list (drng g s t DX) (drng g s t DY) (drng g s t DZ));
     s_rhs := fun l => emap (sh (snd l)) (d_exp s) |}.

Inductive dinstr := DDo (s : desc) | DBar.
Definition instr_of (g : geom) (i : dinstr) : instr loc :=
  match i with DDo s => Do (stmt_of g s) | DBar => Bar end.
Definition prog_of (g : geom) (p : list dinstr) : list (instr loc) := map (instr_of g) p.

(** The same grid handled by one thread. *)
Definition serial (g : geom) : geom :=
  {| g_dd := g_dd g; g_cut := whole (c_lo (g_cut g)) (c_hi (g_cut g)); g_grid := g_grid g |}.

(** ** Execution without a grid: every statement is executed at every index of
    the infinite lattice, barriers and halo copies do nothing. *)
Definition field (ar : arith) := garr -> idx -> car ar.
Definition at_ {ar} (f : field ar) (i : idx) : garr * idx -> car ar :=
  fun ao => f (fst ao) (iadd i (snd ao)).
Definition lat_stmt (ar : arith) (s : desc) (f : field ar) : field ar :=
  fun a i => if garr_eq_dec a (d_arr s) then ev ar (at_ f i) (d_exp s) else f a i.

(** ** Static checks on descriptors (all computable) *)
Definition garr_eqb (a b : garr) : bool := Nat.eqb (fst a) (fst b) && arr_eqb (snd a) (snd b).

(* range of [r1] shifted by [o] lies inside the range of [r2], for every thread;
   [cutd]: this is the cut dimension *)
Definition contained (cutd : bool) (r1 : rdesc) (o : Z) (r2 : rdesc) : bool :=
  match r1, r2 with
  | Slab f1 a1 b1 l1, Slab f2 a2 b2 l2 =>
      (f1 - o <=? f2) && (l1 + o <=? l2) &&
      (negb cutd || ((a1 - o <=? a2) && (b1 + o <=? b2)))
  | _, _ => false
  end.

(* ranges of different threads do not meet *)
Definition apart (r1 : rdesc) (o : Z) (r2 : rdesc) : bool :=
  match r1, r2 with
  | Slab _ a1 b1 _, Slab _ a2 b2 _ => (b1 + o + a2 <=? 0) && (a1 - o + b2 <=? 0)
  | AtFirst _ _, AtFirst _ _ => true
  | AtLast _ _, AtLast _ _ => true
  | _, _ => false
  end.

Definition containedd (dd : dim) (s1 : desc) (o : idx) (s2 : desc) : bool :=
  forallb (fun d => contained (dim_eqb d dd) (d_r s1 d) (comp d o) (d_r s2 d)) [DX; DY; DZ].

Definition read_check (dd : dim) (k j : nat) (sk sj : desc) (ao : garr * idx) : bool :=
  negb (garr_eqb (fst ao) (d_arr sj)) ||
  (apart (d_r sk dd) (comp dd (snd ao)) (d_r sj dd) &&
     (negb (Nat.eqb j k) || idx_eqb (snd ao) izero)) ||
  (Nat.ltb j k && containedd dd sk (snd ao) sj).

Definition write_check (dd : dim) (k j : nat) (sk sj : desc) : bool :=
  negb (garr_eqb (d_arr sk) (d_arr sj)) || Nat.eqb k j || apart (d_r sk dd) 0 (d_r sj dd).

Fixpoint number {A} (k : nat) (l : list A) : list (nat * A) :=
  match l with [] => [] | a :: l' => (k, a) :: number (S k) l' end.

Definition phase_check (dd : dim) (ph : list desc) : bool :=
  let nph := number 0 ph in
  forallb (fun ks => forallb (fun js =>
      write_check dd (fst ks) (fst js) (snd ks) (snd js) &&
      forallb (read_check dd (fst ks) (fst js) (snd ks) (snd js)) (leaves (d_exp (snd ks))))
    nph) nph.

(** no conflicting accesses of different threads at all *)
Definition race_check (dd : dim) (ph : list desc) : bool :=
  forallb (fun sk => forallb (fun sj =>
      (negb (garr_eqb (d_arr sk) (d_arr sj)) || apart (d_r sk dd) 0 (d_r sj dd)) &&
      forallb (fun ao => negb (garr_eqb (fst ao) (d_arr sj)) ||
                         apart (d_r sk dd) (comp dd (snd ao)) (d_r sj dd)) (leaves (d_exp sk)))
    ph) ph.

Fixpoint dphases (p : list dinstr) : list (list desc) :=
  match p with
  | [] => [[]]
  | DBar :: p' => [] :: dphases p'
  | DDo s :: p' =>
      match dphases p' with
      | ph :: rest => (s :: ph) :: rest
      | [] => [[s]]
      end
  end.

(** ** Whole-grid extent of a statement: [(below, above)] the grid *)
Definition gext (r : rdesc) : option (Z * Z) :=
  match r with Slab f a b l => Some (f, l) | _ => None end.

(* slabs overlap or touch, inner extensions stay inside the outer ones *)
Definition slab_okb (cutd : bool) (r : rdesc) : bool :=
  match r with
  | Slab f a b l => negb cutd || ((0 <=? a + b) && (a <=? f + 1) && (b <=? l + 1))
  | _ => true
  end.
