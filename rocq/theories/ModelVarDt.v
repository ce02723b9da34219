(** Adaptive time stepping for an advector that is constant in time: the
    adjustment of time step and advector made once before the first step
    (libmpdata++/solvers/detail/solver_common.hpp:191-211 [hook_ante_loop]) in
    one, two and three dimensions.  Exact (real) arithmetic.

    Filling the halos of the advector is represented by a signed index map
    [fill]: outside the domain [g] takes the value [sg x * g (src x)] (copies
    for cyclic and open edges, signed copies for rigid walls). *)
From Coq Require Import ZArith List Bool Reals.
From Verif Require Import ModelIndex Stencil ModelReduce.
Import ListNotations.
Local Open Scope Z_scope.

Definition field := idx -> R.

Section VarDt.
  Variable dims : list dim.              (* dimensions of the problem *)
  Variable dd : dim.                     (* the one cut into slabs *)
  Variables lo hi : dim -> Z.            (* the domain *)
  Variable n : nat.                      (* number of threads *)
  Variable src : dim -> idx -> idx.
  Variable sg : dim -> idx -> R.
  Variable G : field.
  Variable with_G : bool.                (* whether the division by G is there *)

  (** the part of the domain owned by thread [t] *)
  Definition part (t : nat) (d : dim) : rng :=
    if dim_eqb d dd then slab (lo d, hi d) (Z.of_nat t) (Z.of_nat n) else (lo d, hi d).

  (** solver_1d.hpp:63-86, solver_2d.hpp, solver_3d.hpp [xchng_vctr_alng] *)
  Definition fill (d : dim) (g : field) : field := fun x => (sg d x * g (src d x))%R.

  Definition unit (d : dim) : idx := match d with DX => (1, 0, 0) | DY => (0, 1, 0) | DZ => (0, 0, 1) end.
  Definition prev (d : dim) (x : idx) : idx :=
    match d with DX => iadd x (-1, 0, 0) | DY => iadd x (0, -1, 0) | DZ => iadd x (0, 0, -1) end.

  (** [courant_number]: solver_1d.hpp:107-111 (no G), solver_2d.hpp:295-302,
      solver_3d.hpp:390-398 (divided by G) *)
  Definition courant_at (gc : dim -> field) (x : idx) : R :=
    let s := (1 / 2 * fold_right (fun d a => Rabs (gc d x + gc d (prev d x)) + a) 0 dims)%R in
    if with_G then (s / G x)%R else s.

  (** the cells of the domain, and the maximum over all threads' parts (the
      value of [mem->max] for any number of threads, C18) *)
  Definition cells (r : dim -> rng) : list idx :=
    flat_map (fun a => flat_map (fun b => map (fun c => (a, b, c)) (zs (r DZ))) (zs (r DY))) (zs (r DX)).
  Definition maxl (xs : list R) : R := match xs with [] => 0%R | x :: r => fold_left Rmax r x end.
  Definition courant (gc : dim -> field) : R :=
    maxl (map (fun t => maxl (map (courant_at gc) (cells (part t)))) (seq 0 n)).

  (** [scale_gc]: solver_1d.hpp:119-125, solver_2d.hpp:313-319,
      solver_3d.hpp:411-418.  Thread [t] multiplies the faces of its part, in
      direction [d] those of [rng_t(first, last - 1)^h], i.e. first-1..last-1.
      The threads act one after the other on disjoint faces. *)
  Definition scaled_by (t : nat) (d : dim) (x : idx) : bool :=
    forallb (fun e => in_rngb (comp e x)
      (if dim_eqb e d then rng_exth (first (part t e), last (part t e) - 1) else part t e)) dims.
  Definition scale_faces (s : R) (d : dim) (g : field) : field :=
    fold_left (fun g t => fun x => if scaled_by t d x then (g x * s)%R else g x) (seq 0 n) g.

  (** solver_common.hpp:191-211 *)
  Definition adjust (max_courant dt : R) (gc : dim -> field) : R * (dim -> field) :=
    let gc1 := fun d => fill d (gc d) in
    let cfl := courant gc1 in
    if Rlt_dec 0 cfl then
      let dt' := (dt * (max_courant / cfl))%R in
      (dt', fun d => fill d (scale_faces (dt' / dt) d (gc1 d)))
    else (dt, gc1).
End VarDt.

(** Halo maps of one direction: cyclic and open edges (bcond/cyclic_1d.hpp,
    bcond/open_1d.hpp), the instances used in the examples. *)
Definition set_comp (d : dim) (x : idx) (v : Z) : idx :=
  match d with DX => (v, comp DY x, comp DZ x) | DY => (comp DX x, v, comp DZ x) | DZ => (comp DX x, comp DY x, v) end.
Definition cyclic_src (lo hi : dim -> Z) (d : dim) (x : idx) : idx :=
  let i := comp d x in
  set_comp d x (if i <? lo d then i + (hi d - lo d) else if hi d - 1 <? i then i - (hi d - lo d) else i).
