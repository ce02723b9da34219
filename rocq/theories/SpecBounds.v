(** Which array elements exist: memory allocated by the solver classes, and
    what it means for a program to stay inside it. *)
From Coq Require Import ZArith List Bool.
From Verif Require Import ModelRun Lang Stencil FormCommon Solver1D.
Local Open Scope Z_scope.

(** solver_1d.hpp:167-235, mpdata_common.hpp:71-110, mpdata_fct_common.hpp:59-67;
    rng_sclr and rng_vctr: solver_common.hpp:370-371 *)
Definition allocated1 (r : run1) (l : loc) : Prop :=
  let o := r_o r in
  let h := halo o in
  let '((e, a), (x, y, z)) := l in
  let cells := r_lo r - h <= x <= r_hi r + h in
  let faces := r_lo r - h <= x <= r_hi r + h - 1 in
  y = 0 /\ z = 0 /\
  match a with
  | Psi _ => (e < n_eqns (r_cfg r))%nat /\ cells
  | GC DX | Flux DX => e = O /\ faces
  | Cor b DX => e = O /\ (b = false -> (2 < r_nit r)%nat) /\ faces
  | Mono DX => e = O /\ fct o = true /\ faces
  | PsiMin | PsiMax | BetaUp | BetaDn => e = O /\ fct o = true /\ cells
  | Gf => e = O /\ nug o = true /\ cells
  | NdtGC DX | NdttGC DX => e = O /\ div3 o || div3dt o = true /\ faces
  | Khn k => e = O /\ khn o = true /\ 0 <= k < 3 /\ cells
  | _ => False
  end.

(** every element assigned or read by any of the [n] threads satisfies [ok] *)
Definition accesses_in {L} (ok : L -> Prop) (n : nat) (p : list (instr L)) : Prop :=
  forall s t l, In (Do s) p -> (t < n)%nat -> In l (s_el s t) ->
    ok l /\ forall x, In x (leaves (s_rhs s l)) -> ok x.
