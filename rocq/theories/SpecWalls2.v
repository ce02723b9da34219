(** Runs of the 2D solver in a box closed by rigid walls. *)
From Coq Require Import ZArith Reals.
From Verif Require Import ModelIndex ModelRun Lang Stencil FormCommon Solver2D SpecThreads SpecFields2 SpecNum2 SpecBcond
  ProofsThread2D ProofsOne2D.
Local Open Scope Z_scope.

(** [m'] is a memory with which [nt] steps of run [r] by [n] threads, started in
    [m], can end; all four edges are rigid walls.  [settled]: one thread if [fct] is
    set without [iga] (otherwise the threads' results differ,
    C17_fct_threads_agree_refuted). *)
Record walled_end2 (ar : arith) (r : run2) (n nt : nat) (m m' : loc -> car ar) : Prop :=
  { we_ok : run2_ok r;
    we_bl : forall d, s_bl r d = Rigid2;
    we_br : forall d, s_br r d = Rigid2;
    we_n : (0 < n)%nat;
    we_rows : Z.of_nat n <= s_hi r DX - s_lo r DX + 1;
    we_settled : settled r n;
    we_end : can_end loc_eq_dec ar n (program2 r n nt) m m' }.

(** What the box holds: walls run through the middle of the outermost cells, so
    half of each of these is inside (a quarter of those in corners). *)
Definition box_mass (lo hi : dim -> Z) (f : Z -> Z -> R) : R :=
  walled_mass (lo DX, hi DX) (fun i => walled_mass (lo DY, hi DY) (fun j => f i j)).
