(** Runs of the 2D solver on doubly cyclic domains, as the numerical properties
    quantify over them. *)
From Coq Require Import ZArith.
From Verif Require Import ModelRun Lang Stencil FormCommon Solver2D SpecThreads SpecFields2 ProofsThread2D ProofsOne2D ProofsValid2D.
Local Open Scope Z_scope.

(** [m'] is a memory with which [nt] steps of run [r] by [n] threads, started in
    [m], can end.  [run2_ok]: admissible options, at least one pass, domain at
    least as large as the halo; both pairs of edges are cyclic and the data agree
    on them; the threads share the rows.  [settled]: one thread if [fct] is set
    without [iga] (otherwise the threads' results differ, C17_fct_threads_agree_refuted); [no_stale2]: no
    uninitialised halos are read (otherwise C51_no_stale_data_2d_refuted). *)
Record cyclic_end2 (ar : arith) (r : run2) (n nt : nat) (m m' : loc -> car ar) : Prop :=
  { ce_ok : run2_ok r;
    ce_bl : forall d, s_bl r d = Cyclic2;
    ce_br : forall d, s_br r d = Cyclic2;
    ce_n : (0 < n)%nat;
    ce_rows : Z.of_nat n <= s_hi r DX - s_lo r DX + 1;
    ce_settled : settled r n;
    ce_fresh : no_stale2 (s_o r) (s_nit r) = true;
    ce_data : cyclic_data2 (s_lo r) (s_hi r) (n_eqns (s_cfg r)) (nug (s_o r)) m;
    ce_end : can_end loc_eq_dec ar n (program2 r n nt) m m' }.
