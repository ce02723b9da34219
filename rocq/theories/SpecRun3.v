(** Runs of the 3D solver on triply cyclic domains, as the numerical properties
    quantify over them. *)
From Coq Require Import ZArith.
From Verif Require Import ModelRun Lang Stencil FormCommon Form3D Solver3D SpecThreads SpecFields3 ProofsGeom3D ProofsThread3D ProofsValid3D.
Local Open Scope Z_scope.

(** [m'] is a memory with which [nt] steps of run [r] by [n] threads, started in
    [m], can end.  [run3_ok]: admissible options, at least one pass, domain at
    least as large as the halo; the data agree on opposite edges; the threads
    share the planes across y.  [settled3]: one thread if [fct] is set without
    [iga] (otherwise the threads' results differ,
    C68_fct_threads_agree_3d_refuted); [no_stale3]: no uninitialised halos are
    read (otherwise C69_no_stale_data_3d_refuted). *)
Record cyclic_end3 (ar : arith) (r : run3) (n nt : nat) (m m' : loc -> car ar) : Prop :=
  { c3_ok : run3_ok r;
    c3_n : (0 < n)%nat;
    c3_rows : Z.of_nat n <= s3_hi r DY - s3_lo r DY + 1;
    c3_settled : settled3 r n;
    c3_fresh : no_stale3 (s3_o r) (s3_nit r) = true;
    c3_data : cyclic_data3 (s3_lo r) (s3_hi r) (n_eqns (s3_cfg r)) (nug (s3_o r)) m;
    c3_end : can_end loc_eq_dec ar n (program3 r n nt) m m' }.
