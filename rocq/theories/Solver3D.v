(** The three-dimensional MPDATA solver with constant advector as a program,
    for a domain that is cyclic in all three dimensions:
    solvers/detail/solver_common.hpp, solver_3d.hpp, mpdata_osc_3d.hpp,
    mpdata_fct_3d.hpp, bcond/cyclic_3d.hpp.

    The grid is cut along the second dimension
    (concurr/detail/concurr_common.hpp:319-357).

    Not modelled: boundary conditions other than cyclic, the check of the
    divergence of the advector before the first step (solver_common.hpp:202-208;
    it reads only), right-hand sides and user hooks (empty here), adaptive time
    step, MPI. *)

From Coq Require Import ZArith List Bool.
From Verif Require Import ModelIndex ModelRun Lang Stencil FormCommon Solver1D Form3D.
Import ListNotations.
Local Open Scope Z_scope.

(** ** Statements over three-dimensional ranges *)
Definition at3 (a : arr) (rx ry rz : rdesc) (e : sexpr) : tdesc :=
  {| t_arr := a; t_x := rx; t_y := ry; t_z := rz; t_exp := e |}.

(** [i], [im], [i^1], [im^1] along a dimension that is not cut; [j], [jm]
    (mpdata_osc_3d.hpp:260: only the first thread extends), [j^1], [jm^1]
    (mpdata_fct_3d.hpp:70-73) along the cut one *)
Definition rI : rdesc := Ext 0 0.
Definition rIM : rdesc := Ext 1 0.
Definition rI1 : rdesc := Ext 1 1.
Definition rIM1 : rdesc := Ext 2 1.
Definition cIM : rdesc := Slab 1 0 0 0.
Definition cIM1 : rdesc := Slab 2 1 1 1.

(** ** The formulae of Form3D.v collected *)
Definition forms3 (o : fl) (sp : sptl) (tp : tmprl) : forms := {|
  f_antidiff := fun d psi psin gc => antidiff3 o sp tp d psi psin gc NdtGC NdttGC 0 0 0;
  f_flux := fun d psi gc => make_flux3 o d psi gc 0 0 0;
  f_min := psi_min3;
  f_max := psi_max3;
  f_bup := fun psi flx => beta_up3 o psi PsiMax flx;
  f_bdn := fun psi flx => beta_dn3 o psi PsiMin flx;
  f_mono := fun d psi gc => GC_mono3 o d psi BetaUp BetaDn gc 0 0 0;
  f_sum := sum3f o;
  f_terms := terms3 o
|}.

Section Solver.
  Variable o : fl.
  Variable F : forms.

  (** donorcell_sum over ijk: donorcell_formulae.hpp:134-165 *)
  Definition sum3 (psi psi' : arr) (flx : dim -> arr) : list minstr :=
    if khn o then
      map MDo (kahan_zro (fun a e => at3 a rI rI rI e) psi' ++
               flat_map (kahan_add (fun a e => at3 a rI rI rI e) psi') (f_terms F psi flx))
    else [ MDo (at3 psi' rI rI rI (f_sum F psi flx)) ].

  (** mpdata_fct_3d.hpp:29-57 *)
  Definition fct_init3 (psi : arr) : list minstr :=
    if fct o then [ MDo (at3 PsiMin rI1 rI1 rI1 (f_min F psi)); MDo (at3 PsiMax rI1 rI1 rI1 (f_max F psi)) ] else [].

  (** one statement per component, over [im, j, k], [i, jm, k] and [i, j, km] *)
  Definition faces3 (a : dim -> arr) (e : dim -> sexpr) : list minstr :=
    [ MDo (at3 (a DX) rIM rI rI (e DX)); MDo (at3 (a DY) rI cIM rI (e DY)); MDo (at3 (a DZ) rI rI rIM (e DZ)) ].

  (** mpdata_osc_3d.hpp:155-165 *)
  Definition flux3 (psi : arr) (gc : dim -> arr) : list minstr := faces3 Flux (fun d => f_flux F d psi (gc d)).

  (** mpdata_fct_3d.hpp:59-115, mpdata_fct_common.hpp:39-43 *)
  Definition fct_adjust3 (psi : arr) (corr : dim -> arr) : list minstr :=
    if fct o then
      [ MXVA corr true; MXVN corr 0 ] ++
      (if iga o then []
       else [ MDo (at3 (Flux DX) rIM1 rI1 rI1 (f_flux F DX psi (corr DX)));
              MDo (at3 (Flux DY) rI1 cIM1 rI1 (f_flux F DY psi (corr DY)));
              MDo (at3 (Flux DZ) rI1 rI1 rIM1 (f_flux F DZ psi (corr DZ))) ]) ++
      (let flx := if iga o then corr else Flux in
       [ MDo (at3 BetaUp rI1 rI1 rI1 (f_bup F psi flx)); MDo (at3 BetaDn rI1 rI1 rI1 (f_bdn F psi flx)) ]) ++
      (if iga o then [] else [ MBar ]) ++
      faces3 Mono (fun d => f_mono F d psi (corr d))
    else [].

  (** mpdata_osc_3d.hpp:145-200 *)
  Definition upstream3 (psi psi' : arr) : list minstr :=
    flux3 psi GC ++ [ MXF Flux ] ++ sum3 psi psi' Flux.

  (** mpdata_osc_3d.hpp:76-143 then 145-200, for iter > 0 *)
  Definition corrective3 (psi psi' : arr) (unco corr : dim -> arr) (last : bool) : list minstr :=
    faces3 corr (fun d => f_antidiff F d psi psi' unco) ++
    (if div3dt o then [ MBar ] else []) ++
    (if negb (fct o) && negb last then [ MXVN corr 0 ] ++ (if dfl o then [ MXVA corr false ] else []) else []) ++
    fct_adjust3 psi corr ++
    (let gc := if fct o then Mono else corr in
     if iga o then [ MXF gc ] ++ sum3 psi psi' gc
     else flux3 psi gc ++ [ MXF Flux ] ++ sum3 psi psi' Flux).

  (** solver_common.hpp:373-380 [scale] *)
  Definition scale3 (psi : arr) (ex : Z) : list minstr :=
    if ex =? 0 then []
    else if 0 <? ex then [ MDo (at3 psi rI rI rI (Leaf (psi, izero) / q (2 ^ ex))%s) ]
    else [ MDo (at3 psi rI rI rI (Leaf (psi, izero) * q (2 ^ (- ex)))%s) ].

  (** passes [j], ..., [j + more - 1], all with [j > 0]; solver_3d.hpp:69-72 [xchng] *)
  Fixpoint passes3 (nit : nat) (lasteq : bool) (b : bool) (j more : nat) : list minstr :=
    match more with
    | O => []
    | S m =>
        cyc_bars lasteq ++ [ MXS (Psi (lev b j)) (halo o) ] ++
        corrective3 (Psi (lev b j)) (Psi (lev b (S j))) (GC_unco j) (GC_corr j) (Nat.eqb (S j) nit) ++
        passes3 nit lasteq b (S j) m
    end.

  (** solver_common.hpp:127-136 [solve_loop_body]: [k] passes starting at level [b] *)
  Definition body3 (nit k : nat) (ex : Z) (lasteq b : bool) : list minstr :=
    scale3 (Psi b) ex ++
    [ MXS (Psi b) (halo o) ] ++
    fct_init3 (Psi b) ++ upstream3 (Psi b) (Psi (lev b 1)) ++
    passes3 nit lasteq b 1 (k - 1) ++
    (if lasteq then [] else [ MBar ]) ++ cyc_bars lasteq ++
    scale3 (Psi (lev b k)) (- ex).

  (** solver_common.hpp:191-211 and mpdata_osc_3d.hpp:39-67 [hook_ante_loop],
      var_dt = false; with the barriers of solve() (solver_common.hpp:279-286) *)
  Definition ante3 : list minstr :=
    [ MBar; MXVA GC false ] ++
    (if nug o then [ MXS Gf (halo o) ] else []) ++
    [ MXVN GC (halo o - 1) ] ++
    (if div3dt o || div3 o then
       faces3 NdtGC (fun _ => q 0) ++ faces3 NdttGC (fun _ => q 0) ++
       [ MXVA NdtGC false; MXVA NdttGC false;
         MXVN NdtGC (halo o - 1); MXVN NdttGC (halo o - 1) ] else []) ++
    [ MBar ].
End Solver.

(** ** Halo exchanges *)

(** a range along [d], one along the next dimension, one along the one after *)
Definition at3d (d : dim) (a : arr) (rd r1 r2 : rdesc) (e : sexpr) : tdesc :=
  match d with DX => at3 a rd r1 r2 e | DY => at3 a r2 rd r1 e | DZ => at3 a r1 r2 rd e end.

Section Exchange.
  Variable o : fl.
  Variable hl : Z.                     (* halo *)
  Variable per : dim -> Z.             (* last - first of the grid *)
  Notation lf d a i := (Leaf (a, x3 d i 0 0)).

  (** cyclic_3d.hpp:28-32,72-75: [fill_halos_sclr], [fill_halos_vctr_nrml] of the left edge *)
  Definition cs_left (d : dim) (a : arr) (r1 r2 : rdesc) : tdesc :=
    at3d d a (AtFirst (- hl) (-1)) r1 r2 (lf d a (per d)).
  (** 119-123,163-166: of the right edge *)
  Definition cs_rght (d : dim) (a : arr) (r1 r2 : rdesc) : tdesc :=
    at3d d a (AtLast 1 hl) r1 r2 (lf d a (- per d)).
  (** 43-47: [fill_halos_vctr_alng] *)
  Definition cv_left (d : dim) (v : dim -> arr) (r1 r2 : rdesc) : tdesc :=
    at3d d (v d) (AtFirst (- hl) (-1)) r1 r2 (lf d (v d) (per d)).
  (** 134-138 *)
  Definition cv_rght (d : dim) (v : dim -> arr) (r1 r2 : rdesc) : tdesc :=
    at3d d (v d) (AtLast 0 (hl - 1)) r1 r2 (lf d (v d) (- per d)).

  (** solver_3d.hpp:46-72 ([xchng_sclr]), 74-104 ([xchng_vctr_alng]), 106-119
      ([xchng_flux]; fills nothing at a cyclic edge, bcond_common.hpp:125-127),
      209-271 ([xchng_vctr_nrml]).  Along the first dimension the right
      condition comes first, along the others the left one (set_bcs,
      solver_common.hpp:102-115); after each condition along the first
      dimension there is a barrier.  [extend_range]: solver_common.hpp:140-158. *)
  Definition expand3 (i : minstr) : list tinstr :=
    match i with
    | MDo s => [ TDo s ]
    | MBar => [ TBar ]
    | MXS a e =>
        [ TBar; TDo (cs_left DY a (Ext e e) (Ext e e)); TDo (cs_rght DY a (Ext e e) (Ext e e));
          TDo (cs_rght DX a (Own e e) (Ext e e)); TBar; TDo (cs_left DX a (Own e e) (Ext e e)); TBar;
          TDo (cs_left DZ a (Ext e e) (Own e e)); TDo (cs_rght DZ a (Ext e e) (Own e e)); TBar ]
    | MXVA v _ =>
        [ TBar; TDo (cv_rght DX v rI rI); TBar; TDo (cv_left DX v rI rI); TBar;
          TDo (cv_left DY v rI rI); TDo (cv_rght DY v rI rI);
          TDo (cv_left DZ v rI rI); TDo (cv_rght DZ v rI rI); TBar ]
    | MXVN v e =>
        let e1 := e + 1 in
        [ TBar; TDo (cs_left DY (v DX) (Ext e1 e1) (Ext e1 e)); TDo (cs_rght DY (v DX) (Ext e1 e1) (Ext e1 e)) ] ++
        (if div3 o || div3dt o then [ TBar ] else []) ++
        [ TDo (cs_left DZ (v DX) (Ext e1 e) (Own e1 e1)); TDo (cs_rght DZ (v DX) (Ext e1 e) (Own e1 e1));
          TDo (cs_rght DX (v DY) (Own e1 e) (Ext e1 e1)); TBar; TDo (cs_left DX (v DY) (Own e1 e) (Ext e1 e1)); TBar;
          TDo (cs_left DZ (v DY) (Ext e1 e1) (Own e1 e)); TDo (cs_rght DZ (v DY) (Ext e1 e1) (Own e1 e));
          TDo (cs_rght DX (v DZ) (Own e1 e1) (Ext e1 e)); TBar; TDo (cs_left DX (v DZ) (Own e1 e1) (Ext e1 e)); TBar;
          TDo (cs_left DY (v DZ) (Ext e1 e) (Ext e1 e1)); TDo (cs_rght DY (v DZ) (Ext e1 e) (Ext e1 e1)); TBar ]
    | MXF _ => [ TBar; TBar; TBar; TBar ]
    end.
End Exchange.

(** ** The whole run *)
Record run3 := {
  s3_o : fl; s3_sp : sptl; s3_tp : tmprl;
  s3_cfg : cfg;                       (* n_eqns, delayed_step *)
  s3_nit : nat; s3_freq : Z;          (* rt_params: n_iters, upwind_filter_freq *)
  s3_scale : nat -> Z;                (* ct_params: hint_scale *)
  s3_lo : dim -> Z; s3_hi : dim -> Z  (* the grid *)
}.

Section Run.
  Variable r : run3.
  Definition s3_forms : forms := forms3 (s3_o r) (s3_sp r) (s3_tp r).
  Definition s3_halo : Z := halo (s3_o r).
  Definition s3_per (d : dim) : Z := s3_hi r d - s3_lo r d.

  Definition expand_eq3 (e : nat) (p : list minstr) : list dinstr :=
    map (inst_i e) (flat_map (expand3 (s3_o r) s3_halo s3_per) p).

  (** one equation loop of the time step (solver_common.hpp:326-330, 334-338) *)
  Fixpoint eqs_prog3 (k : nat) (es : list nat) (lv : nat -> bool) : list dinstr :=
    match es with
    | [] => []
    | e :: es' =>
        expand_eq3 e (body3 (s3_o r) s3_forms (s3_nit r) k (s3_scale r e) (is_last_eqn (s3_cfg r) e) (lv e)) ++
        eqs_prog3 k es' (upd lv e (lev (lv e) k))
    end.

  Definition eq_order3 : list nat := plain_eqns (s3_cfg r) ++ delayed_eqns (s3_cfg r).

  (** [nt] steps starting at [timestep = ts]; [lv e]: time level of equation [e] *)
  Fixpoint steps_prog3 (nt : nat) (ts : Z) (lv : nat -> bool) : list dinstr :=
    match nt with
    | O => []
    | S n =>
        let k := passes (s3_nit r) (s3_freq r) ts in
        [ DBar ] ++ eqs_prog3 k eq_order3 lv ++
        steps_prog3 n (ts + 1) (fun e => if existsb (Nat.eqb e) eq_order3 then lev (lv e) k else lv e)
    end.

  (** advance(nt) on a fresh solver: concurr_common.hpp:380-385, solver_common.hpp:270-356 *)
  Definition run_prog3 (nt : nat) : list dinstr :=
    expand_eq3 0 (ante3 (s3_o r)) ++ steps_prog3 nt 0 (fun _ => false) ++ [ DBar ].

  (** time level of equation [e] after [nt] steps *)
  Fixpoint level_after3 (nt : nat) (ts : Z) (b : bool) : bool :=
    match nt with
    | O => b
    | S n => level_after3 n (ts + 1) (lev b (passes (s3_nit r) (s3_freq r) ts))
    end.
End Run.
