(** The two-dimensional MPDATA solver with constant advector as a program:
    solvers/detail/solver_common.hpp, solver_2d.hpp, mpdata_osc_2d.hpp,
    mpdata_fct_2d.hpp, bcond/cyclic_2d.hpp, open_2d.hpp, rigid_2d.hpp.

    The grid is cut along the first dimension
    (concurr/detail/concurr_common.hpp:283-317).

    Not modelled: the check of the divergence of the advector before the first
    step (solver_common.hpp:202-208; it reads only), right-hand sides and user
    hooks (empty here), adaptive time step, MPI, polar and ground-sky
    conditions. *)

From Coq Require Import ZArith List Bool.
From Verif Require Import ModelIndex ModelRun Lang Stencil FormCommon Solver1D Form2D.
Import ListNotations.
Local Open Scope Z_scope.

(** ** Statements over two-dimensional ranges *)
Definition at2 (a : arr) (rx ry : rdesc) (e : sexpr) : tdesc :=
  {| t_arr := a; t_x := rx; t_y := ry; t_z := Ext 0 0; t_exp := e |}.

(** [i], [im] (mpdata_osc_2d.hpp:233: only the first thread extends), [i^1],
    [im^1] (mpdata_fct_2d.hpp:53-54); [j], [jm], [j^1], [jm^1] *)
Definition xI : rdesc := Ext 0 0.
Definition xIM : rdesc := Slab 1 0 0 0.
Definition xI1 : rdesc := Ext 1 1.
Definition xIM1 : rdesc := Slab 2 1 1 1.
Definition yJ : rdesc := Ext 0 0.
Definition yJM : rdesc := Ext 1 0.
Definition yJ1 : rdesc := Ext 1 1.
Definition yJM1 : rdesc := Ext 2 1.

(** ** The formulae of Form2D.v collected *)
Definition forms2 (o : fl) (sp : sptl) (tp : tmprl) : forms := {|
  f_antidiff := fun d psi psin gc => antidiff2 o sp tp d psi psin gc NdtGC NdttGC 0 0;
  f_flux := fun d psi gc => make_flux2 o d psi gc 0 0;
  f_min := psi_min2;
  f_max := psi_max2;
  f_bup := fun psi flx => beta_up2 o psi PsiMax flx;
  f_bdn := fun psi flx => beta_dn2 o psi PsiMin flx;
  f_mono := fun d psi gc => GC_mono2 o d psi BetaUp BetaDn gc 0 0;
  f_sum := sum2f o;
  f_terms := terms2 o
|}.

Section Solver.
  Variable o : fl.
  Variable F : forms.

  (** donorcell_sum over ijk: donorcell_formulae.hpp:106-133 *)
  Definition sum2 (psi psi' : arr) (flx : dim -> arr) : list minstr :=
    if khn o then
      map MDo (kahan_zro (fun a e => at2 a xI yJ e) psi' ++
               flat_map (kahan_add (fun a e => at2 a xI yJ e) psi') (f_terms F psi flx))
    else [ MDo (at2 psi' xI yJ (f_sum F psi flx)) ].

  (** mpdata_fct_2d.hpp:31-46 *)
  Definition fct_init2 (psi : arr) : list minstr :=
    if fct o then [ MDo (at2 PsiMin xI1 yJ1 (f_min F psi)); MDo (at2 PsiMax xI1 yJ1 (f_max F psi)) ] else [].

  (** mpdata_osc_2d.hpp:126-136 *)
  Definition flux2 (psi : arr) (gc : dim -> arr) : list minstr :=
    [ MDo (at2 (Flux DX) xIM yJ (f_flux F DX psi (gc DX))); MDo (at2 (Flux DY) xI yJM (f_flux F DY psi (gc DY))) ].

  (** mpdata_fct_2d.hpp:48-91, mpdata_fct_common.hpp:39-43 *)
  Definition fct_adjust2 (psi : arr) (corr : dim -> arr) : list minstr :=
    if fct o then
      [ MXVA corr true; MXVN corr 0 ] ++
      (if iga o then []
       else [ MDo (at2 (Flux DX) xIM1 yJ1 (f_flux F DX psi (corr DX)));
              MDo (at2 (Flux DY) xI1 yJM1 (f_flux F DY psi (corr DY))) ]) ++
      (let flx := if iga o then corr else Flux in
       [ MDo (at2 BetaUp xI1 yJ1 (f_bup F psi flx)); MDo (at2 BetaDn xI1 yJ1 (f_bdn F psi flx)) ]) ++
      (if iga o then [] else [ MBar ]) ++
      [ MDo (at2 (Mono DX) xIM yJ (f_mono F DX psi (corr DX)));
        MDo (at2 (Mono DY) xI yJM (f_mono F DY psi (corr DY))) ]
    else [].

  (** mpdata_osc_2d.hpp:124-161 *)
  Definition upstream2 (psi psi' : arr) : list minstr :=
    flux2 psi GC ++ [ MXF Flux ] ++ sum2 psi psi' Flux.

  (** mpdata_osc_2d.hpp:74-121 then 124-161, for iter > 0 *)
  Definition corrective2 (psi psi' : arr) (unco corr : dim -> arr) (last : bool) : list minstr :=
    [ MDo (at2 (corr DX) xIM yJ (f_antidiff F DX psi psi' unco));
      MDo (at2 (corr DY) xI yJM (f_antidiff F DY psi psi' unco)) ] ++
    (if div3dt o then [ MBar ] else []) ++
    (if negb (fct o) && negb last then [ MXVN corr 0 ] ++ (if dfl o then [ MXVA corr false ] else []) else []) ++
    fct_adjust2 psi corr ++
    (let gc := if fct o then Mono else corr in
     if iga o then [ MXF gc ] ++ sum2 psi psi' gc
     else flux2 psi gc ++ [ MXF Flux ] ++ sum2 psi psi' Flux).

  (** solver_common.hpp:373-380 [scale] *)
  Definition scale2 (psi : arr) (ex : Z) : list minstr :=
    if ex =? 0 then []
    else if 0 <? ex then [ MDo (at2 psi xI yJ (Leaf (psi, izero) / q (2 ^ ex))%s) ]
    else [ MDo (at2 psi xI yJ (Leaf (psi, izero) * q (2 ^ (- ex)))%s) ].

  (** passes [j], ..., [j + more - 1], all with [j > 0]; solver_2d.hpp:59-62 [xchng] *)
  Fixpoint passes2 (nit : nat) (lasteq : bool) (b : bool) (j more : nat) : list minstr :=
    match more with
    | O => []
    | S m =>
        cyc_bars lasteq ++ [ MXS (Psi (lev b j)) (halo o) ] ++
        corrective2 (Psi (lev b j)) (Psi (lev b (S j))) (GC_unco j) (GC_corr j) (Nat.eqb (S j) nit) ++
        passes2 nit lasteq b (S j) m
    end.

  (** solver_common.hpp:127-136 [solve_loop_body]: [k] passes starting at level [b] *)
  Definition body2 (nit k : nat) (ex : Z) (lasteq b : bool) : list minstr :=
    scale2 (Psi b) ex ++
    [ MXS (Psi b) (halo o) ] ++
    fct_init2 (Psi b) ++ upstream2 (Psi b) (Psi (lev b 1)) ++
    passes2 nit lasteq b 1 (k - 1) ++
    (if lasteq then [] else [ MBar ]) ++ cyc_bars lasteq ++
    scale2 (Psi (lev b k)) (- ex).

  (** solver_common.hpp:191-211 and mpdata_osc_2d.hpp:40-68 [hook_ante_loop],
      var_dt = false; with the barriers of solve() (solver_common.hpp:279-286) *)
  Definition ante2 : list minstr :=
    [ MBar; MXVA GC false ] ++
    (if nug o then [ MXS Gf (halo o) ] else []) ++
    [ MXVN GC (halo o - 1) ] ++
    (if div3dt o || div3 o then
       [ MDo (at2 (NdtGC DX) xIM yJ (q 0)); MDo (at2 (NdtGC DY) xI yJM (q 0));
         MDo (at2 (NdttGC DX) xIM yJ (q 0)); MDo (at2 (NdttGC DY) xI yJM (q 0));
         MXVA NdtGC false; MXVA NdttGC false;
         MXVN NdtGC (halo o - 1); MXVN NdttGC (halo o - 1) ] else []) ++
    [ MBar ].
End Solver.

(** ** Halo exchanges *)
Inductive bcond2 := Cyclic2 | Open2 | Rigid2.

(** a range along [d] and one across *)
Definition at2d (d : dim) (a : arr) (rd ro : rdesc) (e : sexpr) : tdesc :=
  match d with DX => at2 a rd ro e | _ => at2 a ro rd e end.

Section Exchange.
  Variable hl : Z.                     (* halo *)
  Variable per : dim -> Z.             (* last - first of the grid *)
  Variables bl br : dim -> bcond2.     (* conditions at the left and right edges *)
  Notation lf d a i j := (Leaf (a, x2 d i j)).

  (** cyclic_2d.hpp:30-34, open_2d.hpp:32-42, rigid_2d.hpp:29-37; [ro]: range across *)
  Definition fs_left (d : dim) (a : arr) (ro : rdesc) : list tdesc :=
    match bl d with
    | Cyclic2 => [ at2d d a (AtFirst (- hl) (-1)) ro (lf d a (per d) 0) ]
    | Open2 => map (fun k => at2d d a (AtFirst k k) ro (lf d a (- k) 0)) (zseq (- hl, -1))
    | Rigid2 => map (fun k => at2d d a (AtFirst k k) ro (lf d a (- 2 * k) 0)) (zseq (- hl, -1))
    end.
  (** cyclic_2d.hpp:121-125, open_2d.hpp:125-135, rigid_2d.hpp:125-133 *)
  Definition fs_rght (d : dim) (a : arr) (ro : rdesc) : list tdesc :=
    match br d with
    | Cyclic2 => [ at2d d a (AtLast 1 hl) ro (lf d a (- per d) 0) ]
    | Open2 => map (fun k => at2d d a (AtLast k k) ro (lf d a (- k) 0)) (zseq (1, hl))
    | Rigid2 => map (fun k => at2d d a (AtLast k k) ro (lf d a (- 2 * k) 0)) (zseq (1, hl))
    end.

  (** cyclic_2d.hpp:45-49, open_2d.hpp:74-96, rigid_2d.hpp:58-66; [ro] is the
      unextended range across.  The open condition along the first dimension
      first sets the outer faces across at the edge to zero
      ([if (d == 0)], open_2d.hpp:78-84). *)
  Definition corner0 (v : dim -> arr) (rx : rdesc) : list tdesc :=
    [ at2 (v DY) rx (AtFirst (-1) (-1)) (q 0); at2 (v DY) rx (AtLast 0 0) (q 0) ].
  Definition fv_left (d : dim) (v : dim -> arr) (ad : bool) (ro : rdesc) : list tdesc :=
    let a := v d in
    let ks := zseq (- hl, -1 - (if ad then 1 else 0)) in
    match bl d with
    | Cyclic2 => [ at2d d a (AtFirst (- hl) (-1)) ro (lf d a (per d) 0) ]
    | Open2 =>
        (match d with DX => corner0 v (AtFirst 0 0) | _ => [] end) ++
        map (fun k => at2d d a (AtFirst k k) ro
               (lf d a (- k) 0 - (lf d (v (od d)) (- k) (-1) - lf d (v (od d)) (- k) 0))%s) ks
    | Rigid2 => map (fun k => at2d d a (AtFirst k k) ro (- lf d a (- 2 * k - 1) 0)%s) ks
    end.
  (** cyclic_2d.hpp:136-140, open_2d.hpp:167-188, rigid_2d.hpp:154-162 (where,
      with [ad], the counter [n] starts from 1 at the second face) *)
  Definition fv_rght (d : dim) (v : dim -> arr) (ad : bool) (ro : rdesc) : list tdesc :=
    let a := v d in
    let k0 := if ad then 1 else 0 in
    let ks := zseq (k0, hl - 1) in
    match br d with
    | Cyclic2 => [ at2d d a (AtLast 0 (hl - 1)) ro (lf d a (- per d) 0) ]
    | Open2 =>
        (match d with DX => corner0 v (AtLast 0 0) | _ => [] end) ++
        map (fun k => at2d d a (AtLast k k) ro
               (lf d a (- 1 - k) 0 + (lf d (v (od d)) (- k) (-1) - lf d (v (od d)) (- k) 0))%s) ks
    | Rigid2 => map (fun k => at2d d a (AtLast k k) ro (- lf d a (- (1 + (k - k0)) - k) 0)%s) ks
    end.

  (** cyclic_2d.hpp:76-79, open_2d.hpp:98-104,190-196, rigid_2d.hpp:68-72 *)
  Definition fn_left (d : dim) (a : arr) (ro : rdesc) : list tdesc :=
    match bl d with
    | Open2 => map (fun k => at2d d a (AtFirst k k) ro (q 0)) (zseq (- hl, -1))
    | _ => fs_left d a ro
    end.
  Definition fn_rght (d : dim) (a : arr) (ro : rdesc) : list tdesc :=
    match br d with
    | Open2 => map (fun k => at2d d a (AtLast k k) ro (q 0)) (zseq (1, hl))
    | _ => fs_rght d a ro
    end.

  (** bcond_common.hpp:125-126 (nothing), rigid_2d.hpp:74-78,170-175 *)
  Definition ff_left (d : dim) (a : arr) (ro : rdesc) : list tdesc :=
    match bl d with Rigid2 => [ at2d d a (AtFirst (-1) (-1)) ro (- lf d a 1 0)%s ] | _ => [] end.
  Definition ff_rght (d : dim) (a : arr) (ro : rdesc) : list tdesc :=
    match br d with Rigid2 => [ at2d d a (AtLast 0 0) ro (- lf d a (-1) 0)%s ] | _ => [] end.

  (** solver_2d.hpp:43-199.  Along the first dimension the right condition
      comes first, along the second one the left one (set_bcs,
      solver_common.hpp:102-115); after each condition along the first
      dimension there is a barrier.  [extend_range]: solver_common.hpp:140-158. *)
  Definition ph (l : list tdesc) : list tinstr := map TDo l.
  Definition expand2 (i : minstr) : list tinstr :=
    match i with
    | MDo s => [ TDo s ]
    | MBar => [ TBar ]
    | MXS a ext =>
        [ TBar ] ++ ph (fs_rght DX a (Ext ext ext)) ++ [ TBar ] ++ ph (fs_left DX a (Ext ext ext)) ++ [ TBar ] ++
        ph (fs_left DY a (Own ext ext) ++ fs_rght DY a (Own ext ext)) ++ [ TBar ]
    | MXVA v ad =>
        [ TBar ] ++ ph (fv_rght DX v ad yJ) ++ [ TBar ] ++ ph (fv_left DX v ad yJ) ++ [ TBar ] ++
        ph (fv_left DY v ad xI ++ fv_rght DY v ad xI) ++ [ TBar ]
    | MXVN v ext =>
        [ TBar ] ++ ph (fn_left DY (v DX) (Own (ext + 1) ext) ++ fn_rght DY (v DX) (Own (ext + 1) ext) ++
                        fn_rght DX (v DY) (Ext (ext + 1) ext)) ++
        [ TBar ] ++ ph (fn_left DX (v DY) (Ext (ext + 1) ext)) ++ [ TBar; TBar ]
    | MXF v =>
        [ TBar ] ++ ph (ff_rght DX (v DX) yJ) ++ [ TBar ] ++ ph (ff_left DX (v DX) yJ) ++ [ TBar ] ++
        ph (ff_left DY (v DY) xI ++ ff_rght DY (v DY) xI) ++ [ TBar ]
    end.
End Exchange.

(** ** The whole run *)
Record run2 := {
  s_o : fl; s_sp : sptl; s_tp : tmprl;
  s_cfg : cfg;                       (* n_eqns, delayed_step *)
  s_nit : nat; s_freq : Z;           (* rt_params: n_iters, upwind_filter_freq *)
  s_scale : nat -> Z;                (* ct_params: hint_scale *)
  s_bl : dim -> bcond2; s_br : dim -> bcond2;
  s_lo : dim -> Z; s_hi : dim -> Z   (* the grid *)
}.

Section Run.
  Variable r : run2.
  Definition s_forms : forms := forms2 (s_o r) (s_sp r) (s_tp r).
  Definition s_halo : Z := halo (s_o r).
  Definition s_per (d : dim) : Z := s_hi r d - s_lo r d.

  Definition expand_eq2 (e : nat) (p : list minstr) : list dinstr :=
    map (inst_i e) (flat_map (expand2 s_halo s_per (s_bl r) (s_br r)) p).

  (** one equation loop of the time step (solver_common.hpp:326-330, 334-338) *)
  Fixpoint eqs_prog2 (k : nat) (es : list nat) (lv : nat -> bool) : list dinstr :=
    match es with
    | [] => []
    | e :: es' =>
        expand_eq2 e (body2 (s_o r) s_forms (s_nit r) k (s_scale r e) (is_last_eqn (s_cfg r) e) (lv e)) ++
        eqs_prog2 k es' (upd lv e (lev (lv e) k))
    end.

  Definition eq_order2 : list nat := plain_eqns (s_cfg r) ++ delayed_eqns (s_cfg r).

  (** [nt] steps starting at [timestep = ts]; [lv e]: time level of equation [e] *)
  Fixpoint steps_prog2 (nt : nat) (ts : Z) (lv : nat -> bool) : list dinstr :=
    match nt with
    | O => []
    | S n =>
        let k := passes (s_nit r) (s_freq r) ts in
        [ DBar ] ++ eqs_prog2 k eq_order2 lv ++
        steps_prog2 n (ts + 1) (fun e => if existsb (Nat.eqb e) eq_order2 then lev (lv e) k else lv e)
    end.

  (** advance(nt) on a fresh solver: concurr_common.hpp:380-385, solver_common.hpp:270-356 *)
  Definition run_prog2 (nt : nat) : list dinstr :=
    expand_eq2 0 (ante2 (s_o r)) ++ steps_prog2 nt 0 (fun _ => false) ++ [ DBar ].

  (** time level of equation [e] after [nt] steps *)
  Fixpoint level_after2 (nt : nat) (ts : Z) (b : bool) : bool :=
    match nt with
    | O => b
    | S n => level_after2 n (ts + 1) (lev b (passes (s_nit r) (s_freq r) ts))
    end.
End Run.
