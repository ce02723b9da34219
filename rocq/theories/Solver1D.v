(** The one-dimensional MPDATA solver with constant advector as a program:
    solvers/detail/solver_common.hpp, solver_1d.hpp, mpdata_osc_1d.hpp,
    mpdata_fct_1d.hpp, bcond/cyclic_1d.hpp, bcond/open_1d.hpp.

    Not modelled: right-hand sides and user hooks (empty here), adaptive time
    step, MPI.  Both the plain and the FCT class hierarchy are covered by the
    [fct] option. *)

From Coq Require Import ZArith List Bool.
From Verif Require Import ModelIndex ModelRun Lang Stencil FormCommon Form1D.
Import ListNotations.
Local Open Scope Z_scope.

(** ** Statements over one-dimensional ranges *)
Definition at1 (a : arr) (r : rdesc) (e : sexpr) : tdesc :=
  {| t_arr := a; t_x := r; t_y := Ext 0 0; t_z := Ext 0 0; t_exp := e |}.

(** the subdomain's [i]; [im] = (i.first - 1, i.last) (mpdata_osc_1d.hpp:158);
    [i^1]; [im^1] (mpdata_fct_1d.hpp:54-55) *)
Definition rI : rdesc := Ext 0 0.
Definition rIM : rdesc := Ext 1 0.
Definition rI1 : rdesc := Ext 1 1.
Definition rIM1 : rdesc := Ext 2 1.

(** ** The formulae of Form1D.v collected *)
Definition forms1 (o : fl) (sp : sptl) (tp : tmprl) : forms := {|
  f_antidiff := fun _ psi _ gc => antidiff o sp tp psi (gc DX) (NdtGC DX) (NdttGC DX) 0;
  f_flux := fun _ psi gc => make_flux o psi gc 0;
  (* mpdata_fct_1d.hpp:38-39 *)
  f_min := fun psi => smin (smin (P psi (-1)) (P psi 0)) (P psi 1);
  f_max := fun psi => smax (smax (P psi (-1)) (P psi 0)) (P psi 1);
  f_bup := fun psi flx => beta_up o psi PsiMax (flx DX) 0;
  f_bdn := fun psi flx => beta_dn o psi PsiMin (flx DX) 0;
  f_mono := fun _ psi gc => GC_mono o psi BetaUp BetaDn gc 0;
  (* donorcell_formulae.hpp:80-104 *)
  f_sum := fun psi flx => (P psi 0 + ((- V (flx DX) 0) + V (flx DX) (-1)) / G1 o 0)%s;
  f_terms := fun psi flx => [ P psi 0; ((- V (flx DX) 0) / G1 o 0)%s; (V (flx DX) (-1) / G1 o 0)%s ]
|}.

Section Solver.
  Variable o : fl.
  Variable F : forms.

  (** ** One pass of the loop of mpdata_osc_1d.hpp:60-117.
      [unco], [corr]: GC_unco(iter), GC_corr(iter); [psi]: psi[n]; [psi']: psi[n+1];
      [first]: iter == 0; [last]: iter == n_iters - 1. *)

  (** donorcell_sum over ijk: donorcell_formulae.hpp:80-104 *)
  Definition sum1 (psi psi' : arr) (flx : dim -> arr) : list minstr :=
    if khn o then
      map MDo (kahan_zro (fun a e => at1 a rI e) psi' ++
               flat_map (kahan_add (fun a e => at1 a rI e) psi') (f_terms F psi flx))
    else [ MDo (at1 psi' rI (f_sum F psi flx)) ].

  (** mpdata_fct_1d.hpp:30-40 *)
  Definition fct_init1 (psi : arr) : list minstr :=
    if fct o then [ MDo (at1 PsiMin rI1 (f_min F psi)); MDo (at1 PsiMax rI1 (f_max F psi)) ] else [].

  (** mpdata_fct_1d.hpp:42-85, mpdata_fct_common.hpp:39-43 *)
  Definition fct_adjust1 (psi : arr) (corr : dim -> arr) : list minstr :=
    if fct o then
      [ MXVA corr true ] ++
      (if iga o then [] else [ MDo (at1 (Flux DX) rIM1 (f_flux F DX psi (corr DX))) ]) ++
      (let flx := if iga o then corr else Flux in
       [ MDo (at1 BetaUp rI1 (f_bup F psi flx)); MDo (at1 BetaDn rI1 (f_bdn F psi flx)) ]) ++
      (if iga o then [] else [ MBar ]) ++
      [ MDo (at1 (Mono DX) rIM (f_mono F DX psi (corr DX))) ]
    else [].

  (** mpdata_osc_1d.hpp:88-110 *)
  Definition upstream1 (psi psi' : arr) : list minstr :=
    MDo (at1 (Flux DX) rIM (f_flux F DX psi (GC DX))) :: sum1 psi psi' Flux.

  (** mpdata_osc_1d.hpp:67-85 then 88-110, for iter > 0 *)
  Definition corrective1 (psi psi' : arr) (unco corr : dim -> arr) (last : bool) : list minstr :=
    [ MDo (at1 (corr DX) rIM (f_antidiff F DX psi psi' unco)) ] ++
    (if dfl o && negb last && negb (fct o) then [ MXVA corr false ] else []) ++
    fct_adjust1 psi corr ++
    (let gc := if fct o then Mono else corr in
     if iga o then sum1 psi psi' gc
     else MDo (at1 (Flux DX) rIM (f_flux F DX psi (gc DX))) :: sum1 psi psi' Flux).

  (** solver_common.hpp:373-380 [scale] *)
  Definition scale1 (psi : arr) (ex : Z) : list minstr :=
    if ex =? 0 then []
    else if 0 <? ex then [ MDo (at1 psi rI (Leaf (psi, izero) / q (2 ^ ex))%s) ]
    else [ MDo (at1 psi rI (Leaf (psi, izero) * q (2 ^ (- ex)))%s) ].

  (** mem->cycle of the last equation: sharedmem.hpp:82-87 *)
  Definition cyc_bars (lasteq : bool) : list minstr := if lasteq then [ MBar; MBar ] else [].

  (** time level used in pass [j] when the step starts at level [b] *)
  Definition lev (b : bool) (j : nat) : bool := xorb b (Nat.odd j).

  (** passes [j], ..., [j + more - 1], all with [j > 0] *)
  Fixpoint passes1 (nit : nat) (lasteq : bool) (b : bool) (j more : nat) : list minstr :=
    match more with
    | O => []
    | S m =>
        cyc_bars lasteq ++ [ MXS (Psi (lev b j)) 0 ] ++
        corrective1 (Psi (lev b j)) (Psi (lev b (S j))) (GC_unco j) (GC_corr j) (Nat.eqb (S j) nit) ++
        passes1 nit lasteq b (S j) m
    end.

  (** solver_common.hpp:127-136 [solve_loop_body]: [k] passes starting at level [b] *)
  Definition body1 (nit k : nat) (ex : Z) (lasteq b : bool) : list minstr :=
    scale1 (Psi b) ex ++
    [ MXS (Psi b) 0 ] ++
    fct_init1 (Psi b) ++ upstream1 (Psi b) (Psi (lev b 1)) ++
    passes1 nit lasteq b 1 (k - 1) ++
    (if lasteq then [] else [ MBar ]) ++ cyc_bars lasteq ++
    scale1 (Psi (lev b k)) (- ex).

  (** solver_common.hpp:191-211 and mpdata_osc_1d.hpp:37-55 [hook_ante_loop],
      var_dt = false; with the barriers of solve() (solver_common.hpp:279-286) *)
  Definition ante1 : list minstr :=
    [ MBar; MXVA GC false ] ++
    (if nug o then [ MXS Gf 0 ] else []) ++
    (if div3dt o || div3 o then
       [ MDo (at1 (NdtGC DX) rIM (q 0)); MDo (at1 (NdttGC DX) rIM (q 0));
         MXVA NdtGC false; MXVA NdttGC false ] else []) ++
    [ MBar ].
End Solver.

(** ** Halo exchanges *)
Inductive bcond := Cyclic | Open.

Section Exchange.
  Variable hl : Z.             (* halo *)
  Variable per : Z.            (* last - first of the grid *)
  Variables bl br : bcond.     (* conditions at the two edges *)

  (** ranges: bcond/detail/bcond_common.hpp:259-284;
      cyclic_1d.hpp:30-38,76-84; open_1d.hpp:30-46,66-82.
      [a(left_halo_sclr) = a(rght_intr_sclr)] etc. *)
  Definition fill_sclr_left (a : arr) : list tdesc :=
    match bl with
    | Cyclic => [ at1 a (AtFirst (- hl) (-1)) (Leaf (a, x1 per)) ]
    | Open => map (fun k => at1 a (AtFirst k k) (Leaf (a, x1 (- k)))) (zseq (- hl, -1))
    end.
  Definition fill_sclr_rght (a : arr) : list tdesc :=
    match br with
    | Cyclic => [ at1 a (AtLast 1 hl) (Leaf (a, x1 (- per))) ]
    | Open => map (fun k => at1 a (AtLast k k) (Leaf (a, x1 (- k)))) (zseq (1, hl))
    end.
  (** [for i in left_halo_vctr.first() .. left_halo_vctr.last() - ad: av(i) = av(left_intr_vctr.first())] *)
  Definition fill_vctr_left (a : arr) (ad : bool) : list tdesc :=
    match bl with
    | Cyclic => [ at1 a (AtFirst (- hl) (-1)) (Leaf (a, x1 per)) ]
    | Open => map (fun k => at1 a (AtFirst k k) (Leaf (a, x1 (- k))))
                  (zseq (- hl, -1 - (if ad then 1 else 0)))
    end.
  (** [for i in rght_halo_vctr.first() + ad .. rght_halo_vctr.last(): av(i) = av(rght_intr_vctr.first())],
      rght_halo_vctr = (last, last + halo - 1), rght_intr_vctr.first() = last - halo *)
  Definition fill_vctr_rght (a : arr) (ad : bool) : list tdesc :=
    match br with
    | Cyclic => [ at1 a (AtLast 0 (hl - 1)) (Leaf (a, x1 (- per))) ]
    | Open => map (fun k => at1 a (AtLast k k) (Leaf (a, x1 (- hl - k))))
                  (zseq (if ad then 1 else 0, hl - 1))
    end.

  (** solver_1d.hpp:43-85: barrier; for both conditions (the right one comes
      first, set_bcs in solver_common.hpp:104-115): fill and barrier; barrier *)
  Definition exchange1 (fr fl : list tdesc) : list tinstr :=
    [ TBar ] ++ map TDo fr ++ [ TBar ] ++ map TDo fl ++ [ TBar; TBar ].

  Definition expand1 (i : minstr) : list tinstr :=
    match i with
    | MDo s => [ TDo s ]
    | MBar => [ TBar ]
    | MXS a _ => exchange1 (fill_sclr_rght a) (fill_sclr_left a)
    | MXVA v ad => exchange1 (fill_vctr_rght (v DX) ad) (fill_vctr_left (v DX) ad)
    | MXVN _ _ | MXF _ => exchange1 [] []   (* do not occur: solver_1d.hpp has neither *)
    end.
End Exchange.

(** ** The whole run *)
Record run1 := {
  r_o : fl; r_sp : sptl; r_tp : tmprl;
  r_cfg : cfg;                       (* n_eqns, delayed_step *)
  r_nit : nat; r_freq : Z;           (* rt_params: n_iters, upwind_filter_freq *)
  r_scale : nat -> Z;                (* ct_params: hint_scale *)
  r_bl : bcond; r_br : bcond;
  r_lo : Z; r_hi : Z                 (* the grid *)
}.

Section Run.
  Variable r : run1.
  Definition r_forms : forms := forms1 (r_o r) (r_sp r) (r_tp r).
  Definition r_halo : Z := halo (r_o r).

  Definition expand_eq (e : nat) (p : list minstr) : list dinstr :=
    map (inst_i e) (flat_map (expand1 r_halo (r_hi r - r_lo r) (r_bl r) (r_br r)) p).

  (** one equation loop of the time step (solver_common.hpp:326-330, 334-338) *)
  Fixpoint eqs_prog (k : nat) (es : list nat) (lv : nat -> bool) : list dinstr :=
    match es with
    | [] => []
    | e :: es' =>
        expand_eq e (body1 (r_o r) r_forms (r_nit r) k (r_scale r e) (is_last_eqn (r_cfg r) e) (lv e)) ++
        eqs_prog k es' (upd lv e (lev (lv e) k))
    end.

  Definition eq_order : list nat := plain_eqns (r_cfg r) ++ delayed_eqns (r_cfg r).

  (** [nt] steps starting at [timestep = ts]; [lv e]: time level of equation [e] *)
  Fixpoint steps_prog (nt : nat) (ts : Z) (lv : nat -> bool) : list dinstr :=
    match nt with
    | O => []
    | S n =>
        let k := passes (r_nit r) (r_freq r) ts in
        [ DBar ] ++ eqs_prog k eq_order lv ++
        steps_prog n (ts + 1) (fun e => if existsb (Nat.eqb e) eq_order then lev (lv e) k else lv e)
    end.

  (** advance(nt) on a fresh solver: concurr_common.hpp:380-385, solver_common.hpp:270-356 *)
  Definition run_prog1 (nt : nat) : list dinstr :=
    expand_eq 0 (ante1 (r_o r)) ++ steps_prog nt 0 (fun _ => false) ++ [ DBar ].

  (** time level of equation [e] after [nt] steps *)
  Fixpoint level_after (nt : nat) (ts : Z) (b : bool) : bool :=
    match nt with
    | O => b
    | S n => level_after n (ts + 1) (lev b (passes (r_nit r) (r_freq r) ts))
    end.
End Run.
