(** The 1D solver as a function on fields: what one time step computes, with
    no arrays, threads, time levels or halos - only fields on the integers and
    a map telling where values outside the domain come from.

    This is the reference the programs of Solver1D.v are proved against
    (ProofsFun1D.v); the numerical properties are proved for these functions. *)
From Coq Require Import ZArith List Bool.
From Verif Require Import ModelRun Lang Stencil FormCommon Form1D Solver1D.
Import ListNotations.
Local Open Scope Z_scope.

Section Fun.
  Variable ar : arith.
  Notation V := (car ar).
  Notation fld := (Z -> car ar).

  (** value of a stencil expression at [x] *)
  Definition evx (g : arr -> fld) (e : sexpr) (x : Z) : V :=
    ev ar (fun ao => g (fst ao) (x + comp DX (snd ao))) e.

  Variable o : fl.
  Variable sp : sptl.
  Variable tp : tmprl.
  Notation F := (forms1 o sp tp).

  (** antidiffusive velocity at the faces *)
  Definition antiF (psi C G N T : fld) : fld :=
    evx (fun a => match a with Psi _ => psi | GC _ => C | NdtGC _ => N | NdttGC _ => T | _ => G end)
        (f_antidiff F DX (Psi false) (Psi true) GC).
  (** upstream fluxes *)
  Definition fluxF (psi C : fld) : fld :=
    evx (fun a => match a with Psi _ => psi | _ => C end) (f_flux F DX (Psi false) (GC DX)).
  (** local extrema *)
  Definition minF (psi : fld) : fld := evx (fun _ => psi) (f_min F (Psi false)).
  Definition maxF (psi : fld) : fld := evx (fun _ => psi) (f_max F (Psi false)).
  (** limiters *)
  Definition bupF (psi mx phi G : fld) : fld :=
    evx (fun a => match a with Psi _ => psi | PsiMax => mx | Flux _ => phi | _ => G end) (f_bup F (Psi false) Flux).
  Definition bdnF (psi mn phi G : fld) : fld :=
    evx (fun a => match a with Psi _ => psi | PsiMin => mn | Flux _ => phi | _ => G end) (f_bdn F (Psi false) Flux).
  Definition monoF (psi C up dn : fld) : fld :=
    evx (fun a => match a with Psi _ => psi | BetaUp => up | BetaDn => dn | _ => C end) (f_mono F DX (Psi false) (GC DX)).
  (** donor-cell sum *)
  Definition kadd (sc : V * V) (t : V) : V * V :=
    let y := abin ar Sub t (snd sc) in
    let s := abin ar Add (fst sc) y in
    (s, abin ar Sub (abin ar Sub s (fst sc)) y).
  Definition sumF (psi phi G : fld) : fld := fun x =>
    let env := fun a => match a with Psi _ => psi | Flux _ => phi | _ => G end in
    if khn o
    then fst (fold_left kadd (map (fun e => evx env e x) (f_terms F (Psi false) Flux))
                (acst ar (CQ 0 1), acst ar (CQ 0 1)))
    else evx env (f_sum F (Psi false) Flux) x.

  (** where values outside the domain come from: cells; faces (with or without
      the [ad] flag of the exchange) *)
  Variable rs : Z -> Z.
  Variable rv : bool -> Z -> Z.

  (** fields that do not change: advector, G factor, time derivatives of the advector *)
  Record fixed := { xC : fld; xG : fld; xN : fld; xT : fld }.
  Variable X : fixed.

  (** first pass *)
  Definition upF (psi : fld) : fld := sumF psi (fluxF psi (xC X)) (xG X).

  (** corrective pass: [psi] with its halo, advector [C] of the previous pass,
      extrema [mn], [mx]; gives the new advectee and the new advector *)
  Definition corrF (last : bool) (psi C : fld) : fld :=
    let c := antiF psi C (xG X) (xN X) (xT X) in
    if fct o then fun x => c (rv true x)
    else if dfl o && negb last then fun x => c (rv false x) else c.
  Definition limF (psi c mn mx : fld) : fld :=
    if fct o then
      let phi := if iga o then c else fluxF psi c in
      monoF psi c (bupF psi mx phi (xG X)) (bdnF psi mn phi (xG X))
    else c.
  Definition finF (psi c : fld) : fld := sumF psi (if iga o then c else fluxF psi c) (xG X).

  Fixpoint passesF (nit : nat) (mn mx : fld) (j more : nat) (psi C : fld) : fld :=
    match more with
    | O => psi
    | S m =>
        let p := fun x => psi (rs x) in
        let c := corrF (Nat.eqb (S j) nit) p C in
        passesF nit mn mx (S j) m (finF p (limF p c mn mx)) c
    end.

  Definition scaleF (ex : Z) (psi : fld) : fld := fun x =>
    if ex =? 0 then psi x
    else if 0 <? ex then abin ar Div (psi x) (acst ar (CQ (2 ^ ex) 1))
    else abin ar Mul (psi x) (acst ar (CQ (2 ^ (- ex)) 1)).

  (** one step with [k] passes *)
  Definition stepF (nit k : nat) (ex : Z) (psi : fld) : fld :=
    let p := fun x => scaleF ex psi (rs x) in
    scaleF (- ex) (passesF nit (minF p) (maxF p) 1 (k - 1) (upF p) (xC X)).

  (** [nt] steps starting at time step [ts]; every [freq]-th step is upwind only *)
  Fixpoint stepsF (nit : nat) (freq ex : Z) (nt : nat) (ts : Z) (psi : fld) : fld :=
    match nt with
    | O => psi
    | S n => stepsF nit freq ex n (ts + 1) (stepF nit (passes nit freq ts) ex psi)
    end.
End Fun.

(** the fields as they are when time stepping starts: advector and G factor with
    filled halos, no time derivatives of the advector (mpdata_osc_1d.hpp:37-55) *)
Definition anteF (ar : arith) (rs : Z -> Z) (rv : bool -> Z -> Z) (o : fl) (C G N T : Z -> car ar) : fixed ar :=
  let z := fun _ : Z => acst ar (CQ 0 1) in
  {| xC := fun x => C (rv false x);
     xG := if nug o then fun x => G (rs x) else G;
     xN := if div3dt o || div3 o then z else N;
     xT := if div3dt o || div3 o then z else T |}.
