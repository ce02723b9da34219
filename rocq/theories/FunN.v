(** The solver as a function on fields over the whole lattice, in any number of
    dimensions: what one time step computes, with no arrays, threads, time
    levels or halos.  [F] are the formulae (forms2, ...).

    This is the reference the lattice executions of the programs are proved
    against (ProofsFunN.v); the numerical properties are proved for these
    functions. *)
From Coq Require Import ZArith List Bool.
From Verif Require Import ModelRun Lang Stencil FormCommon Solver1D Fun1D.
Import ListNotations.
Local Open Scope Z_scope.

Section Fun.
  Variable ar : arith.
  Notation V := (car ar).
  Notation fld := (idx -> car ar).
  Notation vec := (dim -> idx -> car ar).

  (** value of a stencil expression at [x] *)
  Definition evd (g : arr -> fld) (e : sexpr) (x : idx) : V :=
    ev ar (fun ao => g (fst ao) (iadd x (snd ao))) e.

  Variable o : fl.
  Variable F : forms.

  (** antidiffusive velocity at the faces; [psin]: field of the previous pass *)
  Definition antiN (psi psin : fld) (C : vec) (G : fld) (N T : vec) : vec := fun d =>
    evd (fun a => match a with Psi false => psi | Psi true => psin | GC d => C d | NdtGC d => N d | NdttGC d => T d | _ => G end)
        (f_antidiff F d (Psi false) (Psi true) GC).
  (** upstream fluxes *)
  Definition fluxN (psi : fld) (C : vec) : vec := fun d =>
    evd (fun a => match a with Psi _ => psi | _ => C d end) (f_flux F d (Psi false) (GC d)).
  (** local extrema *)
  Definition minN (psi : fld) : fld := evd (fun _ => psi) (f_min F (Psi false)).
  Definition maxN (psi : fld) : fld := evd (fun _ => psi) (f_max F (Psi false)).
  (** limiters *)
  Definition bupN (psi mx : fld) (phi : vec) (G : fld) : fld :=
    evd (fun a => match a with Psi _ => psi | PsiMax => mx | Flux d => phi d | _ => G end) (f_bup F (Psi false) Flux).
  Definition bdnN (psi mn : fld) (phi : vec) (G : fld) : fld :=
    evd (fun a => match a with Psi _ => psi | PsiMin => mn | Flux d => phi d | _ => G end) (f_bdn F (Psi false) Flux).
  Definition monoN (psi : fld) (C : vec) (up dn : fld) : vec := fun d =>
    evd (fun a => match a with Psi _ => psi | BetaUp => up | BetaDn => dn | _ => C d end) (f_mono F d (Psi false) (GC d)).
  (** donor-cell sum *)
  Definition sumN (psi : fld) (phi : vec) (G : fld) : fld := fun x =>
    let env := fun a => match a with Psi _ => psi | Flux d => phi d | _ => G end in
    if khn o
    then fst (fold_left (kadd ar) (map (fun e => evd env e x) (f_terms F (Psi false) Flux))
                (acst ar (CQ 0 1), acst ar (CQ 0 1)))
    else evd env (f_sum F (Psi false) Flux) x.

  (** fields that do not change: advector, G factor, time derivatives of the advector *)
  Record fixedN := { nC : vec; nG : fld; nN : vec; nT : vec }.
  Variable X : fixedN.

  (** first pass *)
  Definition upN (psi : fld) : fld := sumN psi (fluxN psi (nC X)) (nG X).

  (** corrective pass *)
  Definition corrN (psi psin : fld) (C : vec) : vec := antiN psi psin C (nG X) (nN X) (nT X).
  Definition limN (psi : fld) (c : vec) (mn mx : fld) : vec :=
    if fct o then
      let phi := if iga o then c else fluxN psi c in
      monoN psi c (bupN psi mx phi (nG X)) (bdnN psi mn phi (nG X))
    else c.
  Definition finN (psi : fld) (c : vec) : fld := sumN psi (if iga o then c else fluxN psi c) (nG X).

  Fixpoint passesN (mn mx : fld) (more : nat) (psin psi : fld) (C : vec) : fld :=
    match more with
    | O => psi
    | S m => let c := corrN psi psin C in passesN mn mx m psi (finN psi (limN psi c mn mx)) c
    end.

  Definition scaleN (ex : Z) (psi : fld) : fld := fun x =>
    if ex =? 0 then psi x
    else if 0 <? ex then abin ar Div (psi x) (acst ar (CQ (2 ^ ex) 1))
    else abin ar Mul (psi x) (acst ar (CQ (2 ^ (- ex)) 1)).

  (** one step with [k] passes *)
  Definition stepN (k : nat) (ex : Z) (psi : fld) : fld :=
    let p := scaleN ex psi in
    scaleN (- ex) (passesN (minN p) (maxN p) (k - 1) p (upN p) (nC X)).

  (** [nt] steps starting at time step [ts]; every [freq]-th step is upwind only *)
  Fixpoint stepsN (nit : nat) (freq ex : Z) (nt : nat) (ts : Z) (psi : fld) : fld :=
    match nt with
    | O => psi
    | S n => stepsN nit freq ex n (ts + 1) (stepN (passes nit freq ts) ex psi)
    end.
End Fun.
