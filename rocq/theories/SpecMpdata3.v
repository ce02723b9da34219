(** MPDATA in three dimensions as in the literature (Smolarkiewicz 1984;
    Smolarkiewicz and Grabowski 1990 for flux correction; Smolarkiewicz and
    Clark 1986 for the infinite-gauge variant), for fields on triples of
    integers.  Written without reference to the code. *)
From Coq Require Import ZArith Reals.
From Verif Require Import Lang Stencil SpecMpdata.
Local Open Scope R_scope.

Section Mpdata.
  Notation point := (Z * Z * Z)%type.
  Notation field := (point -> R).
  Notation vector := (dim -> point -> R).
  Variable G : field.              (* density *)
  Variable C : vector.             (* Courant numbers at the face between a cell and the next one along each axis *)
  Variables iga fct pfc : bool.    (* infinite gauge; flux correction; which guard against division by zero *)
  Variables eps tiny : R.

  (** the cell [k] further along axis [d] *)
  Definition move (d : dim) (k : Z) (x : point) : point :=
    match d, x with
    | DX, (i, j, l) => ((i + k)%Z, j, l)
    | DY, (i, j, l) => (i, (j + k)%Z, l)
    | DZ, (i, j, l) => (i, j, (l + k)%Z)
    end.
  Notation next d := (move d 1).
  Notation prev d := (move d (-1)).

  Definition fluxes (psi : field) (c : vector) : vector := fun d x => upstream (psi x) (psi (next d x)) (c d x).
  Definition advect3 (psi : field) (f : vector) : field := fun x =>
    psi x - ((f DX x - f DX (prev DX x)) + (f DY x - f DY (prev DY x)) + (f DZ x - f DZ (prev DZ x))) / G x.

  (** pseudo velocities: [d] along, [e] across *)
  Notation quot := (quot pfc tiny).
  Definition density (d : dim) (x : point) : R := (G x + G (next d x)) / 2.
  Definition across (c : vector) (d e : dim) (x : point) : R :=
    (c e x + c e (next d x) + c e (prev e x) + c e (next d (prev e x))) / 4.
  Definition slope_along (psi : field) (d : dim) (x : point) : R :=
    if iga then (psi (next d x) - psi x) / 2 else quot (psi (next d x) - psi x) (psi (next d x) + psi x).
  Definition slope_across (psi : field) (d e : dim) (x : point) : R :=
    let ahead := psi (next e x) + psi (next d (next e x)) in
    let behind := psi (prev e x) + psi (next d (prev e x)) in
    if iga then (ahead - behind) / 8 else quot (ahead - behind) (ahead + behind) / 2.
  Definition pseudo1 (psi : field) (c : vector) (d e e' : dim) (x : point) : R :=
    let u := c d x in
    (Rabs u - u * u / density d x) * slope_along psi d x
    - u * across c d e x / density d x * slope_across psi d e x
    - u * across c d e' x / density d x * slope_across psi d e' x.
  Definition pseudo3 (psi : field) (c : vector) : vector := fun d =>
    match d with DX => pseudo1 psi c DX DY DZ | DY => pseudo1 psi c DY DX DZ | DZ => pseudo1 psi c DZ DX DY end.
  Definition correct3 (psi : field) (c : vector) : vector := if iga then c else fluxes psi c.

  (** limiters; [old] is the advectee before the step *)
  Definition max7 (f : field) (x : point) : R :=
    Rmax (f x) (Rmax (Rmax (f (prev DX x)) (f (next DX x))) (Rmax (Rmax (f (prev DY x)) (f (next DY x))) (Rmax (f (prev DZ x)) (f (next DZ x))))).
  Definition min7 (f : field) (x : point) : R :=
    Rmin (f x) (Rmin (Rmin (f (prev DX x)) (f (next DX x))) (Rmin (Rmin (f (prev DY x)) (f (next DY x))) (Rmin (f (prev DZ x)) (f (next DZ x))))).
  Definition in1 (f : vector) (x : point) (d : dim) : R := Rmax 0 (f d (prev d x)) - Rmin 0 (f d x).
  Definition out1 (f : vector) (x : point) (d : dim) : R := Rmax 0 (f d x) - Rmin 0 (f d (prev d x)).
  Definition up3 (old psi : field) (f : vector) (x : point) : R :=
    (Rmax (max7 old x) (max7 psi x) - psi x) * G x / (in1 f x DX + in1 f x DY + in1 f x DZ + eps).
  Definition dn3 (old psi : field) (f : vector) (x : point) : R :=
    (psi x - Rmin (min7 old x) (min7 psi x)) * G x / (out1 f x DX + out1 f x DY + out1 f x DZ + eps).
  Definition limited3 (old psi : field) (c : vector) : vector := fun d x =>
    let up := up3 old psi (correct3 psi c) in
    let dn := dn3 old psi (correct3 psi c) in
    c d x * (if Rlt_dec 0 (c d x) then Rmin 1 (Rmin (dn x) (up (next d x))) else Rmin 1 (Rmin (up x) (dn (next d x)))).

  (** [k] corrective passes *)
  Fixpoint corrections3 (k : nat) (old psi : field) (c : vector) : field :=
    match k with
    | O => psi
    | S k => let c' := pseudo3 psi c in
             let v := if fct then limited3 old psi c' else c' in
             corrections3 k old (advect3 psi (correct3 psi v)) c'
    end.
  (** one time step with [n] passes *)
  Definition mpdata3_step (n : nat) (psi : field) : field :=
    corrections3 (n - 1) psi (advect3 psi (fluxes psi C)) C.
  Fixpoint mpdata3 (n nt : nat) (psi : field) : field :=
    match nt with O => psi | S k => mpdata3 n k (mpdata3_step n psi) end.
End Mpdata.
