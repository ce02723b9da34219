(** MPDATA as in the literature (Smolarkiewicz 1984; Smolarkiewicz and
    Grabowski 1990 for flux correction; Smolarkiewicz and Clark 1986 for the
    infinite-gauge variant), in one dimension, for fields on the integers.
    Written without reference to the code. *)
From Coq Require Import ZArith Reals.
Local Open Scope R_scope.

Section Mpdata.
  Variables G C : Z -> R.          (* density, Courant numbers: [C i] is at the face between cells [i] and [i+1] *)
  Variables iga fct pfc : bool.    (* infinite gauge; flux correction; which guard against division by zero *)
  Variables eps tiny : R.
  Notation field := (Z -> R).

  (** what is carried through a face by Courant number [c] *)
  Definition upstream (l r c : R) : R := if Rle_dec 0 c then c * l else c * r.
  Definition fluxes (psi c : field) (i : Z) : R := upstream (psi i) (psi (i + 1)%Z) (c i).
  Definition advect (psi phi : field) (i : Z) : R := psi i - (phi i - phi (i - 1)%Z) / G i.

  Definition quot (a b : R) : R :=
    if pfc then if Req_EM_T b 0 then 0 else a / b else a / (b + tiny).
  (** pseudo velocity *)
  Definition pseudo (psi c : field) (i : Z) : R :=
    (Rabs (c i) - c i * c i / ((G i + G (i + 1)%Z) / 2)) *
    (if iga then (psi (i + 1)%Z - psi i) / 2
     else quot (psi (i + 1)%Z - psi i) (psi (i + 1)%Z + psi i)).
  Definition corrective (psi c : field) : field := if iga then c else fluxes psi c.

  (** limiters; [old] is the advectee before the step *)
  Definition max3 (f : field) (i : Z) : R := Rmax (Rmax (f (i - 1)%Z) (f i)) (f (i + 1)%Z).
  Definition min3 (f : field) (i : Z) : R := Rmin (Rmin (f (i - 1)%Z) (f i)) (f (i + 1)%Z).
  Definition inflow (phi : field) (i : Z) : R := Rmax 0 (phi (i - 1)%Z) - Rmin 0 (phi i).
  Definition outflow (phi : field) (i : Z) : R := Rmax 0 (phi i) - Rmin 0 (phi (i - 1)%Z).
  Definition room_up (old psi phi : field) (i : Z) : R :=
    (Rmax (max3 old i) (max3 psi i) - psi i) * G i / (inflow phi i + eps).
  Definition room_dn (old psi phi : field) (i : Z) : R :=
    (psi i - Rmin (min3 old i) (min3 psi i)) * G i / (outflow phi i + eps).
  Definition limited (old psi c : field) (i : Z) : R :=
    let phi := corrective psi c in
    c i * (if Rlt_dec 0 (c i)
           then Rmin 1 (Rmin (room_dn old psi phi i) (room_up old psi phi (i + 1)%Z))
           else Rmin 1 (Rmin (room_up old psi phi i) (room_dn old psi phi (i + 1)%Z))).

  (** [k] corrective passes *)
  Fixpoint corrections (k : nat) (old psi c : field) : field :=
    match k with
    | O => psi
    | S k => let c' := pseudo psi c in
             let v := if fct then limited old psi c' else c' in
             corrections k old (advect psi (corrective psi v)) c'
    end.
  (** one time step with [n] passes *)
  Definition mpdata_step (n : nat) (psi : field) : field :=
    corrections (n - 1) psi (advect psi (fluxes psi C)) C.
  Fixpoint mpdata (n nt : nat) (psi : field) : field :=
    match nt with O => psi | S k => mpdata n k (mpdata_step n psi) end.
End Mpdata.
