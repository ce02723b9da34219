(** MPDATA in two dimensions as in the literature (Smolarkiewicz 1984;
    Smolarkiewicz and Grabowski 1990 for flux correction; Smolarkiewicz and
    Clark 1986 for the infinite-gauge variant), for fields on pairs of integers.
    Written without reference to the code. *)
From Coq Require Import ZArith Reals.
From Verif Require Import SpecMpdata.
Local Open Scope R_scope.

Section Mpdata.
  Notation field := (Z -> Z -> R).
  Variables G Cx Cy : field.       (* density; Courant numbers at the faces between (i, j) and (i+1, j), (i, j+1) *)
  Variables iga fct pfc : bool.    (* infinite gauge; flux correction; which guard against division by zero *)
  Variables eps tiny : R.

  Definition fluxes_x (psi c : field) : field := fun i j => upstream (psi i j) (psi (i + 1)%Z j) (c i j).
  Definition fluxes_y (psi c : field) : field := fun i j => upstream (psi i j) (psi i (j + 1)%Z) (c i j).
  Definition advect2 (psi fx fy : field) : field := fun i j =>
    psi i j - (fx i j - fx (i - 1)%Z j + (fy i j - fy i (j - 1)%Z)) / G i j.

  (** pseudo velocities *)
  Notation quot := (quot pfc tiny).
  Definition pseudo_x (psi cx cy : field) : field := fun i j =>
    let u := cx i j in
    let v := (cy i j + cy (i + 1)%Z j + cy i (j - 1)%Z + cy (i + 1)%Z (j - 1)%Z) / 4 in
    let g := (G i j + G (i + 1)%Z j) / 2 in
    let north := psi i (j + 1)%Z + psi (i + 1)%Z (j + 1)%Z in
    let south := psi i (j - 1)%Z + psi (i + 1)%Z (j - 1)%Z in
    if iga
    then (Rabs u - u * u / g) * ((psi (i + 1)%Z j - psi i j) / 2) - u * v / g * ((north - south) / 8)
    else (Rabs u - u * u / g) * quot (psi (i + 1)%Z j - psi i j) (psi (i + 1)%Z j + psi i j)
         - u * v / g * (quot (north - south) (north + south) / 2).
  Definition pseudo_y (psi cx cy : field) : field := fun i j =>
    let v := cy i j in
    let u := (cx i j + cx i (j + 1)%Z + cx (i - 1)%Z j + cx (i - 1)%Z (j + 1)%Z) / 4 in
    let g := (G i j + G i (j + 1)%Z) / 2 in
    let east := psi (i + 1)%Z j + psi (i + 1)%Z (j + 1)%Z in
    let west := psi (i - 1)%Z j + psi (i - 1)%Z (j + 1)%Z in
    if iga
    then (Rabs v - v * v / g) * ((psi i (j + 1)%Z - psi i j) / 2) - u * v / g * ((east - west) / 8)
    else (Rabs v - v * v / g) * quot (psi i (j + 1)%Z - psi i j) (psi i (j + 1)%Z + psi i j)
         - u * v / g * (quot (east - west) (east + west) / 2).
  Definition correct_x (psi c : field) : field := if iga then c else fluxes_x psi c.
  Definition correct_y (psi c : field) : field := if iga then c else fluxes_y psi c.

  (** limiters; [old] is the advectee before the step *)
  Definition max5 (f : field) (i j : Z) : R :=
    Rmax (f i j) (Rmax (Rmax (f (i - 1)%Z j) (f (i + 1)%Z j)) (Rmax (f i (j - 1)%Z) (f i (j + 1)%Z))).
  Definition min5 (f : field) (i j : Z) : R :=
    Rmin (f i j) (Rmin (Rmin (f (i - 1)%Z j) (f (i + 1)%Z j)) (Rmin (f i (j - 1)%Z) (f i (j + 1)%Z))).
  Definition inflow2 (fx fy : field) (i j : Z) : R :=
    Rmax 0 (fx (i - 1)%Z j) - Rmin 0 (fx i j) + (Rmax 0 (fy i (j - 1)%Z) - Rmin 0 (fy i j)).
  Definition outflow2 (fx fy : field) (i j : Z) : R :=
    Rmax 0 (fx i j) - Rmin 0 (fx (i - 1)%Z j) + (Rmax 0 (fy i j) - Rmin 0 (fy i (j - 1)%Z)).
  Definition up2 (old psi fx fy : field) (i j : Z) : R :=
    (Rmax (max5 old i j) (max5 psi i j) - psi i j) * G i j / (inflow2 fx fy i j + eps).
  Definition dn2 (old psi fx fy : field) (i j : Z) : R :=
    (psi i j - Rmin (min5 old i j) (min5 psi i j)) * G i j / (outflow2 fx fy i j + eps).
  Definition limited_x (old psi cx cy : field) : field := fun i j =>
    let up := up2 old psi (correct_x psi cx) (correct_y psi cy) in
    let dn := dn2 old psi (correct_x psi cx) (correct_y psi cy) in
    cx i j * (if Rlt_dec 0 (cx i j) then Rmin 1 (Rmin (dn i j) (up (i + 1)%Z j)) else Rmin 1 (Rmin (up i j) (dn (i + 1)%Z j))).
  Definition limited_y (old psi cx cy : field) : field := fun i j =>
    let up := up2 old psi (correct_x psi cx) (correct_y psi cy) in
    let dn := dn2 old psi (correct_x psi cx) (correct_y psi cy) in
    cy i j * (if Rlt_dec 0 (cy i j) then Rmin 1 (Rmin (dn i j) (up i (j + 1)%Z)) else Rmin 1 (Rmin (up i j) (dn i (j + 1)%Z))).

  (** [k] corrective passes *)
  Fixpoint corrections2 (k : nat) (old psi cx cy : field) : field :=
    match k with
    | O => psi
    | S k => let cx' := pseudo_x psi cx cy in
             let cy' := pseudo_y psi cx cy in
             let vx := if fct then limited_x old psi cx' cy' else cx' in
             let vy := if fct then limited_y old psi cx' cy' else cy' in
             corrections2 k old (advect2 psi (correct_x psi vx) (correct_y psi vy)) cx' cy'
    end.
  (** one time step with [n] passes *)
  Definition mpdata2_step (n : nat) (psi : field) : field :=
    corrections2 (n - 1) psi (advect2 psi (fluxes_x psi Cx) (fluxes_y psi Cy)) Cx Cy.
  Fixpoint mpdata2 (n nt : nat) (psi : field) : field :=
    match nt with O => psi | S k => mpdata2 n k (mpdata2_step n psi) end.
End Mpdata.
