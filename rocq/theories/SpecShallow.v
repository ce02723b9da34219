(** Notions used in the statements about the shallow-water solver. *)
From Coq Require Import ZArith List Bool Reals.
From Verif Require Import ModelRun Lang Stencil FormCommon SpecReal SpecSym2 ModelVip ModelShallow.
Import ListNotations.
Local Open Scope R_scope.

Notation xy := [DX; DY].

(** invariant under the translations [vs] *)
Definition same_after (vs : list idx) (f : idx -> R) : Prop := forall v, In v vs -> forall x, f (iadd x v) = f x.
(** the domain: [nx] by [ny] cells, cyclic *)
Definition box (nx ny : Z) : list idx := [(nx, 0, 0); (0, ny, 0)]%Z.
Definition total_of (nx ny : Z) (f : idx -> R) : R := total 0 nx (fun i => total 0 ny (fun j => f (i, j, 0%Z))).

(** the G factor *)
Definition G_of (p : shallow) (x : idx) : R := if nug (w_o p) then w_G p x else 1.

(** volume leaving the cell [x] in a step of advector [C] *)
Definition outflow (C : dim -> idx -> R) (x : idx) : R :=
  (Rmax 0 (C DX x) - Rmin 0 (C DX (step_in DX (-1) x))) + (Rmax 0 (C DY x) - Rmin 0 (C DY (step_in DY (-1) x))).

(** the depth keeps its sign under outflows of at most what is there *)
Definition keeps_sign (p : shallow) : Prop := w_nit p = 1%nat \/ fct (w_o p) = true /\ 0 < w_eps p.

(** the basic corrective passes, without extra terms *)
Definition basic (p : shallow) : Prop :=
  iga (w_o p) = false /\ fct (w_o p) = false /\ div2 (w_o p) = false /\ tot (w_o p) = false /\ dfl (w_o p) = false /\ fot (w_o p) = false /\
  (pfc (w_o p) = true \/ 0 < w_tiny p).
(** Courant numbers adding up to at most one half; [m]: smallest G factor *)
Definition gentle_flow (m : R) (C : dim -> idx -> R) : Prop :=
  exists cx cy, cx + cy <= 1 / 2 /\ forall x, Rabs (C DX x) <= cx * m /\ Rabs (C DY x) <= cy * m.

(** the mirror image along axis [d]; [S]: twice the position of the mirror *)
Definition mirror (d : dim) (S : Z) (x : idx) : idx :=
  match d with DX => ((S - fst (fst x))%Z, snd (fst x), snd x) | _ => (fst (fst x), (S - snd (fst x))%Z, snd x) end.
Definition flip (b : bool) (a : R) : R := if b then - a else a.
Definition swapped (x : idx) : idx := (snd (fst x), fst (fst x), snd x).

(** options of the advection *)
Definition second_order (p : shallow) : Prop := div3 (w_o p) = false /\ div3dt (w_o p) = false.
(** with which the sign of the field does not matter *)
Definition sign_blind (p : shallow) : Prop :=
  w_nit p = 1%nat \/
  (iga (w_o p) = negb (oabs (w_o p)) /\ (iga (w_o p) = true -> (w_nit p <= 2)%nat) /\ (iga (w_o p) = false -> fot (w_o p) = false) /\ 0 < w_eps p /\
   (nug (w_o p) = true -> forall x, 0 < w_G p x)).
(** with which the unit of the field does not matter *)
Definition unit_blind (p : shallow) : Prop :=
  w_nit p = 1%nat \/
  (fct (w_o p) = false /\
   (pfc (w_o p) = true /\ iga (w_o p) = false /\ fot (w_o p) = false \/ iga (w_o p) = true /\ oabs (w_o p) = false /\ (w_nit p <= 2)%nat)).

(** the same problem in other units: depths times [a], velocities times [b],
    lengths times [c] (all positive) *)
Definition rescaled (a b c : R) (p : shallow) : shallow :=
  {| w_eps := w_eps p; w_tiny := w_tiny p; w_o := w_o p; w_sp := w_sp p; w_tp := w_tp p; w_nit := w_nit p; w_freq := w_freq p;
     w_scq := w_scq p; w_sch := w_sch p; w_dt := c / b * w_dt p; w_di := fun d => c * w_di p d;
     w_grav := b * b / a * w_grav p; w_veps := a * w_veps p; w_G := w_G p |}.
(** the problem with the axes exchanged *)
Definition exchanged (p : shallow) : shallow :=
  {| w_eps := w_eps p; w_tiny := w_tiny p; w_o := w_o p; w_sp := w_sp p; w_tp := w_tp p; w_nit := w_nit p; w_freq := w_freq p;
     w_scq := fun d => w_scq p (swap_axis d); w_sch := w_sch p; w_dt := w_dt p; w_di := fun d => w_di p (swap_axis d);
     w_grav := w_grav p; w_veps := w_veps p; w_G := fun x => w_G p (swapped x) |}.
(** the problem seen in a mirror *)
Definition in_mirror (d : dim) (S : Z) (p : shallow) : shallow :=
  {| w_eps := w_eps p; w_tiny := w_tiny p; w_o := w_o p; w_sp := w_sp p; w_tp := w_tp p; w_nit := w_nit p; w_freq := w_freq p;
     w_scq := w_scq p; w_sch := w_sch p; w_dt := w_dt p; w_di := w_di p;
     w_grav := w_grav p; w_veps := w_veps p; w_G := fun x => w_G p (mirror d S x) |}.

(** depth [a + b . r + r . m . r / 2] with the cell of index [i] at [i * dx] *)
Definition parabolic (p : shallow) (a : R) (b : dim -> R) (m : dim -> dim -> R) (x : idx) : R :=
  let r d := IZR (comp d x) * w_di p d in
  a + (b DX * r DX + b DY * r DY) + (m DX DX * r DX * r DX + 2 * m DX DY * r DX * r DY + m DY DY * r DY * r DY) / 2.
Definition slope (p : shallow) (b : dim -> R) (m : dim -> dim -> R) (d : dim) (x : idx) : R :=
  let r d := IZR (comp d x) * w_di p d in b d + m d DX * r DX + m d DY * r DY.

(** pull of gravity on the momentum along [d] *)
Definition pull (p : shallow) (h : idx -> R) (d : dim) (x : idx) : R :=
  - (w_grav p * h x * ((h (step_in d 1 x) - h (step_in d (-1) x)) / (2 * w_di p d))).
(** velocity of momentum [q] in water of depth [h]: none in dry cells *)
Definition speed (p : shallow) (q h : R) : R :=
  if Req_EM_T (w_veps p) 0 then q / h else if Rlt_dec (w_veps p) h then q / h else 0.
(** Courant numbers (times G factor) at the faces from velocities [u] in the cells *)
Definition at_faces (p : shallow) (u : dim -> idx -> R) (d : dim) (x : idx) : R :=
  w_dt p / w_di p d * ((G_of p x * u d x + G_of p (step_in d 1 x) * u d (step_in d 1 x)) / 2).
(** Step number [n] from [s] to [t] transports depths and momenta with the
    velocities [u]; the momenta get half of the pull at the start of the step,
    before being transported, and half of that at the end. *)
Definition trapezoid (p : shallow) (u : dim -> idx -> R) (n : nat) (s t : water) : Prop :=
  let C := at_faces p u in
  (forall x, h_ t x = advect p C (Z.of_nat n) (w_sch p) (h_ s) x) /\
  (forall d x, In d xy -> q_ t d x =
     advect p C (Z.of_nat n) (w_scq p d) (fun y => q_ s d y + w_dt p / 2 * pull p (h_ s) d y) x + w_dt p / 2 * pull p (h_ t) d x).
