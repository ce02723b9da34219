(** Boundary conditions along one direction: rigid walls, poles, and the
    exchange between processes.  Indices along the direction; the remaining
    index, where there is one, is passive except for the poles.  An array is a
    function on indices; [i + h] is stored at [i], [i - h] at [i - 1]. *)
From Coq Require Import ZArith List Bool Reals.
From Verif Require Import ModelIndex.
Import ListNotations.
Local Open Scope Z_scope.

(** ** Ranges: libmpdata++/bcond/detail/bcond_common.hpp:232-271 *)
Definition left_edge (i : rng) : Z := first i.
Definition rght_edge (i : rng) : Z := last i.
Definition left_halo_sclr (halo : Z) (i : rng) : rng := (first (rng_ext i halo), first (rng_ext i halo) + halo - 1).
Definition rght_halo_sclr (halo : Z) (i : rng) : rng := (last (rng_ext i halo) - (halo - 1), last (rng_ext i halo)).
Definition left_intr_sclr (halo : Z) (i : rng) : rng := (first (rng_ext i (-1)), first (rng_ext i (-1)) + halo - 1).
Definition rght_intr_sclr (halo : Z) (i : rng) : rng := (last (rng_ext i (-1)) - (halo - 1), last (rng_ext i (-1))).
Definition left_halo_vctr (halo : Z) (i : rng) : rng := let r := rng_ext (rng_exth i) (halo - 1) in (first r, first r + halo - 1).
Definition rght_halo_vctr (halo : Z) (i : rng) : rng := let r := rng_ext (rng_exth i) (halo - 1) in (last r - (halo - 1), last r).
Definition left_intr_vctr (halo : Z) (i : rng) : rng := let r := rng_ext (rng_exth i) (-1) in (first r, first r + halo - 1).
Definition rght_intr_vctr (halo : Z) (i : rng) : rng := let r := rng_ext (rng_exth i) (-1) in (last r - (halo - 1), last r).

Definition upd {V : Type} (a : Z -> V) (i : Z) (v : V) : Z -> V := fun j => if j =? i then v else a j.
(** [for (int i = from, n = n0; i <= to; ++i, n += dn) a(i) = f a n], in order *)
Fixpoint for_loop {V : Type} (f : (Z -> V) -> Z -> V) (count : nat) (i n dn : Z) (a : Z -> V) : Z -> V :=
  match count with
  | O => a
  | S c => for_loop f c (i + 1) (n + dn) dn (upd a i (f a n))
  end.
Definition count_of (from to : Z) : nat := Z.to_nat (to - from + 1).

(** ** Rigid walls: libmpdata++/bcond/rigid_2d.hpp (rigid_3d.hpp alike) *)
Section Rigid.
  Variables (halo : Z) (i : rng).
  Local Open Scope R_scope.
  Definition arr := Z -> R.
  (** 29-37 *)
  Definition rigid_left_sclr (a : arr) : arr :=
    let r := left_halo_sclr halo i in
    for_loop (fun a n => a (left_edge i + n)%Z) (count_of (first r) (last r)) (first r) halo (-1) a.
  (** 125-133 *)
  Definition rigid_rght_sclr (a : arr) : arr :=
    let r := rght_halo_sclr halo i in
    for_loop (fun a n => a (rght_edge i - n)%Z) (count_of (first r) (last r)) (first r) 1 1 a.
  (** 39-48, 135-144 *)
  Definition rigid_left_pres (a : arr) : arr :=
    let r := left_halo_sclr halo i in
    for_loop (fun a n => 2 * a (left_edge i) - a (left_edge i + n)%Z) (count_of (first r) (last r)) (first r) halo (-1) a.
  Definition rigid_rght_pres (a : arr) : arr :=
    let r := rght_halo_sclr halo i in
    for_loop (fun a n => 2 * a (rght_edge i) - a (rght_edge i - n)%Z) (count_of (first r) (last r)) (first r) 1 1 a.
  (** 58-66 *)
  Definition rigid_left_vctr (ad : bool) (v : arr) : arr :=
    let r := left_halo_vctr halo i in
    for_loop (fun v n => - v (minus_h (left_edge i + n))%Z) (count_of (first r) (last r - if ad then 1 else 0)) (first r) halo (-1) v.
  (** 154-162 *)
  Definition rigid_rght_vctr (ad : bool) (v : arr) : arr :=
    let r := rght_halo_vctr halo i in
    let from := (first r + if ad then 1 else 0)%Z in
    for_loop (fun v n => - v (plus_h (rght_edge i - n))%Z) (count_of from (last r)) from 1 1 v.
  (** 74-78, 170-175 *)
  Definition rigid_left_flux (f : arr) : arr := upd f (last (left_halo_vctr halo i)) (- f (plus_h (left_edge i))).
  Definition rigid_rght_flux (f : arr) : arr := upd f (first (rght_halo_vctr halo i)) (- f (minus_h (rght_edge i))).
End Rigid.

(** ** Poles: libmpdata++/bcond/detail/polar_common.hpp, polar_2d.hpp;
    first index along the meridian, second one the longitude *)
Section Polar.
  Variables (V : Type) (halo : Z) (i : rng).
  Variable nlon : Z.                          (* distmem_grid_size[0] *)
  (** polar_common.hpp:46 *)
  Definition pole : Z := Z.quot (nlon - 1) 2.
  (** polar_common.hpp:30-33 (C++ remainder) *)
  Definition polar_neighbours (j : Z) : Z := Z.rem (j + pole) (2 * pole).
  Definition arr2 := Z -> Z -> V.
  Definition upd2 (a : arr2) (i j : Z) (v : V) : arr2 := fun i' j' => if (i' =? i) && (j' =? j) then v else a i' j'.
  Fixpoint for_lon (dst src : Z) (count : nat) (jj : Z) (a : arr2) : arr2 :=
    match count with
    | O => a
    | S c => for_lon dst src c (jj + 1) (upd2 a dst jj (a src (polar_neighbours jj)))
    end.
  (** [for (int i = 0; i < halo; ++i) for (int jj ...)]: rows [dst i] from [src i] *)
  Definition for_rows (dst src : Z -> Z) (j : rng) (a : arr2) : arr2 :=
    fold_left (fun a k => for_lon (dst (Z.of_nat k)) (src (Z.of_nat k)) (count_of (first j) (last j)) (first j) a)
      (seq 0 (Z.to_nat halo)) a.
  (** polar_2d.hpp:30-45, 96-112 *)
  Definition polar_left_sclr := for_rows (fun k => last (left_halo_sclr halo i) - k) (fun k => left_edge i + k).
  Definition polar_rght_sclr := for_rows (fun k => first (rght_halo_sclr halo i) + k) (fun k => rght_edge i - k).
  (** polar_2d.hpp:62-77, 129-144: longitudes are faces, rows are rows of scalars *)
  Definition polar_left_nrml := for_rows (fun k => first (left_halo_sclr halo i) + k) (fun k => last (left_intr_vctr halo i) - k).
  Definition polar_rght_nrml := for_rows (fun k => first (rght_halo_sclr halo i) + k) (fun k => last (rght_intr_vctr halo i) - k).
End Polar.

(** ** Processes: libmpdata++/bcond/remote_1d.hpp, detail/remote_common.hpp *)
Section Remote.
  Variables (V : Type) (halo n size : Z).     (* grid length, number of processes (> 1) *)
  Variable cyclic : bool.                     (* boundary condition at the ends of the domain *)
  (** concurr/detail/sharedmem.hpp:93-101: part of the grid held by a process *)
  Definition part (r : Z) : rng := slab (0, n - 1) r size.
  Definition is_cyclic_left (r : Z) : bool := r =? 0.
  Definition is_cyclic_rght (r : Z) : bool := r =? size - 1.
  (** remote_common.hpp:52-54 *)
  Definition peer_rght (r : Z) : Z := Z.rem (r + 1) size.
  (** contents of a message, and storing one: remote_common.hpp:88-90, 201-211;
      [None]: message and destination have different lengths *)
  Definition pack (a : Z -> V) (r : rng) : list V := map (fun k => a (first r + Z.of_nat k)) (seq 0 (Z.to_nat (rlen r))).
  Fixpoint unpack (a : Z -> V) (i : Z) (m : list V) : Z -> V :=
    match m with [] => a | v :: m => unpack (upd a i v) (i + 1) m end.
  Definition store (a : Z -> V) (r : rng) (m : list V) : option (Z -> V) :=
    if Nat.eqb (length m) (Z.to_nat (rlen r)) then Some (unpack a (first r) m) else None.
  (** scalars: remote_1d.hpp:29, 33-36, 148, 152-155 *)
  Definition left_send_sclr (r : Z) : rng := rng_shift (left_intr_sclr halo (part r)) (if is_cyclic_left r then 0 else -1).
  Definition left_recv_sclr (r : Z) : rng := left_halo_sclr halo (part r).
  Definition rght_send_sclr (r : Z) : rng := rng_shift (rght_intr_sclr halo (part r)) (if is_cyclic_rght r then 0 else 1).
  Definition rght_recv_sclr (r : Z) : rng := rght_halo_sclr halo (part r).
  (** vectors: remote_1d.hpp:47-60, 167-178 (for [halo] = 1 the message to the
      right between neighbours is empty and not sent) *)
  Definition left_send_vctr (r : Z) : rng := rng_shift (left_intr_vctr halo (part r)) (if is_cyclic_left r then 0 else -1).
  Definition left_recv_vctr (r : Z) : rng :=
    if is_cyclic_left r then left_halo_vctr halo (part r) else rng_ext (rng_exth (left_halo_vctr halo (part r))) (-1).
  Definition rght_send_vctr (r : Z) : rng :=
    if is_cyclic_rght r then rng_shift (rght_intr_vctr halo (part r)) 0
    else rng_ext (rng_exth (rng_shift (rght_intr_vctr halo (part r)) 1)) (-1).
  Definition rght_recv_vctr (r : Z) : rng := rght_halo_vctr halo (part r).

  (** The state: arrays of all processes, and how many of its two boundary
      conditions each has applied.  Messages are exchanged by rendezvous: the
      process to the left is in its right-hand boundary condition, the one to
      the right in its left-hand one (sends and receives are both waited for). *)
  Record net := { data : Z -> Z -> V; pc : Z -> nat }.
  Inductive side := SideL | SideR.
  (** solver_common.hpp:102-114 [set_bcs] *)
  Definition action (r : Z) (k : nat) : option side :=
    match k with
    | O => Some (if Z.even r then SideR else SideL)
    | S O => Some (if Z.even r then SideL else SideR)
    | _ => None
    end.
  (** concurr_common.hpp:207-228: boundary conditions between processes *)
  Definition linked_left (r : Z) : bool := (0 <? r) || cyclic.
  Definition linked_rght (r : Z) : bool := negb (r =? size - 1) || cyclic.
  Definition step_pc (p : Z -> nat) (r : Z) : Z -> nat := fun q => if q =? r then S (p q) else p q.
  Definition put (d : Z -> Z -> V) (r : Z) (a : Z -> V) : Z -> Z -> V := fun q => if q =? r then a else d q.
  Variables (lsend lrecv rsend rrecv : Z -> rng).
  (** last index, counted back from the end of the domain, which the
      physical boundary condition on the right leaves alone: 0 for scalars, 1
      for faces *)
  Variable keep : Z.
  (** physical boundary conditions at the ends change a process' own array only,
      outside of the domain (to anything) *)
  Inductive nstep : net -> net -> Prop :=
  | Exchange : forall s r a b,
      0 <= r < size -> linked_rght r = true ->
      action r (pc s r) = Some SideR -> action (peer_rght r) (pc s (peer_rght r)) = Some SideL ->
      store (data s r) (rrecv r) (pack (data s (peer_rght r)) (lsend (peer_rght r))) = Some a ->
      store (data s (peer_rght r)) (lrecv (peer_rght r)) (pack (data s r) (rsend r)) = Some b ->
      nstep s {| data := put (put (data s) r a) (peer_rght r) b; pc := step_pc (step_pc (pc s) r) (peer_rght r) |}
  | Physical_left : forall s a, linked_left 0 = false -> action 0 (pc s 0) = Some SideL ->
      (forall j, 0 <= j -> a j = data s 0 j) ->
      nstep s {| data := put (data s) 0 a; pc := step_pc (pc s) 0 |}
  | Physical_rght : forall s a, linked_rght (size - 1) = false -> action (size - 1) (pc s (size - 1)) = Some SideR ->
      (forall j, j <= n - 1 - keep -> a j = data s (size - 1) j) ->
      nstep s {| data := put (data s) (size - 1) a; pc := step_pc (pc s) (size - 1) |}.
  Inductive nsteps : net -> net -> Prop :=
  | NRefl : forall s, nsteps s s
  | NStep : forall s t u, nsteps s t -> nstep t u -> nsteps s u.
  Definition finished (s : net) : Prop := forall r, 0 <= r < size -> pc s r = 2%nat.
  Definition start (d : Z -> Z -> V) : net := {| data := d; pc := fun _ => O |}.

  (** concurr/detail/distmem.hpp:111-156 [get_global_array] (1D): pieces are
      placed one after another, at the partial sums of their lengths *)
  Definition displ (r : Z) : Z := fold_left (fun s k => s + rlen (part (Z.of_nat k))) (seq 0 (Z.to_nat r)) 0.
  Definition gather (d : Z -> Z -> V) (out : Z -> V) : Z -> V :=
    fold_left (fun o k => unpack o (displ (Z.of_nat k)) (pack (d (Z.of_nat k)) (part (Z.of_nat k)))) (seq 0 (Z.to_nat size)) out.
End Remote.
Arguments data {V}. Arguments pc {V}.
