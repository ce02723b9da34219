(** Channels between rigid walls and their mirror images. *)
From Coq Require Import ZArith List Bool Reals.
From Verif Require Import ModelIndex ModelRun Lang Stencil FormCommon Solver2D SpecFields2 SpecNum2.
Local Open Scope Z_scope.

(** options whose passes do not read the antidiffusive velocities beyond the last
    wall, which the library fills one face off (C27_antidiffusive_mirror_refuted) *)
Definition image_passes (o : fl) (nit : nat) : Prop :=
  (nit <= 2)%nat \/ (div2 o = false /\ dfl o = false /\ (fct o = true \/ iga o = false)).

(** the same run on a grid twice as wide across the channel, cyclic both ways *)
Definition wide (r : run2) : run2 :=
  {| s_o := s_o r; s_sp := s_sp r; s_tp := s_tp r; s_cfg := s_cfg r; s_nit := s_nit r; s_freq := s_freq r; s_scale := s_scale r;
     s_bl := fun _ => Cyclic2; s_br := fun _ => Cyclic2;
     s_lo := s_lo r; s_hi := fun d => match d with DY => 2 * s_hi r DY - s_lo r DY | _ => s_hi r d end |}.

(** the row of the channel of which row [j] is the image *)
Definition imaged (hi j : Z) : Z := if j <=? hi then j else 2 * hi - j.

(** [m2] holds the data of [m] and, beyond its last wall, their mirror image: the
    velocity across the channel changes its sign ([neg]) *)
Definition with_image {V} (neg : V -> V) (lo hi : dim -> Z) (ne : nat) (nug : bool) (m m2 : loc -> V) : Prop :=
  let top := 2 * hi DY - lo DY in
  (forall e i j, (e < ne)%nat -> lo DX <= i <= hi DX -> lo DY <= j <= top ->
     cell2 m2 e false i j = cell2 m e false i (imaged (hi DY) j)) /\
  (forall i j, lo DX <= i < hi DX -> lo DY <= j <= top -> face2 m2 DX i j = face2 m DX i (imaged (hi DY) j)) /\
  (forall i j, lo DX <= i <= hi DX -> lo DY <= j < hi DY -> face2 m2 DY i j = face2 m DY i j) /\
  (forall i j, lo DX <= i <= hi DX -> hi DY <= j < top -> face2 m2 DY i j = neg (face2 m DY i (2 * hi DY - 1 - j))) /\
  (nug = true -> forall i j, lo DX <= i <= hi DX -> lo DY <= j <= top -> gfac2 m2 i j = gfac2 m i (imaged (hi DY) j)).

(** Velocities at the faces of the cells of a channel: the cells along its walls
    have one half beyond the wall. *)
Section Num.
  Variables lo hi : dim -> Z.
  Variable nug : bool.
  Notation mem := (loc -> R).
  Local Open Scope R_scope.
  Definition in_channel (i j : Z) : Prop := (lo DX <= i < hi DX)%Z /\ (lo DY <= j <= hi DY)%Z.
  Definition ch_north (m : mem) (i j : Z) : R := if (j <? hi DY)%Z then face2 m DY i j else - face2 m DY i (hi DY - 1).
  Definition ch_south (m : mem) (i j : Z) : R := if (lo DY <? j)%Z then face2 m DY i (j - 1) else - face2 m DY i (lo DY).
  (** no cell loses more than it contains *)
  Definition channel_outflow (m : mem) : Prop := forall i j, in_channel i j -> 0 < G2of nug m i j /\
    Rmax 0 (east m i j) - Rmin 0 (west lo hi m i j) + (Rmax 0 (ch_north m i j) - Rmin 0 (ch_south m i j)) <= G2of nug m i j.
  (** as much flows into each cell as flows out *)
  Definition channel_divfree (m : mem) : Prop := forall i j, in_channel i j ->
    east m i j - west lo hi m i j + (ch_north m i j - ch_south m i j) = 0.
  (** Courant numbers with sum at most one half, G factors within a factor of two *)
  Definition channel_gentle (m : mem) (g cx cy : R) : Prop :=
    0 < g /\ cx + cy <= 1 / 2 /\
    (forall i j, in_channel i j -> g <= G2of nug m i j <= 2 * g /\ Rabs (face2 m DX i j) <= cx * g) /\
    (forall i j, (lo DX <= i < hi DX)%Z -> (lo DY <= j < hi DY)%Z -> Rabs (face2 m DY i j) <= cy * g).
  (** a uniform stream along the channel *)
  Definition stream (m : mem) (c : R) : Prop :=
    (forall i j, in_channel i j -> face2 m DX i j = c) /\
    (forall i j, (lo DX <= i < hi DX)%Z -> (lo DY <= j < hi DY)%Z -> face2 m DY i j = 0).
End Num.
