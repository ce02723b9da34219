(** Boxes closed by rigid walls and their mirror images in channels. *)
From Coq Require Import ZArith List Bool Reals.
From Verif Require Import ModelIndex ModelRun Lang Stencil FormCommon Solver2D SpecFields2 SpecNum2 SpecImages2.
Local Open Scope Z_scope.

(** the same run in a channel twice as long as the box, between the same walls along
    the first dimension *)
Definition long (r : run2) : run2 :=
  let b := fun d => match d with DX => Cyclic2 | _ => Rigid2 end in
  {| s_o := s_o r; s_sp := s_sp r; s_tp := s_tp r; s_cfg := s_cfg r; s_nit := s_nit r; s_freq := s_freq r; s_scale := s_scale r;
     s_bl := b; s_br := b;
     s_lo := s_lo r; s_hi := fun d => match d with DX => 2 * s_hi r DX - s_lo r DX | _ => s_hi r d end |}.

(** [m2] holds the data of [m] and, beyond the wall at the end of the first dimension,
    their mirror image: the velocity towards that wall changes its sign ([neg]) *)
Definition with_image_along {V} (neg : V -> V) (lo hi : dim -> Z) (ne : nat) (nug : bool) (m m2 : loc -> V) : Prop :=
  let top := 2 * hi DX - lo DX in
  (forall e i j, (e < ne)%nat -> lo DX <= i <= top -> lo DY <= j <= hi DY ->
     cell2 m2 e false i j = cell2 m e false (imaged (hi DX) i) j) /\
  (forall i j, lo DX <= i <= top -> lo DY <= j < hi DY -> face2 m2 DY i j = face2 m DY (imaged (hi DX) i) j) /\
  (forall i j, lo DX <= i < hi DX -> lo DY <= j <= hi DY -> face2 m2 DX i j = face2 m DX i j) /\
  (forall i j, hi DX <= i < top -> lo DY <= j <= hi DY -> face2 m2 DX i j = neg (face2 m DX (2 * hi DX - 1 - i) j)) /\
  (nug = true -> forall i j, lo DX <= i <= top -> lo DY <= j <= hi DY -> gfac2 m2 i j = gfac2 m (imaged (hi DX) i) j).

(** Courant numbers with sum at most one half, G factors within a factor of two *)
Definition box_gentle (lo hi : dim -> Z) (nug : bool) (m : loc -> R) (g cx cy : R) : Prop :=
  (0 < g /\ cx + cy <= 1 / 2 /\
   (forall i j, on_grid lo hi i j -> g <= G2of nug m i j <= 2 * g) /\
   (forall i j, (lo DX <= i < hi DX)%Z -> (lo DY <= j <= hi DY)%Z -> Rabs (face2 m DX i j) <= cx * g) /\
   (forall i j, (lo DX <= i <= hi DX)%Z -> (lo DY <= j < hi DY)%Z -> Rabs (face2 m DY i j) <= cy * g))%R.
