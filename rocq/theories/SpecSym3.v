(** Mirror images, permutation of the axes and the like for three-dimensional
    problems, in terms of the data users set. *)
From Coq Require Import ZArith List.
From Verif Require Import ModelIndex ModelRun Lang Stencil FormCommon Solver1D Solver2D Solver3D SpecFields SpecFields2 SpecFields3.
Local Open Scope Z_scope.

(** cell at the opposite side, counted along axis [d] *)
Definition opposite3 (d : dim) (s : Z) (i : idx) : idx := put d (s - comp d i) i.
(** coordinate [d] of the permuted cell is coordinate [q d] of the cell *)
Definition permute3 (q : dim -> dim) (i : idx) : idx := (comp (q DX) i, comp (q DY) i, comp (q DZ) i).

Section Sym.
  Context {V : Type}.
  Variable opp : V -> V.
  Variables (lo hi : dim -> Z) (ne : nat) (nug : bool).

  (** [m'] is the mirror image of [m] along axis [d]: velocities along [d] change
      sign, the face to the right of a cell becomes the face to its left *)
  Definition mirrored3 (d : dim) (m m' : loc -> V) : Prop :=
    (forall e i, (e < ne)%nat -> inside lo hi i -> cell3 m' e false i = cell3 m e false (opposite3 d (lo d + hi d) i)) /\
    (forall i, inner lo hi d i -> face3 m' d i = opp (face3 m d (opposite3 d (lo d + hi d - 1) i))) /\
    (forall c i, c <> d -> inner lo hi c i -> face3 m' c i = face3 m c (opposite3 d (lo d + hi d) i)) /\
    (nug = true -> forall i, inside lo hi i -> gfac3 m' i = gfac3 m (opposite3 d (lo d + hi d) i)).

  (** [m'] is [m] with the axes permuted: axis [d] of [m'] is axis [q d] of [m];
      [lo], [hi]: the grid of [m] *)
  Definition permuted3 (q : dim -> dim) (m m' : loc -> V) : Prop :=
    (forall e i, (e < ne)%nat -> inside lo hi i -> cell3 m' e false (permute3 q i) = cell3 m e false i) /\
    (forall d i, inner lo hi (q d) i -> face3 m' d (permute3 q i) = face3 m (q d) i) /\
    (nug = true -> forall i, inside lo hi i -> gfac3 m' (permute3 q i) = gfac3 m i).
End Sym.

(** the same run on the grid with the axes permuted *)
Definition permute_run3 (q : dim -> dim) (r : run3) : run3 :=
  {| s3_o := s3_o r; s3_sp := s3_sp r; s3_tp := s3_tp r; s3_cfg := s3_cfg r; s3_nit := s3_nit r; s3_freq := s3_freq r;
     s3_scale := s3_scale r; s3_lo := fun d => s3_lo r (q d); s3_hi := fun d => s3_hi r (q d) |}.

(** the same flow: velocities and G factors agree *)
Definition same_flow3 {V : Type} (r : run3) (m1 m2 : loc -> V) : Prop :=
  (forall d i, inner (s3_lo r) (s3_hi r) d i -> face3 m2 d i = face3 m1 d i) /\
  (nug (s3_o r) = true -> forall i, inside (s3_lo r) (s3_hi r) i -> gfac3 m2 i = gfac3 m1 i).
(** the same run with other values of the options [npa], [khn]; of [fot]; of [hint_scale] *)
Definition with_toggles3 (r : run3) (a b f : bool) : run3 :=
  let o := s3_o r in
  {| s3_o := mkfl (fct o) (oabs o) (tot o) (pfc o) a (iga o) (nug o) (dfl o) b (div2 o) (div3 o) (div3dt o) f;
     s3_sp := s3_sp r; s3_tp := s3_tp r; s3_cfg := s3_cfg r; s3_nit := s3_nit r; s3_freq := s3_freq r;
     s3_scale := s3_scale r; s3_lo := s3_lo r; s3_hi := s3_hi r |}.
Definition with_scale3 (r : run3) (s : nat -> Z) : run3 :=
  {| s3_o := s3_o r; s3_sp := s3_sp r; s3_tp := s3_tp r; s3_cfg := s3_cfg r; s3_nit := s3_nit r; s3_freq := s3_freq r;
     s3_scale := s; s3_lo := s3_lo r; s3_hi := s3_hi r |}.

(** the 2D run with the settings of a 3D run *)
Definition slice_run3 (r : run3) : run2 :=
  {| s_o := s3_o r; s_sp := s3_sp r; s_tp := s3_tp r; s_cfg := s3_cfg r; s_nit := s3_nit r; s_freq := s3_freq r;
     s_scale := s3_scale r; s_bl := fun _ => Cyclic2; s_br := fun _ => Cyclic2;
     s_lo := s3_lo r; s_hi := s3_hi r |}.
(** 3D data [m] that do not vary along the third axis and have no velocity along
    it; across it they are the 2D data [m2] *)
Definition uniform_along_z {V : Type} (zero : V) (r : run3) (m2 m : loc -> V) : Prop :=
  (forall e i j k, (e < n_eqns (s3_cfg r))%nat -> inside (s3_lo r) (s3_hi r) (i, j, k) -> cell3 m e false (i, j, k) = cell2 m2 e false i j) /\
  (forall i j k, inner (s3_lo r) (s3_hi r) DX (i, j, k) -> face3 m DX (i, j, k) = face2 m2 DX i j) /\
  (forall i j k, inner (s3_lo r) (s3_hi r) DY (i, j, k) -> face3 m DY (i, j, k) = face2 m2 DY i j) /\
  (forall i, inner (s3_lo r) (s3_hi r) DZ i -> face3 m DZ i = zero) /\
  (nug (s3_o r) = true -> forall i j k, inside (s3_lo r) (s3_hi r) (i, j, k) -> gfac3 m (i, j, k) = gfac2 m2 i j).
