(** Mirror images and transposition of two-dimensional problems, in terms of the
    data users set. *)
From Coq Require Import ZArith List.
From Verif Require Import ModelIndex ModelRun Lang Stencil FormCommon Solver1D Solver2D SpecFields SpecFields2 SpecNum2.
Local Open Scope Z_scope.

Section Sym.
  Context {V : Type}.
  Variable opp : V -> V.
  Variables (lo hi : dim -> Z) (ne : nat) (nug : bool).

  (** cell at the opposite side, counted along axis [d] *)
  Definition opposite (d : dim) (s : Z) (ij : Z * Z) : Z * Z :=
    match d with DX => (s - fst ij, snd ij) | _ => (fst ij, s - snd ij) end.

  (** [m'] is the mirror image of [m] along axis [d]: velocities along [d] change
      sign, the face to the right of a cell becomes the face to its left *)
  Definition mirrored2 (d : dim) (m m' : loc -> V) : Prop :=
    let c ij := opposite d (lo d + hi d) ij in
    let f ij := opposite d (lo d + hi d - 1) ij in
    (forall e i j, (e < ne)%nat -> lo DX <= i <= hi DX -> lo DY <= j <= hi DY ->
       cell2 m' e false i j = cell2 m e false (fst (c (i, j))) (snd (c (i, j)))) /\
    (forall i j, lo DX <= i < hi DX -> lo DY <= j <= hi DY ->
       face2 m' DX i j = match d with
                         | DX => opp (face2 m DX (fst (f (i, j))) (snd (f (i, j))))
                         | _ => face2 m DX (fst (c (i, j))) (snd (c (i, j)))
                         end) /\
    (forall i j, lo DX <= i <= hi DX -> lo DY <= j < hi DY ->
       face2 m' DY i j = match d with
                         | DX => face2 m DY (fst (c (i, j))) (snd (c (i, j)))
                         | _ => opp (face2 m DY (fst (f (i, j))) (snd (f (i, j))))
                         end) /\
    (nug = true -> forall i j, lo DX <= i <= hi DX -> lo DY <= j <= hi DY ->
       gfac2 m' i j = gfac2 m (fst (c (i, j))) (snd (c (i, j)))).

  (** [m'] is [m] with the axes exchanged; [lo], [hi]: the grid of [m'] *)
  Definition transposed2 (m m' : loc -> V) : Prop :=
    (forall e i j, (e < ne)%nat -> lo DX <= i <= hi DX -> lo DY <= j <= hi DY -> cell2 m' e false i j = cell2 m e false j i) /\
    (forall i j, lo DX <= i < hi DX -> lo DY <= j <= hi DY -> face2 m' DX i j = face2 m DY j i) /\
    (forall i j, lo DX <= i <= hi DX -> lo DY <= j < hi DY -> face2 m' DY i j = face2 m DX j i) /\
    (nug = true -> forall i j, lo DX <= i <= hi DX -> lo DY <= j <= hi DY -> gfac2 m' i j = gfac2 m j i).
End Sym.

(** the same run on the grid with the axes exchanged *)
Definition swap_axis (d : dim) : dim := match d with DX => DY | DY => DX | DZ => DZ end.
Definition transpose_run (r : run2) : run2 :=
  {| s_o := s_o r; s_sp := s_sp r; s_tp := s_tp r; s_cfg := s_cfg r; s_nit := s_nit r; s_freq := s_freq r; s_scale := s_scale r;
     s_bl := fun d => s_bl r (swap_axis d); s_br := fun d => s_br r (swap_axis d);
     s_lo := fun d => s_lo r (swap_axis d); s_hi := fun d => s_hi r (swap_axis d) |}.

(** the same flow: velocities and G factors agree *)
Definition same_flow2 {V : Type} (r : run2) (m1 m2 : loc -> V) : Prop :=
  (forall i j, s_lo r DX <= i < s_hi r DX -> s_lo r DY <= j <= s_hi r DY -> face2 m2 DX i j = face2 m1 DX i j) /\
  (forall i j, s_lo r DX <= i <= s_hi r DX -> s_lo r DY <= j < s_hi r DY -> face2 m2 DY i j = face2 m1 DY i j) /\
  (nug (s_o r) = true -> forall i j, s_lo r DX <= i <= s_hi r DX -> s_lo r DY <= j <= s_hi r DY -> gfac2 m2 i j = gfac2 m1 i j).
(** the same run with other values of the options [npa], [khn]; of [hint_scale] *)
Definition with_toggles2 (r : run2) (a b : bool) : run2 :=
  let o := s_o r in
  {| s_o := mkfl (fct o) (oabs o) (tot o) (pfc o) a (iga o) (nug o) (dfl o) b (div2 o) (div3 o) (div3dt o) (fot o);
     s_sp := s_sp r; s_tp := s_tp r; s_cfg := s_cfg r; s_nit := s_nit r; s_freq := s_freq r; s_scale := s_scale r;
     s_bl := s_bl r; s_br := s_br r; s_lo := s_lo r; s_hi := s_hi r |}.
Definition with_scale2 (r : run2) (s : nat -> Z) : run2 :=
  {| s_o := s_o r; s_sp := s_sp r; s_tp := s_tp r; s_cfg := s_cfg r; s_nit := s_nit r; s_freq := s_freq r; s_scale := s;
     s_bl := s_bl r; s_br := s_br r; s_lo := s_lo r; s_hi := s_hi r |}.

(** the 1D run with the settings of a 2D run on a cyclic domain *)
Definition slice_run (r : run2) : run1 :=
  {| r_o := s_o r; r_sp := s_sp r; r_tp := s_tp r; r_cfg := s_cfg r; r_nit := s_nit r; r_freq := s_freq r; r_scale := s_scale r;
     r_bl := Cyclic; r_br := Cyclic; r_lo := s_lo r DX; r_hi := s_hi r DX |}.
(** 2D data [m] that do not vary along the second axis and have no velocity along
    it; along the first axis they are the 1D data [m1] *)
Definition uniform_along_y {V : Type} (zero : V) (r : run2) (m1 m : loc -> V) : Prop :=
  (forall e i j, (e < n_eqns (s_cfg r))%nat -> on_grid (s_lo r) (s_hi r) i j -> cell2 m e false i j = cell m1 e false i) /\
  (forall i j, s_lo r DX <= i < s_hi r DX -> s_lo r DY <= j <= s_hi r DY -> face2 m DX i j = face m1 i) /\
  (forall i j, s_lo r DX <= i <= s_hi r DX -> s_lo r DY <= j < s_hi r DY -> face2 m DY i j = zero) /\
  (nug (s_o r) = true -> forall i j, on_grid (s_lo r) (s_hi r) i j -> gfac2 m i j = gfac m1 i).
