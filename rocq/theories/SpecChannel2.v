(** Runs of the 2D solver in a channel: cyclic along the first dimension, rigid walls
    at both ends of the second. *)
From Coq Require Import ZArith List Bool Reals.
From Verif Require Import ModelIndex ModelRun Lang Stencil FormCommon Solver2D SpecReal SpecThreads SpecFields2 SpecNum2 SpecBcond
  ProofsThread2D ProofsOne2D.
Local Open Scope Z_scope.

(** what users have to provide along the channel: the last column repeats the first *)
Definition channel_data2 {V} (lo hi : dim -> Z) (ne : nat) (nug : bool) (m : loc -> V) : Prop :=
  (forall e j, (e < ne)%nat -> lo DY <= j <= hi DY -> cell2 m e false (hi DX) j = cell2 m e false (lo DX) j) /\
  (forall j, lo DY <= j < hi DY -> face2 m DY (hi DX) j = face2 m DY (lo DX) j) /\
  (nug = true -> forall j, lo DY <= j <= hi DY -> gfac2 m (hi DX) j = gfac2 m (lo DX) j).

(** [m'] is [m] moved by [-k] along the channel *)
Definition moved_along {V} (lo hi : dim -> Z) (ne : nat) (nug : bool) (k : Z) (m m' : loc -> V) : Prop :=
  let w := wrap2 lo hi DX in
  (forall e i j, (e < ne)%nat -> lo DX <= i <= hi DX -> lo DY <= j <= hi DY ->
     cell2 m' e false i j = cell2 m e false (w (i + k)) j) /\
  (forall i j, lo DX <= i < hi DX -> lo DY <= j <= hi DY -> face2 m' DX i j = face2 m DX (w (i + k)) j) /\
  (forall i j, lo DX <= i <= hi DX -> lo DY <= j < hi DY -> face2 m' DY i j = face2 m DY (w (i + k)) j) /\
  (nug = true -> forall i j, lo DX <= i <= hi DX -> lo DY <= j <= hi DY -> gfac2 m' i j = gfac2 m (w (i + k)) j).

(** options for which no pass reads what an earlier one has left elsewhere: more
    than two passes of [div_2nd] need [fct] without [div_3rd] (see
    C51_no_stale_data_2d_refuted), and more than two of [iga] or [dfl] need [fct]
    (without it their fills at the walls stop at the first and last columns) *)
Definition plain_passes (o : fl) (nit : nat) : Prop :=
  (nit <= 2)%nat \/
  ((div2 o = false \/ (fct o = true /\ div3 o = false)) /\ (fct o = true \/ (iga o = false /\ dfl o = false))).

(** [m'] is a memory with which [nt] steps of run [r] by [n] threads, started in
    [m], can end *)
Record channel_end2 (ar : arith) (r : run2) (n nt : nat) (m m' : loc -> car ar) : Prop :=
  { ch_ok : run2_ok r;
    ch_blx : s_bl r DX = Cyclic2;
    ch_brx : s_br r DX = Cyclic2;
    ch_bly : s_bl r DY = Rigid2;
    ch_bry : s_br r DY = Rigid2;
    ch_n : (0 < n)%nat;
    ch_rows : Z.of_nat n <= s_hi r DX - s_lo r DX + 1;
    ch_settled : settled r n;
    ch_passes : plain_passes (s_o r) (s_nit r);
    ch_data : channel_data2 (s_lo r) (s_hi r) (n_eqns (s_cfg r)) (nug (s_o r)) m;
    ch_end : can_end loc_eq_dec ar n (program2 r n nt) m m' }.

(** What the channel holds: all cells but the repeated last column, half of those
    along the walls. *)
Definition channel_mass (lo hi : dim -> Z) (f : Z -> Z -> R) : R :=
  total (lo DX) (hi DX) (fun i => walled_mass (lo DY, hi DY) (fun j => f i j)).
