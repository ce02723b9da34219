(** Model of how processes store arrays in HDF5 files (libmpdata++/output/hdf5.hpp),
    of [get_global_array] (libmpdata++/concurr/detail/distmem.hpp) and of file names.

    Arrays are functions of lists of indices, one per dimension.  The HDF5 library
    is modelled by [h5_write]: elements selected in memory and in the file are
    matched in row-major order. *)
From Coq Require Import ZArith List Bool.
From Verif Require Import ModelIndex.
Import ListNotations.
Local Open Scope Z_scope.

(** ** Row-major order *)
(** elements of a contiguous C-style array with lower bounds [lb] and extents [ext]
    (blitz arrays in default storage order, their [data()] and iterators) *)
Fixpoint elements {V : Type} (lb ext : list Z) (f : list Z -> V) : list V :=
  match ext with
  | [] => [f []]
  | n :: ext' => flat_map (fun i => elements (tl lb) ext' (fun r => f ((hd 0 lb + Z.of_nat i) :: r))) (seq 0 (Z.to_nat n))
  end.
Definition volume (ext : list Z) : Z := fold_right Z.mul 1 ext.
(** position of an element in such an array *)
Fixpoint flat (ext idx : list Z) : Z :=
  match ext, idx with
  | n :: ext', i :: idx' => i * volume ext' + flat ext' idx'
  | _, _ => 0
  end.
Definition zeros (ext : list Z) : list Z := map (fun _ => 0) ext.
Fixpoint zip (op : Z -> Z -> Z) (a b : list Z) : list Z :=
  match a, b with x :: a', y :: b' => op x y :: zip op a' b' | _, _ => [] end.
(** [off <= idx < off + cnt] in every dimension *)
Fixpoint in_selb (off cnt idx : list Z) : bool :=
  match off, cnt, idx with
  | [], [], [] => true
  | o :: off', c :: cnt', i :: idx' => (o <=? i) && (i <? o + c) && in_selb off' cnt' idx'
  | _, _, _ => false
  end.
(** the selection lies within the extents *)
Fixpoint sel_okb (off cnt ext : list Z) : bool :=
  match off, cnt, ext with
  | [], [], [] => true
  | o :: off', c :: cnt', n :: ext' => (0 <=? o) && (0 <=? c) && (o + c <=? n) && sel_okb off' cnt' ext'
  | _, _, _ => false
  end.

(** ** HDF5 *)
(** contents of a dataset; [None]: not written *)
Definition dataset (V : Type) : Type := list Z -> option V.
(** [DataSet::write] with hyperslabs selected in memory ([mext], [moff]) and in the
    file ([fext], [foff]), [cnt] elements per dimension.  [None]: a selection out of
    the extents (the library throws), or a read beyond the end of the buffer
    (undefined behaviour). *)
Definition h5_write {V : Type} (buf : list V) (mext moff cnt foff fext : list Z) (file : dataset V) : option (dataset V) :=
  if sel_okb moff cnt mext && sel_okb foff cnt fext &&
     forallb (fun c => flat mext (zip Z.add moff c) <? Z.of_nat (length buf)) (elements (zeros cnt) cnt (fun c => c))
  then Some (fun idx => if in_selb foff cnt idx then nth_error buf (Z.to_nat (flat mext (zip Z.add moff (zip Z.sub idx foff)))) else file idx)
  else None.

(** ** Processes *)
(** [N]: cells of the whole grid along the first dimension (distmem.grid_size[0]),
    [rest]: along the others, [h]: halo, [P]: number of processes, [r]: rank.
    mem->grid_size[0]: the part of the process (sharedmem.hpp:94-104), here without
    overflow (see C02) *)
Section Proc.
  Variables (N h P : Z) (rest : list Z).
  Definition own (r : Z) : rng := slab (0, N - 1) r P.
  Definition multi : bool := 1 <? P.
  Definition is_end (r : Z) : bool := (r =? 0) || (r =? P - 1).
  (** hdf5.hpp:104 and 127: elements per dimension of what the process stores *)
  Definition shape (r : Z) : list Z := (if multi then rlen (own r) else N) :: rest.
  (** hdf5.hpp:113, 128 and 136-137: coordinates *)
  Definition cshape (r : Z) : list Z :=
    (if multi then rlen (own r) + (if r =? P - 1 then 1 else 0) else N + 1) :: map (fun n => n + 1) rest.
  (** hdf5.hpp:105 and 130-133: arrays with halos *)
  Definition shape_h (r : Z) : list Z :=
    (if multi then if is_end r then rlen (own r) + h else rlen (own r) else N + 2 * h) :: map (fun n => n + 2 * h) rest.
  (** hdf5.hpp:106 *)
  Definition shape_mem_h (r : Z) : list Z := (rlen (own r) + 2 * h) :: map (fun n => n + 2 * h) rest.
  (** hdf5.hpp:98 and 139 *)
  Definition offst (r : Z) : list Z := (if multi then first (own r) else 0) :: zeros rest.
  (** hdf5.hpp:99 and 140 *)
  Definition offst_h (r : Z) : list Z := (if multi then if r =? 0 then 0 else first (own r) + h else 0) :: zeros rest.
  (** hdf5.hpp:100 and 141-142 *)
  Definition offst_mem_h (r : Z) : list Z := (if multi && (0 <? r) then h else 0) :: zeros rest.
  (** hdf5.hpp:118-122: extents of the datasets *)
  Definition ext_f : list Z := N :: rest.
  Definition ext_h : list Z := (N + 2 * h) :: map (fun n => n + 2 * h) rest.
  Definition ext_c : list Z := (N + 1) :: map (fun n => n + 1) rest.
  (** hdf5.hpp:109 and 146: rows per chunk, [N / P] rounded to the nearest integer
      (exact instead of floating-point division) *)
  Definition chunk0 : Z := if multi then (2 * N + P) / (2 * P) else N.

  (** hdf5.hpp:327-358 [record_dsc_helper]: the array is copied to a contiguous one
      over the part of the process *)
  Definition record_dsc {V : Type} (r : Z) (arr : list Z -> V) : dataset V -> option (dataset V) :=
    h5_write (elements (first (own r) :: zeros rest) (rlen (own r) :: rest) arr) (shape r) (zeros (shape r)) (shape r) (offst r) ext_f.
  (** hdf5.hpp:167-201: coordinate [d] of the corners of cells; [mul i]: [i] times
      the grid step.  [coord.reindexSelf(offst)] *)
  Definition record_coord {V : Type} (mul : Z -> V) (d : nat) (r : Z) : dataset V -> option (dataset V) :=
    h5_write (elements (offst r) (cshape r) (fun idx => mul (nth d idx 0))) (cshape r) (zeros (cshape r)) (cshape r) (offst r) ext_c.
  (** hdf5.hpp:419-449 [record_aux_halo_hlpr].  In three dimensions the array is
      copied to one of extents [shape_h], element by element from the lower bounds
      (blitz does not compare shapes unless BZ_DEBUG is defined) *)
  Definition record_halo {V : Type} (r : Z) (arr : list Z -> V) : dataset V -> option (dataset V) :=
    let lb := (first (own r) - h) :: map (fun _ => - h) rest in
    h5_write (if (length rest =? 2)%nat then elements lb (shape_h r) arr else elements lb (shape_mem_h r) arr)
             (shape_mem_h r) (offst_mem_h r) (shape_h r) (offst_h r) ext_h.
  (** hdf5.hpp:291-325 [record_dsc_srfc_helper]: the lowest layer, extents 115-116, 121
      and 150-151 (the last extent is 1) *)
  Definition lowest : list Z := removelast rest ++ [1].
  Definition record_srfc {V : Type} (r : Z) (arr : list Z -> V) : dataset V -> option (dataset V) :=
    match rest with
    | [] => h5_write [arr [0]] [1] [0] [1] (offst r) [1]
    | _ => h5_write (elements (first (own r) :: zeros lowest) (rlen (own r) :: lowest) arr)
             ((if multi then rlen (own r) else N) :: lowest) (zeros ((if multi then rlen (own r) else N) :: lowest))
             ((if multi then rlen (own r) else N) :: lowest) (offst r) (N :: lowest)
    end.
End Proc.
(** all processes of a list, in this order *)
Fixpoint write_all {V : Type} (w : Z -> dataset V -> option (dataset V)) (ranks : list Z) (file : dataset V) : option (dataset V) :=
  match ranks with
  | [] => Some file
  | r :: rs => match w r file with Some f => write_all w rs f | None => None end
  end.

(** ** get_global_array *)
Definition mul32 (a : option Z) (b : Z) : option Z := match a with Some x => int32 (x * b) | None => None end.
Definition add32 (a : option Z) (b : option Z) : option Z := match a, b with Some x, Some y => int32 (x + y) | _, _ => None end.
Definition sub32 (a : option Z) (b : option Z) : option Z := match a, b with Some x, Some y => int32 (x - y) | _, _ => None end.
(** distmem.hpp:118-123: number of elements of process [r]; [int] arithmetic *)
Definition gsize (N P : Z) (rest : list Z) (r : Z) : option Z := fold_left mul32 rest (int32 (rlen (slab (0, N - 1) r P))).
(** distmem.hpp:126-128: [partial_sum] followed by subtraction *)
Fixpoint psum (N P : Z) (rest : list Z) (r : nat) : option Z :=
  match r with
  | O => gsize N P rest 0
  | S r' => add32 (psum N P rest r') (gsize N P rest (Z.of_nat r))
  end.
Definition displ (N P : Z) (rest : list Z) (r : nat) : option Z := sub32 (psum N P rest r) (gsize N P rest (Z.of_nat r)).
(** distmem.hpp:130: length of the result; [accumulate] with [multiplies<int>] *)
Definition gtotal (ext : list Z) : option Z := fold_left mul32 ext (Some 1).
(** distmem.hpp:134-152: [gatherv] puts the elements of process [r] at [displ r];
    they are the local array in row-major order *)
Fixpoint gathered {V : Type} (N P : Z) (rest : list Z) (ins : nat -> list V) (ranks : list nat) (k : Z) : option V :=
  match ranks with
  | [] => None
  | r :: rs =>
      match displ N P rest r, gsize N P rest (Z.of_nat r) with
      | Some d, Some s => if (d <=? k) && (k <? d + s) then nth_error (ins r) (Z.to_nat (k - d)) else gathered N P rest ins rs k
      | _, _ => None
      end
  end.
(** distmem.hpp:111-160; [arr r]: what advectee() of process [r] returns; its indices
    start at the first cell of the process (sharedmem.hpp:104, 335-340, 415-418, 525-529).  [None]: overflow of [int] *)
Definition global_array {V : Type} (N P : Z) (rest : list Z) (arr : nat -> list Z -> V) : option (list Z -> option V) :=
  match gtotal (N :: rest) with
  | Some _ =>
      if forallb (fun r => match displ N P rest r with Some _ => true | None => false end) (seq 0 (Z.to_nat P))
      then Some (fun idx => gathered N P rest
             (fun r => elements (first (slab (0, N - 1) (Z.of_nat r) P) :: zeros rest) (rlen (slab (0, N - 1) (Z.of_nat r) P) :: rest) (arr r))
             (seq 0 (Z.to_nat P)) (flat (N :: rest) idx))
      else None
  | None => None
  end.

(** ** File names *)
(** decimal digits, most significant first; [k]: as many at least *)
Fixpoint digits (k : nat) (t : Z) : list Z :=
  match k with
  | O => []
  | S k' => digits k' (t / 10) ++ [t mod 10]
  end.
(** hdf5.hpp:237-242 [base_name]: ten digits of the time step, filled with zeros
    (a time step is an [int], so there are no more digits); the prefix is left out *)
Definition base_name (t : Z) : list Z := digits 10 t.
