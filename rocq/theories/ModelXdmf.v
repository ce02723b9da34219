(** Model of the .xmf files that describe HDF5 output: libmpdata++/output/hdf5_xdmf.hpp,
    libmpdata++/output/detail/xdmf_writer.hpp.  XML syntax, number and attribute types
    are left out; a reference "file.h5:/name" is the pair of the time step in the
    file's name and [name]. *)
From Coq Require Import ZArith List Bool String.
Import ListNotations.
Local Open Scope Z_scope.

(** name and dimensions *)
Definition entry : Type := (string * list Z)%type.
(** contents of one .xmf file: dimensions of the mesh and of the coordinate arrays
    (in const.h5), attributes with the time step of the file they refer to,
    attributes in const.h5 *)
Record doc : Type := { d_mesh : list Z; d_coords : list (list Z); d_attrs : list (entry * Z); d_consts : list entry }.
(** xdmf_writer.hpp:97-102 ([w_mesh], [w_coords], attributes as sets ordered by
    name); hdf5_xdmf.hpp:38 ([w_steps]); [w_docs]: .xmf files by time step, newest
    first; [w_files]: datasets of the .h5 files by time step, newest first;
    [w_grid]: distmem.grid_size; [w_vars]: names in outvars *)
Record writer : Type := {
  w_grid : list Z; w_vars : list string;
  w_mesh : list Z; w_coords : list (list Z); w_attrs : list entry; w_consts : list entry;
  w_steps : list Z; w_docs : list (Z * doc); w_files : list (Z * list entry) }.

(** xdmf_writer.hpp:104-111 [make_attribute] *)
Definition make_attribute (name : string) (dims : list Z) : entry := (name, map (fun n => n - 1) dims).
(** [std::set::insert]: nothing happens if there is an element of the same name *)
Definition insert (a : entry) (l : list entry) : list entry :=
  if existsb (fun b => String.eqb (fst b) (fst a)) l then l else l ++ [a].

(** xdmf_writer.hpp:115-132 [setup], 144-152 [add_const_attribute], hdf5_xdmf.hpp:42-61 [start]; hdf5.hpp:112-113, 167-197:
    coordinate arrays have one element more than the grid in each dimension *)
Definition start (grid : list Z) (vars : list string) (has_G : bool) : writer :=
  {| w_grid := grid; w_vars := vars; w_mesh := map (fun n => n + 1) grid; w_coords := map (fun _ => map (fun n => n + 1) grid) grid;
     w_attrs := fold_left (fun l n => insert (make_attribute n (map (fun n => n + 1) grid)) l) vars [];
     w_consts := if has_G then [make_attribute "G" (map (fun n => n + 1) grid)] else [];
     w_steps := []; w_docs := []; w_files := [] |}.

(** xdmf_writer.hpp:154-180 [write] at time step [t] *)
Definition write_doc (w : writer) (t : Z) : doc :=
  {| d_mesh := w_mesh w; d_coords := w_coords w; d_attrs := map (fun a => (a, t)) (w_attrs w); d_consts := w_consts w |}.
(** hdf5_xdmf.hpp:63-84 [write_xmfs], [record_all]; hdf5.hpp:256-286: the file is
    created anew with one dataset per variable *)
Definition record_all (t : Z) (w : writer) : writer :=
  {| w_grid := w_grid w; w_vars := w_vars w; w_mesh := w_mesh w; w_coords := w_coords w; w_attrs := w_attrs w; w_consts := w_consts w;
     w_steps := w_steps w ++ [t]; w_docs := (t, write_doc w t) :: w_docs w;
     w_files := (t, map (fun n => (n, w_grid w)) (w_vars w)) :: w_files w |}.
(** a dataset is added to the file opened last *)
Definition add_dataset (a : entry) (fs : list (Z * list entry)) : list (Z * list entry) :=
  match fs with (t, l) :: fs' => (t, l ++ [a]) :: fs' | [] => [] end.
Definition add_entry (attr data : entry) (w : writer) : writer :=
  {| w_grid := w_grid w; w_vars := w_vars w; w_mesh := w_mesh w; w_coords := w_coords w; w_attrs := insert attr (w_attrs w); w_consts := w_consts w;
     w_steps := w_steps w; w_docs := w_docs w; w_files := add_dataset data (w_files w) |}.
(** hdf5_xdmf.hpp:86-93 [record_aux]; xdmf_writer.hpp:135-142 [add_attribute] *)
Definition record_aux (name : string) (w : writer) : writer :=
  add_entry (make_attribute name (w_grid w)) (name, w_grid w) w.
Fixpoint last_one (l : list Z) : list Z := match l with [] => [] | [_] => [1] | n :: l' => n :: last_one l' end.
(** hdf5_xdmf.hpp:95-104 [record_aux_dsc]; hdf5.hpp:394-416 *)
Definition record_aux_dsc (name : string) (srfc : bool) (w : writer) : writer :=
  let dims := if srfc then last_one (w_grid w) else w_grid w in
  add_entry (make_attribute name dims) (name, dims) w.

Inductive event : Type := Record (t : Z) | Aux (name : string) | AuxDsc (name : string) (srfc : bool).
Definition step (w : writer) (e : event) : writer :=
  match e with Record t => record_all t w | Aux n => record_aux n w | AuxDsc n s => record_aux_dsc n s w end.
Definition run (grid : list Z) (vars : list string) (has_G : bool) (es : list event) : writer := fold_left step es (start grid vars has_G).
(** what is found in the directory at the end *)
Definition find_doc (w : writer) (t : Z) : option doc := option_map snd (find (fun p => fst p =? t) (w_docs w)).
Definition find_file (w : writer) (t : Z) : option (list entry) := option_map snd (find (fun p => fst p =? t) (w_files w)).
