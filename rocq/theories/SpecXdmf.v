(** When an .xmf file describes the .h5 file of its time step. *)
From Coq Require Import ZArith List String.
From Verif Require Import ModelXdmf.
Local Open Scope Z_scope.

(** every attribute exists in the file with the dimensions given, every dataset of
    the file is an attribute, and all have one value per cell of the mesh, whose
    corners are the coordinates (one more per dimension than cells) *)
Record describes (t : Z) (grid : list Z) (d : doc) (file : list (string * list Z)) : Prop :=
  { de_there : forall a f, In (a, f) (d_attrs d) -> f = t /\ In a file;
    de_all : forall a, In a file -> In (a, t) (d_attrs d);
    de_cells : forall a f, In (a, f) (d_attrs d) -> snd a = grid;
    de_mesh : d_mesh d = List.map (fun n => n + 1) grid;
    de_coords : List.length (d_coords d) = List.length grid /\ forall c, In c (d_coords d) -> c = List.map (fun n => n + 1) grid;
    de_consts : forall a, In a (d_consts d) -> snd a = grid }.
(** nothing but output at requested steps *)
Definition only_records (es : list event) : Prop := forall e, In e es -> exists t, e = Record t.
