(** Properties C116-C119: what processes put into files and gather. *)
From Coq Require Import ZArith List Bool Lia String.
From Verif Require Import ModelIndex ModelHdf5 SpecIndex SpecHdf5 ProofsHdf5 ProofsHdf5b ModelXdmf SpecXdmf ProofsXdmf.
Import ListNotations.
Local Open Scope Z_scope.

(** C116: whatever the number of processes and the order in which they write, files
    hold whole fields; [arr r]: the array in the memory of process [r], [g]: the
    field it is a part of. *)
Theorem C116_field_stored : forall N P rest (V : Type) (g : list Z -> V) (arr : Z -> list Z -> V) ranks file,
  0 <= N -> 0 < P -> Forall (fun n => 0 <= n) rest -> each_process P ranks ->
  (forall r i idx, 0 <= r < P -> in_range i (slab (0, N - 1) r P) -> within rest idx -> arr r (i :: idx) = g (i :: idx)) ->
  exists f, write_all (fun r => record_dsc N P rest r (arr r)) ranks file = Some f /\ holds (N :: rest) g f.
Proof. exact (fun N P rest V g arr ranks file HN HP Hr => fields_stored N P rest HN HP Hr g arr ranks file). Qed.
Print Assumptions C116_field_stored.
(** coordinates of the corners of cells, one more than cells in each dimension *)
Theorem C116_coordinates_stored : forall N P rest (V : Type) (mul : Z -> V) d ranks file,
  0 <= N -> 0 < P -> Forall (fun n => 0 <= n) rest -> each_process P ranks -> (d <= List.length rest)%nat ->
  exists f, write_all (record_coord N P rest mul d) ranks file = Some f /\
    holds ((N + 1) :: map (fun n => n + 1) rest) (fun idx => mul (nth d idx 0)) f.
Proof. exact (fun N P rest V mul d ranks file HN HP Hr => coords_stored N P rest HN HP Hr mul d ranks file). Qed.
Print Assumptions C116_coordinates_stored.
(** fields with halos in one and two dimensions *)
Theorem C116_halo_stored : forall N h P rest (V : Type) (g : list Z -> V) (arr : Z -> list Z -> V) ranks file,
  0 <= N -> 0 < P -> 0 <= h -> Forall (fun n => 0 <= n) rest -> each_process P ranks -> List.length rest <> 2%nat ->
  (forall r i idx, 0 <= r < P -> first (slab (0, N - 1) r P) - h <= i <= last (slab (0, N - 1) r P) + h ->
     Forall2 (fun n j => - h <= j < n + h) rest idx -> arr r (i :: idx) = g (i :: idx)) ->
  exists f, write_all (fun r => record_halo N h P rest r (arr r)) ranks file = Some f /\
    holds ((N + 2 * h) :: map (fun n => n + 2 * h) rest) (shifted h g) f.
Proof. exact (fun N h P rest V g arr ranks file HN HP Hh Hr => halos_stored N h P rest HN HP Hh Hr g arr ranks file). Qed.
Print Assumptions C116_halo_stored.
(** surface fields in two and more dimensions *)
Theorem C116_surface_stored : forall N P rest (V : Type) (g : list Z -> V) (arr : Z -> list Z -> V) ranks file,
  0 <= N -> 0 < P -> Forall (fun n => 0 <= n) rest -> rest <> [] -> each_process P ranks ->
  (forall r i idx, 0 <= r < P -> in_range i (slab (0, N - 1) r P) -> within (removelast rest ++ [1]) idx -> arr r (i :: idx) = g (i :: idx)) ->
  exists f, write_all (fun r => record_srfc N P rest r (arr r)) ranks file = Some f /\ holds (N :: removelast rest ++ [1]) g f.
Proof. exact (fun N P rest V g arr ranks file => srfc_stored N P rest g arr ranks file). Qed.
Print Assumptions C116_surface_stored.
(** in one dimension there is one value, which all but the first process try to store
    out of bounds *)
Theorem C116_surface_1d_refuted : forall N P (V : Type) (arr : list Z -> V) r file, 1 < P -> P <= N -> 1 <= r < P ->
  record_srfc N P [] r arr file = None.
Proof. exact (fun N P V arr r file => srfc_1d N P arr r file). Qed.
Print Assumptions C116_surface_1d_refuted.
Example C116_example_surface :
  option_map (fun f : dataset (list Z) => (f [0; 0; 0], f [4; 1; 0], f [6; 1; 0])) (write_all (fun r => record_srfc 7 3 [2; 5] r (fun idx => idx)) [2; 0; 1] (fun _ => None)) =
    Some (Some [0; 0; 0], Some [4; 1; 0], Some [6; 1; 0]).
Proof. vm_compute. reflexivity. Qed.
(** each row is written by one process *)
Theorem C116_no_overlap : forall N h P rest, 0 <= N -> 0 < P -> 0 <= h ->
  ordered_partition (0, N - 1) P (fun r => (hd 0 (offst N P rest r), hd 0 (offst N P rest r) + hd 0 (shape N P rest r) - 1)) /\
  ordered_partition (0, N) P (fun r => (hd 0 (offst N P rest r), hd 0 (offst N P rest r) + hd 0 (cshape N P rest r) - 1)) /\
  ordered_partition (0, N + 2 * h - 1) P (fun r => (hd 0 (offst_h N h P rest r), hd 0 (offst_h N h P rest r) + hd 0 (shape_h N h P rest r) - 1)).
Proof. exact (fun N h P rest HN HP Hh => conj (field_parts N P rest HN HP) (conj (coord_parts N P rest HN HP) (halo_parts N h P rest HN HP Hh))). Qed.
Print Assumptions C116_no_overlap.
(** chunks are admissible: not empty, not longer than the dataset *)
Theorem C116_chunks : forall N P, 0 <= N -> 0 < P -> P <= N -> 1 <= chunk0 N P <= N.
Proof. exact chunk_ok. Qed.
Print Assumptions C116_chunks.
(** 7 rows of 2 on 3 processes that write in another order; the same with halos *)
Example C116_example :
  option_map (fun f : dataset (list Z) => (f [0; 0], f [4; 1], f [6; 1], f [7; 0])) (write_all (fun r => record_dsc 7 3 [2] r (fun idx => idx)) [2; 0; 1] (fun _ => None)) =
    Some (Some [0; 0], Some [4; 1], Some [6; 1], None) /\
  option_map (fun f : dataset (list Z) => (f [0; 0], f [5; 3], f [8; 3])) (write_all (fun r => record_halo 7 1 3 [2] r (fun idx => idx)) [2; 0; 1] (fun _ => None)) =
    Some (Some [-1; -1], Some [4; 2], Some [7; 2]) /\
  each_process 3 [2; 0; 1] /\ map (fun r => slab (0, 6) r 3) [0; 1; 2] = [(0, 1); (2, 3); (4, 6)] /\ chunk0 7 3 = 2.
Proof. split; [vm_compute; reflexivity|]. split; [vm_compute; reflexivity|]. split; [intros r; cbn; lia|]. split; vm_compute; reflexivity. Qed.

(** In three dimensions, with two or more processes and a halo, every process but the
    first reads beyond the end of the array it stores: the copy in C order has as
    many rows as are written but is addressed as if it had all rows of the process. *)
Theorem C116_halo_3d_refuted : forall N h P a b (V : Type) (arr : Z -> list Z -> V) ranks file,
  1 < P -> 0 < h -> P <= N -> 0 < a -> 0 < b -> each_process P ranks ->
  write_all (fun r => record_halo N h P [a; b] r (arr r)) ranks file = None /\
  forall r, 1 <= r < P -> record_halo N h P [a; b] r (arr r) file = None.
Proof. exact (fun N h P a b V arr ranks file HP Hh HN Ha Hb E => conj (halo3_all N h P a b HP Hh HN Ha Hb ranks arr file E) (fun r => halo3_over N h P a b HP Hh HN Ha Hb r (arr r) file)). Qed.
Print Assumptions C116_halo_3d_refuted.
Example C116_example_3d : (exists f, record_halo 6 1 2 [3; 3] 0 (fun idx => idx) (fun _ => None) = Some f) /\
  record_halo 6 1 2 [3; 3] 1 (fun idx => idx) (fun _ => None) = None /\ (exists f, record_halo 6 1 1 [3; 3] 0 (fun idx => idx) (fun _ => None) = Some f).
Proof. split; [|split]; [eexists; vm_compute; reflexivity|vm_compute; reflexivity|eexists; vm_compute; reflexivity]. Qed.

(** C117: advectee_global() is the whole field on every process, as long as the
    number of cells is an [int] ... *)
Theorem C117_global_array : forall N P rest (V : Type) (g : list Z -> V) (arr : nat -> list Z -> V),
  0 < P -> 0 < N -> Forall (fun n => 0 < n) rest -> N * volume rest <= int_max ->
  (forall r i idx, Z.of_nat r < P -> in_range i (slab (0, N - 1) (Z.of_nat r) P) -> within rest idx -> arr r (i :: idx) = g (i :: idx)) ->
  exists f, global_array N P rest arr = Some f /\ holds (N :: rest) g f.
Proof. exact (fun N P rest V g arr HP HN Hr T => global_ok N P rest HP HN Hr T g arr). Qed.
Print Assumptions C117_global_array.
(** ... and undefined if it is not: the length of the result overflows *)
Theorem C117_global_array_large_refuted : forall N P rest (V : Type) (arr : nat -> list Z -> V),
  0 < N -> Forall (fun n => 0 < n) rest -> int_max < N * volume rest -> global_array N P rest arr = None.
Proof. exact (fun N P rest V arr => global_over N P rest arr). Qed.
Print Assumptions C117_global_array_large_refuted.
Example C117_example :
  option_map (fun f : list Z -> option (list Z) => (f [0; 0; 0], f [4; 1; 2], f [6; 1; 0])) (global_array 7 3 [2; 3] (fun _ idx => idx)) =
    Some (Some [0; 0; 0], Some [4; 1; 2], Some [6; 1; 0]) /\
  (exists N rest, N = 1291 /\ rest = [1291; 1291] /\ int_max < N * volume rest).
Proof. split; [vm_compute; reflexivity|]. exists 1291, [1291; 1291]. split; [reflexivity|]. split; [reflexivity|]. vm_compute. reflexivity. Qed.

(** C118: every .xmf file describes the .h5 file of its time step, in any history of
    output at any steps ... *)
Theorem C118_xmf_describes : forall grid vars has_G es, only_records es -> forall t, In (Record t) es ->
  exists d f, find_doc (run grid vars has_G es) t = Some d /\ find_file (run grid vars has_G es) t = Some f /\ describes t grid d f.
Proof. exact records_described. Qed.
Print Assumptions C118_xmf_describes.
(** the temporal file lists the steps in the order of output *)
Theorem C118_temporal : forall grid vars has_G es, only_records es -> map Record (w_steps (run grid vars has_G es)) = es.
Proof. exact temporal_steps. Qed.
Print Assumptions C118_temporal.
(** ... but not if auxiliary fields are recorded: the first file does not mention
    them although they are there, later ones give them dimensions too small by one. *)
Theorem C118_aux_not_listed_refuted : forall grid vars has_G n t u, ~ In n vars -> t <> u ->
  exists d f, find_doc (run grid vars has_G [Record t; Aux n; Record u; Aux n]) t = Some d /\
    find_file (run grid vars has_G [Record t; Aux n; Record u; Aux n]) t = Some f /\
    In (n, grid) f /\ forall a s, In (a, s) (d_attrs d) -> fst a <> n.
Proof. exact aux_first. Qed.
Print Assumptions C118_aux_not_listed_refuted.
Theorem C118_aux_dimensions_refuted : forall grid vars has_G n t u, ~ In n vars -> grid <> [] ->
  exists d f dims, find_doc (run grid vars has_G [Record t; Aux n; Record u; Aux n]) u = Some d /\
    find_file (run grid vars has_G [Record t; Aux n; Record u; Aux n]) u = Some f /\
    In (n, grid) f /\ In ((n, dims), u) (d_attrs d) /\ dims <> grid.
Proof. exact aux_later. Qed.
Print Assumptions C118_aux_dimensions_refuted.
Example C118_example :
  only_records [Record 0; Record 10; Record 20] /\
  find_file (run [4; 3] ["u"; "v"]%string true [Record 0; Record 10; Record 20]) 10 = Some [("u", [4; 3]); ("v", [4; 3])]%string /\
  option_map d_attrs (find_doc (run [4; 3] ["u"; "v"]%string true [Record 0; Record 10; Record 20]) 10) = Some [(("u", [4; 3]), 10); (("v", [4; 3]), 10)]%string /\
  option_map d_attrs (find_doc (run [4; 3] ["u"]%string true [Record 0; Aux "p"; Record 10; Aux "p"]) 10) = Some [(("u", [4; 3]), 10); (("p", [3; 2]), 10)]%string.
Proof.
  split; [intros e [<-|[<-|[<-|[]]]]; eexists; reflexivity|]. split; [reflexivity|]. split; reflexivity.
Qed.

(** C119: file names have equal lengths and sort by time. *)
Theorem C119_names_sort_by_time : forall t u, 0 <= t -> t < u -> u <= int_max ->
  lex_lt (base_name t) (base_name u) /\ List.length (base_name t) = List.length (base_name u).
Proof. exact (fun t u A B C => conj (names_sorted t u A B C) (eq_trans (names_ten t) (eq_sym (names_ten u)))). Qed.
Print Assumptions C119_names_sort_by_time.
Example C119_example : base_name 1205 = [0; 0; 0; 0; 0; 0; 1; 2; 0; 5] /\ base_name int_max = [2; 1; 4; 7; 4; 8; 3; 6; 4; 7].
Proof. split; vm_compute; reflexivity. Qed.
