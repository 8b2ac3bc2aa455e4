(** Model of the slicing of application vertices into machine vertices
    (pacman/model/graphs/common/slice.py, mdslice.py,
    pacman/utilities/algorithm_utilities/partition_algorithm_utilities.py,
    the size and index methods of
    pacman/model/graphs/application/application_vertex.py and the virtual
    device slices of application_fpga_vertex.py and
    application_spinnaker_link_vertex.py).

    Python integers are [Z]; [//] and [%] are [Z.div] and [Z.modulo] (floor).
    Simplified: "math.ceil(a / b)" and "(dim / maxi) != (dim // maxi)" go
    through floating point in the code and are exact here; numpy arrays of
    indices are lists, and the accumulators that are numpy floats in the code
    are integers (exact below 2^53). *)
From Coq Require Import List ZArith Bool.
From Verif Require Import Base.
Import ListNotations.
Local Open Scope Z_scope.

(** The parts of ApplicationVertex that slicing reads: n_atoms, atoms_shape and
    _max_atoms_per_dimension_per_core (application_vertex.py 87, 147-158, 160). *)
Record app_vertex := mkAV {
  av_n : Z;
  av_shape : list Z;
  av_max : option (list Z) }.

(** Slice (slice.py 21-51) and MDSlice (mdslice.py 23-56): lo_atom, n_atoms and
    for an MDSlice also shape, start and atoms_shape. *)
Record slice := mkSlice {
  sl_lo : Z;
  sl_n : Z;
  sl_md : option (list Z * list Z * list Z) }.

(** Slice.__init__ (slice.py 31-51); the arguments are integers. *)
Definition make_slice (lo hi : Z) : res slice :=
  if lo <? 0 then Err ValueError
  else if hi <? lo then Err ValueError
  else Ok (mkSlice lo (hi - lo + 1) None).

(** MDSlice.__init__ (mdslice.py 30-56). *)
Definition make_mdslice (lo hi : Z) (shape start atoms_shape : list Z) : res slice :=
  let* s := make_slice lo hi in
  if Nat.eqb (length shape) (length start)
  then Ok (mkSlice (sl_lo s) (sl_n s) (Some (shape, start, atoms_shape)))
  else Err ValueError.

(** Slice.hi_atom (slice.py 62-73); an MDSlice has none (mdslice.py 58-63). *)
Definition hi_atom (s : slice) : res Z :=
  match sl_md s with
  | None => Ok (sl_lo s + sl_n s - 1)
  | Some _ => Err NotImplemented
  end.

(** Slice.shape and start (slice.py 84-102, mdslice.py 66-74). *)
Definition sl_shape (s : slice) : list Z :=
  match sl_md s with None => [sl_n s] | Some (sh, _, _) => sh end.
Definition sl_start (s : slice) : list Z :=
  match sl_md s with None => [sl_lo s] | Some (_, st, _) => st end.

Definition prod (l : list Z) : Z := fold_right Z.mul 1 l.

(** "math.ceil(a / b)". *)
Definition ceil_div (a b : Z) : res Z :=
  if b =? 0 then Err ZeroDivision else Ok (- ((- a) / b)).

(** The divisibility loop of __check_atoms_per_core (application_vertex.py 214-222). *)
Fixpoint check_divisible (mx shape : list Z) : res unit :=
  match mx, shape with
  | m :: mx', d :: shape' =>
      if m =? 0 then Err ZeroDivision
      else if d mod m =? 0 then check_divisible mx' shape' else Err ValueError
  | _, _ => Ok tt
  end.

(** __check_atoms_per_core (application_vertex.py 205-222). *)
Definition check_atoms_per_core (v : app_vertex) (mx : list Z) : res unit :=
  if negb (Nat.eqb (length mx) (length (av_shape v))) then Err ValueError
  else if Nat.ltb 1 (length (av_shape v)) then check_divisible mx (av_shape v)
  else Ok tt.

(** get_max_atoms_per_core (application_vertex.py 224-235). *)
Definition get_max_atoms_per_core (v : app_vertex) : res Z :=
  match av_max v with
  | None => Ok (av_n v)
  | Some mx => let* _ := check_atoms_per_core v mx in Ok (prod mx)
  end.

(** get_max_atoms_per_dimension_per_core (application_vertex.py 237-248). *)
Definition get_max_per_dim (v : app_vertex) : res (list Z) :=
  match av_max v with
  | None => Ok (av_shape v)
  | Some mx => let* _ := check_atoms_per_core v mx in Ok mx
  end.

(** The loop of get_single_dimension_slices
    (partition_algorithm_utilities.py 110-118). *)
Fixpoint single_loop (k : nat) (n per hi : Z) : res (list slice) :=
  match k with
  | O => Ok []
  | S k' =>
      let lo := hi + 1 in
      let hi' := Z.min (n - 1) (lo + per - 1) in
      let* s := make_slice lo hi' in
      let* rest := single_loop k' n per hi' in
      Ok (s :: rest)
  end.

(** get_single_dimension_slices (partition_algorithm_utilities.py 95-120). *)
Definition single_slices (v : app_vertex) : res (list slice) :=
  let* mx := get_max_atoms_per_core v in
  if av_n v <? mx then
    let* s := make_slice 0 (av_n v - 1) in Ok [s]
  else
    let* dims := get_max_per_dim v in
    let* total := aget dims 0 in
    let* n_vertices := ceil_div (av_n v) total in
    single_loop (Z.to_nat n_vertices) (av_n v) total (-1).

(** The first loop of get_multidimensional_slices
    (partition_algorithm_utilities.py 55-64): for each dimension its
    dim_numerator, and the final n_vertices. *)
Fixpoint numerators (n_vertices : Z) (dims : list (Z * Z)) : res (list (Z * Z * Z) * Z) :=
  match dims with
  | [] => Ok ([], n_vertices)
  | (n_atom, per) :: rest =>
      let* this := ceil_div n_atom per in
      let* (l, total) := numerators (n_vertices * this) rest in
      Ok ((n_vertices, per, n_atom) :: l, total)
  end.

(** The inner loop "for d in reversed(range(len(n_atoms)))" (lines 75-81): the
    (start[d], n_on_core[d]) pairs and what is left of the remainder. *)
Fixpoint locate (l : list (Z * Z * Z)) (remainder : Z) : list (Z * Z) * Z :=
  match l with
  | [] => ([], remainder)
  | (num, per, n_atom) :: rest =>
      let '(ps, r) := locate rest remainder in
      let start := (r / num) * per in
      let hi_d := Z.min (start + per) n_atom in
      ((start, hi_d - start) :: ps, r mod num)
  end.

(** The loop over the vertices (lines 67-90). *)
Fixpoint multi_loop (vs : list nat) (l : list (Z * Z * Z)) (shape : list Z) (hi : Z)
  : res (list slice) :=
  match vs with
  | [] => Ok []
  | v :: vs' =>
      let ps := fst (locate l (Z.of_nat v)) in
      let total_on_core := prod (map snd ps) in
      let lo := hi + 1 in
      let hi' := lo + total_on_core - 1 in
      let* s := make_mdslice lo hi' (map snd ps) (map fst ps) shape in
      let* rest := multi_loop vs' l shape hi' in
      Ok (s :: rest)
  end.

(** get_multidimensional_slices (partition_algorithm_utilities.py 25-92). *)
Definition multi_slices (v : app_vertex) : res (list slice) :=
  let* per := get_max_per_dim v in
  if negb (Nat.eqb (length per) (length (av_shape v))) then Err ConfigurationException
  else if Nat.eqb (length (av_shape v)) 1 then single_slices v
  else
    let* mx := get_max_atoms_per_core v in
    if av_n v <=? mx then
      let* s := make_mdslice 0 (av_n v - 1) (av_shape v) (map (fun _ => 0) (av_shape v)) (av_shape v) in
      Ok [s]
    else
      let* (l, n_vertices) := numerators 1 (combine (av_shape v) per) in
      multi_loop (seq 0 (Z.to_nat n_vertices)) l (av_shape v) (-1).

(** "astype(numpy.uint32)". *)
Definition to_u32 (x : Z) : Z := x mod 2 ^ 32.

(** The loop of get_key_ordered_indices (application_vertex.py 374-401) for one
    index: (core_index, atom_index). [dims] is (atoms_shape[n], atoms_per_core[n]). *)
Fixpoint key_loop (dims : list (Z * Z)) (rem cum_per_core cum_cores core atom : Z) : Z * Z :=
  match dims with
  | [] => (core, atom)
  | (a, p) :: rest =>
      let g := rem mod a in
      let c := g / p in
      let core' := core + c * cum_cores in
      let at_d := g - p * c in
      let atom' := atom + at_d * cum_per_core in
      key_loop rest (rem / a) (cum_per_core * p) (cum_cores * (a / p)) core' atom'
  end.

(** get_key_ordered_indices (application_vertex.py 352-404). *)
Definition key_ordered (v : app_vertex) (indices : option (list Z)) : res (list Z) :=
  let ixs := match indices with
             | None => map Z.of_nat (seq 0 (Z.to_nat (av_n v)))
             | Some l => l
             end in
  if Nat.eqb (length (av_shape v)) 1 then Ok ixs
  else
    let* per := get_max_per_dim v in
    let* mx := get_max_atoms_per_core v in
    Ok (map (fun i => let '(core, atom) := key_loop (combine (av_shape v) per) i 1 1 0 0 in
                      to_u32 (core * mx + atom)) ixs).

(** The loop of get_raster_ordered_indices (application_vertex.py 424-440). *)
Fixpoint raster_loop (dims : list (Z * Z)) (core_rem atom_rem cum glob : Z) : Z :=
  match dims with
  | [] => glob
  | (a, p) :: rest =>
      let c := core_rem mod (a / p) in
      let at_d := atom_rem mod p in
      let g := c * p + at_d in
      raster_loop rest (core_rem / (a / p)) (atom_rem / p) (cum * a) (glob + g * cum)
  end.

(** get_raster_ordered_indices (application_vertex.py 406-442). *)
Definition raster_ordered (v : app_vertex) (ixs : list Z) : res (list Z) :=
  if Nat.eqb (length (av_shape v)) 1 then Ok ixs
  else
    let* per := get_max_per_dim v in
    let* mx := get_max_atoms_per_core v in
    Ok (map (fun i => to_u32 (raster_loop (combine (av_shape v) per) (i / mx) (i mod mx) 1 0)) ixs).

(** (atoms_shape[n], start[n], shape[n]) for each dimension of an MDSlice. *)
Definition zip3 (a st sh : list Z) : list (Z * (Z * Z)) := combine a (combine st sh).

(** The loop of MDSlice.get_relative_indices (mdslice.py 166-185). *)
Fixpoint relative_loop (dims : list (Z * (Z * Z))) (rem cum rel : Z) : Z :=
  match dims with
  | [] => rel
  | (a, (st, sh)) :: rest =>
      relative_loop rest (rem / a) (cum * sh) (rel + (rem mod a - st) * cum)
  end.

(** Slice.get_relative_indices (slice.py 208-220) and MDSlice's (mdslice.py 162-186). *)
Definition relative_indices (s : slice) (ixs : list Z) : list Z :=
  match sl_md s with
  | None => map (fun i => i - sl_lo s) ixs
  | Some (sh, st, a) => map (fun i => to_u32 (relative_loop (zip3 a st sh) i 1 0)) ixs
  end.

(** The loop of MDSlice.get_raster_indices (mdslice.py 192-210). *)
Fixpoint slice_raster_loop (dims : list (Z * (Z * Z))) (rem cum glob : Z) : Z :=
  match dims with
  | [] => glob
  | (a, (st, sh)) :: rest =>
      slice_raster_loop rest (rem / sh) (cum * a) (glob + (rem mod sh + st) * cum)
  end.

(** Slice.get_raster_indices (slice.py 222-234) and MDSlice's (mdslice.py 188-211). *)
Definition raster_indices (s : slice) (ixs : list Z) : list Z :=
  match sl_md s with
  | None => map (fun i => i + sl_lo s) ixs
  | Some (sh, st, a) => map (fun i => slice_raster_loop (zip3 a st sh) i 1 0) ixs
  end.

(** range(lo, hi) *)
Definition zrange (lo hi : Z) : list Z :=
  map (fun i => lo + Z.of_nat i) (seq 0 (Z.to_nat (hi - lo))).

(** MDSlice.get_raster_ids (mdslice.py 108-114): the reversed axes of the array
    "arange(prod).reshape(reversed(shape))" cut by the slices and flattened row
    by row, so that dimension 0 runs fastest.  A numpy slice stops at the end of
    its axis. *)
Fixpoint raster_grid (dims : list (Z * (Z * Z))) : list Z :=
  match dims with
  | [] => [0]
  | (a, (st, sh)) :: rest =>
      flat_map (fun r => map (fun i => i + a * r) (zrange st (Z.min (st + sh) a))) (raster_grid rest)
  end.

(** Slice.get_raster_ids (slice.py 163-171) and MDSlice's. *)
Definition raster_ids (s : slice) : list Z :=
  match sl_md s with
  | None => zrange (sl_lo s) (sl_lo s + sl_n s)
  | Some (sh, st, a) => raster_grid (zip3 a st sh)
  end.

(** ApplicationFPGAVertex.get_incoming_slice_for_link
    (application_fpga_vertex.py 81-98). *)
Definition fpga_slice (n m index : Z) : res slice :=
  if m =? 0 then Err ZeroDivision
  else
    let per := n / m in
    make_slice (per * index) (Z.min (per * (index + 1) - 1) (n - 1)).

(** ApplicationSpiNNakerLinkVertex.get_incoming_slice
    (application_spinnaker_link_vertex.py 94-108). *)
Definition link_slice (n m index : Z) : res slice :=
  let* per := ceil_div n m in
  make_slice (per * index) (Z.min (per * (index + 1) - 1) (n - 1)).

(** SplitterExternalDevice.set_governed_app_vertex
    (splitter_external_device.py 66-122): the incoming slices, for an FPGA
    device one per vertex index and FPGA connection, for a SpiNNaker link one
    per vertex index. *)
Definition fpga_slices (n m : Z) (n_connections : nat) : res (list slice) :=
  mapM (fun i => fpga_slice n m i)
       (flat_map (fun i => repeat i n_connections) (zrange 0 m)).
Definition link_slices (n m : Z) : res (list slice) :=
  mapM (fun i => link_slice n m i) (zrange 0 m).
