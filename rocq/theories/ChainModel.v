(** Model of the mapping chain from the router to the routing tables: what
    route_application_graph returns is given to a routing table generator with the
    keys of the zoned allocator, and the tables to a compressor.
    Sources: the functions of RouterModel, AllocModel, GenModel, TablesModel,
    PairModel, RangeModel and OrderedModel, in the order in which PacmanDataView and
    PacmanDataWriter pass their results on
    (pacman/data/pacman_data_view.py get_routing_table_by_partition,
    get_routing_infos, get_uncompressed, get_precompressed), and
    ranged_compressor.py 31-61.
    The two generators read the vertices of the table by partition and of the
    routing information; the models of the router and of the allocator have two
    types for them, which are identified here. *)
From Coq Require Import List Arith NArith ZArith Bool.
From Verif Require Import Base Dict RouteSpec KeyMask AllocModel TablesModel GenModel PairModel RangeModel OrderedModel
  TreeModel MachModel LdfModel PathModel BfsModel RPartModel TargetsModel ConvModel RouterModel.
Import ListNotations.
Local Open Scope nat_scope.

Definition vertex_of (w : vtx) : vertex :=
  match w with RPartModel.App a => AllocModel.App a | RPartModel.Mac v => AllocModel.Mac v end.
Definition rent_of (e : rentry) : rent := mkRent (RPartModel.re_route e) (re_default e).

(** get_entries_for_router for each of get_routers
    (basic_routing_table_generator.py 36-44, merged_routing_table_generator.py 41-48);
    every router has entries. *)
Definition items_of (d : list (skey * rentry)) : list ((vertex * nat) * rent) :=
  map (fun x => ((vertex_of (fst (fst x)), snd (fst x)), rent_of (snd x))) d.
Definition routers_of (t : rtable) : list ((Z * Z) * list ((vertex * nat) * rent)) :=
  map (fun x => (fst x, items_of (snd x))) t.

(** zoned_routing_info_allocator.py 139-142: the partitions that get keys. *)
Definition keyed_parts (i : rinput) (vertices : list nat) (partitions : list apart) (extra : list (nat * nat)) : list (nat * nat) :=
  map (fun p => (ap_pre p, ap_id p)) (app_partitions i vertices partitions) ++ extra.

(** The router, the allocator and one of the generators. *)
Definition make_tables (merged : bool) (entry_eq : entry -> entry -> bool) (flexible : bool) (i : rinput) (vertices : list nat)
    (partitions : list apart) (extra : list (nat * nat)) (e : graph_env) : res (list info * list table) :=
  let* t := route_application_graph i vertices partitions in
  let* infos := allocate flexible e (keyed_parts i vertices partitions extra) in
  let* ts := generate (if merged then merged_table entry_eq infos (ve_app (ri_venv i)) else basic_table entry_eq infos) (routers_of t) in
  Ok (infos, ts).

(** ranged_compressor.py 31-61: [range_compressor]; the number of entries that the
    router of a chip has is asked of a function. *)
Definition range_compressor (as_far : bool) (target : Z -> Z -> nat) (accept_overflow : bool) (ts : list table) : res (list table) :=
  foldM (fun done t =>
    let* new := range_compress (length (t_entries t)) as_far (target (t_x t) (t_y t)) (t_entries t) in
    if Nat.ltb (target (t_x t) (t_y t)) (length new) && negb accept_overflow then Err MinimisationFailed
    else add_table done (mkTable (t_x t) (t_y t) new (length (filter e_def new)))) [] ts.
