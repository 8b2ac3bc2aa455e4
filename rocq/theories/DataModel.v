(** Model of the data shared between the stages: _PacmanDataModel and PacmanDataView
    (pacman/data/pacman_data_view.py) and PacmanDataWriter
    (pacman/data/pacman_data_writer.py), with the machine vertices that application
    vertices remember (pacman/model/graphs/application/application_vertex.py).

    There is one model object (__new__, view 81-87), here the state. Objects that are
    only handed through are numbers. What the super classes of other packages hold -
    whether the simulator is set up and whether mapping is required - are two flags
    that they may change at any time. Messages of exceptions are left out. *)
From Coq Require Import String List Arith ZArith Bool.
From Verif Require Import Base Dict SdramModel GraphModel.
Import ListNotations.
Local Open Scope nat_scope.

(** What is set by one stage and used by others: _placements, _routing_infos, _tags,
    _uncompressed, _precompressed and _routing_table_by_partition. *)
Inductive slot := SPlacements | SRoutingInfos | STags | SUncompressed | SPrecompressed | SByPartition.
Definition slot_eqb (a b : slot) : bool :=
  match a, b with
  | SPlacements, SPlacements | SRoutingInfos, SRoutingInfos | STags, STags | SUncompressed, SUncompressed
  | SPrecompressed, SPrecompressed | SByPartition, SByPartition => true
  | _, _ => false
  end.

Record data := mkData {
  d_graph : graph;                     (* _graph, and the labels of all vertices *)
  d_macs : list (nat * list nat);      (* _machine_vertices of each application vertex *)
  d_index : list (nat * nat);          (* index of each machine vertex *)
  d_slots : slot -> option nat;
  d_plan : option Z;                   (* _plan_n_timesteps *)
  d_boards : option Z;                 (* _n_boards_required *)
  d_chips : option Z;                  (* _n_chips_required *)
  d_in_graph : option Z;               (* _n_chips_in_graph *)
  d_all : list nat;                    (* _all_monitor_vertices *)
  d_eth : list nat;                    (* _ethernet_monitor_vertices *)
  d_mapping : bool;                    (* get_requires_mapping() *)
  d_valid : bool }.                    (* check_valid_simulator() does not raise *)

(** A Python argument that should be an int or None. *)
Inductive pyint := PNone | PInt (z : Z) | POther.

(** An object given to a setter: of the right type, or not. *)
Inductive obj := Obj (o : nat) | Wrong.

Inductive reply := RNone | RRaise (e : exn) | RNotRunning.

(** Writer: set_placements (68-77), set_routing_infos (79-88), set_tags (90-99),
    set_uncompressed (101-112), set_precompressed (114-125),
    set_routing_table_by_partition (145-161). *)
Definition set_slot (d : data) (s : slot) (o : obj) : data * reply :=
  match o with
  | Wrong => (d, RRaise TypeError)
  | Obj n => (mkData (d_graph d) (d_macs d) (d_index d) (fun s' => if slot_eqb s' s then Some n else d_slots d s')
                (d_plan d) (d_boards d) (d_chips d) (d_in_graph d) (d_all d) (d_eth d) (d_mapping d) (d_valid d), RNone)
  end.

(** ApplicationVertex.machine_vertices. *)
Definition macs_of (d : data) (a : nat) : list nat := match dget Nat.eqb (d_macs d) a with Some l => l | None => [] end.

(** ApplicationGraph.reset (application_graph.py 245-250) with ApplicationVertex.reset
    (application_vertex.py 293-300); splitters are left out. *)
Definition reset_vertices (g : graph) (macs : list (nat * list nat)) : list (nat * list nat) :=
  fold_left (fun m v => dset Nat.eqb m v []) (vertices g) macs.

(** _PacmanDataModel._hard_reset (view 100-116); a graph is always true. *)
Definition hard_reset (d : data) : data :=
  mkData (d_graph d) (reset_vertices (d_graph d) (d_macs d)) (d_index d) (fun _ => None)
    (d_plan d) (d_boards d) (d_chips d) None [] [] (d_mapping d) (d_valid d).

(** _PacmanDataModel._clear (view 89-98): a new graph, the vertices keep their labels. *)
Definition clear (d : data) : data :=
  let g := d_graph d in
  hard_reset (mkData (mkGraph (lab g) (added g) [] 0 [] 0) (d_macs d) (d_index d) (d_slots d)
    None None None (d_in_graph d) (d_all d) (d_eth d) (d_mapping d) (d_valid d)).

(** Writer: set_plan_n_timesteps (127-143). *)
Definition set_plan (d : data) (v : pyint) : data * reply :=
  let set o := mkData (d_graph d) (d_macs d) (d_index d) (d_slots d) o (d_boards d) (d_chips d) (d_in_graph d)
                 (d_all d) (d_eth d) (d_mapping d) (d_valid d) in
  match v with
  | PNone => (set None, RNone)
  | POther => (d, RRaise TypeError)
  | PInt z => if Z.ltb z 0 then (d, RRaise ConfigurationException) else (set (Some z), RNone)
  end.

(** Writer: set_n_required (206-242). *)
Definition set_required (d : data) (b c : pyint) : data * reply :=
  let checked (nb nc : option Z) :=
    match d_boards d, d_chips d with
    | None, None => (mkData (d_graph d) (d_macs d) (d_index d) (d_slots d) (d_plan d) nb nc (d_in_graph d)
                       (d_all d) (d_eth d) (d_mapping d) (d_valid d), RNone)
    | _, _ => (d, RRaise ValueError)
    end in
  match b with
  | PNone =>
      match c with
      | PNone => (d, RNone)
      | POther => (d, RRaise TypeError)
      | PInt z => if Z.leb z 0 then (d, RRaise ValueError) else checked None (Some z)
      end
  | _ =>
      match c with
      | PNone =>
          match b with
          | PInt z => if Z.leb z 0 then (d, RRaise ValueError) else checked (Some z) None
          | _ => (d, RRaise TypeError)
          end
      | _ => (d, RRaise ValueError)
      end
  end.

(** Writer: set_n_chips_in_graph (244-256). *)
Definition set_in_graph (d : data) (v : pyint) : data * reply :=
  match v with
  | PInt z =>
      if Z.leb z 0 then (d, RRaise ValueError)
      else (mkData (d_graph d) (d_macs d) (d_index d) (d_slots d) (d_plan d) (d_boards d) (d_chips d) (Some z)
              (d_all d) (d_eth d) (d_mapping d) (d_valid d), RNone)
  | _ => (d, RRaise TypeError)
  end.

(** Writer: add_sample_monitor_vertex (182-204); add_monitor_core belongs to another
    package. *)
Definition add_monitor (d : data) (v : nat) (all_chips : bool) : data :=
  mkData (d_graph d) (d_macs d) (d_index d) (d_slots d) (d_plan d) (d_boards d) (d_chips d) (d_in_graph d)
    (if all_chips then d_all d ++ [v] else d_all d) (d_eth d ++ [v]) (d_mapping d) (d_valid d).

Definition with_graph (d : data) (g : graph) : data :=
  mkData g (d_macs d) (d_index d) (d_slots d) (d_plan d) (d_boards d) (d_chips d) (d_in_graph d) (d_all d) (d_eth d) (d_mapping d) (d_valid d).
Definition with_flags (d : data) (mapping valid : bool) : data :=
  mkData (d_graph d) (d_macs d) (d_index d) (d_slots d) (d_plan d) (d_boards d) (d_chips d) (d_in_graph d) (d_all d) (d_eth d) mapping valid.

(** The result of a call on the graph. *)
Definition on_graph (d : data) (r : graph * res unit) : data * reply :=
  (with_graph d (fst r), match snd r with Ok _ => RNone | Err e => RRaise e end).

(** ApplicationVertex.remember_machine_vertex (application_vertex.py 137-145); an
    OrderedSet keeps the place of an element it has. *)
Definition remember (d : data) (a m : nat) : data :=
  let l := macs_of d a in
  mkData (d_graph d) (dset Nat.eqb (d_macs d) a (if mem_nat m l then l else l ++ [m])) (dset Nat.eqb (d_index d) m (length l))
    (d_slots d) (d_plan d) (d_boards d) (d_chips d) (d_in_graph d) (d_all d) (d_eth d) (d_mapping d) (d_valid d).

Inductive dcall :=
| DSetup | DMock | DHardReset | DSoftReset
| DSet (s : slot) (o : obj)
| DPlan (v : pyint)
| DRequired (b c : pyint)
| DInGraph (v : pyint)
| DMonitor (v : nat) (all_chips : bool)
| DViewVertex (v : nat) | DViewEdge (e : gedge) (name : string)
| DWriterVertex (v : nat) | DWriterEdge (e : gedge) (name : string)
| DStarting (v : nat)
| DLabel (v : nat) (l : string)
| DRemember (a m : nat)
| DFlags (mapping valid : bool).

Section Data.
Variable cls : nat -> string.

(** View: add_vertex (142-164), add_edge (166-193),
    get_outgoing_edge_partitions_starting_at_vertex (284-300). Writer: _mock (49-52),
    _setup (54-57), _hard_reset (59-62), _soft_reset (64-67), add_vertex (164-170),
    add_edge (173-180). The graph is never None. *)
Definition dstep (d : data) (c : dcall) : data * reply :=
  match c with
  | DSetup | DMock => (clear d, RNone)
  | DHardReset => (hard_reset d, RNone)
  | DSoftReset => (d, RNone)
  | DSet s o => set_slot d s o
  | DPlan v => set_plan d v
  | DRequired b c => set_required d b c
  | DInGraph v => set_in_graph d v
  | DMonitor v all_chips => (add_monitor d v all_chips, RNone)
  | DViewVertex v =>
      if d_valid d then let d := with_flags d true (d_valid d) in on_graph d (add_vertex cls (d_graph d) v) else (d, RNotRunning)
  | DViewEdge e name =>
      if d_valid d then let d := with_flags d true (d_valid d) in on_graph d (add_edge (d_graph d) e name) else (d, RNotRunning)
  | DWriterVertex v =>
      if d_mapping d then on_graph d (add_vertex cls (d_graph d) v) else (d, RRaise ConfigurationException)
  | DWriterEdge e name =>
      if d_mapping d then on_graph d (add_edge (d_graph d) e name) else (d, RRaise ConfigurationException)
  | DStarting v => (with_graph d (fst (starting_at (d_graph d) v)), RNone)
  | DLabel v l => on_graph d (set_label (d_graph d) v l)
  | DRemember a m => (remember d a m, RNone)
  | DFlags mapping valid => (with_flags d mapping valid, RNone)
  end.

Fixpoint drun (d : data) (cs : list dcall) : data :=
  match cs with
  | [] => d
  | c :: rest => drun (fst (dstep d c)) rest
  end.

(** The state when the package is loaded (view 81-98); vertices have their labels. *)
Definition data_new (labels : list (nat * string)) : data :=
  mkData (graph_new labels) [] [] (fun _ => None) None None None None [] [] true false.
End Data.

(** * What is asked *)
(** The answer of a getter; [None]: DataNotYetAvialable or what else _exception makes. *)
Definition answer (A : Type) := option A.

(** get_routing_infos (465-474), get_tags (479-489), get_uncompressed (494-506),
    get_precompressed (508-524), get_routing_table_by_partition (538-550), and the
    placements used in 341-460. *)
Definition get_slot (d : data) (s : slot) : answer nat := d_slots d s.

(** get_plan_n_timestep (526-536). *)
Definition get_plan (d : data) : option Z := d_plan d.

(** has_n_boards_required (591-600), get_n_boards_required (602-615). *)
Definition has_boards (d : data) : bool := match d_boards d with Some _ => true | None => false end.
Definition get_boards (d : data) : answer Z := d_boards d.

(** A number that is set and not 0. *)
Definition truthy (o : option Z) : bool := match o with Some z => negb (Z.eqb z 0) | None => false end.

(** get_n_chips_needed (617-638), has_n_chips_needed (640-652). *)
Definition get_chips (d : data) : answer Z :=
  if truthy (d_chips d) then d_chips d else if truthy (d_in_graph d) then d_in_graph d else None.
Definition has_chips (d : data) : bool :=
  match d_chips d with
  | Some _ => true
  | None => match d_in_graph d with Some _ => true | None => false end
  end.

(** get_chips_boards_required_str (654-668). *)
Inductive required := AskedBoards (z : Z) | AskedChips (z : Z) | GraphRequires (z : Z) | NothingKnown.
Definition get_required (d : data) : required :=
  let in_graph := match d_in_graph d with Some z => if Z.eqb z 0 then NothingKnown else GraphRequires z | None => NothingKnown end in
  let chips := match d_chips d with Some z => if Z.eqb z 0 then in_graph else AskedChips z | None => in_graph end in
  match d_boards d with Some z => if Z.eqb z 0 then chips else AskedBoards z | None => chips end.

(** get_all_monitor_sdram (552-569), get_ethernet_monitor_sdram (571-587). [f] is
    sdram_required of the vertices at the time of the call. *)
Definition all_monitor_sdram (f : nat -> sdram) (d : data) : res sdram := sum (map f (d_all d)).
Definition ethernet_monitor_sdram (f : nat -> sdram) (d : data) : res sdram := sum (map f (d_eth d)).

(** iterate_vertices (195-208), get_n_vertices (239-251), iterate_partitions (254-266),
    get_n_partitions (269-281), get_edges (302-312). *)
Definition iterate_vertices (d : data) : list nat := vertices (d_graph d).
Definition get_n_vertices (d : data) : nat := n_vertices (d_graph d).
Definition iterate_partitions (d : data) : list part := partitions (d_graph d).
Definition get_n_partitions (d : data) : nat := n_parts (d_graph d).
Definition get_edges (d : data) : list gedge := edges (d_graph d).

(** get_n_machine_vertices (315-324), iterate_machine_vertices (327-336). *)
Definition get_n_machine_vertices (d : data) : nat :=
  fold_left (fun s v => s + length (macs_of d v)) (vertices (d_graph d)) 0.
Definition iterate_machine_vertices (d : data) : list nat := flat_map (macs_of d) (vertices (d_graph d)).
