(** Model of the whole mapping of a graph: the placer, then the router, the key
    allocator and a routing table generator, and a compressor.
    Sources: the functions of PlacerModel and ChainModel; what the router reads of
    the placements (routing_algorithm_utilities.py vertex_xy 141-150,
    vertex_xy_and_route 166-185) and of the splitters (abstract_splitter_common.py
    144-176, 212-221, splitter_fixed_legacy.py 58-64,
    splitter_one_to_one_legacy.py, splitter_one_app_one_machine.py and
    splitter_external_device.py: get_out_going_vertices, get_in_coming_vertices).
    Coordinates are natural numbers in the model of the placer and integers in that
    of the router; a chip is found in both machines under its coordinates. *)
From Coq Require Import List Arith NArith ZArith Bool.
From Verif Require Import Base Dict PlacementsModel PlacerModel.
From Verif Require Import RouteSpec KeyMask AllocModel TablesModel GenModel
  TreeModel MachModel LdfModel PathModel BfsModel RPartModel TargetsModel ConvModel RouterModel ChainModel.
Import ListNotations.
Local Open Scope nat_scope.

(** What is mapped: the placer's view of the machine, the system placements, the
    application vertices, the application vertex of a machine vertex, the chip and
    link of a virtual machine vertex (get_link_data), the splitters' outgoing and
    incoming vertices, which do not depend on the partition, and the router's view
    of the machine. *)
Record mapin := mkMapIn {
  mi_env : penv;
  mi_sys : placements;
  mi_av : nat -> appv;
  mi_app : nat -> option nat;
  mi_dev : nat -> option ((Z * Z) * nat);
  mi_out : nat -> list nat;
  mi_in : nat -> list nat;
  mi_mach : MachModel.machine;
  mi_vec : (Z * Z) -> (Z * Z) -> Z * Z * Z;
  mi_order : list (Z * Z) -> list (Z * Z) }.

Definition zxy (c : nat * nat) : Z * Z := (Z.of_nat (fst c), Z.of_nat (snd c)).

(** vertex_xy_and_route (166-185).  A vertex that has not been placed raises an
    exception in Python; here it gets the first chip. *)
Definition located (i : mapin) (p : placements) (v : nat) : (Z * Z) * place :=
  match mi_dev i v with
  | Some (c, l) => (c, OnLink l)
  | None =>
      match dget Nat.eqb (ps_verts p) v with
      | Some pl => (zxy (pl_x pl, pl_y pl), OnCore (pl_p pl))
      | None => ((0, 0)%Z, OnCore 0)
      end
  end.

(** get_source_specific_in_coming_vertices (146-176) makes every incoming vertex a
    target of the whole source; get_internal_multicast_partitions (212-221) is
    empty. *)
Definition router_input (i : mapin) (p : placements) : rinput :=
  mkRIn (mi_mach i) (mi_vec i) (mi_order i)
    (mkVEnv (fun a => a_vertices (mi_av i a)) (mi_app i))
    (located i p)
    (fun a _ => mi_out i a)
    (fun target source _ => map (fun v => (v, [RPartModel.App source])) (mi_in i target))
    (fun _ => []).

(** place_application_graph and what follows. *)
Definition map_graph (merged : bool) (entry_eq : entry -> entry -> bool) (flexible : bool) (i : mapin) (vertices : list nat)
    (partitions : list apart) (extra : list (nat * nat)) (e : graph_env) : res (placements * list info * list table) :=
  let* p := place_graph (mi_env i) (mi_sys i) (map (mi_av i) vertices) in
  let* r := make_tables merged entry_eq flexible (router_input i p) vertices partitions extra e in
  Ok (p, fst r, snd r).
