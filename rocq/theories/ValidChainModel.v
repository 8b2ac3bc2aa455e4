(** What the route validity checker reads of a routed graph.
    Sources: valid_routes_checker.py 61-127 reads the partitions, splitters and
    placements that application_router.py has read (RouterModel), the links of the
    machine (lines 322-329: [get_chip_at(x, y).router.get_link(id)]) and the
    numbers of atoms; Placements.get_placement_of_vertex
    (model/placements/placements.py 122-135) raises PacmanNotPlacedError for a
    virtual vertex, which is never placed (application_placer.py 277-279). *)
From Coq Require Import List Arith NArith ZArith Bool.
From Verif Require Import Base Dict RouteSpec AllocModel TablesModel GenModel ValidModel
  TreeModel MachModel LdfModel PathModel BfsModel RPartModel TargetsModel ConvModel RouterModel ChainModel.
Import ListNotations.
Local Open Scope nat_scope.

(** [router.get_link]: the chip behind a working link. *)
Definition machine_link (m : machine) (c : xy) (l : nat) : option xy :=
  if Nat.ltb l 6 && is_link m c l && is_chip m (over_link m c l) then Some (over_link m c l) else None.

(** [get_placement_of_vertex] and [isinstance(vertex, AbstractVirtual)]. *)
Definition placement_of (i : rinput) (v : nat) : res (xy * nat) :=
  match snd (ri_at i v) with OnCore n => Ok (chip_of i v, n) | OnLink _ => Err NotPlaced end.
Definition is_virtual (i : rinput) (v : nat) : bool :=
  match snd (ri_at i v) with OnCore _ => false | OnLink _ => true end.

(** The graph as the checker sees it. *)
Definition valid_input (i : rinput) (vertices : list nat) (partitions : list apart) (atoms : nat -> nat) : valid_env :=
  ValidModel.mkVEnv (map (fun p => mkVPart (ap_pre p) (ap_id p) (ap_posts p)) partitions) vertices
    (fun target source k => map (fun x => (fst x, map vertex_of (snd x))) (ri_in i target source k))
    (ri_out i)
    (fun a => map (fun ip => (in_pre ip, in_id ip, in_posts ip)) (ri_internal i a))
    (placement_of i) (is_virtual i) atoms.

(** [validate_routes] on tables made for the graph. *)
Definition validate (i : rinput) (vertices : list nat) (partitions : list apart) (atoms : nat -> nat)
    (infos : list info) (ts : list table) : res unit :=
  validate_routes (valid_input i vertices partitions atoms) (machine_link (ri_mach i)) ts infos.
