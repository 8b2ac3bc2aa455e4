(** Model of the application router
    (pacman/operations/router_algorithms/application_router.py: route_application_graph
    and what it calls that is not in PathModel, BfsModel, TargetsModel and ConvModel)
    and of get_app_partitions
    (pacman/utilities/algorithm_utilities/routing_algorithm_utilities.py).
    A set of chips is a list without repetitions in the order in which its
    elements were added; the order in which Python iterates over it is given by
    [ri_order]. Error messages and the printing of paths are left out. *)
From Coq Require Import List ZArith NArith Arith Bool.
From Verif Require Import Base Dict TreeModel MachModel LdfModel PathModel BfsModel RPartModel TargetsModel ConvModel.
Import ListNotations.
Local Open Scope nat_scope.

(** Where a machine vertex is, besides its chip: on a core, or behind a link. *)
Inductive place := OnCore (n : nat) | OnLink (l : nat).
Definition core_of (p : place) : option nat := match p with OnCore n => Some n | OnLink _ => None end.
Definition link_of (p : place) : option nat := match p with OnLink l => Some l | OnCore _ => None end.

(** A multicast partition between machine vertices of one application vertex, and
    an application edge partition. *)
Record internal := mkInternal { in_pre : nat; in_id : nat; in_posts : list nat }.
Record apart := mkPart { ap_pre : nat; ap_id : nat; ap_posts : list nat }.

Record rinput := mkRIn {
  ri_mach : machine;
  ri_vec : xy -> xy -> Z * Z * Z;                        (* machine.get_vector *)
  ri_order : list xy -> list xy;                         (* the order of iteration over a set *)
  ri_venv : venv;                                        (* machine_vertices and app_vertex *)
  ri_at : nat -> xy * place;                             (* vertex_xy_and_route *)
  ri_out : nat -> nat -> list nat;                       (* splitter.get_out_going_vertices *)
  ri_in : nat -> nat -> nat -> list (nat * list vtx);    (* target's splitter
                                                            .get_source_specific_in_coming_vertices *)
  ri_internal : nat -> list internal }.                  (* splitter.get_internal_multicast_partitions *)

Definition chip_of (i : rinput) (v : nat) : xy := fst (ri_at i v).

(** Adding to a set. *)
Definition set_add (s : list xy) (p : xy) : list xy := if xy_in p s then s else s ++ [p].
Definition set_of (l : list xy) : list xy := fold_left set_add l [].

(** _get_filtered_internal_partitions (264-267). *)
Definition internal_of (i : rinput) (a k : nat) : list internal :=
  filter (fun ip => Nat.eqb (in_id ip) k) (ri_internal i a).

(** _get_outgoing_mapping (623-646). *)
Definition mapping : Type := list (xy * list (nat * place)).
Definition map_vertex (i : rinput) (d : mapping) (v : nat) : mapping :=
  let '(p, pl) := ri_at i v in
  dset xy_eqb d p (match dget xy_eqb d p with Some l => l | None => [] end ++ [(v, pl)]).
Definition outgoing_mapping (i : rinput) (a k : nat) : mapping :=
  fold_left (map_vertex i) (ri_out i a k ++ map in_pre (internal_of i a k)) [].

(** targets[xy].add_machine_sources_for_target(...) and
    targets[xy].add_sources_for_target(...), on a defaultdict. *)
Definition add_target (env : tenv) (ts : list (xy * tstate)) (p : xy) (c : tcall) : list (xy * tstate) :=
  dset xy_eqb ts p (run_call env (match dget xy_eqb ts p with Some s => s | None => t_empty end) c).

(** The variables of route_application_graph for one partition (202-216). *)
Record pstate := mkP {
  p_edges : list xy;                 (* source_edge_xys *)
  p_routes : routes;
  p_targets : list (xy * tstate);
  p_self : bool;                     (* self_connected *)
  p_self_xys : list xy }.

(** The end of a path behind the last chip with property [f] (777-781). *)
Fixpoint after_last (f : xy -> bool) (nodes : list node) : option (xy * list node) :=
  match nodes with
  | [] => None
  | n :: rest =>
      match after_last f rest with
      | Some r => Some r
      | None => if f (snd n) then Some (snd n, rest) else None
      end
  end.
(** The start of a path up to the first chip with property [f] (790-794). *)
Fixpoint up_to_first (f : xy -> bool) (nodes : list node) : option (xy * list node) :=
  match nodes with
  | [] => None
  | n :: rest =>
      if f (snd n) then Some (snd n, [n])
      else match up_to_first f rest with
           | Some (p, l) => Some (p, n :: l)
           | None => None
           end
  end.

(** The loop that adds the nodes to the routes (797-811); the report of a node
    that is there already needs the route of the first chip of the source. *)
Fixpoint add_nodes (source : xy) (r : routes) (cur : xy) (nodes : list node) : res routes :=
  match nodes with
  | [] => Ok r
  | (d, q) :: rest =>
      if dmem xy_eqb r q then Err (if dmem xy_eqb r source then RoutingException else KeyError)
      else add_nodes source (append_child (dset xy_eqb r q []) cur (d, q)) q rest
  end.

(** _route_pre_to_post (752-813): the chips between which the route was made, and the
    routes. *)
Definition route_pre_to_post (i : rinput) (source dest : xy) (r : routes) (all_source targets : list xy)
  : res (xy * xy * routes) :=
  let* fixed := direct_path (ri_mach i) (ri_vec i source dest) source in
  let '(pre, nodes) := match after_last (fun p => xy_in p all_source || dmem xy_eqb r p) fixed with
                       | Some x => x
                       | None => (source, fixed)
                       end in
  let r1 := ensure_tree r pre in
  let '(post, nodes') := match up_to_first (fun p => xy_in p targets) nodes with
                         | Some x => x
                         | None => (dest, nodes)
                         end in
  let* r2 := add_nodes source r1 pre nodes' in
  Ok (pre, post, r2).

(** _find_target_xy (588-620). *)
Definition find_target_xy (i : rinput) (targets : list xy) (r : routes) (mp : mapping) : res (xy * list xy) :=
  let overlaps := filter (fun p => dmem xy_eqb mp p) targets in
  match ri_order i overlaps with
  | [p] => Ok (p, [])
  | p :: _ => Ok (p, overlaps)
  | [] =>
      let l := ri_order i targets in
      match find (fun p => dmem xy_eqb r p) l with
      | Some p => Ok (p, [])
      | None => match rev l with
                | p :: _ => Ok (p, [])
                | [] => Err UnboundLocal
                end
      end
  end.

(** The loop over the overlaps in _route_multiple_source_to_target (412-429). *)
Definition without (l gone : list xy) : list xy := filter (fun p => negb (xy_in p gone)) l.
Fixpoint route_overlaps (i : rinput) (overlaps reached target_xys real edges : list xy) (r : routes)
  : res (list xy * list xy * list xy * routes) :=
  match overlaps with
  | [] => Ok (target_xys, real, edges, r)
  | o :: rest =>
      let* found := find_reachable (ri_mach i) o target_xys reached in
      let this := filter (fun p => xy_in p found) real in
      let* r' := route_to_xys (ri_mach i) o found this r in
      route_overlaps i rest (reached ++ found) (without target_xys this) (without real this) (set_add edges o) r'
  end.

(** The targets of one application vertex (305-315). *)
Definition add_incoming (i : rinput) (k : nat) (mp : mapping) (ts : list (xy * tstate)) (l : list (nat * list vtx))
  : list (xy * tstate) :=
  fold_left (fun ts ts' =>
    let '(p, pl) := ri_at i (fst ts') in
    add_target (mkTEnv (fun b => ri_out i b k) (ve_app (ri_venv i))) ts p
      (mkTCall (dmem xy_eqb mp p) (core_of pl) (link_of pl) (snd ts'))) l ts.

(** _route_source_to_target (270-346) with _route_single_source_to_target (349-384) and
    _route_multiple_source_to_target (387-434). *)
Definition route_source_to_target (i : rinput) (a k : nat) (source : xy) (all_source : list xy) (mp : mapping)
    (s : pstate) (target : nat) : res pstate :=
  let l := ri_in i target a k in
  let ts := add_incoming i k mp (p_targets s) l in
  let target_xys := set_of (map (fun x => chip_of i (fst x)) l) in
  let* (dest, overlaps) := match target_xys with
                           | [p] => Ok (p, [])
                           | _ => find_target_xy i target_xys (p_routes s) mp
                           end in
  let* (prepost, r1) := route_pre_to_post i source dest (p_routes s) all_source target_xys in
  let '(pre, post) := prepost in
  match overlaps with
  | [] =>
      let* r2 := route_to_xys (ri_mach i) post target_xys target_xys r1 in
      let edges := if dmem xy_eqb mp pre then set_add (p_edges s) pre else p_edges s in
      Ok (mkP edges r2 ts (p_self s) (p_self_xys s))
  | _ =>
      let* r := route_overlaps i (ri_order i overlaps) overlaps target_xys target_xys (p_edges s) r1 in
      let '(target_xys', real, edges, r2) := r in
      let* r3 := route_to_xys (ri_mach i) post target_xys' real r2 in
      Ok (mkP edges r3 ts (p_self s) (p_self_xys s))
  end.

(** _route_source_to_source (437-456), and _route_internal (459-478) for one
    partition. *)
Definition add_self (i : rinput) (k : nat) (s : pstate) (l : list (nat * list vtx)) : pstate :=
  fold_left (fun s x =>
    let '(p, pl) := ri_at i (fst x) in
    mkP (p_edges s) (p_routes s)
        (add_target (mkTEnv (fun b => ri_out i b k) (ve_app (ri_venv i))) (p_targets s) p
           (mkTCall true (core_of pl) (link_of pl) (snd x)))
        true (set_add (p_self_xys s) p)) l
    (mkP (p_edges s) (p_routes s) (p_targets s) true (p_self_xys s)).
Definition add_internal (i : rinput) (s : pstate) (ip : internal) : pstate :=
  add_self i (in_id ip) s (map (fun v => (v, [Mac (in_pre ip)])) (in_posts ip)).

(** One edge of the partition (218-231). *)
Definition route_edge (i : rinput) (a k : nat) (source : xy) (all_source : list xy) (mp : mapping)
    (s : pstate) (target : nat) : res pstate :=
  if Nat.eqb a target then Ok (add_self i k s (ri_in i a a k))
  else route_source_to_target i a k source all_source mp s target.

(** _make_source_to_target_routes (481-516): [conv_targets] are the items of the
    targets of each chip. *)
Definition conv_targets (ts : list (xy * tstate)) : list (xy * list (vtx * (list nat * list nat))) :=
  map (fun x => (fst x, targets_by_source (snd x))) ts.
Definition edge_targets (mp : mapping) : tstate :=
  fold_left (fun s x => ensure_source s (Mac (fst x))) (flat_map snd mp) t_empty.
Definition target_routes_step (i : rinput) (a k : nat) (mp : mapping) (r : routes)
    (x : list (xy * tstate) * rtable) (e : xy) : res (list (xy * tstate) * rtable) :=
  let '(ts, t) := x in
  let ts' := if dmem xy_eqb ts e then ts else dset xy_eqb ts e (edge_targets mp) in
  if dmem xy_eqb r e then
    let* t' := convert_a_route
      (mkConv (ri_venv i) (fun b => ri_out i b k) (App a) k (conv_targets ts') false true)
      t None None (tree_of r e) in
    Ok (ts', t')
  else Err KeyError.

(** _make_source_to_source_routes (519-554) and _make_source_to_source_edge_routes
    (557-585), which are told apart by the targets: those of the chips, or none. *)
Definition vertex_route (i : rinput) (k : nat) (ts : list (xy * tstate)) (self : bool) (tr : tree)
    (t : rtable) (x : nat * place) : res rtable :=
  convert_a_route
    (mkConv (ri_venv i) (fun b => ri_out i b k) (Mac (fst x)) k (if self then conv_targets ts else []) self false)
    t (core_of (snd x)) (link_of (snd x)) tr.
Definition source_routes_step (i : rinput) (k : nat) (all_source wanted : list xy) (ts : list (xy * tstate))
    (self : bool) (t : rtable) (x : xy * list (nat * place)) : res rtable :=
  let '(p, vs) := x in
  let* r := route_to_xys (ri_mach i) p all_source wanted [] in
  if dmem xy_eqb r p then foldM (vertex_route i k ts self (tree_of r p)) t vs
  else Err KeyError.

(** One partition (190-258). *)
Definition route_partition (i : rinput) (t : rtable) (pt : apart) : res rtable :=
  let a := ap_pre pt in
  let k := ap_id pt in
  let mp := outgoing_mapping i a k in
  match mp with
  | [] => Ok t
  | (source, _) :: _ =>
      let all_source := set_of (map (chip_of i) (ve_macs (ri_venv i) a)) in
      let* s := foldM (route_edge i a k source all_source mp) (mkP [] [] [] false []) (ap_posts pt) in
      let s' := match internal_of i a k with
                | [] => s
                | ips => fold_left (add_internal i) ips (mkP (p_edges s) (p_routes s) (p_targets s) true (p_self_xys s))
                end in
      let* (ts, t1) := foldM (target_routes_step i a k mp (p_routes s')) (p_targets s', t) (ri_order i (p_edges s')) in
      let wanted := if p_self s' then p_edges s' ++ p_self_xys s' else p_edges s' in
      foldM (source_routes_step i k all_source wanted ts (p_self s')) t1 mp
  end.

(** get_app_partitions (routing_algorithm_utilities.py 27-62) for the application
    vertices that have a splitter. *)
Definition pair_in (x : nat * nat) (l : list (nat * nat)) : bool :=
  existsb (fun y => Nat.eqb (fst x) (fst y) && Nat.eqb (snd x) (snd y)) l.
Definition add_fake (v : nat) (st : list apart * list (nat * nat)) (ip : internal) : list apart * list (nat * nat) :=
  let '(ps, sources) := st in
  if pair_in (v, in_id ip) sources then st
  else (ps ++ [mkPart v (in_id ip) []], (v, in_id ip) :: sources).
Definition app_partitions (i : rinput) (vertices : list nat) (partitions : list apart) : list apart :=
  fst (fold_left (fun st v => fold_left (add_fake v) (ri_internal i v) st) vertices
         (partitions, map (fun p => (ap_pre p, ap_id p)) partitions)).

(** route_application_graph (181-261). *)
Definition route_application_graph (i : rinput) (vertices : list nat) (partitions : list apart) : res rtable :=
  foldM (route_partition i) [] (app_partitions i vertices partitions).
