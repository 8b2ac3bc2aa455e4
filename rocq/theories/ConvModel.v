(** Model of _convert_a_route and _add_routing_entry of the application router
    (pacman/operations/router_algorithms/application_router.py 921-1029). The
    targets of a chip are given as the items of its _Targets object
    (targets_by_source, see TargetsModel); the entry that get_targets_for_source
    makes for an unknown source is not kept. *)
From Coq Require Import List ZArith NArith Arith Bool.
From Verif Require Import Base Dict TreeModel MachModel RPartModel BfsModel.
Import ListNotations.
Local Open Scope nat_scope.

(** RoutingEntry(link_ids=, processor_ids=, incoming_processor=, incoming_link=) of
    spinn_machine: it raises if both an incoming processor and an incoming link
    are given, and is defaultable if the packet comes in over a link and leaves
    over the opposite link only. *)
Definition make_entry (links procs : list nat) (iproc ilink : option nat) : res rentry :=
  match iproc, ilink with
  | Some _, Some _ => Err InvalidParameter
  | _, _ =>
      let straight := match ilink with
                      | Some i => match procs with [] => N.eqb (route_of links []) (route_of [(i + 3) mod 6] []) | _ => false end
                      | None => false
                      end in
      Ok (mkRE (route_of links procs) straight)
  end.

(** The loop over the children (960-967): the link ids, and the nodes put on the
    stack, the last one first. *)
Fixpoint scan_hops (l : list (option nat * child)) (links : list nat) (next : option nat) (push : list (option nat * tree))
  : res (list nat * list (option nat * tree)) :=
  match l with
  | [] => Ok (links, push)
  | (d, c) :: rest =>
      let links' := match d with Some n => links ++ [n] | None => links end in
      let next' := match d with Some n => Some ((n + 3) mod 6) | None => next end in
      match c with
      | Vertex _ => Err AssertionError
      | Sub s => scan_hops rest links' next' ((next', s) :: push)
      end
  end.

Record conv := mkConv {
  cv_env : venv;
  cv_out : nat -> list nat;          (* splitter.get_out_going_vertices of the partition *)
  cv_source : vtx;
  cv_part : nat;
  cv_targets : list (xy * list (vtx * (list nat * list nat)));
  cv_use_source : bool;
  cv_ensure : bool }.

Definition is_app (v : vtx) : bool := match v with App _ => true | Mac _ => false end.

(** The sources that get an entry on a chip, with cores and links (969-1016). *)
Definition served (c : conv) (p : xy) : res (list (vtx * (list nat * list nat))) :=
  match dget xy_eqb (cv_targets c) p with
  | None => Ok [(cv_source c, ([], []))]
  | Some items =>
      let by_source :=
        if cv_use_source c then
          [(cv_source c, match dget vtx_eqb items (cv_source c) with Some cl => cl | None => ([], []) end)]
        else items in
      if cv_ensure c && negb (existsb (fun i => is_app (fst i)) by_source) then
        match cv_source c with
        | Mac _ => Err AssertionError
        | App a => Ok (by_source ++
            map (fun v => (Mac v, ([], [])))
                (filter (fun v => negb (existsb (fun i => vtx_eqb (fst i) (Mac v)) by_source)) (cv_out c a)))
        end
      else Ok by_source
  end.

(** The calls of _add_routing_entry for one chip. *)
Fixpoint add_served (c : conv) (t : rtable) (p : xy) (hops : list nat) (iproc ilink : option nat)
    (l : list (vtx * (list nat * list nat))) : res rtable :=
  match l with
  | [] => Ok t
  | (src, (cores, links)) :: rest =>
      let* e := make_entry (hops ++ links) cores iproc ilink in
      let* t' := add_path_entry (cv_env c) t e p src (cv_part c) in
      add_served c t' p hops iproc ilink rest
  end.

(** _convert_a_route (952-1016). *)
Fixpoint convert_loop (fuel : nat) (c : conv) (t : rtable) (stack : list (option nat * option nat * tree)) : res rtable :=
  match stack with
  | [] => Ok t
  | (iproc, ilink, route) :: rest =>
      match fuel with
      | 0 => Err OutOfFuel
      | S f =>
          let* (hops, push) := scan_hops (tchildren route) [] None [] in
          let* l := served c (tchip route) in
          let* t' := add_served c t (tchip route) hops iproc ilink l in
          convert_loop f c t' (map (fun n => (None, fst n, snd n)) push ++ rest)
      end
  end.
Definition convert_a_route (c : conv) (t : rtable) (iproc ilink : option nat) (first_route : tree) : res rtable :=
  convert_loop (tree_len first_route) c t [(iproc, ilink, first_route)].

(** The RoutingTree that the routes dictionary has for a chip (see BfsModel): a
    child is the tree that the dictionary has for the chip of the child. *)
Fixpoint unfold_routes (fuel : nat) (r : routes) (p : xy) : tree :=
  Tree p (match fuel with
          | 0 => []
          | S f => map (fun c => (Some (fst c), Sub (unfold_routes f r (snd c))))
                       (match dget xy_eqb r p with Some cs => cs | None => [] end)
          end).
Definition tree_of (r : routes) (p : xy) : tree := unfold_routes (length r) r p.
