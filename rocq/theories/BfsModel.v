(** Model of _route_to_xys, _find_reachable and _is_open_chip of the application
    router (pacman/operations/router_algorithms/application_router.py 649-749).
    The routes dictionary maps a chip to its RoutingTree; all trees are made
    for a chip that has none yet, so that a child of a tree is the tree that the
    dictionary has for its chip: a tree is the list of its (link, chip) children. *)
From Coq Require Import List ZArith Arith Bool.
From Verif Require Import Base Dict TreeModel MachModel.
Import ListNotations.
Local Open Scope nat_scope.

Notation routes := (list (xy * list (nat * xy))) (only parsing).

(** routes[parent].append_child((link, child)). *)
Definition append_child (r : routes) (parent : xy) (c : nat * xy) : routes :=
  match dget xy_eqb r parent with
  | Some cs => dset xy_eqb r parent (cs ++ [c])
  | None => r
  end.
(** "if parent not in routes: routes[parent] = RoutingTree(parent, label)". *)
Definition ensure_tree (r : routes) (p : xy) : routes :=
  if dmem xy_eqb r p then r else dset xy_eqb r p [].

(** The loop over the reversed path (684-688). *)
Fixpoint add_up (r : routes) (rpath : list (xy * nat)) (last : xy) : routes :=
  match rpath with
  | [] => r
  | (parent, link) :: rest => add_up (append_child (ensure_tree r parent) parent (link, last)) rest parent
  end.

(** _is_open_chip (738-749). *)
Definition is_open_chip (m : machine) (p : xy) (allowed visited : list xy) : bool :=
  xy_in p allowed && negb (xy_in p visited) && is_chip m p.

(** The loop over the links (693-700). *)
Definition expand (m : machine) (allowed visited : list xy) (p : xy) (path : list (xy * nat)) : list (xy * list (xy * nat)) :=
  flat_map (fun link =>
    if is_link m p link then
      let q := over_link m p link in
      if is_open_chip m q allowed visited then [(q, path ++ [(p, link)])] else []
    else []) (seq 0 6).

(** _route_to_xys (649-703): [todo] is targets_to_visit. *)
Fixpoint route_loop (fuel : nat) (m : machine) (allowed targets : list xy) (visited todo : list xy)
    (r : routes) (queue : list (xy * list (xy * nat))) : res routes :=
  match queue with
  | [] => match todo with [] => Ok r | _ => Err RoutingException end
  | (p, path) :: rest =>
      match fuel with
      | 0 => Err OutOfFuel
      | S f =>
          let todo' := filter (fun t => negb (xy_eqb p t)) todo in
          if xy_in p visited then route_loop f m allowed targets visited todo' r rest
          else
            let '(r', path') :=
              if dmem xy_eqb r p then (r, [])
              else if xy_in p targets then (add_up (dset xy_eqb r p []) (rev path) p, [])
              else (r, path) in
            route_loop f m allowed targets (p :: visited) todo' r'
              (rest ++ expand m allowed (p :: visited) p path')
      end
  end.
Definition route_to_xys (m : machine) (first : xy) (allowed targets : list xy) (r : routes) : res routes :=
  route_loop (2 + 7 * S (length (m_chips m))) m allowed targets [] targets r [(first, [])].

(** _find_reachable (706-735): a stack, of which the end is the head of the list. *)
Definition reach_next (m : machine) (allowed disallowed visited : list xy) (p : xy) : list xy :=
  flat_map (fun link =>
    if is_link m p link then
      let q := over_link m p link in
      if is_open_chip m q allowed visited && negb (xy_in q disallowed) then [q] else []
    else []) (seq 0 6).
Fixpoint reach_loop (fuel : nat) (m : machine) (allowed disallowed visited stack : list xy) : res (list xy) :=
  match stack with
  | [] => Ok visited
  | p :: rest =>
      match fuel with
      | 0 => Err OutOfFuel
      | S f =>
          if xy_in p visited then reach_loop f m allowed disallowed visited rest
          else reach_loop f m allowed disallowed (p :: visited)
                 (rev (reach_next m allowed disallowed (p :: visited) p) ++ rest)
      end
  end.
Definition find_reachable (m : machine) (source : xy) (allowed disallowed : list xy) : res (list xy) :=
  reach_loop (2 + 7 * S (length (m_chips m))) m allowed disallowed [] [source].
