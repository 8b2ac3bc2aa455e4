(** Model of the repair of paths in the application router
    (pacman/operations/router_algorithms/application_router.py): _is_ok,
    _find_path, _path_without_errors and _path_without_loops. *)
From Coq Require Import List ZArith Arith Bool.
From Verif Require Import Base Dict TreeModel MachModel LdfModel.
Import ListNotations.
Local Open Scope nat_scope.

(** _is_ok (871-881). *)
Definition is_ok (m : machine) (p : xy) (n : node) : bool :=
  is_link m p (fst n) && is_chip m (snd n).

(** The loop over the links in _find_path (910-917), from link [6 - k] on; the
    set passed to _is_open_chip holds just the next chip. *)
Definition find_next (m : machine) (visited : list xy) (p : xy) (path : list node) : list (xy * list node) :=
  flat_map (fun link =>
    if is_link m p link then
      let q := over_link m p link in
      if negb (xy_in q visited) && is_chip m q then [(q, path ++ [(link, q)])] else []
    else []) (seq 0 6).

(** _find_path (889-918). *)
Fixpoint find_loop (fuel : nat) (m : machine) (target : xy) (visited : list xy)
    (queue : list (xy * list node)) : res (list node) :=
  match queue with
  | [] => Err RoutingException
  | (p, path) :: rest =>
      match fuel with
      | 0 => Err OutOfFuel
      | S f =>
          if xy_in p visited then find_loop f m target visited rest
          else if xy_eqb p target then Ok path
          else find_loop f m target (p :: visited) (rest ++ find_next m (p :: visited) p path)
      end
  end.
Definition find_path (m : machine) (source target : xy) : res (list node) :=
  find_loop (2 + 7 * S (length (m_chips m))) m target [] [(source, [])].

(** The two inner loops of _path_without_errors (829-833 and 835-841). *)
Fixpoint take_ok (m : machine) (c : xy) (nodes : list node) : list node * xy * list node :=
  match nodes with
  | n :: rest =>
      if is_ok m c n then
        let '(l, c', r) := take_ok m (snd n) rest in (n :: l, c', r)
      else ([], c, nodes)
  | [] => ([], c, [])
  end.
Fixpoint skip_bad (m : machine) (c : xy) (nodes : list node) : xy * list node :=
  match nodes with
  | n :: rest => if is_ok m c n then (c, nodes) else skip_bad m (snd n) rest
  | [] => (c, [])
  end.

(** The outer loop of _path_without_errors (825-847); [fuel] bounds the rounds. *)
Fixpoint errors_loop (fuel : nat) (m : machine) (c : xy) (nodes : list node) : res (list node) :=
  match nodes with
  | [] => Ok []
  | _ =>
      match fuel with
      | 0 => Err OutOfFuel
      | S f =>
          let '(l1, c1, r1) := take_ok m c nodes in
          let '(c2, r2) := skip_bad m c1 r1 in
          let* l2 := if Nat.eqb (length r2) (length r1) then Ok [] else find_path m c1 c2 in
          let* l3 := errors_loop f m c2 r2 in
          Ok (l1 ++ l2 ++ l3)
      end
  end.
Definition repaired (m : machine) (source : xy) (nodes : list node) : res (list node) :=
  errors_loop (length nodes) m source nodes.

(** _path_without_loops (851-868); "del nodes[a:b]" removes nothing if b <= a. *)
Fixpoint loops_loop (fuel : nat) (nodes : list node) (i : nat) (seen : list (xy * nat)) : list node :=
  match fuel with
  | 0 => nodes
  | S f =>
      match nth_error nodes i with
      | None => nodes
      | Some (_, nxt) =>
          match dget xy_eqb seen nxt with
          | Some last_seen =>
              loops_loop f (firstn last_seen nodes ++ skipn (Nat.max last_seen (i + 1)) nodes) last_seen seen
          | None => loops_loop f nodes (i + 1) (dset xy_eqb seen nxt (i + 1))
          end
      end
  end.
Definition path_without_loops (start : xy) (nodes : list node) : list node :=
  loops_loop (length nodes) nodes 0 [(start, 0)].

(** _path_without_errors (816-848). *)
Definition path_without_errors (m : machine) (source : xy) (nodes : list node) : res (list node) :=
  let* l := repaired m source nodes in
  Ok (path_without_loops source l).

(** The start of _route_pre_to_post (767-772), for the vector given by the
    machine. *)
Definition direct_path (m : machine) (v : Z * Z * Z) (source : xy) : res (list node) :=
  path_without_errors m source (longest_dimension_first m v source).
