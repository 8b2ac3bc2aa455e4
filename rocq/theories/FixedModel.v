(** Model of the fixed route router
    (pacman/operations/fixed_route_router/fixed_route_router.py). A board is the
    coordinates of its Ethernet chip with the existing chips of the board
    (Machine.get_existing_xys_by_ethernet); the processor of the first placement of
    the destination class on a chip is given as a function. *)
From Coq Require Import List ZArith NArith Arith Bool.
From Verif Require Import Base Dict TreeModel MachModel RPartModel.
Import ListNotations.
Local Open Scope nat_scope.

Notation ftable := (list (xy * rentry)) (only parsing).

(** __add_fixed_route_entry (127-140). *)
Definition add_fixed (t : ftable) (key : xy) (links procs : list nat) : res ftable :=
  if dmem xy_eqb t key then Err AlreadyExists
  else Ok (dset xy_eqb t key (mkRE (route_of links procs) false)).

(** The loop over the links (102-115): the first useful link. *)
Definition link_order : list nat := [4; 3; 5; 2; 0; 1].
Definition first_link (m : machine) (routed : list xy) (p : xy) : option nat :=
  find (fun l => xy_in (over_link m p l) routed && is_link m p l) link_order.

(** One pass over to_route (101-115): the table and the chips found. *)
Fixpoint fixed_pass (m : machine) (routed : list xy) (t : ftable) (found todo : list xy) : res (ftable * list xy) :=
  match todo with
  | [] => Ok (t, found)
  | p :: rest =>
      match first_link m routed p with
      | Some l =>
          let* t' := add_fixed t p [l] [] in
          fixed_pass m routed t' (found ++ [p]) rest
      | None => fixed_pass m routed t found rest
      end
  end.

(** The while loop of _route_board (99-121). *)
Fixpoint fixed_loop (fuel : nat) (m : machine) (t : ftable) (to_route routed : list xy) : res ftable :=
  match to_route with
  | [] => Ok t
  | _ =>
      match fuel with
      | 0 => Err OutOfFuel
      | S f =>
          let* (t', found) := fixed_pass m routed t [] to_route in
          match found with
          | [] => Err RoutingException
          | _ => fixed_loop f m t' (filter (fun p => negb (xy_in p found)) to_route) (routed ++ found)
          end
      end
  end.

(** _route_board (80-125) and __locate_destination (142-156). *)
Definition route_board (m : machine) (gatherer : xy -> option nat) (t : ftable) (board : xy * list xy) : res ftable :=
  let '(e, chips) := board in
  if xy_in e chips then
    let to_route := filter (fun p => negb (xy_eqb p e)) chips in
    let* t' := fixed_loop (length to_route) m t to_route [e] in
    match gatherer e with
    | None => Err ConfigurationException
    | Some p => add_fixed t' e [] [p]
    end
  else Err KeyError.

(** build_fixed_routes (62-78). *)
Definition build_fixed_routes (m : machine) (gatherer : xy -> option nat) (boards : list (xy * list xy)) : res ftable :=
  foldM (route_board m gatherer) [] boards.
