(** Model of MulticastRoutingTableByPartition
    (pacman/model/routing_table_by_partition/multicast_routing_table_by_partition.py)
    and of the RoutingEntry of spinn_machine as far as the routing code uses it.
    Vertices and partition identifiers are numbers. *)
From Coq Require Import List ZArith NArith Arith Bool.
From Verif Require Import Base Dict TreeModel MachModel.
Import ListNotations.
Local Open Scope nat_scope.

(** A RoutingEntry: bit [l] of the route is link [l] (of 6), bit [6 + p] is
    processor [p]. *)
Record rentry := mkRE { re_route : N; re_default : bool }.

(** The route of some links and processors. *)
Fixpoint bits_of (l : list nat) : N :=
  match l with
  | [] => 0%N
  | b :: rest => N.setbit (bits_of rest) (N.of_nat b)
  end.
Definition route_of (links procs : list nat) : N := bits_of (links ++ map (Nat.add 6) procs).
Definition has_link (r : N) (l : nat) : bool := N.testbit r (N.of_nat l).
Definition has_proc (r : N) (p : nat) : bool := N.testbit r (N.of_nat (6 + p)).

(** RoutingEntry.merge: all the links and processors of both; the merged entry is
    taken to be defaultable if both are and have the same route. *)
Definition re_merge (a b : rentry) : rentry :=
  mkRE (N.lor (re_route a) (re_route b))
       (re_default a && re_default b && N.eqb (re_route a) (re_route b)).

(** An application vertex or a machine vertex. *)
Inductive vtx := App (a : nat) | Mac (v : nat).
Definition vtx_eqb (x y : vtx) : bool :=
  match x, y with
  | App a, App b => Nat.eqb a b
  | Mac a, Mac b => Nat.eqb a b
  | _, _ => false
  end.
Definition skey : Type := (vtx * nat)%type.
Definition skey_eqb (x y : skey) : bool := vtx_eqb (fst x) (fst y) && Nat.eqb (snd x) (snd y).

(** The machine vertices of an application vertex, and the application vertex of
    a machine vertex. *)
Record venv := mkVEnv { ve_macs : nat -> list nat; ve_app : nat -> option nat }.

(** _router_to_entries_map (33-39). *)
Definition rtable : Type := list (xy * list (skey * rentry)).

(** add_path_entry (42-87). *)
Definition add_path_entry (ve : venv) (t : rtable) (e : rentry) (p : xy) (src : vtx) (part : nat) : res rtable :=
  let entries := match dget xy_eqb t p with Some d => d | None => [] end in
  let clash :=
    match src with
    | App a => existsb (fun v => dmem skey_eqb entries (Mac v, part)) (ve_macs ve a)
    | Mac v => match ve_app ve v with
               | Some a => dmem skey_eqb entries (App a, part)
               | None => false
               end
    end in
  if clash then Err InvalidParameter
  else
    let e' := match dget skey_eqb entries (src, part) with
              | Some old => re_merge e old
              | None => e
              end in
    Ok (dset xy_eqb t p (dset skey_eqb entries (src, part) e')).

(** get_routers (89-95), get_entries_for_router (106-117),
    get_entry_on_coords_for_edge (120-136). *)
Definition get_routers (t : rtable) : list xy := map fst t.
Definition get_entries_for_router (t : rtable) (p : xy) : option (list (skey * rentry)) := dget xy_eqb t p.
Definition get_entry (t : rtable) (src : vtx) (part : nat) (p : xy) : option rentry :=
  match dget xy_eqb t p with
  | None => None
  | Some d => dget skey_eqb d (src, part)
  end.

(** A sequence of calls; a call that raises leaves the table and the caller goes
    on. *)
Record addcall := mkAdd { ac_entry : rentry; ac_xy : xy; ac_src : vtx; ac_part : nat }.
Fixpoint add_all (ve : venv) (t : rtable) (calls : list addcall) : rtable * list bool :=
  match calls with
  | [] => (t, [])
  | c :: rest =>
      match add_path_entry ve t (ac_entry c) (ac_xy c) (ac_src c) (ac_part c) with
      | Ok t' => let '(t'', oks) := add_all ve t' rest in (t'', true :: oks)
      | Err _ => let '(t'', oks) := add_all ve t rest in (t'', false :: oks)
      end
  end.
