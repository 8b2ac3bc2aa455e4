(** Specification vocabulary for multicast routing tables.

    A SpiNNaker router compares a packet key with each entry of its table in
    order; the first entry with [packet & mask == key] decides the route
    (/repo/pacman/operations/router_compressors/
    ordered_covering_router_compressor/__init__.py lines 24-70).  *)
From Coq Require Import List NArith Bool.
Import ListNotations.
Local Open Scope N_scope.

(** A [spinn_machine.MulticastRoutingEntry]: key, mask, route word
    ([spinnaker_route]: links are bits 0-5, processors bits 6 and up) and the
    [defaultable] flag.  The class lives outside /repo; its constructor raises
    unless [key & mask == key] (see [entry_ok]). *)
Record entry := mkEntry {
  e_key : N;
  e_mask : N;
  e_route : N;
  e_def : bool
}.

Definition key_matches (k key mask : N) : Prop := N.land k mask = key.

Definition entry_matches (k : N) (e : entry) : Prop :=
  key_matches k (e_key e) (e_mask e).

Definition entry_matchesb (k : N) (e : entry) : bool :=
  N.eqb (N.land k (e_mask e)) (e_key e).

(** Invariant guaranteed by the [MulticastRoutingEntry] constructor. *)
Definition entry_ok (e : entry) : Prop := N.land (e_key e) (e_mask e) = e_key e.

Definition tables_ok (t : list entry) : Prop := Forall entry_ok t.

(** Hardware semantics of a table read in order. *)
Fixpoint first_match (t : list entry) (k : N) : option entry :=
  match t with
  | [] => None
  | e :: t' => if entry_matchesb k e then Some e else first_match t' k
  end.

Definition routes_to (t : list entry) (k : N) (r : N) : Prop :=
  exists e, first_match t k = Some e /\ e_route e = r.

(** Two entries share no packet key. *)
Definition disjoint_entries (a b : entry) : Prop :=
  forall k, ~ (entry_matches k a /\ entry_matches k b).

(** No packet key is matched by two different positions of the table: the
    table means the same in whatever order it is read. *)
Definition orthogonal (t : list entry) : Prop := ForallOrdPairs disjoint_entries t.

(** Weaker: entries that share a key agree on the route. *)
Definition route_consistent (t : list entry) : Prop :=
  forall a b k, In a t -> In b t -> entry_matches k a -> entry_matches k b ->
    e_route a = e_route b.
