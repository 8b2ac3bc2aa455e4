(** Property C32: breadth-first routing to several targets. *)
From Coq Require Import List ZArith Arith Bool Lia.
From Verif Require Import Base Dict TreeModel MachModel LdfModel LdfProofs PathModel PathProofs PathProps BfsModel BfsProofs.
Import ListNotations.
Local Open Scope nat_scope.

(** C32: routes made from nothing are one tree below the first chip (each chip
    is reached from the root, has one parent, and no step leads to the root),
    over working links and allowed chips, that has all targets and no branch
    that does not end at a target. *)
Theorem C32_fresh : forall m first allowed targets r', targets <> [] ->
  route_to_xys m first allowed targets [] = Ok r' ->
  is_tree m first r' /\ (forall t, In t targets -> known r' t) /\
  (forall p l q, child r' p l q -> In q allowed) /\
  (forall k, known r' k -> In k targets \/ exists l q, child r' k l q).
Proof. exact route_fresh. Qed.
Print Assumptions C32_fresh.

(** C32: routes added to a tree, from a chip of the tree, give a tree that has
    the old one in it; new steps lead to new chips only. *)
Theorem C32_extended : forall m root first allowed targets r0 r', is_tree m root r0 -> known r0 first ->
  route_to_xys m first allowed targets r0 = Ok r' ->
  is_tree m root r' /\ (forall t, In t targets -> known r' t) /\
  (forall p l q, child r0 p l q -> child r' p l q) /\ (forall p, known r0 p -> known r' p) /\
  (forall p l q, child r' p l q -> child r0 p l q \/ (~ known r0 q /\ In q allowed)) /\
  (forall k, known r' k -> ~ known r0 k -> In k targets \/ exists l q, child r' k l q).
Proof. exact route_tree. Qed.
Print Assumptions C32_extended.

(** C32: such a tree has no cycle. *)
Theorem C32_acyclic : forall m root r q l x, is_tree m root r -> child r q l x -> ~ descends r x q.
Proof. exact tree_acyclic. Qed.
Print Assumptions C32_acyclic.

(** C32: the search raises if and only if some target cannot be reached over
    working links through allowed chips, and raises nothing else. *)
Theorem C32_raises_iff : forall m first allowed targets r0,
  (route_to_xys m first allowed targets r0 = Err RoutingException <->
   exists t, In t targets /\
     forall l, walk m first l /\ Forall (fun n => In (snd n) allowed) l -> last_xy first l <> t) /\
  (forall e, route_to_xys m first allowed targets r0 = Err e -> e = RoutingException).
Proof. exact route_raises. Qed.
Print Assumptions C32_raises_iff.

(** C32: _find_reachable gives the chips that can be reached through allowed
    chips that are not disallowed, and only those. *)
Theorem C32_reachable : forall m source allowed disallowed,
  exists vis, find_reachable m source allowed disallowed = Ok vis /\ NoDup vis /\
    forall x, In x vis <-> exists l, walk m source l /\
      Forall (fun n => In (snd n) allowed /\ ~ In (snd n) disallowed) l /\ last_xy source l = x.
Proof. exact find_reachable_spec. Qed.
Print Assumptions C32_reachable.

(** A machine with a dead link: (2, 0) is reached through (2, 1). *)
Definition all_xys : list (Z * Z) := m_chips dead_link.
Definition ex_routes : routes :=
  [((2, 1)%Z, [(5, (2, 0)%Z)]); ((1, 0)%Z, [(1, (2, 1)%Z)]); ((0, 0)%Z, [(0, (1, 0)%Z)]); ((2, 0)%Z, [])].
Example ex_fresh : route_to_xys dead_link (0, 0)%Z all_xys [(2, 0)%Z; (2, 1)%Z] [] = Ok ex_routes.
Proof. reflexivity. Qed.
Example ex_is_tree : is_tree dead_link (0, 0)%Z ex_routes.
Proof. exact (proj1 (C32_fresh dead_link (0, 0)%Z all_xys [(2, 0)%Z; (2, 1)%Z] ex_routes ltac:(discriminate) ex_fresh)). Qed.
(** The tree is extended to (1, 1) and (0, 1), starting at (1, 0). *)
Example ex_extended : known ex_routes (1, 0)%Z /\
  exists r, route_to_xys dead_link (1, 0)%Z all_xys [(1, 1)%Z; (0, 1)%Z] ex_routes = Ok r /\
    dget xy_eqb r (1, 0)%Z = Some [(1, (2, 1)%Z); (2, (1, 1)%Z)] /\
    dget xy_eqb r (1, 1)%Z = Some [(3, (0, 1)%Z)].
Proof. split; [discriminate|]. eexists. split; [reflexivity|]. split; reflexivity. Qed.
(** Without (1, 0), (0, 1) and (1, 1) there is no way. *)
Example ex_raises : route_to_xys dead_link (0, 0)%Z [(2, 0)%Z; (2, 1)%Z] [(2, 0)%Z] [] = Err RoutingException.
Proof. reflexivity. Qed.
Example ex_reachable : find_reachable dead_link (0, 0)%Z all_xys [(1, 1)%Z] =
  Ok [(2, 0)%Z; (2, 1)%Z; (1, 0)%Z; (0, 1)%Z; (0, 0)%Z].
Proof. reflexivity. Qed.
