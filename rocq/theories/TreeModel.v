(** Model of RoutingTree (pacman/utilities/algorithm_utilities/routing_tree.py).

    A node has the coordinates of its chip and a list of children; a child is a
    direction (None allowed) with either another node or a vertex, here a number.
    Trees are built from the leaves up, so each node is a value. *)
From Coq Require Import List ZArith Arith Bool.
From Verif Require Import Base.
Import ListNotations.
Local Open Scope nat_scope.

Notation xy := (Z * Z)%type (only parsing).

Inductive tree : Type :=
| Tree (chip : xy) (children : list (option nat * child))
with child : Type :=
| Sub (t : tree)
| Vertex (v : nat).

Definition tchip (t : tree) : xy := let (c, _) := t in c.
Definition tchildren (t : tree) : list (option nat * child) := let (_, l) := t in l.

(** __iter__ (135-147): the node, then its children recursively. *)
Fixpoint iter (t : tree) : list child :=
  Sub t ::
  match t with
  | Tree _ l =>
      (fix go (l : list (option nat * child)) : list child :=
         match l with
         | [] => []
         | (_, Sub s) :: r => iter s ++ go r
         | (_, Vertex v) :: r => Vertex v :: go r
         end) l
  end.

(** __len__ (149-156). *)
Fixpoint tree_len (t : tree) : nat :=
  match t with
  | Tree _ l =>
      (fix go (l : list (option nat * child)) (count : nat) : nat :=
         match l with
         | [] => count
         | (_, Sub s) :: r => go r (count + tree_len s)
         | (_, Vertex _) :: r => go r (count + 1)
         end) l 1
  end.

(** The loop over the children in traverse (186-195): the set of directions (as
    the list of the non-None ones in order of first appearance) and the nodes to
    visit later. *)
Fixpoint scan_children (l : list (option nat * child)) (outs : list nat) (next : list (option nat * tree))
  : res (list nat * list (option nat * tree)) :=
  match l with
  | [] => Ok (outs, next)
  | (d, c) :: rest =>
      let outs' := match d with
                   | Some n => if existsb (Nat.eqb n) outs then outs else outs ++ [n]
                   | None => outs
                   end in
      match c, d with
      | Sub _, None => Err AssertionError
      | Sub t, Some _ => scan_children rest outs' (next ++ [(d, t)])
      | Vertex _, _ => scan_children rest outs' next
      end
  end.

(** traverse (162-198), run to its end; [fuel] bounds the number of nodes. *)
Fixpoint traverse_loop (fuel : nat) (to_visit : list (option nat * tree))
  : res (list (option nat * xy * list nat)) :=
  match to_visit with
  | [] => Ok []
  | (direction, node) :: rest =>
      match fuel with
      | 0 => Err OutOfFuel
      | S f =>
          let* r := scan_children (tchildren node) [] rest in
          let* l := traverse_loop f (snd r) in
          Ok ((direction, tchip node, fst r) :: l)
      end
  end.
Definition traverse (t : tree) : res (list (option nat * xy * list nat)) :=
  traverse_loop (tree_len t) [(None, t)].
