(** Property C54: traversal of a routing tree. *)
From Coq Require Import List ZArith Arith Bool Permutation.
From Verif Require Import Base TreeModel TreeProofs.
Import ListNotations.
Local Open Scope nat_scope.

(** C54: if every sub-tree has a direction, traverse reports the nodes level by
    level, each level from left to right ([nodes_at k] are the nodes k hops below
    the root), with the direction that leads to the node, its chip and the set of
    directions of its children. *)
Theorem C54_breadth_first : forall t, (forall d s, In (d, s) (preorder (Some 0) t) -> d <> None) ->
  exists l, traverse t = Ok l /\
    Forall2 (fun r dt => fst (fst r) = fst dt /\ snd (fst r) = tchip (snd dt) /\ NoDup (snd r) /\
                         forall n, In n (snd r) <-> exists c, In (Some n, c) (tchildren (snd dt)))
            l (flat_map (fun k => nodes_at k (None, t)) (seq 0 (height t))).
Proof. exact traverse_levels. Qed.
Print Assumptions C54_breadth_first.

(** C54: these levels hold every node of the tree (as listed by iterating over
    it) exactly once, and len counts nodes and vertices. *)
Theorem C54_every_node_once : forall t,
  Permutation (map snd (flat_map (fun k => nodes_at k (None, t)) (seq 0 (height t))))
              (flat_map (fun c => match c with Sub s => [s] | Vertex _ => [] end) (iter t)).
Proof. exact levels_complete. Qed.
Print Assumptions C54_every_node_once.

Theorem C54_len : forall t, tree_len t = length (iter t).
Proof. exact tree_len_eq. Qed.
Print Assumptions C54_len.

Definition leaf (x y : Z) : tree := Tree (x, y) [].
Definition ex_tree : tree :=
  Tree (0, 0)%Z [(Some 0, Sub (Tree (1, 0)%Z [(Some 2, Sub (leaf 1 1)); (None, Vertex 7); (Some 0, Sub (leaf 2 0))]));
                 (Some 8, Vertex 3);
                 (Some 2, Sub (Tree (0, 1)%Z [(Some 2, Sub (leaf 0 2)); (Some 2, Vertex 4)]))].
Example ex_traverse : traverse ex_tree = Ok
  [(None, (0, 0)%Z, [0; 8; 2]); (Some 0, (1, 0)%Z, [2; 0]); (Some 2, (0, 1)%Z, [2]);
   (Some 2, (1, 1)%Z, []); (Some 0, (2, 0)%Z, []); (Some 2, (0, 2)%Z, [])] /\
  tree_len ex_tree = 9 /\
  forallb (fun dt => match fst dt with Some _ => true | None => false end) (preorder (Some 0) ex_tree) = true.
Proof. vm_compute. intuition reflexivity. Qed.
