(** Property C29: longest-dimension-first routes. *)
From Coq Require Import List ZArith Arith Bool Permutation Lia.
From Verif Require Import Base TreeModel MachModel LdfModel LdfProofs.
Import ListNotations.
Local Open Scope Z_scope.

(** C29: each step of the path is over its link from the chip before; the path
    has |x| + |y| + |z| steps; and, counting coordinates as the machine wraps
    them, it ends at the start plus (x - z, y - z). *)
Theorem C29_path : forall m x y z p,
  let l := longest_dimension_first m (x, y, z) p in
  linked m p l /\
  Z.of_nat (length l) = Z.abs x + Z.abs y + Z.abs z /\
  place m (last_xy p l) = place m (fst p + x - z, snd p + y - z).
Proof. exact ldf_spec. Qed.
Print Assumptions C29_path.

(** C29: a vector that leads from one position inside the machine to another
    gives a path that ends there. *)
Theorem C29_reaches : forall m x y z p q, inside m p -> inside m q ->
  place m (fst p + x - z, snd p + y - z) = q ->
  let l := longest_dimension_first m (x, y, z) p in
  linked m p l /\ last_xy p l = q /\ Z.of_nat (length l) = Z.abs x + Z.abs y + Z.abs z.
Proof. exact ldf_reaches. Qed.
Print Assumptions C29_reaches.

(** C29: the links come in runs, one per dimension, the longest first. *)
Theorem C29_longest_first : forall m x y z p, exists d1 d2 d3,
  Permutation [d1; d2; d3] [(0%nat, x); (1%nat, y); (2%nat, z)] /\
  Z.abs (snd d2) <= Z.abs (snd d1) /\ Z.abs (snd d3) <= Z.abs (snd d2) /\
  map fst (longest_dimension_first m (x, y, z) p) =
    flat_map (fun d => repeat (axis_link (fst d) (0 <? snd d)) (Z.to_nat (Z.abs (snd d)))) [d1; d2; d3].
Proof. exact ldf_longest. Qed.
Print Assumptions C29_longest_first.

(** A torus of 8 by 8 chips. *)
Definition torus8 : machine := mkMachine 8 8 true true [] [].
Example ex_ldf : longest_dimension_first torus8 (1, 0, -3) (6, 6) =
  [(1%nat, (7, 7)); (1%nat, (0, 0)); (1%nat, (1, 1)); (0%nat, (2, 1))] /\
  inside torus8 (6, 6) /\ inside torus8 (2, 1) /\ place torus8 (6 + 1 - -3, 6 + 0 - -3) = (2, 1).
Proof. split; [reflexivity|]. split; [unfold inside; cbn; lia|]. split; [unfold inside; cbn; lia | reflexivity]. Qed.
