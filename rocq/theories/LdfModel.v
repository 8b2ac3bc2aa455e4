(** Model of longest_dimension_first and vector_to_nodes
    (pacman/utilities/algorithm_utilities/routing_algorithm_utilities.py). *)
From Coq Require Import List ZArith Arith Bool.
From Verif Require Import Base TreeModel MachModel.
Import ListNotations.
Local Open Scope Z_scope.

(** The inner loops (108-110, 113-115, ...): [n] steps over [link]. *)
Fixpoint steps (m : machine) (n : nat) (link : nat) (p : xy) : list node :=
  match n with
  | O => []
  | S n' => let q := over_link m p link in (link, q) :: steps m n' link q
  end.

Definition last_xy (p : xy) (l : list node) : xy := snd (last l (0%nat, p)).

(** The link for a dimension and a sign (105-137). *)
Definition dim_link (dimension : nat) (magnitude : Z) : nat :=
  match dimension with
  | 0%nat => if 0 <? magnitude then 0%nat else 3%nat
  | 1%nat => if 0 <? magnitude then 2%nat else 5%nat
  | _ => if 0 <? magnitude then 4%nat else 1%nat
  end.

(** vector_to_nodes (85-138). *)
Fixpoint vector_to_nodes (m : machine) (dm : list (nat * Z)) (p : xy) : list node :=
  match dm with
  | [] => []
  | (dimension, magnitude) :: rest =>
      if magnitude =? 0 then vector_to_nodes m rest p
      else
        let l := steps m (Z.to_nat (Z.abs magnitude)) (dim_link dimension magnitude) p in
        l ++ vector_to_nodes m rest (last_xy p l)
  end.

(** sorted(enumerate(vector), key=abs of the magnitude, reverse=True) (81): Python
    keeps the order of equal elements also with reverse. *)
Fixpoint insert_dim (d : nat * Z) (l : list (nat * Z)) : list (nat * Z) :=
  match l with
  | [] => [d]
  | e :: rest => if Z.abs (snd e) <? Z.abs (snd d) then d :: l else e :: insert_dim d rest
  end.
Definition sort_dims (l : list (nat * Z)) : list (nat * Z) :=
  fold_left (fun acc d => insert_dim d acc) l [].

(** longest_dimension_first (65-82). *)
Definition longest_dimension_first (m : machine) (v : Z * Z * Z) (start : xy) : list node :=
  let '(x, y, z) := v in
  vector_to_nodes m (sort_dims [(0%nat, x); (1%nat, y); (2%nat, z)]) start.
