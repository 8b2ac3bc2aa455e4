(** Model of [remove_default_routes].
    Source: pacman/operations/router_compressors/
    ordered_covering_router_compressor/utils.py, lines 53-112. *)
From Coq Require Import List Arith NArith Bool.
From Verif Require Import Base RouteSpec KeyMask.
Import ListNotations.

(** Number of elements of the frozenset of a list (utils.py 87-88). *)
Definition set_size (l : list N) : nat := length (nodup N.eq_dec l).

(** Lines 96-105: the loop with the alias check. *)
Fixpoint drop_checked (table : list entry) : list entry :=
  match table with
  | [] => []
  | e :: rest =>
      if negb (e_def e) then e :: drop_checked rest
      else if existsb (fun d => intersect (e_key e) (e_mask e) (e_key d) (e_mask d)) rest
           then e :: drop_checked rest
           else drop_checked rest
  end.

(** Lines 84-89: is the check still needed? *)
Definition needs_check (table : list entry) (check : bool) : bool :=
  if check then
    negb (Nat.eqb (set_size (map e_mask table)) 1
          && Nat.eqb (length table) (set_size (map e_key table)))
  else false.

(** Lines 53-112.  [target] is [None] or the target length; line 107 tests it
    for truth, so [Some 0] behaves like [None]. *)
Definition remove_default_routes (table : list entry) (target : option nat)
    (check : bool) : res (list entry) :=
  let new_table :=
    if needs_check table check then drop_checked table
    else filter (fun e => negb (e_def e)) table in
  match target with
  | Some (S n) => if Nat.ltb (S n) (length new_table) then Err MinimisationFailed else Ok new_table
  | _ => Ok new_table
  end.
