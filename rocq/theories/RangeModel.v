(** Model of /repo/pacman/operations/router_compressors/ranged_compressor.py. *)
From Coq Require Import List Arith NArith ZArith Bool Lia.
From Verif Require Import Base RouteSpec.
Import ListNotations.
Local Open Scope Z_scope.

(** [self._entries[i]] for an integer index that the callers keep
    non-negative. *)
Definition zget {A} (l : list A) (i : Z) : res A :=
  if i <? 0 then Err IndexError else aget l (Z.to_nat i).

(** [sys.maxsize] on a 64-bit platform (line 142). *)
Definition maxsize : Z := 9223372036854775807.

(** Lines 133-144: [_get_key]. *)
Definition get_key (es : list entry) (index : Z) : res Z :=
  if index =? Z.of_nat (length es) then Ok maxsize
  else
    let* e := zget es index in
    Ok (Z.of_N (N.land (e_key e) (e_mask e))).

(** Lines 146-158: [_get_endpoint]; [(key | ~mask) & 0xFFFFFFFF] written with
    integers. *)
Definition get_endpoint (es : list entry) (index : Z) : res Z :=
  if index <? 0 then Ok 0
  else
    let* e := zget es index in
    Ok (Z.land (Z.lor (Z.of_N (e_key e)) (Z.lnot (Z.of_N (e_mask e)))) 4294967295).

(** Lines 125-131: [_validate]; [n] iterations from [i]. *)
Fixpoint validate (es : list entry) (i : Z) (n : nat) : res bool :=
  match n with
  | O => Ok true
  | S n' =>
      let* p := get_endpoint es i in
      let* q := get_key es (i + 1) in
      if p >=? q then Ok false else validate es (i + 1) n'
  end.

(** Python's [int.bit_length] on non-negative integers. *)
Definition bit_length (n : Z) : Z := if n <=? 0 then 0 else Z.log2 n + 1.

(** Line 177. *)
Definition first_power (dif : Z) : Z :=
  if dif <? 1 then 1 else Z.shiftl 1 (bit_length (dif - 1)).

(** Lines 180-181. *)
Definition low_cut_of (first_point power : Z) : Z := first_point / power * power.

(** Lines 190-193: shrink until neither neighbour is touched. *)
Fixpoint shrink (fuel : nat) (first_point pre_point post_point power : Z) : res Z :=
  match fuel with
  | O => Err OutOfFuel
  | S fuel' =>
      let low_cut := low_cut_of first_point power in
      let high_cut := low_cut + power in
      if (1 <? power) && ((low_cut <? pre_point) || (post_point <? high_cut))
      then shrink fuel' first_point pre_point post_point (Z.shiftr power 1)
      else Ok power
  end.

(** Lines 197-199: drop entries that are not covered. *)
Fixpoint reduce_last (fuel : nat) (es : list entry) (high_cut last last_point : Z)
    : res Z :=
  match fuel with
  | O => Err OutOfFuel
  | S fuel' =>
      if high_cut <=? last_point then
        let* p := get_endpoint es (last - 1) in
        reduce_last fuel' es high_cut (last - 1) p
      else Ok last
  end.

(** Lines 160-213: [_merge_range]; the entries appended to [_compressed] are
    returned in order.  [fuel] bounds the iterations of [while True]. *)
Fixpoint merge_range (fuel : nat) (es : list entry) (first last : Z)
    : res (list entry) :=
  match fuel with
  | O => Err OutOfFuel
  | S fuel' =>
      if first =? last then
        let* e := zget es first in Ok [e]
      else
        let* first_point := get_key es first in
        let* last_point := get_endpoint es last in
        let* pre_point := get_endpoint es (first - 1) in
        let* post_point := get_key es (last + 1) in
        let dif := last_point - first_point in
        let power0 := first_power dif in
        let low0 := low_cut_of first_point power0 in
        let high0 := low0 + power0 in
        let power1 := if high0 <? last_point then Z.shiftl power0 1 else power0 in
        let* power := shrink (S (Z.to_nat (Z.log2 power1)))
                        first_point pre_point post_point power1 in
        let low_cut := low_cut_of first_point power in
        let high_cut := low_cut + power in
        let* last' := reduce_last (S (Z.to_nat (last + 2))) es high_cut last last_point in
        let new_mask := 2 ^ 32 - power in
        let* e := zget es first in
        let entry := mkEntry (Z.to_N low_cut) (Z.to_N new_mask) (e_route e) false in
        if last =? last' then Ok [entry]
        else
          let* more := merge_range fuel' es (last' + 1) last in
          Ok (entry :: more)
  end.

(** Lines 109-120: split the table into runs of equal routes.  [es] is the
    whole table, [todo] the entries not yet enumerated, [i] the index of the
    head of [todo]. *)
Fixpoint ranges (fuel : nat) (es todo : list entry) (i first : Z) (route : N)
    : res (list entry) :=
  match todo with
  | [] => merge_range fuel es first (i - 1)
  | e :: todo' =>
      if N.eqb (e_route e) route then ranges fuel es todo' (i + 1) first route
      else
        let* a := merge_range fuel es first (i - 1) in
        let* b := ranges fuel es todo' (i + 1) i (e_route e) in
        Ok (a ++ b)
  end.

(** Line 99: stable sort by key (contract of [list.sort]). *)
Fixpoint insert_by_key (e : entry) (l : list entry) : list entry :=
  match l with
  | [] => [e]
  | x :: t => if N.ltb (e_key e) (e_key x) then e :: l else x :: insert_by_key e t
  end.

Definition sort_by_key (l : list entry) : list entry :=
  fold_left (fun acc e => insert_by_key e acc) l [].

(** Lines 75-123: [compress_table].  [as_far] is the configuration option
    [router_table_compress_as_far_as_possible], [target] the number of available
    router entries.  The fuel is handed to each [_merge_range]. *)
Definition range_compress (fuel : nat) (as_far : bool) (target : nat)
    (table : list entry) : res (list entry) :=
  if (negb as_far && Nat.ltb (length table) target)%bool then Ok table
  else
    let es := sort_by_key table in
    let* v := validate es 0 (length es) in
    if v then
      match es with
      | [] => Err IndexError
      | e0 :: _ => ranges fuel es es 0 0 (e_route e0)
      end
    else Ok table.
