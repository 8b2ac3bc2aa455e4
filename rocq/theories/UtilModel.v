(** Model of the bit utilities.
    Sources: pacman/utilities/utility_calls.py (lines cited below) and
    pacman/model/routing_info/base_key_and_mask.py.
    A numpy array of 32 uint8 bits is a [list bool], most significant bit first.
    Values are assumed to be below 2^32 (numpy raises OverflowError otherwise). *)
From Coq Require Import List Arith NArith Bool.
From Verif Require Import Base.
Import ListNotations.
Local Open Scope N_scope.

(** utility_calls.py 22-31: [expand_to_bit_array]. *)
Definition expand_to_bit_array (v : N) : list bool :=
  map (fun i => N.testbit v (N.of_nat (31 - i))) (seq 0 32).

(** utility_calls.py 34-42: [compress_from_bit_array]. *)
Definition compress_from_bit_array (bs : list bool) : N :=
  fold_left (fun acc b => 2 * acc + N.b2n b) bs 0.

(** numpy assignment [arr[positions] = vals]. *)
Fixpoint scatter {A} (arr : list A) (positions : list nat) (vals : list A) : list A :=
  match positions, vals with
  | p :: ps, v :: vs => scatter (upd arr p v) ps vs
  | _, _ => arr
  end.

(** numpy slice [arr[-n:]]; for n = 0 this is the whole array. *)
Definition last_n {A} (n : nat) (arr : list A) : list A :=
  match n with O => arr | _ => skipn (length arr - n) arr end.

(** utility_calls.py 45-60: [compress_bits_from_bit_array].  The slice
    assignment needs as many values as the slice has places, otherwise numpy
    raises ValueError (numpy would broadcast a single value; with one position
    the slice also has one place). *)
Definition compress_bits_from_bit_array (bit_array : list bool) (positions : list nat) : res N :=
  let* vals := mapM (aget bit_array) positions in
  let zeros := repeat false 32 in
  match length positions with
  | O => Err ValueError
  | n => if Nat.ltb 32 n then Err ValueError
         else Ok (compress_from_bit_array (firstn (32 - n) zeros ++ vals))
  end.

(** utility_calls.py 73-90: an element that is [None] ends the search. *)
Definition is_single {A} (l : list (option A)) : bool :=
  match l with
  | [] => false
  | None :: _ => false
  | Some _ :: [] => true
  | Some _ :: None :: _ => true
  | Some _ :: Some _ :: _ => false
  end.

(** utility_calls.py 117-127: the two loops of [get_key_ranges] over the
    positions 31, 30, ..., 0. *)
Fixpoint span_zeros (mask_bits : list bool) (ps : list nat) : list nat * list nat :=
  match ps with
  | [] => ([], [])
  | p :: ps' =>
      if negb (nth p mask_bits false)
      then let (f, r) := span_zeros mask_bits ps' in (p :: f, r)
      else ([], filter (fun q => negb (nth q mask_bits false)) (p :: ps'))
  end.

(** The values [0 .. n-1] of a Python range. *)
Definition nrange (n : N) : list N := map N.of_nat (seq 0 (N.to_nat n)).

(** The key made for one value: [copy(key_bits)[positions] = expand(v)[-n:]]. *)
Definition spread_key (key : N) (positions : list nat) (v : N) : N :=
  compress_from_bit_array
    (scatter (expand_to_bit_array key) positions
       (last_n (length positions) (expand_to_bit_array v))).

(** utility_calls.py 103-140: [get_key_ranges]. *)
Definition get_key_ranges (key mask : N) : list (N * N) :=
  let (first_zeros, remaining_zeros) :=
    span_zeros (expand_to_bit_array mask) (rev (seq 0 32)) in
  let n_keys := 2 ^ N.of_nat (length first_zeros) in
  match remaining_zeros with
  | [] => [(key, n_keys)]
  | _ => map (fun v => (spread_key key remaining_zeros v, n_keys))
             (nrange (2 ^ N.of_nat (length remaining_zeros)))
  end.

(** utility_calls.py 143-155: [get_n_bits]; [ceil(log2 n)] is exact. *)
Definition get_n_bits (n : N) : N :=
  if N.eqb n 0 then 0 else if N.eqb n 1 then 1 else N.log2_up n.

(** utility_calls.py 158-168: [allocator_bits_needed]. *)
Definition allocator_bits_needed (n : N) : N :=
  if N.eqb n 0 then 0 else N.log2_up n.

(** utility_calls.py 171-184: [get_keys] for a slice of [n_atoms] atoms. *)
Definition slice_keys (base_key n_atoms n_extra_bits : N) : list N :=
  map (fun i => base_key + N.shiftl i n_extra_bits) (nrange n_atoms).

(** utility_calls.py 187-194: [is_power_of_2] (for v = 0 the first test is
    [0 & -1 == 0], so only the second decides). *)
Definition is_power_of_2 (v : N) : bool :=
  if N.eqb v 0 then false else N.eqb (N.land v (v - 1)) 0.

(** base_key_and_mask.py 90-105 and 124-127: positions of the zeros. *)
Definition zeros_of (mask : N) : list nat :=
  filter (fun p => negb (nth p (expand_to_bit_array mask) false)) (seq 0 32).
Definition n_keys (mask : N) : N := 2 ^ N.of_nat (length (zeros_of mask)).

(** base_key_and_mask.py 107-163: [get_keys]; [arr] is the optional array given
    by the caller, [limit] the optional [n_keys].  Returns the array and the
    count. *)
Definition set_at (arr : list N) (i : nat) (v : N) : res (list N) := aset arr i v.

Fixpoint fill (key : N) (zeros : list nat) (offset : nat) (vs : list N) (arr : list N)
    : res (list N) :=
  match vs with
  | [] => Ok arr
  | v :: vs' =>
      let* arr' := set_at arr (N.to_nat v + offset) (spread_key key zeros v) in
      fill key zeros offset vs' arr'
  end.

Definition get_keys (key mask : N) (arr : option (list N)) (offset : nat) (limit : option N)
    : res (list N * N) :=
  let zeros := zeros_of mask in
  match zeros with
  | [] =>
      let a := match arr with None => [0] | Some a => a end in
      let* a' := set_at a offset key in
      Ok (a', 1)
  | _ =>
      let max_n := 2 ^ N.of_nat (length zeros) in
      let max_n := match arr with
                   | Some a => if N.ltb (N.of_nat (length a)) max_n
                               then N.of_nat (length a) else max_n
                   | None => max_n end in
      let n := match limit with None => max_n | Some l => N.min l max_n end in
      let a := match arr with None => repeat 0 (N.to_nat n) | Some a => a end in
      let* a' := fill key zeros offset (nrange n) a in
      Ok (a', n)
  end.

(** routes_format.py 23-36: [_reduce_route_value]. *)
Definition reduce_route_value (processors links : list N) : N :=
  fold_left (fun v p => v + N.shiftl 1 (p + 6)) processors
    (fold_left (fun v l => v + N.shiftl 1 l) links 0).
