(** Model of the keys and slices of two dimensional devices.
    Source: pacman/model/graphs/application/abstract/abstract_2d_device_vertex.py,
    with the shifts and masks that subclasses may override left at their defaults.
    Sizes are natural numbers; [math.ceil] of a quotient of integers is exact. *)
From Coq Require Import List NArith ZArith Bool.
From Verif Require Import Base AllocModel UtilModel SliceModel.
Import ListNotations.
Local Open Scope N_scope.

(** [width], [height], [sub_width] and [sub_height] (41-79). *)
Record device := mkDevice { d_w : N; d_h : N; d_sw : N; d_sh : N }.

(** Lines 96-113: [_verify_sub_size]. *)
Definition verify_sub_size (d : device) : res unit :=
  if negb (is_power_of_2 (d_sw d)) then Err ConfigurationException
  else if negb (is_power_of_2 (d_sh d)) then Err ConfigurationException
  else if N.ltb (d_w d) (d_sw d) then Err ConfigurationException
  else if N.ltb (d_h d) (d_sh d) then Err ConfigurationException
  else Ok tt.

(** [int(math.ceil(a / b))] for [b > 0]. *)
Definition ceil_quot (a b : N) : N := (a + b - 1) / b.
Definition n_per_row (d : device) : N := ceil_quot (d_w d) (d_sw d).
Definition n_per_col (d : device) : N := ceil_quot (d_h d) (d_sh d).

(** Lines 115-123: [_n_sub_rectangles]. *)
Definition n_sub_rectangles (d : device) : N := n_per_row d * n_per_col d.

(** Lines 125-138: [_sub_square_from_index]. *)
Definition sub_square (d : device) (index : N) : N * N :=
  (index mod n_per_row d, index / n_per_row d).

(** Lines 140-155: [_get_slice]; atoms_shape is (width, height)
    (application_2d_fpga_vertex.py 94-97). *)
Definition get_slice (d : device) (index : N) : res slice :=
  let (x, y) := sub_square d index in
  let n := d_sw d * d_sh d in
  let lo := Z.of_N (index * n) in
  make_mdslice lo (lo + Z.of_N n - 1)%Z
    [Z.of_N (d_sw d); Z.of_N (d_sh d)]
    [Z.of_N (x * d_sw d); Z.of_N (y * d_sh d)]
    [Z.of_N (d_w d); Z.of_N (d_h d)].

(** Lines 187-223: [_x_bits], [_y_bits], [_sub_x_bits], [_sub_y_bits]. *)
Definition x_bits (d : device) : N := get_n_bits (d_w d).
Definition y_bits (d : device) : N := get_n_bits (d_h d).
Definition sub_x_bits (d : device) : N := get_n_bits (n_per_row d).
Definition sub_y_bits (d : device) : N := get_n_bits (n_per_col d).

(** Lines 225-290: the shifts; [_source_x_shift] is 0, [_source_y_shift] is
    [_x_bits].  The subtractions are not negative (lemma [sub_bits_le]). *)
Definition x_index_shift (d : device) : N := x_bits d - sub_x_bits d.
Definition y_index_shift (d : device) : N := x_bits d + (y_bits d - sub_y_bits d).
Definition key_shift (d : device) : N := y_bits d + x_bits d.

(** Lines 172-184: [_mask]; a negative shift is a ValueError. *)
Definition device_mask (d : device) : res N :=
  if N.ltb 32 (key_shift d) then Err ValueError
  else Ok (N.shiftl (N.shiftl 1 (32 - key_shift d) - 1) (key_shift d) +
           N.shiftl (N.shiftl 1 (sub_y_bits d) - 1) (y_index_shift d) +
           N.shiftl (N.shiftl 1 (sub_x_bits d) - 1) (x_index_shift d)).

(** Lines 157-170: [_get_key_and_mask]. *)
Definition get_key_and_mask (d : device) (base_key index : N) : res km :=
  let (x, y) := sub_square d index in
  let key := N.shiftl base_key (key_shift d) + N.shiftl y (y_index_shift d) + N.shiftl x (x_index_shift d) in
  let* mask := device_mask d in
  make_km key mask.

(** The key a device sends for a pixel (class comment, 28-39): the X field in the
    low bits, then the Y field, then the base key. *)
Definition pixel_key (d : device) (base_key x y : N) : N :=
  N.shiftl base_key (key_shift d) + N.shiftl y (x_bits d) + x.
