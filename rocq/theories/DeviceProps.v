(** Properties of two dimensional devices: C48, C80, C81. *)
From Coq Require Import List NArith ZArith Bool Lia.
From Verif Require Import Base RouteSpec AllocModel UtilModel SliceModel DeviceModel DeviceProofs.
Import ListNotations.
Local Open Scope N_scope.

(** C48: keys and masks of different rectangles, of one device or of devices of the
    same sizes with different base keys, have no key in common. *)
Theorem C48_disjoint : forall d base base' i j r s k,
  verify_sub_size d = Ok tt ->
  i < n_sub_rectangles d -> j < n_sub_rectangles d ->
  get_key_and_mask d base i = Ok r -> get_key_and_mask d base' j = Ok s ->
  key_matches k (km_key r) (km_mask r) -> key_matches k (km_key s) (km_mask s) ->
  base = base' /\ i = j.
Proof. intros d base base' i j r s k V. apply keys_disjoint, verify_valid, V. Qed.
Print Assumptions C48_disjoint.

(** C48: a key and mask is found for every rectangle when the fields fit in 32
    bits. *)
Theorem C48_keys_found : forall d base i,
  verify_sub_size d = Ok tt -> i < n_sub_rectangles d -> key_shift d <= 32 ->
  base < 2 ^ (32 - key_shift d) -> exists r, get_key_and_mask d base i = Ok r.
Proof. intros d base i V. apply key_mask_exists, verify_valid, V. Qed.
Print Assumptions C48_keys_found.

(** C48: the key of a pixel matches the key and mask of the rectangle it lies in
    and of no other, when there are several rectangles in each direction (or one
    pixel). *)
Theorem C48_pixel_rectangle : forall d base base' i r x y,
  verify_sub_size d = Ok tt ->
  (d_w d = 1 \/ d_sw d < d_w d) -> (d_h d = 1 \/ d_sh d < d_h d) ->
  x < d_w d -> y < d_h d -> i < n_sub_rectangles d -> base' < 2 ^ (32 - key_shift d) ->
  get_key_and_mask d base i = Ok r ->
  (key_matches (pixel_key d base' x y) (km_key r) (km_mask r) <->
   base' = base /\ i = y / d_sh d * ((d_w d + d_sw d - 1) / d_sw d) + x / d_sw d).
Proof. intros d base base' i r x y V. apply rect_pixel_matches, verify_valid, V. Qed.
Print Assumptions C48_pixel_rectangle.

(** C48: the slices; the raster ids of the slice of a rectangle are those of the
    pixels that lie in it, so every pixel is in exactly one slice, and slices
    follow one another. *)
Theorem C48_slices : forall d i s r,
  verify_sub_size d = Ok tt -> i < n_sub_rectangles d -> get_slice d i = Ok s ->
  (In r (raster_ids s) <->
   exists x y, x < d_w d /\ y < d_h d /\ r = (Z.of_N x + Z.of_N (d_w d) * Z.of_N y)%Z /\
     i = y / d_sh d * ((d_w d + d_sw d - 1) / d_sw d) + x / d_sw d).
Proof. intros d i s r V. apply slice_pixels, verify_valid, V. Qed.
Print Assumptions C48_slices.

Theorem C48_slice_of_each : forall d i,
  verify_sub_size d = Ok tt -> exists s, get_slice d i = Ok s /\
  sl_n s = Z.of_N (d_sw d * d_sh d) /\ sl_lo s = (Z.of_N i * sl_n s)%Z.
Proof.
  intros d i V. apply verify_valid in V. destruct (sub_square d i) as (x, y) eqn:S.
  pose proof (get_slice_Ok d i x y V S) as H. eexists. split; [exact H|].
  destruct (slice_lo d i _ V H). auto.
Qed.
Print Assumptions C48_slice_of_each.

Theorem C48_rectangle_exists : forall d x y,
  verify_sub_size d = Ok tt -> x < d_w d -> y < d_h d ->
  y / d_sh d * ((d_w d + d_sw d - 1) / d_sw d) + x / d_sw d < n_sub_rectangles d.
Proof. intros d x y V. apply rect_of_lt, verify_valid, V. Qed.
Print Assumptions C48_rectangle_exists.

(** A retina of 12 x 6 pixels in rectangles of 4 x 2. *)
Example C48_device := mkDevice 12 6 4 2.
Example C48_ex_verify : verify_sub_size C48_device = Ok tt /\ n_sub_rectangles C48_device = 9.
Proof. split; reflexivity. Qed.
Example C48_ex_key : get_key_and_mask C48_device 5 4 = Ok (mkKM 0x2a4 0xffffffec) /\
  pixel_key C48_device 5 6 3 = 0x2b6 /\
  key_matches (pixel_key C48_device 5 6 3) 0x2a4 0xffffffec.
Proof. repeat split; vm_compute; reflexivity. Qed.
Example C48_ex_slice : exists s, get_slice C48_device 4 = Ok s /\
  raster_ids s = [28; 29; 30; 31; 40; 41; 42; 43]%Z.
Proof. eexists. split; vm_compute; reflexivity. Qed.

(** C80: a device that is one rectangle wide.  The mask holds a bit for the index
    of the only column, which is the top bit of the X field: the pixels of the
    right half match no key. *)
Theorem C80_one_column_lost : forall d base base' i r x y,
  verify_sub_size d = Ok tt -> d_w d = d_sw d -> 2 <= d_w d ->
  x < d_w d -> d_w d <= 2 * x -> y < d_h d -> i < n_sub_rectangles d ->
  base' < 2 ^ (32 - key_shift d) -> get_key_and_mask d base i = Ok r ->
  ~ key_matches (pixel_key d base' x y) (km_key r) (km_mask r).
Proof. intros d base base' i r x y V. apply one_piece_lost, verify_valid, V. Qed.
Print Assumptions C80_one_column_lost.

Theorem C80_pixel_lost_refuted : exists d base x y,
  verify_sub_size d = Ok tt /\ x < d_w d /\ y < d_h d /\ base < 2 ^ (32 - key_shift d) /\
  n_sub_rectangles d = 2 /\
  forall i, i < n_sub_rectangles d -> forall r, get_key_and_mask d base i = Ok r ->
    ~ key_matches (pixel_key d base x y) (km_key r) (km_mask r).
Proof.
  exists (mkDevice 8 4 8 2), 1, 5, 3. repeat split; try reflexivity.
  intros i L r H. apply (C80_one_column_lost (mkDevice 8 4 8 2) 1 1 i r 5 3); try reflexivity; try assumption;
    try (cbn; discriminate); try exact L.
Qed.
Print Assumptions C80_pixel_lost_refuted.

(** C81: when the sizes divide, a slice has as many atoms as pixels. *)
Theorem C81_atoms_are_pixels_partial : forall d i s,
  verify_sub_size d = Ok tt -> i < n_sub_rectangles d -> get_slice d i = Ok s ->
  (exists q, d_w d = q * d_sw d) -> (exists q, d_h d = q * d_sh d) ->
  Z.of_nat (length (raster_ids s)) = sl_n s.
Proof. intros d i s V. apply slice_full, verify_valid, V. Qed.
Print Assumptions C81_atoms_are_pixels_partial.

Example C81_ex : exists s, get_slice C48_device 4 = Ok s /\ sl_n s = 8%Z.
Proof. eexists. split; vm_compute; reflexivity. Qed.

(** Otherwise the slices have more atoms than the device, and an atom at the right
    edge is given the raster index of a pixel of another slice. *)
Theorem C81_overhang_refuted : exists d i j s t,
  verify_sub_size d = Ok tt /\ i < n_sub_rectangles d /\ j < n_sub_rectangles d /\
  get_slice d i = Ok s /\ get_slice d j = Ok t /\
  (Z.of_nat (length (raster_ids s)) < sl_n s)%Z /\
  i <> j /\ exists a, (0 <= a < sl_n s)%Z /\ In (hd 0%Z (raster_indices s [a])) (raster_ids t).
Proof.
  exists (mkDevice 6 4 4 2), 1, 0. eexists. eexists.
  split; [reflexivity|]. split; [reflexivity|]. split; [reflexivity|].
  split; [vm_compute; reflexivity|]. split; [vm_compute; reflexivity|].
  split; [vm_compute; reflexivity|]. split; [discriminate|].
  exists 2%Z. split; [split; vm_compute; congruence|]. vm_compute. auto 10.
Qed.
Print Assumptions C81_overhang_refuted.
