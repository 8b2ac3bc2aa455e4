(** C13, C14, C15, C53, C56: key ranges, key enumeration, bit arrays, route
    words and bit widths. *)
From Coq Require Import List Arith NArith Bool Sorted Lia.
From Verif Require Import Base UtilModel UtilProofs.
Import ListNotations.
Local Open Scope N_scope.

(** C13.  The ranges cover exactly the matching keys. *)
Theorem C13_ranges_exact : forall key mask k,
  key < 2 ^ 32 -> mask < 2 ^ 32 -> N.land key mask = key -> k < 2 ^ 32 ->
  (N.land k mask = key <->
   exists b n, In (b, n) (get_key_ranges key mask) /\ b <= k < b + n).
Proof. exact ranges_exact. Qed.

(** Distinct ranges share no key. *)
Theorem C13_ranges_disjoint : forall key mask i j b n b' n' k,
  key < 2 ^ 32 -> N.land key mask = key ->
  nth_error (get_key_ranges key mask) i = Some (b, n) ->
  nth_error (get_key_ranges key mask) j = Some (b', n') -> i <> j ->
  b <= k < b + n -> ~ (b' <= k < b' + n').
Proof. exact ranges_disjoint. Qed.

(** All ranges have the same size, a power of two. *)
Theorem C13_ranges_same_size : forall key mask, key < 2 ^ 32 ->
  exists k, (k <= 32)%nat /\
  forall b n, In (b, n) (get_key_ranges key mask) -> n = 2 ^ N.of_nat k /\ b < 2 ^ 32.
Proof. exact ranges_same_size. Qed.

Example C13_example :
  get_key_ranges 0x1000 0xFFFFF5FC =
  [(0x1000, 4); (0x1800, 4); (0x1200, 4); (0x1A00, 4)].
Proof. vm_compute. reflexivity. Qed.

(** C14.  A fresh call gives the matching keys in increasing order, the smallest
    ones first, and reports their number. *)
Theorem C14_get_keys : forall key mask limit,
  key < 2 ^ 32 -> mask < 2 ^ 32 -> N.land key mask = key ->
  (limit <> Some 0 \/ n_keys mask <> 1) ->
  exists ks, get_keys key mask None 0 limit = Ok (ks, N.of_nat (length ks)) /\
    N.of_nat (length ks) =
      (match limit with None => n_keys mask | Some l => N.min l (n_keys mask) end) /\
    StronglySorted N.lt ks /\
    (forall k, In k ks -> k < 2 ^ 32 /\ N.land k mask = key) /\
    (forall k k', In k ks -> k' < k -> N.land k' mask = key -> In k' ks) /\
    (N.of_nat (length ks) = n_keys mask ->
       forall k, k < 2 ^ 32 -> N.land k mask = key -> In k ks).
Proof. exact get_keys_fresh. Qed.

(** With an array and an offset the same keys are written at the offset and
    nothing else changes, or IndexError is raised when they do not fit. *)
Theorem C14_get_keys_array : forall key mask a offset limit, n_keys mask <> 1 ->
  let n := match limit with
           | None => N.min (n_keys mask) (N.of_nat (length a))
           | Some l => N.min l (N.min (n_keys mask) (N.of_nat (length a))) end in
  (n = 0 \/ (N.to_nat n + offset <= length a)%nat ->
   exists ks, get_keys key mask None 0 (Some n) = Ok (ks, n) /\
     get_keys key mask (Some a) offset limit =
       Ok (firstn offset a ++ ks ++ skipn (offset + length ks) a, n)) /\
  (n <> 0 -> (length a < N.to_nat n + offset)%nat ->
   get_keys key mask (Some a) offset limit = Err IndexError).
Proof. exact get_keys_array. Qed.

(** The keys of a slice: the i-th is the base plus i shifted. *)
Theorem C14_slice_keys : forall base n x i, (i < N.to_nat n)%nat ->
  nth_error (slice_keys base n x) i = Some (base + N.of_nat i * 2 ^ x).
Proof. exact slice_keys_spec. Qed.

(** They stay inside an aligned block that is large enough. *)
Theorem C14_slice_keys_in_block : forall base n x b, n * 2 ^ x <= 2 ^ b ->
  N.land base (N.ones b) = 0 ->
  forall k, In k (slice_keys base n x) -> N.ldiff k (N.ones b) = base.
Proof. exact slice_keys_in_mask. Qed.

(** A limit of 0 is ignored when the mask has no zeros: one key is returned. *)
Theorem C96_limit_zero_refuted : exists key mask,
  key < 2 ^ 32 /\ mask < 2 ^ 32 /\ N.land key mask = key /\
  get_keys key mask None 0 (Some 0) = Ok ([key], 1).
Proof. exists 5, 0xFFFFFFFF. vm_compute. auto. Qed.

(** The room left after the offset is not taken into account, so a call that
    could return the keys that fit fails. *)
Theorem C96_offset_refuted : exists key mask a offset,
  N.land key mask = key /\ (offset < length a)%nat /\
  get_keys key mask (Some a) offset None = Err IndexError.
Proof. exists 0x10, 0xFFFFFFFC, [0; 0; 0; 0], 1%nat. vm_compute. auto. Qed.

Example C14_example :
  get_keys 0x10 0xFFFFFFF5 None 0 None = Ok ([0x10; 0x12; 0x18; 0x1A], 4) /\
  get_keys 0x10 0xFFFFFFF5 (Some [7; 7; 7; 7; 7]) 1 (Some 3) =
    Ok ([7; 0x10; 0x12; 0x18; 7], 3) /\
  slice_keys 0x40 3 4 = [0x40; 0x50; 0x60].
Proof. vm_compute. auto. Qed.

(** C15.  The two conversions are inverse to each other. *)
Theorem C15_compress_expand : forall v, v < 2 ^ 32 ->
  compress_from_bit_array (expand_to_bit_array v) = v.
Proof. exact compress_expand. Qed.

Theorem C15_expand_compress : forall bs, length bs = 32%nat ->
  expand_to_bit_array (compress_from_bit_array bs) = bs.
Proof. exact expand_compress. Qed.

Theorem C15_expand_bits : forall v p, (p < 32)%nat ->
  nth_error (expand_to_bit_array v) p = Some (N.testbit v (N.of_nat (31 - p))).
Proof.
  intros. rewrite nth_error_nth' with (d := false) by (rewrite expand_length; auto).
  rewrite expand_nth by auto. reflexivity.
Qed.

(** The selected bits, in order, the last one least significant. *)
Theorem C15_compress_bits : forall bs ps, length bs = 32%nat -> ps <> [] ->
  (length ps <= 32)%nat -> (forall p, In p ps -> (p < 32)%nat) ->
  exists v, compress_bits_from_bit_array bs ps = Ok v /\
    v < 2 ^ N.of_nat (length ps) /\
    forall j p, nth_error ps j = Some p ->
      N.testbit v (N.of_nat (length ps - 1 - j)) = nth p bs false.
Proof. exact compress_bits_ok. Qed.

(** Selecting no bits at all fails. *)
Theorem C97_no_positions_refuted : exists bs, length bs = 32%nat /\
  compress_bits_from_bit_array bs [] = Err ValueError.
Proof. exists (repeat true 32). split; reflexivity. Qed.

Example C15_example :
  compress_bits_from_bit_array (expand_to_bit_array 0xF0) [24; 28; 27]%nat = Ok 5 /\
  compress_from_bit_array (expand_to_bit_array 0xDEADBEEF) = 0xDEADBEEF.
Proof. vm_compute. auto. Qed.

(** C53.  Bits 0-5 are the links and bits 6 and up the processors. *)
Theorem C53_route_word : forall procs links i, NoDup procs -> NoDup links ->
  (forall l, In l links -> l < 6) ->
  (N.testbit (reduce_route_value procs links) i = true <->
   (i < 6 /\ In i links) \/ (6 <= i /\ In (i - 6) procs)).
Proof. exact reduce_route_bits. Qed.

Example C53_example : reduce_route_value [1; 17] [0; 5] = 0x8000A1.
Proof. vm_compute. reflexivity. Qed.

(** C56.  Least sufficient widths. *)
Theorem C56_allocator_bits_least : forall n b, n <= 2 ^ b <-> allocator_bits_needed n <= b.
Proof. exact allocator_bits_least. Qed.

Theorem C56_get_n_bits : forall n, n <> 1 -> get_n_bits n = allocator_bits_needed n.
Proof. exact get_n_bits_allocator. Qed.

Example C56_get_n_bits_one : get_n_bits 1 = 1 /\ allocator_bits_needed 1 = 0.
Proof. split; reflexivity. Qed.

Theorem C56_is_power_of_2 : forall v, is_power_of_2 v = true <-> exists k, v = 2 ^ k.
Proof. exact power_of_2_iff. Qed.

Example C56_example : allocator_bits_needed 257 = 9 /\ get_n_bits 256 = 8 /\
  is_power_of_2 64 = true /\ is_power_of_2 65 = false.
Proof. vm_compute. auto. Qed.

(** C166: for elements that are not None, is_single says whether there is exactly
    one. *)
Theorem C166_is_single : forall A (l : list A),
  is_single (map Some l) = true <-> length l = 1%nat.
Proof.
  intros A [|a [|b l]]; cbn [map is_single length]; split; intros H; try discriminate; reflexivity.
Qed.

Example C166_example : map (fun n => is_single (map Some (seq 5 n))) [0; 1; 2; 3]%nat =
  [false; true; false; false].
Proof. vm_compute. reflexivity. Qed.

(** C167 is false: None as the only element is not counted, and None as the second
    hides all that follow. *)
Theorem C167_none_refuted : exists l l' : list (option nat),
  length l = 1%nat /\ is_single l = false /\ length l' = 3%nat /\ is_single l' = true.
Proof. exists [None], [Some 1; None; Some 2]%nat. vm_compute. auto. Qed.

(** What it says with None among the elements. *)
Theorem C167_exact : forall A (l : list (option A)),
  is_single l = true <-> (exists a, l = [Some a]) \/ exists a rest, l = Some a :: None :: rest.
Proof.
  intros A [|[a|] [|[b|] l]]; cbn [is_single]; split; intros H; try discriminate;
    try (destruct H as [(x & [=])|(x & r & [=])]); try reflexivity;
    [left; now exists a | right; now exists a, l].
Qed.

Print Assumptions C13_ranges_exact.
Print Assumptions C13_ranges_disjoint.
Print Assumptions C13_ranges_same_size.
Print Assumptions C14_get_keys.
Print Assumptions C14_get_keys_array.
Print Assumptions C14_slice_keys.
Print Assumptions C14_slice_keys_in_block.
Print Assumptions C96_limit_zero_refuted.
Print Assumptions C96_offset_refuted.
Print Assumptions C15_compress_expand.
Print Assumptions C15_expand_compress.
Print Assumptions C15_expand_bits.
Print Assumptions C15_compress_bits.
Print Assumptions C97_no_positions_refuted.
Print Assumptions C53_route_word.
Print Assumptions C56_allocator_bits_least.
Print Assumptions C56_get_n_bits.
Print Assumptions C56_is_power_of_2.
Print Assumptions C166_is_single.
Print Assumptions C167_none_refuted.
Print Assumptions C167_exact.
