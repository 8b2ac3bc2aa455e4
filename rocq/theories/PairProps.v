(** Properties C01-C03, C161 and C162: key/mask intersection and merging, and the
    pair compressor. *)
From Coq Require Import List Arith NArith ZArith Bool Lia Permutation.
From Verif Require Import Base RouteSpec KeyMask PairModel PairProofs PairSort PairFull.
Import ListNotations.
Local Open Scope N_scope.

(** ** C01 *)

(** [intersect] is exact: true iff some packet key matches both pairs; and
    when it is, a witness exists within the same word size. *)
Theorem C01_intersect_exact :
  forall key_a mask_a key_b mask_b,
    N.land key_a mask_a = key_a -> N.land key_b mask_b = key_b ->
    (intersect key_a mask_a key_b mask_b = true <->
     exists k, N.land k mask_a = key_a /\ N.land k mask_b = key_b).
Proof. exact intersect_iff. Qed.
Print Assumptions C01_intersect_exact.

Theorem C01_intersect_witness_in_word :
  forall key_a mask_a key_b mask_b n,
    N.land key_a mask_a = key_a -> N.land key_b mask_b = key_b ->
    key_a < 2 ^ n -> key_b < 2 ^ n ->
    intersect key_a mask_a key_b mask_b = true ->
    exists k, k < 2 ^ n /\ N.land k mask_a = key_a /\ N.land k mask_b = key_b.
Proof. exact intersect_witness_bounded. Qed.
Print Assumptions C01_intersect_witness_in_word.

(** The merged pair covers both inputs, is well formed, and is contained in any
    other pair that covers both. *)
Theorem C01_merge_least_cover :
  forall k1 m1 k2 m2,
    N.land k1 m1 = k1 -> N.land k2 m2 = k2 ->
    let K := merge_key k1 m1 k2 m2 in
    let M := merge_mask k1 m1 k2 m2 in
    N.land K M = K /\
    (forall k, N.land k m1 = k1 \/ N.land k m2 = k2 -> N.land k M = K) /\
    (forall K' M',
       (forall k, N.land k m1 = k1 \/ N.land k m2 = k2 -> N.land k M' = K') ->
       forall k, N.land k M = K -> N.land k M' = K').
Proof.
  exact (fun k1 m1 k2 m2 W1 W2 =>
    conj (merge_key_ok k1 m1 k2 m2)
      (conj (fun k H => match H with
                        | or_introl H1 => merge_covers_l k1 m1 k2 m2 k W2 H1
                        | or_intror H2 => merge_covers_r k1 m1 k2 m2 k W1 H2
                        end)
            (fun K' M' H =>
               merge_minimal k1 m1 k2 m2 K' M' W1 W2
                 (fun k Hk => H k (or_introl Hk)) (fun k Hk => H k (or_intror Hk))))).
Qed.
Print Assumptions C01_merge_least_cover.

Example C01_example :
  intersect 0 12 2 14 = true /\ intersect 0 12 12 12 = false /\
  merge_key 1 15 2 15 = 0 /\ merge_mask 1 15 2 15 = 12.
Proof. vm_compute. auto. Qed.

(** ** C02 *)

(** Every packet key matched by an original entry is sent to that entry's route
    by the compressed table, for ordered and unordered compression and for both
    sort implementations. *)
Theorem C02_pair_preserves_routing :
  forall ordered c_sort n_routes table out,
    Forall entry_ok table -> orthogonal table ->
    compress_table ordered c_sort n_routes table = Ok out ->
    forall e k, In e table -> entry_matches k e -> routes_to out k (e_route e).
Proof. exact pair_preserves_routing. Qed.
Print Assumptions C02_pair_preserves_routing.

(** The input only has to be consistent (entries that share a key share the
    route); the order of the input does not matter. *)
Theorem C02_pair_preserves_consistent :
  forall ordered c_sort n_routes table out,
    Forall entry_ok table -> route_consistent table ->
    compress_table ordered c_sort n_routes table = Ok out ->
    forall e k, In e table -> entry_matches k e -> routes_to out k (e_route e).
Proof. exact pair_preserves_consistent. Qed.
Print Assumptions C02_pair_preserves_consistent.

(** In unordered mode the result may be read in any order. *)
Theorem C02_unordered_any_order :
  forall c_sort n_routes table out out',
    Forall entry_ok table -> route_consistent table ->
    compress_table false c_sort n_routes table = Ok out ->
    Permutation out out' ->
    forall e k, In e table -> entry_matches k e -> routes_to out' k (e_route e).
Proof. exact pair_unordered_any_order. Qed.
Print Assumptions C02_unordered_any_order.

(** ** C03 *)

Theorem C03_pair_total_and_shrinks :
  forall ordered c_sort n_routes table,
    Forall entry_ok table -> route_consistent table ->
    (0 < n_routes)%nat ->
    (length (nodup N.eq_dec (map e_route table)) <= n_routes)%nat ->
    exists out,
      compress_table ordered c_sort n_routes table = Ok out /\
      (length out <= length table)%nat /\
      Forall entry_ok out /\
      (forall o, In o out -> In (e_route o) (map e_route table)).
Proof. exact pair_total_and_shrinks. Qed.
Print Assumptions C03_pair_total_and_shrinks.

(** The unrestricted claim fails: with more different routes than the router has
    entries, an [IndexError] escapes, in every mode. *)
Theorem C90_pair_always_returns_refuted :
  exists table, Forall entry_ok table /\ orthogonal table /\
    forall ordered c_sort, compress_table ordered c_sort 2 table = Err IndexError.
Proof. exact pair_always_returns_refuted. Qed.
Print Assumptions C90_pair_always_returns_refuted.

(** Exactly characterised: *)
Theorem C03_pair_index_error :
  forall ordered c_sort n_routes table,
    (n_routes < length (nodup N.eq_dec (map e_route table)))%nat ->
    compress_table ordered c_sort n_routes table = Err IndexError.
Proof. exact compress_table_too_many_routes. Qed.
Print Assumptions C03_pair_index_error.

(** A table meeting the hypotheses: five entries, two routes, compressed to
    three, with a hit in each. *)
Definition example_table : list entry :=
  [mkEntry 0 15 1 false; mkEntry 1 15 2 false; mkEntry 2 15 2 true;
   mkEntry 3 15 2 true; mkEntry 7 15 1 false].

Example C02_example :
  Forall entry_ok example_table /\ orthogonal example_table /\
  compress_table true false 10 example_table
  = Ok [mkEntry 0 15 1 false; mkEntry 7 15 1 false; mkEntry 0 12 2 false].
Proof. exact pair_example. Qed.

(** ** C161 *)

(** Nothing is left to merge: whatever key and mask cover two entries of the result
    that have one route, it also matches a key of an entry with another route.  In
    ordered mode that entry comes after both, so it would lose keys to the merged
    entry. *)
Theorem C161_no_more_merges :
  forall ordered c_sort n_routes table before a between b after K M,
    Forall entry_ok table ->
    compress_table ordered c_sort n_routes table
      = Ok (before ++ a :: between ++ b :: after) ->
    e_route a = e_route b ->
    (forall k, entry_matches k a \/ entry_matches k b -> N.land k M = K) ->
    exists d k,
      In d (if ordered then after else before ++ a :: between ++ b :: after) /\
      e_route d <> e_route a /\ entry_matches k d /\ N.land k M = K.
Proof. exact pair_no_more_merges. Qed.
Print Assumptions C161_no_more_merges.

Example C161_example :
  compress_table true true 10 example_table
  = Ok ([] ++ mkEntry 0 15 1 false :: [] ++ mkEntry 7 15 1 false :: [mkEntry 0 12 2 false]) /\
  (forall k, entry_matches k (mkEntry 0 15 1 false) \/ entry_matches k (mkEntry 7 15 1 false) ->
     N.land k 8 = 0) /\
  entry_matches 2 (mkEntry 0 12 2 false) /\ N.land 2 8 = 0.
Proof.
  split; [reflexivity|]. split; [|split; reflexivity].
  intros k H. change 8 with (N.land 15 8). rewrite N.land_assoc.
  destruct H as [H|H]; unfold entry_matches, key_matches in H; cbn [e_mask e_key] in H;
    rewrite H; reflexivity.
Qed.

(** ** C162 *)

(** The result is grouped by route, and a route that more entries of the input use
    comes later, whichever sort is used. *)
Theorem C162_grouped_by_route :
  forall ordered c_sort n_routes table before a between b after,
    Forall entry_ok table ->
    compress_table ordered c_sort n_routes table
      = Ok (before ++ a :: between ++ b :: after) ->
    (count_occ N.eq_dec (map e_route table) (e_route a)
       <= count_occ N.eq_dec (map e_route table) (e_route b))%nat /\
    (e_route a = e_route b -> forall c, In c between -> e_route c = e_route a).
Proof. exact pair_grouped. Qed.
Print Assumptions C162_grouped_by_route.

(** Three routes used once, twice and three times, mixed in the input. *)
Example C162_example :
  let table := [mkEntry 0 15 4 false; mkEntry 3 15 2 false; mkEntry 5 15 4 false;
                mkEntry 6 15 1 false; mkEntry 9 15 4 false; mkEntry 12 15 2 false] in
  Forall entry_ok table /\
  compress_table true true 10 table = compress_table true false 10 table /\
  compress_table true false 10 table
  = Ok [mkEntry 6 15 1 false; mkEntry 3 15 2 false; mkEntry 12 15 2 false;
        mkEntry 0 2 4 false].
Proof. split; [apply tables_okb_sound; reflexivity|]. split; vm_compute; reflexivity. Qed.
