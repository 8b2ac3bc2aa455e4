(** What the range compressor merges. *)
From Coq Require Import List Arith NArith ZArith Bool Lia.
From Verif Require Import Base RouteSpec KeyMask RangeModel RangeProofs RangeProps RangeFill.
Import ListNotations.
Local Open Scope N_scope.

(** C188: an aligned block of at least four keys that the table sends to one route is
    in one entry of the result, however many entries it is split into.  [t] is the
    number of bits of the block. *)
Theorem C188_blocks_merged_partial : forall fuel as_far target table out r a t,
  Forall entry32 table ->
  (forall e, In e table -> exists s : nat, (s <= 32)%nat /\ Z.of_N (e_mask e) = (2 ^ 32 - 2 ^ Z.of_nat s)%Z) ->
  orthogonal table ->
  as_far = true \/ (target <= length table)%nat ->
  range_compress fuel as_far target table = Ok out ->
  (exists q, a = q * 2 ^ t) -> a + 2 ^ t <= 2 ^ 32 -> 2 <= t ->
  (forall k, a <= k < a + 2 ^ t -> exists e, In e table /\ entry_matches k e /\ e_route e = r) ->
  exists o, In o out /\ e_route o = r /\ forall k, a <= k < a + 2 ^ t -> entry_matches k o.
Proof.
  intros fuel as_far target table out r a t E BM O HF H HA A32 T HR.
  exact (range_fills fuel as_far target table out r a t E (proj2 (Forall_forall block_mask table) BM) O HF H HA A32 HR (or_introl T)).
Qed.
Print Assumptions C188_blocks_merged_partial.

(** C188: and no entry of the table is split. *)
Theorem C188_not_split : forall fuel as_far target table out e,
  Forall entry32 table ->
  (forall e, In e table -> exists s : nat, (s <= 32)%nat /\ Z.of_N (e_mask e) = (2 ^ 32 - 2 ^ Z.of_nat s)%Z) ->
  orthogonal table ->
  range_compress fuel as_far target table = Ok out -> In e table ->
  exists o, In o out /\ e_route o = e_route e /\ forall k, k < 2 ^ 32 -> entry_matches k e -> entry_matches k o.
Proof.
  intros fuel as_far target table out e E BM O H I.
  destruct (negb as_far && Nat.ltb (length table) target)%bool eqn:C.
  { unfold range_compress in H. rewrite C in H. injection H as <-. exists e. auto. }
  assert (HF : as_far = true \/ (target <= length table)%nat).
  { destruct as_far; [now left|]. right. now apply Nat.ltb_ge. }
  destruct (BM e I) as (s & Hs & Hm). pose proof (proj1 (Forall_forall _ _) E e I) as E3.
  destruct (block_end e s E3 Hm Hs) as (EN & (q & Q) & M).
  assert (PW : Z.of_N (2 ^ N.of_nat s) = (2 ^ Z.of_nat s)%Z) by (rewrite N2Z.inj_pow; f_equal; lia).
  assert (P32 : Z.of_N (2 ^ 32) = (2 ^ 32)%Z) by reflexivity.
  assert (PP : (0 < 2 ^ Z.of_nat s)%Z) by (apply Z.pow_pos_nonneg; lia).
  pose proof (endz_bounds e E3) as EB.
  assert (A32 : e_key e + 2 ^ N.of_nat s <= 2 ^ 32) by lia.
  assert (C' : forall k, e_key e <= k < e_key e + 2 ^ N.of_nat s -> entry_matches k e) by (intros k K; apply M; lia).
  destruct (range_fills fuel as_far target table out (e_route e) (e_key e) (N.of_nat s) E (proj2 (Forall_forall block_mask table) BM) O HF H) as (o & Ho & Ro & Mo).
  - exists (Z.to_N q). assert (0 <= q)%Z by nia. lia.
  - exact A32.
  - intros k K. exists e. auto.
  - right. exists e. auto.
  - exists o. split; [exact Ho|]. split; [exact Ro|]. intros k K Me. apply Mo. apply M in Me; [|exact K]. lia.
Qed.
Print Assumptions C188_not_split.

(** C188: but two neighbouring single keys stay two entries: the size of the block is
    computed from the difference of the end points (ranged_compressor.py 176-177), which
    is 1 for two keys and gives a block of one. *)
Theorem C188_two_keys_refuted : exists table r a out,
  Forall entry32 table /\
  (forall e, In e table -> exists s : nat, (s <= 32)%nat /\ Z.of_N (e_mask e) = (2 ^ 32 - 2 ^ Z.of_nat s)%Z) /\
  orthogonal table /\ (exists q, a = q * 2) /\
  (forall k, a <= k < a + 2 -> exists e, In e table /\ entry_matches k e /\ e_route e = r) /\
  range_compress 2 true 0 table = Ok out /\ length out = length table /\
  ~ exists o, In o out /\ forall k, a <= k < a + 2 -> entry_matches k o.
Proof.
  exists [mkEntry 4 0xFFFFFFFF 1 false; mkEntry 5 0xFFFFFFFF 1 false], 1, 4,
    [mkEntry 4 0xFFFFFFFF 1 false; mkEntry 5 0xFFFFFFFF 1 false].
  split; [repeat constructor|]. split; [intros e [<-|[<-|[]]]; exists 0%nat; (split; [lia|reflexivity])|].
  split.
  { repeat constructor. intros k [K1 K2]. unfold entry_matches, key_matches in K1, K2. cbn [e_key e_mask] in K1, K2.
    rewrite K1 in K2. discriminate. }
  split; [exists 2; reflexivity|]. split.
  { intros k K. assert (k = 4 \/ k = 5) as [-> | ->] by lia; eexists.
    - split; [left; reflexivity|split; reflexivity].
    - split; [right; left; reflexivity|split; reflexivity]. }
  split; [vm_compute; reflexivity|]. split; [reflexivity|].
  intros (o & [<-|[<-|[]]] & M); [specialize (M 5 ltac:(lia))|specialize (M 4 ltac:(lia))]; discriminate M.
Qed.
Print Assumptions C188_two_keys_refuted.

(** ** Examples *)

(** The keys 8 to 15 are split into four entries; 16 belongs to the same route, 20 does not. *)
Definition fill_table : list entry :=
  [mkEntry 20 0xFFFFFFFF 2 false; mkEntry 8 0xFFFFFFFE 1 false; mkEntry 12 0xFFFFFFFC 1 false;
   mkEntry 10 0xFFFFFFFF 1 false; mkEntry 11 0xFFFFFFFF 1 true; mkEntry 16 0xFFFFFFFF 1 false].
Example C188_example :
  Forall entry32 fill_table /\
  (forall e, In e fill_table -> exists s : nat, (s <= 32)%nat /\ Z.of_N (e_mask e) = (2 ^ 32 - 2 ^ Z.of_nat s)%Z) /\
  orthogonal fill_table /\
  (forall k, 8 <= k < 8 + 2 ^ 3 -> exists e, In e fill_table /\ entry_matches k e /\ e_route e = 1) /\
  range_compress 6 true 0 fill_table =
    Ok [mkEntry 8 0xFFFFFFF8 1 false; mkEntry 16 0xFFFFFFFF 1 false; mkEntry 20 0xFFFFFFFF 2 false].
Proof.
  split; [repeat constructor|]. split.
  { intros e I. repeat (destruct I as [<-|I]; [first [exists 0%nat; split; [lia|reflexivity] | exists 1%nat; split; [lia|reflexivity]
      | exists 2%nat; split; [lia|reflexivity]]|]). destruct I. }
  split.
  { assert (D : forall a b, N.land (e_key a) (e_mask b) <> N.land (e_key b) (e_mask a) -> disjoint_entries a b).
    { intros a b N k [A B]. apply N. unfold entry_matches, key_matches in A, B. rewrite <- A, <- B, <- !N.land_assoc.
      f_equal. apply N.land_comm. }
    unfold fill_table. repeat constructor; apply D; vm_compute; discriminate. }
  split; [|vm_compute; reflexivity].
  intros k K. change (8 + 2 ^ 3) with 16 in K.
  assert (k = 8 \/ k = 9 \/ k = 10 \/ k = 11 \/ k = 12 \/ k = 13 \/ k = 14 \/ k = 15) as X by lia.
  repeat (destruct X as [->|X]; [unfold fill_table; first
    [ eexists; split; [right; left; reflexivity|split; reflexivity]
    | eexists; split; [right; right; left; reflexivity|split; reflexivity]
    | eexists; split; [right; right; right; left; reflexivity|split; reflexivity]
    | eexists; split; [right; right; right; right; left; reflexivity|split; reflexivity]]|]).
  subst k. eexists; split; [right; right; left; reflexivity|split; reflexivity].
Qed.
