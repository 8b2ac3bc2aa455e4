(** Properties C04-C06: the range compressor. *)
From Coq Require Import List Arith NArith ZArith Bool Lia Permutation.
From Verif Require Import Base RouteSpec KeyMask PairModel PairSort RangeModel RangeProofs.
Import ListNotations.
Local Open Scope N_scope.

(** ** C04 *)

(** Whatever the masks, when the range compressor returns, every 32-bit key
    matched by an original entry is sent to that entry's route by first match
    in the returned list.  [fuel] only bounds the loop of the model. *)
Theorem C04_range_preserves_routing :
  forall fuel as_far target table out,
    Forall entry32 table -> orthogonal table ->
    range_compress fuel as_far target table = Ok out ->
    forall e k, In e table -> k < 2 ^ 32 -> entry_matches k e -> routes_to out k (e_route e).
Proof. exact range_preserves. Qed.
Print Assumptions C04_range_preserves_routing.

(** Without any assumption on the input's orthogonality: either the table is
    handed back untouched or the statement above holds and the entries built
    are well formed (accepted by the [MulticastRoutingEntry] constructor). *)
Theorem C04_range_any_table :
  forall fuel as_far target table out,
    Forall entry32 table ->
    range_compress fuel as_far target table = Ok out ->
    out = table \/
    (Forall entry_ok out /\
     forall e k, In e table -> k < 2 ^ 32 -> entry_matches k e -> routes_to out k (e_route e)).
Proof.
  exact (fun fuel as_far target table out E H =>
    match range_sound fuel as_far target table out E H with
    | or_introl Q => or_introl Q
    | or_intror (conj A (conj B _)) => or_intror (conj A B)
    end).
Qed.
Print Assumptions C04_range_any_table.

(** A table with four runs; a run of three entries is merged. *)
Definition F32 : N := 4294967295.
Definition C04_table : list entry :=
  [ mkEntry 0 F32 1 false; mkEntry 1 F32 1 false; mkEntry 2 (F32 - 1) 1 false;
    mkEntry 8 (F32 - 7) 2 false; mkEntry 16 F32 4 false; mkEntry 17 F32 4 false;
    mkEntry 40 (F32 - 3) 1 false ].
Example C04_example :
  Forall entry32 C04_table /\ orthogonal C04_table /\
  range_compress 7 true 0 C04_table =
    Ok [ mkEntry 0 (F32 - 3) 1 false; mkEntry 8 (F32 - 7) 2 false;
         mkEntry 16 F32 4 false; mkEntry 17 F32 4 false; mkEntry 40 (F32 - 3) 1 false ].
Proof.
  split; [|split].
  - repeat constructor.
  - apply orthogonalb_sound. vm_compute; reflexivity.
  - vm_compute. reflexivity.
Qed.

(** ** C05 *)

(** The property wanted: range compression returns entries that can be looked
    up in any order (the pair compressor that runs afterwards re-sorts them).
    It is false: the test [low_cut < pre_point] accepts a block that starts on
    the last key of the previous entry. *)
Definition C05_table : list entry :=
  [ mkEntry 0 F32 1 false; mkEntry 1 F32 2 false; mkEntry 2 F32 2 false;
    mkEntry 3 F32 2 false; mkEntry 7 F32 1 false ].

Theorem C91_range_order_free_refuted :
  exists table out a b k,
    Forall entry32 table /\ orthogonal table /\
    range_compress (length table) true 0 table = Ok out /\
    In a out /\ In b out /\ entry_matches k a /\ entry_matches k b /\ e_route a <> e_route b.
Proof.
  exists C05_table,
    [ mkEntry 0 F32 1 false; mkEntry 0 (F32 - 3) 2 false; mkEntry 7 F32 1 false ],
    (mkEntry 0 F32 1 false), (mkEntry 0 (F32 - 3) 2 false), 0.
  split; [repeat constructor|]. split.
  { apply orthogonalb_sound. vm_compute; reflexivity. }
  split; [vm_compute; reflexivity|].
  split; [simpl; auto|]. split; [simpl; auto|].
  split; [reflexivity|]. split; [reflexivity|]. discriminate.
Qed.
Print Assumptions C91_range_order_free_refuted.

(** The consequence: range compression followed by pair compression sends a key
    of the original table to a wrong route. *)
Theorem C91_range_then_pair_misroutes_refuted :
  exists table mid out e k r,
    Forall entry32 table /\ orthogonal table /\
    range_compress (length table) true 0 table = Ok mid /\
    compress_table true false 1023 mid = Ok out /\
    In e table /\ entry_matches k e /\ routes_to out k r /\ r <> e_route e.
Proof.
  exists C05_table,
    [ mkEntry 0 F32 1 false; mkEntry 0 (F32 - 3) 2 false; mkEntry 7 F32 1 false ],
    [ mkEntry 0 (F32 - 3) 2 false; mkEntry 0 (F32 - 7) 1 false ],
    (mkEntry 0 F32 1 false), 0, 2.
  split; [repeat constructor|]. split.
  { apply orthogonalb_sound. vm_compute; reflexivity. }
  split; [vm_compute; reflexivity|].
  split; [vm_compute; reflexivity|].
  split; [simpl; auto|]. split; [reflexivity|].
  split; [eexists; split; [vm_compute; reflexivity|reflexivity]|discriminate].
Qed.
Print Assumptions C91_range_then_pair_misroutes_refuted.

(** What does hold: the only key of an original entry that an output entry of a
    different route can match is the entry's last key [key | ~mask]. *)
Theorem C05_range_overlap_only_at_last_key :
  forall fuel as_far target table out,
    Forall entry32 table -> orthogonal table ->
    range_compress fuel as_far target table = Ok out ->
    forall o e k, In o out -> In e table -> k < 2 ^ 32 ->
      entry_matches k e -> entry_matches k o ->
      e_route o = e_route e \/ k = N.lor (e_key e) (2 ^ 32 - 1 - e_mask e).
Proof. exact range_overlap. Qed.
Print Assumptions C05_range_overlap_only_at_last_key.

(** ** C06 *)

(** With contiguous masks (the masks the key allocator produces) the compressor
    returns within [length table] loop iterations per run, and never returns a
    longer table. *)
Theorem C06_range_terminates :
  forall fuel as_far target table,
    Forall entry32 table ->
    (forall e, In e table ->
       exists s : nat, (s <= 32)%nat /\ Z.of_N (e_mask e) = (2 ^ 32 - 2 ^ Z.of_nat s)%Z) ->
    (length table <= fuel)%nat -> table <> [] ->
    exists out, range_compress fuel as_far target table = Ok out /\
      (length out <= length table)%nat.
Proof.
  exact (fun fuel as_far target table E B => range_terminates fuel as_far target table E
           (proj2 (Forall_forall block_mask table) B)).
Qed.
Print Assumptions C06_range_terminates.

Example C06_example : exists out,
  range_compress (length C04_table) true 0 C04_table = Ok out /\ (length out < length C04_table)%nat.
Proof. eexists; split; [vm_compute; reflexivity|]. simpl. lia. Qed.

(** With a mask that has a hole the loop never ends, although the table passes
    the compressor's own validation: no amount of fuel suffices. *)
Definition C06_table : list entry :=
  [ mkEntry 9 F32 1 false; mkEntry 10 (F32 - 4) 2 false; mkEntry 15 F32 2 false ].

Theorem C92_range_always_terminates_refuted :
  exists table,
    Forall entry32 table /\ orthogonal table /\
    forall fuel, range_compress fuel true 0 table = Err OutOfFuel.
Proof.
  exists C06_table. split; [repeat constructor|]. split.
  { apply orthogonalb_sound. vm_compute; reflexivity. }
  exact range_loops.
Qed.
Print Assumptions C92_range_always_terminates_refuted.

(** An empty table raises IndexError instead of being returned. *)
Theorem C92_empty_table_index_error_refuted :
  exists table, Forall entry32 table /\ orthogonal table /\
    forall fuel target, range_compress fuel true target table = Err IndexError.
Proof.
  exists []. split; [constructor|]. split; [|reflexivity].
  apply orthogonalb_sound. vm_compute; reflexivity.
Qed.
Print Assumptions C92_empty_table_index_error_refuted.
