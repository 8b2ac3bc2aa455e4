(** Properties C08 and C09: the ordered covering compressor. *)
From Coq Require Import List Arith NArith ZArith Bool Lia Sorted.
From Verif Require Import Base RouteSpec KeyMask PairSort DefaultModel OrderedModel OrderedProofs OrderedMax.
Import ListNotations.
Local Open Scope N_scope.

(** C08.  Every key of every original entry is still sent to the route of that
    entry, and the entry that now matches it is marked as defaultable only if
    the original was. *)
Theorem C08_ordered_covering_preserves : forall table target no_raise out al,
  Forall entry_ok table -> orthogonal table ->
  ordered_covering table target [] no_raise = Ok (out, al) ->
  forall o k, In o table -> entry_matches k o ->
    exists e, first_match out k = Some e /\ e_route e = e_route o /\
      (e_def e = true -> e_def o = true).
Proof. exact oc_preserves. Qed.
Print Assumptions C08_ordered_covering_preserves.

(** The compressor also strips default routes: a key may then match nothing,
    but only if the original entry was defaultable. *)
Theorem C08_compress_table_preserves : forall table target out,
  Forall entry_ok table -> orthogonal table ->
  oc_compress_table table target = Ok out ->
  forall o k, In o table -> entry_matches k o ->
    (exists e, first_match out k = Some e /\ e_route e = e_route o /\ (e_def e = true -> e_def o = true)) \/
    (first_match out k = None /\ e_def o = true).
Proof. exact oc_compress_keeps. Qed.
Print Assumptions C08_compress_table_preserves.

Definition C08_table : list entry :=
  [ mkEntry 0 15 1 false; mkEntry 4 15 2 false; mkEntry 5 15 2 false;
    mkEntry 6 15 2 false; mkEntry 7 15 4 true; mkEntry 8 12 1 false;
    mkEntry 12 14 2 true; mkEntry 14 15 4 false ].
Example C08_example :
  Forall entry_ok C08_table /\ orthogonal C08_table /\
  oc_compress_table C08_table (Some 5%nat) =
    Ok [ mkEntry 0 15 1 false; mkEntry 7 15 4 true; mkEntry 14 15 4 false;
         mkEntry 8 12 1 false; mkEntry 4 4 2 false ] /\
  oc_compress_table C08_table None =
    Ok [ mkEntry 7 15 4 true; mkEntry 14 15 4 false; mkEntry 0 4 1 false; mkEntry 4 4 2 false ].
Proof.
  split; [repeat constructor|]. split; [apply orthogonalb_sound; reflexivity|].
  split; vm_compute; reflexivity.
Qed.

(** C09.  The compressor always returns (no other error, no endless loop), never
    grows the table, keeps it sorted by the number of don't-care bits, and stops above
    the target only when nothing is left to merge ([nothing_to_merge], [OrderedMax]):
    where several entries of one route are left, an entry for all of them would take a
    key of an original entry of another route, or come behind an entry that shares keys
    with one of them. *)
Theorem C09_ordered_covering_total : forall table target no_raise,
  Forall entry_ok table -> orthogonal table -> (forall e, In e table -> e_mask e < 2 ^ 32) ->
  (table <> [] \/ target <> None) ->
  exists out al, (length out <= length table)%nat /\
    StronglySorted (fun a b => (free_bits (e_mask a) <= free_bits (e_mask b))%nat) out /\
    (forall n, target = Some n -> (n < length out)%nat -> nothing_to_merge table out) /\
    (target = None -> nothing_to_merge table out) /\
    (ordered_covering table target [] no_raise = Ok (out, al) \/
     (no_raise = false /\ (exists n, target = Some n /\ (n < length out)%nat) /\
      ordered_covering table target [] no_raise = Err MinimisationFailed)).
Proof. exact oc_total_max. Qed.
Print Assumptions C09_ordered_covering_total.

(** The entries left in the last table of [C08_example] for route 4 cannot be merged:
    each cover of 7 and 14 has the key 6 of route 2. *)
Example C09_left_example :
  (forall e, In e C08_table -> e_mask e < 2 ^ 32) /\
  (exists al, ordered_covering C08_table None [] true =
    Ok ([ mkEntry 7 15 4 true; mkEntry 14 15 4 false; mkEntry 0 4 1 false; mkEntry 4 4 2 false ], al)) /\
  forall K M,
    covers_route [ mkEntry 7 15 4 true; mkEntry 14 15 4 false; mkEntry 0 4 1 false; mkEntry 4 4 2 false ] 4 K M ->
    key_matches 6 K M.
Proof.
  split. { intros e H. repeat (destruct H as [<-|H]; [reflexivity|]). destruct H. }
  split. { eexists. vm_compute. reflexivity. }
  intros K M [_ H].
  pose proof (H _ 7 (or_introl eq_refl) eq_refl eq_refl) as H7.
  pose proof (H _ 14 (or_intror (or_introl eq_refl)) eq_refl eq_refl) as H14.
  unfold key_matches in *. apply N.bits_inj. intro b.
  pose proof (f_equal (fun z => N.testbit z b) H7) as A. pose proof (f_equal (fun z => N.testbit z b) H14) as B.
  cbn beta in A, B. rewrite N.land_spec in *. rewrite <- A.
  destruct (N.testbit M b) eqn:E; [rewrite !andb_true_r in *|rewrite !andb_false_r in *; reflexivity].
  rewrite <- A in B. destruct b as [|p]; [discriminate B|].
  destruct p as [[p|p|]|[p|p|]|]; cbn in *; congruence.
Qed.

Theorem C09_compress_table_total : forall table target,
  Forall entry_ok table -> orthogonal table -> (table <> [] \/ target <> None) ->
  (exists out, oc_compress_table table target = Ok out /\ (length out <= length table)%nat /\
     (forall n, target = Some (S n) -> (length out <= S n)%nat)) \/
  oc_compress_table table target = Err MinimisationFailed.
Proof. exact oc_compress_total. Qed.
Print Assumptions C09_compress_table_total.

(** The generality is the number of don't-care bits of the 32-bit mask. *)
Theorem C09_generality_counts_x : forall key mask, N.land key mask = key ->
  get_generality key mask =
    Z.of_nat (length (filter (fun i => negb (N.testbit mask (N.of_nat i))) (seq 0 32))).
Proof. exact generality_counts. Qed.
Print Assumptions C09_generality_counts_x.

Example C09_example :
  get_generality 0x10 0xFFFFFFF0 = 4%Z /\
  ordered_covering C08_table (Some 2%nat) [] false = Err MinimisationFailed /\
  match ordered_covering C08_table (Some 6%nat) [] false with
  | Ok (out, _) => length out = 5%nat | Err _ => False end.
Proof. split; [|split]; vm_compute; reflexivity. Qed.

(** Compressing an empty table as far as possible raises IndexError. *)
Theorem C09_empty_table_refuted : exists table,
  Forall entry_ok table /\ orthogonal table /\ oc_compress_table table None = Err IndexError.
Proof. exists []. split; [constructor|]. split; [constructor|]. vm_compute. reflexivity. Qed.
Print Assumptions C09_empty_table_refuted.
