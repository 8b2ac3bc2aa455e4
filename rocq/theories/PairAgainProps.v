(** What compressing a second time with the pair compressor does. *)
From Coq Require Import List Arith NArith Bool Permutation.
From Verif Require Import Base RouteSpec KeyMask PairModel PairProofs PairSort PairFull PairAgain.
Import ListNotations.
Open Scope N_scope.

(** ** C189 *)

(** In unordered mode a second compression of the result gives the same entries
    again, whichever of the two sorts is used. *)
Theorem C189_again : forall c_sort c_sort' n_routes table out,
  Forall entry_ok table -> route_consistent table -> (0 < n_routes)%nat ->
  compress_table false c_sort n_routes table = Ok out ->
  exists out', compress_table false c_sort' n_routes out = Ok out' /\ Permutation out out'.
Proof. exact pair_again. Qed.
Print Assumptions C189_again.

(** A table is only put into another order if every key and mask that cover two
    of its entries of one route match a key of an entry of another route. *)
Theorem C189_nothing_to_merge : forall c_sort n_routes table out,
  Forall entry_ok table ->
  (forall before a between b after K M, table = before ++ a :: between ++ b :: after ->
     e_route a = e_route b ->
     (forall k, entry_matches k a \/ entry_matches k b -> N.land k M = K) ->
     exists d k, In d table /\ e_route d <> e_route a /\ entry_matches k d /\ N.land k M = K) ->
  compress_table false c_sort n_routes table = Ok out -> Permutation table out.
Proof. exact nothing_to_merge. Qed.
Print Assumptions C189_nothing_to_merge.

(** Seven entries become five; another run puts the routes, of which now other
    numbers of entries are left, in another order. *)
Definition ex_again : list entry :=
  [mkEntry 0 15 1 false; mkEntry 3 15 1 false; mkEntry 9 15 1 false;
   mkEntry 4 15 2 true; mkEntry 5 15 2 false; mkEntry 1 15 2 false; mkEntry 14 15 2 true].
Definition ex_one : list entry :=
  [mkEntry 0 15 1 false; mkEntry 3 15 1 false; mkEntry 9 15 1 false].
Definition ex_two : list entry := [mkEntry 1 11 2 false; mkEntry 4 5 2 true].

Example C189_example : Forall entry_ok ex_again /\ orthogonal ex_again /\
  compress_table false true 8 ex_again = Ok (ex_one ++ ex_two) /\
  compress_table false false 8 (ex_one ++ ex_two) = Ok (ex_two ++ ex_one).
Proof.
  split; [repeat constructor|]. split; [|split; reflexivity].
  unfold orthogonal.
  repeat (constructor; [repeat constructor; apply entry_intersect_false; reflexivity|]). constructor.
Qed.

(** ** C190 *)

(** In ordered mode, the default, the second compression can send packets to
    another place: [B] with all keys comes to stand before [A]. *)
Theorem C190_ordered_refuted : exists table out out' e k,
  Forall entry_ok table /\ orthogonal table /\
  compress_table true false 8 table = Ok out /\ compress_table true false 8 out = Ok out' /\
  In e table /\ entry_matches k e /\ routes_to out k (e_route e) /\ ~ routes_to out' k (e_route e).
Proof.
  exists [mkEntry 0 0xFFFFFFFC 1 false; mkEntry 4 0xFFFFFFFC 2 false;
          mkEntry 8 0xFFFFFFFC 2 false; mkEntry 12 0xFFFFFFFC 2 false],
         [mkEntry 0 0xFFFFFFFC 1 false; mkEntry 0 0xFFFFFFF0 2 false],
         [mkEntry 0 0xFFFFFFF0 2 false; mkEntry 0 0xFFFFFFFC 1 false],
         (mkEntry 0 0xFFFFFFFC 1 false), 1.
  split; [repeat constructor|]. split.
  { unfold orthogonal.
    repeat (constructor; [repeat constructor; apply entry_intersect_false; reflexivity|]). constructor. }
  split; [reflexivity|]. split; [reflexivity|]. split; [now left|]. split; [reflexivity|].
  split; [eexists; split; reflexivity|].
  intros (e & H & E). vm_compute in H. injection H as <-. discriminate.
Qed.
Print Assumptions C190_ordered_refuted.

(** If the first compression was unordered, the second, in any mode, sends every
    packet of the original table on as the original did. *)
Theorem C190_unordered_first_partial : forall ordered c_sort c_sort' n n' table out out',
  Forall entry_ok table -> route_consistent table ->
  compress_table false c_sort n table = Ok out -> compress_table ordered c_sort' n' out = Ok out' ->
  forall e k, In e table -> entry_matches k e -> routes_to out' k (e_route e).
Proof. exact pair_twice. Qed.
Print Assumptions C190_unordered_first_partial.

(** An ordered second run can still save entries. *)
Example C190_example : compress_table false true 8 ex_again = Ok (ex_one ++ ex_two) /\
  compress_table true false 8 (ex_one ++ ex_two) = Ok (ex_two ++ [mkEntry 0 4 1 false]).
Proof. split; reflexivity. Qed.
