(** Property C205: the packets of a graph whose tables are compressed by ranges and then
    by ordered covering. *)
From Coq Require Import List Arith NArith ZArith Bool Lia Permutation.
From Verif Require Import Base Dict RouteSpec KeyMask AllocModel AllocProofs TablesModel TablesProofs GenModel GenProofs GenProps
  PairModel PairSort RangeModel RangeProofs OrderedModel OrderedProofs
  TreeModel TreeProofs MachModel LdfModel LdfProofs PathModel PathProofs PathProps
  RPartModel RPartProofs BfsModel BfsProofs TargetsModel TargetsProofs ConvModel ConvProofs RouterModel RouterProofs RouterTables RouterPlan RouterFinal
  RouterSuccess RouterProps ChainModel ChainProofs ChainProps CoverMerged FixProofs FixChain ShrinkProofs RangeCover RangeChain.
Import ListNotations.
Local Open Scope nat_scope.

(** C205: every packet of the graph reaches exactly its targets when the basic tables
    are compressed by ranges and the result by ordered covering. *)
Theorem C205_delivered : forall entry_eq flexible i vs ps extra e infos ts as_far target' overflow' mid target (as_needed accept_overflow : bool) out,
  graph_ok i vs ps -> user_keys_ok flexible i vs ps extra e ->
  (forall x, user_key e (keyed_parts i vs ps extra) x -> exists s, s <= 32 /\ Z.of_N (km_mask x) = (2 ^ 32 - 2 ^ Z.of_nat s)%Z) ->
  make_tables false entry_eq flexible i vs ps extra e = Ok (infos, ts) ->
  range_compressor as_far target' overflow' ts = Ok mid ->
  compress_tables (fun t => oc_compress_table (t_entries t) (if as_needed then Some (target (t_x t) (t_y t)) else None))
    target as_needed true accept_overflow mid [] = Ok out ->
  exact_delivery i vs ps infos out.
Proof. exact range_covering. Qed.
Print Assumptions C205_delivered.

(** And for merged tables under the condition of C128. *)
Theorem C205_merged : forall entry_eq flexible i vs ps extra e infos ts t as_far target' overflow' mid target (as_needed accept_overflow : bool) out,
  graph_ok i vs ps -> user_keys_ok flexible i vs ps extra e -> mergeable flexible e (is_routed i vs ps) ->
  (forall x, user_key e (keyed_parts i vs ps extra) x -> exists s, s <= 32 /\ Z.of_N (km_mask x) = (2 ^ 32 - 2 ^ Z.of_nat s)%Z) ->
  make_tables true entry_eq flexible i vs ps extra e = Ok (infos, ts) ->
  route_application_graph i vs ps = Ok t ->
  (forall q m m' a k x x', ve_app (ri_venv i) m = Some a -> ve_app (ri_venv i) m' = Some a ->
     get_entry t (Mac m) k q = Some x -> get_entry t (Mac m') k q = Some x' ->
     RPartModel.re_route x = RPartModel.re_route x' -> re_default x = re_default x') ->
  range_compressor as_far target' overflow' ts = Ok mid ->
  compress_tables (fun t => oc_compress_table (t_entries t) (if as_needed then Some (target (t_x t) (t_y t)) else None))
    target as_needed true accept_overflow mid [] = Ok out ->
  exact_delivery i vs ps infos out.
Proof. exact range_covering_merged. Qed.
Print Assumptions C205_merged.

(** The graph on which pair compression goes wrong (C129). *)
Lemma one_keys : keys_ok one [0] [mkPart 0 7 [10]] [] (env_of one 1).
Proof.
  apply env_of_ok; [reflexivity| |].
  - intros pt target x v [H|[_ [u [ip [V [X _]]]]]]; [|destruct X]. each H. cbn. intros T X S. each T; each X; each S; injection S as <-; cbn; tauto.
  - intros pt ip _ [].
Qed.
Definition one_made : list info * list table := ok_or ([], []) (make_tables false eqe true one [0] [mkPart 0 7 [10]] [] (env_of one 1)).
Definition one_range : list table := ok_or [] (range_compressor true big true (snd one_made)).
Definition one_cover : list table :=
  ok_or [] (compress_tables (fun t => oc_compress_table (t_entries t) None) big false true false one_range []).
Example C205_example :
  make_tables false eqe true one [0] [mkPart 0 7 [10]] [] (env_of one 1) = Ok (fst one_made, snd one_made) /\
  range_compressor true big true (snd one_made) = Ok one_range /\
  compress_tables (fun t => oc_compress_table (t_entries t) (if false then Some (big (t_x t) (t_y t)) else None)) big false true false one_range [] = Ok one_cover /\
  sizes (snd one_made) = [8] /\ sizes one_range = [5] /\ sizes one_cover = [4] /\
  exact_delivery one [0] [mkPart 0 7 [10]] (fst one_made) one_cover.
Proof.
  assert (A : make_tables false eqe true one [0] [mkPart 0 7 [10]] [] (env_of one 1) = Ok (fst one_made, snd one_made)) by (vm_compute; reflexivity).
  assert (B : range_compressor true big true (snd one_made) = Ok one_range) by (vm_compute; reflexivity).
  assert (C : compress_tables (fun t => oc_compress_table (t_entries t) (if false then Some (big (t_x t) (t_y t)) else None)) big false true false one_range [] = Ok one_cover)
    by (vm_compute; reflexivity).
  split; [exact A|]. split; [exact B|]. split; [exact C|]. split; [vm_compute; reflexivity|]. split; [vm_compute; reflexivity|]. split; [vm_compute; reflexivity|].
  refine (C205_delivered eqe true one [0] [mkPart 0 7 [10]] [] (env_of one 1) _ _ true big true one_range big false false one_cover
    one_ok (keys_user_ok true _ _ _ _ _ one_ok one_keys) _ A B C).
  intros x (a & p & _ & [X|(m & _ & X)]); discriminate X.
Qed.
