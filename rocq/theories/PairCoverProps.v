(** Property C209: the packets of a graph whose tables are compressed by the unordered
    pair compressor and then by ordered covering. *)
From Coq Require Import List Arith NArith ZArith Bool Lia Permutation.
From Verif Require Import Base Dict RouteSpec KeyMask AllocModel AllocProofs TablesModel TablesProofs GenModel GenProofs GenProps
  PairModel PairSort OrderedModel OrderedProofs
  TreeModel TreeProofs MachModel LdfModel LdfProofs PathModel PathProofs PathProps
  RPartModel RPartProofs BfsModel BfsProofs TargetsModel TargetsProofs ConvModel ConvProofs RouterModel RouterProofs RouterTables RouterPlan RouterFinal
  RouterSuccess RouterProps ChainModel ChainProofs ChainProps CoverMerged FixProofs FixChain RangeModel RangeChainProps CoverHolds.
Import ListNotations.
Local Open Scope nat_scope.

(** C209: for an orthogonal table, a packet that an entry matched keeps its route or,
    if that entry was defaultable, is left without an entry. *)
Theorem C209_table : forall c_sort n table mid target out, Forall entry_ok table -> orthogonal table ->
  compress_table false c_sort n table = Ok mid -> oc_compress_table mid target = Ok out ->
  forall o k, In o table -> entry_matches k o ->
    routes_to out k (e_route o) \/ (first_match out k = None /\ e_def o = true).
Proof. exact pair_then_cover. Qed.
Print Assumptions C209_table.

(** C209: every packet of the graph reaches exactly its targets when the basic tables
    are compressed so. *)
Theorem C209_delivered : forall entry_eq flexible i vs ps extra e infos ts c_sort n_routes target' as_needed' overflow' mid target (as_needed accept_overflow : bool) out,
  graph_ok i vs ps -> user_keys_ok flexible i vs ps extra e ->
  make_tables false entry_eq flexible i vs ps extra e = Ok (infos, ts) ->
  compress_tables (fun t => compress_table false c_sort n_routes (t_entries t)) target' as_needed' false overflow' ts [] = Ok mid ->
  compress_tables (fun t => oc_compress_table (t_entries t) (if as_needed then Some (target (t_x t) (t_y t)) else None))
    target as_needed true accept_overflow mid [] = Ok out ->
  exact_delivery i vs ps infos out.
Proof. exact pair_covering. Qed.
Print Assumptions C209_delivered.

(** And for merged tables under the condition of C128. *)
Theorem C209_merged : forall entry_eq flexible i vs ps extra e infos ts t c_sort n_routes target' as_needed' overflow' mid target (as_needed accept_overflow : bool) out,
  graph_ok i vs ps -> user_keys_ok flexible i vs ps extra e -> mergeable flexible e (is_routed i vs ps) ->
  make_tables true entry_eq flexible i vs ps extra e = Ok (infos, ts) ->
  route_application_graph i vs ps = Ok t ->
  (forall q m m' a k x x', ve_app (ri_venv i) m = Some a -> ve_app (ri_venv i) m' = Some a ->
     get_entry t (Mac m) k q = Some x -> get_entry t (Mac m') k q = Some x' ->
     RPartModel.re_route x = RPartModel.re_route x' -> re_default x = re_default x') ->
  compress_tables (fun t => compress_table false c_sort n_routes (t_entries t)) target' as_needed' false overflow' ts [] = Ok mid ->
  compress_tables (fun t => oc_compress_table (t_entries t) (if as_needed then Some (target (t_x t) (t_y t)) else None))
    target as_needed true accept_overflow mid [] = Ok out ->
  exact_delivery i vs ps infos out.
Proof. exact pair_covering_merged. Qed.
Print Assumptions C209_merged.

(** The graph of C205. *)
Definition one_pair : list table :=
  ok_or [] (compress_tables (fun t => compress_table false false 8 (t_entries t)) big false false false (snd one_made) []).
Definition one_both : list table :=
  ok_or [] (compress_tables (fun t => oc_compress_table (t_entries t) None) big false true false one_pair []).
Example C209_example :
  make_tables false eqe true one [0] [mkPart 0 7 [10]] [] (env_of one 1) = Ok (fst one_made, snd one_made) /\
  sizes (snd one_made) = [8] /\ sizes one_pair = [6] /\ sizes one_both = [5] /\
  exact_delivery one [0] [mkPart 0 7 [10]] (fst one_made) one_both.
Proof.
  assert (A : make_tables false eqe true one [0] [mkPart 0 7 [10]] [] (env_of one 1) = Ok (fst one_made, snd one_made)) by (vm_compute; reflexivity).
  assert (B : compress_tables (fun t => compress_table false false 8 (t_entries t)) big false false false (snd one_made) [] = Ok one_pair)
    by (vm_compute; reflexivity).
  assert (C : compress_tables (fun t => oc_compress_table (t_entries t) (if false then Some (big (t_x t) (t_y t)) else None)) big false true false one_pair [] = Ok one_both)
    by (vm_compute; reflexivity).
  split; [exact A|]. split; [vm_compute; reflexivity|]. split; [vm_compute; reflexivity|]. split; [vm_compute; reflexivity|].
  exact (C209_delivered eqe true one [0] [mkPart 0 7 [10]] [] (env_of one 1) _ _ false 8 big false false one_pair big false false one_both
    one_ok (keys_user_ok true _ _ _ _ _ one_ok one_keys) A B C).
Qed.

(** Two defaultable entries and one that is not, of one route: the pair compressor merges
    the first two and keeps the flag off the third, so ordered covering drops one entry. *)
Example C209_table_example :
  let table := [mkEntry 0 15 1 true; mkEntry 1 15 1 true; mkEntry 6 15 1 false; mkEntry 2 15 2 false] in
  exists mid out, Forall entry_ok table /\ orthogonal table /\ compress_table false false 8 table = Ok mid /\ length mid = 3 /\
    oc_compress_table mid (Some 3) = Ok out /\ length out = 2 /\
    first_match out 1 = None /\ routes_to out 6 1 /\ routes_to out 2 2.
Proof.
  cbv zeta. eexists _, _. split; [repeat constructor|]. split; [apply orthogonalb_sound; vm_compute; reflexivity|].
  split; [vm_compute; reflexivity|]. split; [reflexivity|]. split; [vm_compute; reflexivity|].
  split; [reflexivity|]. split; [reflexivity|]. split; eexists; split; reflexivity.
Qed.
