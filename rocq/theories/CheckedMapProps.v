(** Property C192: the checker and the compressed tables of a placed graph, some of whose
    keys may be fixed. *)
From Coq Require Import List Arith NArith ZArith QArith Bool Lia Permutation.
From Verif Require Import Base Dict PlacementsModel PlacementsProofs PlacerModel PlacerProofs PlacerFinal PlacerProps.
From Verif Require Import RouteSpec KeyMask AllocModel AllocProofs KeyOrder TablesModel TablesProofs GenModel GenProofs GenProps
  PairModel PairSort RangeModel RangeProofs OrderedModel OrderedProofs
  TreeModel TreeProofs MachModel LdfModel LdfProofs PathModel PathProofs PathProps
  RPartModel RPartProofs BfsModel BfsProofs TargetsModel TargetsProofs ConvModel ConvProofs RouterModel RouterProofs RouterTables RouterPlan RouterFinal
  RouterSuccess RouterProps ChainModel ChainProofs CoverMerged ChainProps CheckedChain CheckedProps MapModel MapProofs MapProps FixProofs FixChain FixProps FixMap.
From Verif Require Import FixMapProps CheckedMap.
Import ListNotations.
Local Open Scope nat_scope.
Notation compare_tables := CheckerModel.compare_tables.

(** C192: the checker accepts what each compressor makes of the tables. *)
Theorem C192_pair : forall merged flexible entry_eq eqe i l vs ps extra e p infos ts, map_ok i l vs ps -> map_user_keys flexible i ps extra e ->
  (merged = true -> mergeable flexible e (sends_in ps)) ->
  map_graph merged eqe flexible i vs ps extra e = Ok (p, infos, ts) ->
  forall c_sort n_routes target as_needed ordered accept_overflow out,
  (forall a b, entry_eq a b = true -> e_key a = e_key b /\ e_mask a = e_mask b) ->
  compress_tables (fun t => compress_table ordered c_sort n_routes (t_entries t)) target as_needed ordered accept_overflow ts [] = Ok out ->
  Forall2 (fun tb tb' => t_x tb' = t_x tb /\ t_y tb' = t_y tb /\ compare_tables entry_eq (t_entries tb) (t_entries tb') = Ok tt) ts out.
Proof. exact mapped_pair_checked. Qed.
Print Assumptions C192_pair.
Theorem C192_range : forall merged flexible entry_eq eqe i l vs ps extra e p infos ts, map_ok i l vs ps -> map_user_keys flexible i ps extra e ->
  (merged = true -> mergeable flexible e (sends_in ps)) ->
  map_graph merged eqe flexible i vs ps extra e = Ok (p, infos, ts) ->
  forall as_far target accept_overflow out, range_compressor as_far target accept_overflow ts = Ok out ->
  Forall2 (fun tb tb' => t_x tb' = t_x tb /\ t_y tb' = t_y tb /\ compare_tables entry_eq (t_entries tb) (t_entries tb') = Ok tt) ts out.
Proof. exact mapped_range_checked. Qed.
Print Assumptions C192_range.
Theorem C192_covering : forall merged flexible entry_eq eqe i l vs ps extra e p infos ts, map_ok i l vs ps -> map_user_keys flexible i ps extra e ->
  (merged = true -> mergeable flexible e (sends_in ps)) ->
  map_graph merged eqe flexible i vs ps extra e = Ok (p, infos, ts) ->
  forall target (as_needed accept_overflow : bool) out,
  compress_tables (fun t => oc_compress_table (t_entries t) (if as_needed then Some (target (t_x t) (t_y t)) else None))
    target as_needed true accept_overflow ts [] = Ok out ->
  Forall2 (fun tb tb' => t_x tb' = t_x tb /\ t_y tb' = t_y tb /\ compare_tables entry_eq (t_entries tb) (t_entries tb') = Ok tt) ts out.
Proof. exact mapped_covering_checked. Qed.
Print Assumptions C192_covering.

(** C192: and whatever tables it accepts against the basic tables, with them packets reach
    the places of their targets and no others. *)
Theorem C192_accepted_delivers : forall flexible entry_eq eqe i l vs ps extra e p infos ts out, map_ok i l vs ps -> map_user_keys flexible i ps extra e ->
  map_graph false eqe flexible i vs ps extra e = Ok (p, infos, ts) ->
  Forall (fun tb => Forall entry32 (t_entries tb) /\ NoDup (map (fun x => (e_key x, e_mask x)) (t_entries tb))) out ->
  Forall2 (fun tb tb' => t_x tb' = t_x tb /\ t_y tb' = t_y tb /\ compare_tables entry_eq (t_entries tb) (t_entries tb') = Ok tt) ts out ->
  all_delivered i ps p infos out.
Proof. exact mapped_checked_delivers. Qed.
Print Assumptions C192_accepted_delivers.

(** The graph of FixMapProps, in which a device has a fixed key; ordered covering removes
    entries that default routing replaces, so that the compressed tables differ. *)
Definition qu_cover : list table := ok_or [] (compress_tables (fun t => oc_compress_table (t_entries t) None) big false true false (snd (qu_made false)) []).
Example C192_example :
  Forall (fun tb => Forall entry32 (t_entries tb) /\ NoDup (map (fun x => (e_key x, e_mask x)) (t_entries tb))) qu_cover /\
  checked ck_eq (snd (qu_made false)) qu_cover /\
  list_sum (map (fun t => length (t_entries t)) qu_cover) < list_sum (map (fun t => length (t_entries t)) (snd (qu_made false))) /\
  all_delivered qx qx_parts (fst (fst (qu_made false))) (snd (fst (qu_made false))) qu_cover.
Proof.
  assert (RUN : map_graph false eqe true qx [0; 1; 2] qx_parts [] qx_user = Ok (fst (fst (qu_made false)), snd (fst (qu_made false)), snd (qu_made false))).
  { rewrite <- !surjective_pairing. apply ex_map_user_runs. }
  assert (W : Forall (fun tb => Forall entry32 (t_entries tb) /\ NoDup (map (fun x => (e_key x, e_mask x)) (t_entries tb))) qu_cover).
  { apply Forall_forall. assert (B : forallb (fun tb => forallb entry32b (t_entries tb) && nodup_km (t_entries tb)) qu_cover = true) by (vm_compute; reflexivity).
    rewrite forallb_forall in B. intros tb I. specialize (B tb I). apply andb_prop in B. exact (conj (entry32b_ok _ (proj1 B)) (nodup_km_ok _ (proj2 B))). }
  assert (C : checked ck_eq (snd (qu_made false)) qu_cover).
  { refine (C192_covering false true ck_eq eqe qx xmon [0; 1; 2] qx_parts [] qx_user _ _ _ ex_map_ok (proj1 ex_map_user) _ RUN big false false qu_cover _);
      [discriminate | vm_compute; reflexivity]. }
  split; [exact W|]. split; [exact C|]. split; [vm_compute; lia|].
  exact (C192_accepted_delivers _ _ _ _ _ _ _ _ _ _ _ _ _ ex_map_ok (proj1 ex_map_user) RUN W C).
Qed.
