(** Properties C177 to C179: the checker and the compressors. *)
From Coq Require Import List Arith NArith ZArith Bool Lia.
From Verif Require CheckerModel CheckerProofs CheckedRange CheckedProofs.
From Verif Require Import Base Dict RouteSpec KeyMask AllocModel AllocProofs TablesModel TablesProofs GenModel GenProofs GenProps
  PairModel PairSort RangeModel RangeProofs OrderedModel OrderedProofs
  TreeModel TreeProofs MachModel LdfModel LdfProofs PathModel PathProofs PathProps
  RPartModel RPartProofs BfsModel BfsProofs TargetsModel TargetsProofs ConvModel ConvProofs RouterModel RouterProofs RouterTables RouterPlan RouterFinal
  RouterSuccess RouterProps ChainModel ChainProofs CoverMerged ChainProps CheckedChain.
Import ListNotations.
Local Open Scope nat_scope.
Notation compare_tables := CheckerModel.compare_tables.

(** C177: of a table without overlaps each compressor returns one that the checker
    accepts. [entry_eq] is the equality of routing entries; equal entries must have equal
    keys and masks for the pair compressor. *)
Theorem C177_pair : forall entry_eq ordered c_sort n_routes table out,
  (forall a b, entry_eq a b = true -> e_key a = e_key b /\ e_mask a = e_mask b) ->
  Forall entry32 table -> orthogonal table -> compress_table ordered c_sort n_routes table = Ok out ->
  compare_tables entry_eq table out = Ok tt.
Proof. exact CheckedProofs.pair_checked. Qed.
Print Assumptions C177_pair.
Theorem C177_range : forall entry_eq fuel as_far target table out,
  Forall entry32 table -> orthogonal table -> range_compress fuel as_far target table = Ok out ->
  compare_tables entry_eq table out = Ok tt.
Proof. exact CheckedProofs.range_checked. Qed.
Print Assumptions C177_range.
Theorem C177_covering : forall entry_eq table target out,
  Forall entry32 table -> orthogonal table -> oc_compress_table table target = Ok out ->
  compare_tables entry_eq table out = Ok tt.
Proof. exact CheckedProofs.covering_checked. Qed.
Print Assumptions C177_covering.

(** The entries for the keys 0 and 3 are merged into a defaultable entry; it has the key
    1 of the third entry, which is not defaultable and is kept as it is. *)
Definition ck_table : list entry :=
  [ mkEntry 0 4294967295 1 true; mkEntry 3 4294967295 1 true; mkEntry 1 4294967291 1 false;
    mkEntry 7 4294967295 2 true; mkEntry 8 4294967292 4 true; mkEntry 14 4294967294 4 true ].
Lemma ck_ok : Forall entry32 ck_table /\ orthogonal ck_table.
Proof.
  split; [unfold entry32, entry_ok; repeat constructor|].
  repeat (constructor; [repeat (constructor; [intros k [A B]; unfold entry_matches, key_matches in A, B; cbn [e_key e_mask] in A, B|])|]);
    try constructor;
    (assert (X : forall i, N.testbit k i = N.testbit k i) by reflexivity; clear X;
     let go i := (apply (f_equal (fun z => N.testbit z i)) in A; apply (f_equal (fun z => N.testbit z i)) in B;
                  rewrite N.land_spec in A, B; cbn in A, B; rewrite ?andb_true_r, ?andb_false_r in A, B; congruence) in
     first [go 3%N | go 2%N | go 1%N | go 0%N]).
Qed.
Definition ck_eq (a b : entry) : bool :=
  (N.eqb (e_key a) (e_key b) && N.eqb (e_mask a) (e_mask b) && N.eqb (e_route a) (e_route b) && Bool.eqb (e_def a) (e_def b))%bool.
Lemma ck_eq_ok : forall a b, ck_eq a b = true -> e_key a = e_key b /\ e_mask a = e_mask b.
Proof.
  intros a b H. unfold ck_eq in H. rewrite !andb_true_iff, !N.eqb_eq in H. tauto.
Qed.
Definition ck_range : list entry :=
  [ mkEntry 14 4294967295 1 false; mkEntry 8 4294967295 1 true; mkEntry 12 4294967294 1 true;
    mkEntry 10 4294967295 2 true; mkEntry 0 4294967292 4 true; mkEntry 6 4294967294 4 true ].
Example C177_example :
  compress_table false true 1023 ck_table =
    Ok [ mkEntry 7 4294967295 2 true; mkEntry 8 4294967288 4 true; mkEntry 0 4294967292 1 true; mkEntry 1 4294967291 1 false ] /\
  compress_table true false 1023 ck_table =
    Ok [ mkEntry 7 4294967295 2 true; mkEntry 8 4294967288 4 true; mkEntry 0 4294967288 1 false ] /\
  oc_compress_table ck_table None = Ok [ mkEntry 7 4294967295 2 true; mkEntry 0 4294967288 1 false ] /\
  range_compress 6 true 0 ck_range =
    Ok [ mkEntry 0 4294967288 4 false; mkEntry 8 4294967295 1 true; mkEntry 10 4294967295 2 true;
         mkEntry 12 4294967294 1 false; mkEntry 14 4294967295 1 false ] /\
  compare_tables ck_eq ck_table [ mkEntry 7 4294967295 2 true; mkEntry 0 4294967288 1 true ] = Err RoutingException.
Proof. vm_compute. auto. Qed.
Lemma ck_range_ok : Forall entry32 ck_range /\ orthogonal ck_range.
Proof.
  split; [unfold entry32, entry_ok; repeat constructor|].
  repeat (constructor; [repeat (constructor; [intros k [A B]; unfold entry_matches, key_matches in A, B; cbn [e_key e_mask] in A, B|])|]);
    try constructor;
    (let go i := (apply (f_equal (fun z => N.testbit z i)) in A; apply (f_equal (fun z => N.testbit z i)) in B;
                  rewrite N.land_spec in A, B; cbn in A, B; rewrite ?andb_true_r, ?andb_false_r in A, B; congruence) in
     first [go 3%N | go 2%N | go 1%N | go 0%N]).
Qed.

(** C178: the tables that the compressors make of the tables of a graph pass the
    checker, chip by chip; merged tables too. *)
Theorem C178_pair : forall entry_eq merged eqe flexible i vs ps extra e infos ts c_sort n_routes target as_needed ordered accept_overflow out,
  (forall a b, entry_eq a b = true -> e_key a = e_key b /\ e_mask a = e_mask b) ->
  graph_ok i vs ps -> keys_ok i vs ps extra e -> make_tables merged eqe flexible i vs ps extra e = Ok (infos, ts) ->
  compress_tables (fun t => compress_table ordered c_sort n_routes (t_entries t)) target as_needed ordered accept_overflow ts [] = Ok out ->
  Forall2 (fun tb tb' => t_x tb' = t_x tb /\ t_y tb' = t_y tb /\ compare_tables entry_eq (t_entries tb) (t_entries tb') = Ok tt) ts out.
Proof. exact chain_pair_checked. Qed.
Print Assumptions C178_pair.
Theorem C178_range : forall entry_eq merged eqe flexible i vs ps extra e infos ts as_far target accept_overflow out,
  graph_ok i vs ps -> keys_ok i vs ps extra e -> make_tables merged eqe flexible i vs ps extra e = Ok (infos, ts) ->
  range_compressor as_far target accept_overflow ts = Ok out ->
  Forall2 (fun tb tb' => t_x tb' = t_x tb /\ t_y tb' = t_y tb /\ compare_tables entry_eq (t_entries tb) (t_entries tb') = Ok tt) ts out.
Proof. exact chain_range_checked. Qed.
Print Assumptions C178_range.
Theorem C178_covering : forall entry_eq merged eqe flexible i vs ps extra e infos ts target (as_needed accept_overflow : bool) out,
  graph_ok i vs ps -> keys_ok i vs ps extra e -> make_tables merged eqe flexible i vs ps extra e = Ok (infos, ts) ->
  compress_tables (fun t => oc_compress_table (t_entries t) (if as_needed then Some (target (t_x t) (t_y t)) else None))
    target as_needed true accept_overflow ts [] = Ok out ->
  Forall2 (fun tb tb' => t_x tb' = t_x tb /\ t_y tb' = t_y tb /\ compare_tables entry_eq (t_entries tb) (t_entries tb') = Ok tt) ts out.
Proof. exact chain_covering_checked. Qed.
Print Assumptions C178_covering.

(** C178: whatever made them, tables that pass the checker against the basic tables of a
    graph deliver its packets. *)
Theorem C178_accepted_delivers : forall entry_eq eqe flexible i vs ps extra e infos ts out,
  graph_ok i vs ps -> keys_ok i vs ps extra e -> make_tables false eqe flexible i vs ps extra e = Ok (infos, ts) ->
  Forall (fun tb => Forall entry32 (t_entries tb) /\ NoDup (map (fun x => (e_key x, e_mask x)) (t_entries tb))) out ->
  Forall2 (fun tb tb' => t_x tb' = t_x tb /\ t_y tb' = t_y tb /\ compare_tables entry_eq (t_entries tb) (t_entries tb') = Ok tt) ts out ->
  exact_delivery i vs ps infos out.
Proof. exact checked_delivers. Qed.
Print Assumptions C178_accepted_delivers.

(** The graph of C124: see [ex_chain_compressed] for the tables, [ex_chain_keys] for the
    keys. *)
Definition nodup_km (l : list entry) : bool :=
  (fix go l := match l with [] => true | e :: r => negb (existsb (fun x => N.eqb (e_key x) (e_key e) && N.eqb (e_mask x) (e_mask e)) r) && go r end) l.
Lemma nodup_km_ok : forall l, nodup_km l = true -> NoDup (map (fun x => (e_key x, e_mask x)) l).
Proof.
  induction l as [|e l IH]; intros H; [constructor|]. cbn in H. apply andb_true_iff in H. destruct H as [H1 H2].
  cbn [map]. constructor; [|now apply IH]. intros I. apply in_map_iff in I. destruct I as (x & [= E1 E2] & Hx).
  apply negb_true_iff in H1. apply not_true_iff_false in H1. apply H1. apply existsb_exists. exists x. split; [exact Hx|].
  rewrite E1, E2, !N.eqb_refl. reflexivity.
Qed.
Definition entry32b (e : entry) : bool := N.eqb (N.land (e_key e) (e_mask e)) (e_key e) && N.ltb (e_key e) (2 ^ 32) && N.ltb (e_mask e) (2 ^ 32).
Lemma entry32b_ok : forall l, forallb entry32b l = true -> Forall entry32 l.
Proof.
  intros l H. rewrite forallb_forall in H. apply Forall_forall. intros e I. specialize (H e I). unfold entry32b in H.
  rewrite !andb_true_iff, N.eqb_eq, !N.ltb_lt in H. destruct H as [[A B] C]. split; [exact A|]. split; assumption.
Qed.
Example C178_example :
  Forall (fun tb => Forall entry32 (t_entries tb) /\ NoDup (map (fun x => (e_key x, e_mask x)) (t_entries tb))) rx_cover /\
  checked ck_eq (snd (rx_made false)) rx_cover /\ checked ck_eq (snd (rx_made true)) rx_pair /\
  exact_delivery rx [0; 10; 20] rx_parts (fst (rx_made false)) rx_cover.
Proof.
  assert (W : Forall (fun tb => Forall entry32 (t_entries tb) /\ NoDup (map (fun x => (e_key x, e_mask x)) (t_entries tb))) rx_cover).
  { apply Forall_forall. assert (B : forallb (fun tb => forallb entry32b (t_entries tb) && nodup_km (t_entries tb)) rx_cover = true) by (vm_compute; reflexivity).
    rewrite forallb_forall in B. intros tb I. specialize (B tb I). apply andb_prop in B. exact (conj (entry32b_ok _ (proj1 B)) (nodup_km_ok _ (proj2 B))). }
  assert (M : forall merged, make_tables merged eqe true rx [0; 10; 20] rx_parts [] (env_of rx 16) = Ok (fst (rx_made merged), snd (rx_made merged)))
    by (intros merged; rewrite ex_chain_runs; f_equal; apply surjective_pairing).
  assert (C : checked ck_eq (snd (rx_made false)) rx_cover).
  { exact (C178_covering ck_eq false eqe true rx [0; 10; 20] rx_parts [] (env_of rx 16) _ _ big false false rx_cover
      ex_router_graph ex_chain_keys (M false) (proj1 (proj2 (proj2 ex_chain_compressed)))). }
  split; [exact W|]. split; [exact C|]. split.
  - exact (C178_pair ck_eq true eqe true rx [0; 10; 20] rx_parts [] (env_of rx 16) _ _ false 1023 big false true false rx_pair
      ck_eq_ok ex_router_graph ex_chain_keys (M true) (proj1 ex_chain_compressed)).
  - exact (C178_accepted_delivers ck_eq eqe true rx [0; 10; 20] rx_parts [] (env_of rx 16) _ _ rx_cover ex_router_graph ex_chain_keys (M false) W C).
Qed.

(** C179: with merged tables the checker also accepts tables that lose packets: the graph
    of C128. *)
Theorem C179_accepted_merged_refuted : exists entry_eq eqe i vs ps e infos ts out pt v w j key q pl,
  (forall a b, entry_eq a b = true -> a = b) /\
  graph_ok i vs ps /\ keys_ok i vs ps [] e /\ make_tables true eqe true i vs ps [] e = Ok (infos, ts) /\
  Forall (fun tb => Forall entry32 (t_entries tb) /\ NoDup (map (fun x => (e_key x, e_mask x)) (t_entries tb))) out /\
  Forall2 (fun tb tb' => t_x tb' = t_x tb /\ t_y tb' = t_y tb /\ compare_tables entry_eq (t_entries tb) (t_entries tb') = Ok tt) ts out /\
  routed_part i vs ps pt /\ In v (ri_out i (ap_pre pt) (ap_id pt)) /\ target_of i pt v w /\ ri_at i w = (q, pl) /\
  get_info infos (AllocModel.Mac v) (ap_id pt) = Ok j /\ (key < 2 ^ 32)%N /\ km_matches key (i_km j) /\
  ~ arrives (ri_mach i) out key (chip_of i v) (link_of (snd (ri_at i v))) q pl.
Proof.
  exists ck_eq, eqe, four_input, [0], [mkPart 0 7 [10]], (env_of four_input 16).
  set (made := ok_or ([], []) (make_tables true eqe true four_input [0] [mkPart 0 7 [10]] [] (env_of four_input 16))).
  set (out := ok_or [] (compress_tables (fun t => oc_compress_table (t_entries t) None) (fun _ _ => 1023) false true false (snd made) [])).
  exists (fst made), (snd made), out.
  exists (mkPart 0 7 [10]), 2, 11. eexists. exists 16%N, (3, 0)%Z, (OnCore 6).
  assert (KO : keys_ok four_input [0] [mkPart 0 7 [10]] [] (env_of four_input 16)).
  { apply env_of_ok; [reflexivity| |].
    - intros pt target x v [H|[_ [u [ip [V [X _]]]]]]; [|destruct X]. each H. cbn. intros T X S. each T; each X; each S. discriminate S.
    - intros pt ip _ []. }
  assert (M : make_tables true eqe true four_input [0] [mkPart 0 7 [10]] [] (env_of four_input 16) = Ok (fst made, snd made)) by (vm_compute; reflexivity).
  assert (C : compress_tables (fun t => oc_compress_table (t_entries t) None) (fun _ _ => 1023) false true false (snd made) [] = Ok out) by (vm_compute; reflexivity).
  split.
  { intros [k1 m1 r1 d1] [k2 m2 r2 d2] H. unfold ck_eq in H. cbn [e_key e_mask e_route e_def] in H. rewrite !andb_true_iff, !N.eqb_eq, eqb_true_iff in H.
    destruct H as [[[-> ->] ->] ->]. reflexivity. }
  split; [exact four_ok|]. split; [exact KO|]. split; [exact M|]. split.
  { apply Forall_forall. assert (B : forallb (fun tb => forallb entry32b (t_entries tb) && nodup_km (t_entries tb)) out = true) by (vm_compute; reflexivity).
    rewrite forallb_forall in B. intros tb I. specialize (B tb I). apply andb_prop in B. exact (conj (entry32b_ok _ (proj1 B)) (nodup_km_ok _ (proj2 B))). }
  split; [exact (C178_covering ck_eq true eqe true four_input [0] [mkPart 0 7 [10]] [] (env_of four_input 16) _ _ (fun _ _ => 1023) false false out four_ok KO M C)|].
  split; [left; left; reflexivity|]. split; [cbn; tauto|].
  split; [left; exists 10, (11, [App 0]), (App 0); cbn; intuition; right; exists 0; cbn; tauto|]. split; [reflexivity|].
  split; [vm_compute; reflexivity|]. split; [reflexivity|]. split; [vm_compute; reflexivity|].
  intros [inn [F _]].
  assert (D : In ((3, 0)%Z, inn) [((1, 0)%Z, None)]); [|each D; discriminate D].
  revert F. apply shut_spec; [vm_compute; reflexivity | left; reflexivity].
Qed.
Print Assumptions C179_accepted_merged_refuted.
(** True when on each chip the machine vertices of one application vertex whose packets
    take the same route all go straight through or all do not. *)
Theorem C179_same_flags_partial : forall entry_eq eqe flexible i vs ps extra e infos ts t out,
  graph_ok i vs ps -> keys_ok i vs ps extra e -> make_tables true eqe flexible i vs ps extra e = Ok (infos, ts) ->
  route_application_graph i vs ps = Ok t ->
  (forall q m m' a k x x', ve_app (ri_venv i) m = Some a -> ve_app (ri_venv i) m' = Some a ->
     get_entry t (Mac m) k q = Some x -> get_entry t (Mac m') k q = Some x' ->
     RPartModel.re_route x = RPartModel.re_route x' -> re_default x = re_default x') ->
  Forall (fun tb => Forall entry32 (t_entries tb) /\ NoDup (map (fun x => (e_key x, e_mask x)) (t_entries tb))) out ->
  Forall2 (fun tb tb' => t_x tb' = t_x tb /\ t_y tb' = t_y tb /\ compare_tables entry_eq (t_entries tb) (t_entries tb') = Ok tt) ts out ->
  exact_delivery i vs ps infos out.
Proof. exact checked_delivers_merged. Qed.
Print Assumptions C179_same_flags_partial.
(** [ex_same_flags] is a graph whose flags agree. *)
Example C179_example : exists t, route_application_graph rx [0; 10; 20] rx_parts = Ok t /\ flags_agree rx t /\
  checked ck_eq (snd (rx_made true)) rx_pair /\
  Forall (fun tb => Forall entry32 (t_entries tb) /\ NoDup (map (fun x => (e_key x, e_mask x)) (t_entries tb))) rx_pair.
Proof.
  destruct ex_same_flags as (t & _ & R & F & _). exists t. split; [exact R|]. split; [exact F|]. split; [apply C178_example|].
  apply Forall_forall. assert (B : forallb (fun tb => forallb entry32b (t_entries tb) && nodup_km (t_entries tb)) rx_pair = true) by (vm_compute; reflexivity).
  rewrite forallb_forall in B. intros tb I. specialize (B tb I). apply andb_prop in B. exact (conj (entry32b_ok _ (proj1 B)) (nodup_km_ok _ (proj2 B))).
Qed.
