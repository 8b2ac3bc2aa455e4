(** When keys are found beside those fixed by the user, and then for the mapping of
    whole graphs. *)
From Coq Require Import List Arith NArith ZArith QArith Bool Lia Permutation.
From Verif Require Import Base Dict PlacementsModel PlacementsProofs PlacerModel PlacerProofs PlacerFinal PlacerProps.
From Verif Require Import RouteSpec KeyMask AllocModel AllocProofs TablesModel TablesProofs GenModel GenProofs GenProps
  PairModel RangeModel OrderedModel
  TreeModel TreeProofs MachModel LdfModel LdfProofs PathModel PathProofs PathProps
  RPartModel RPartProofs BfsModel BfsProofs TargetsModel TargetsProofs ConvModel ConvProofs RouterModel RouterProofs RouterTables RouterPlan RouterFinal
  RouterSuccess RouterProps ChainModel ChainProofs ChainProps MapModel MapProofs MapProps FixProofs FixChain FixProps FixMap FixMapProps
  ShrinkProofs ShrinkProps FixAlloc FixSuccess.
Import ListNotations.
Local Open Scope nat_scope.

(** C151: the allocator succeeds exactly when the user's keys belong together (see
    [part_keys]) and, for some split of the 32 bits, each other partition has room
    below the split and there are as many blocks without fixed keys as there are
    partitions (see [keys_fit]); otherwise it reports so. *)
Theorem C151_succeeds_iff : forall flexible e parts, AllocProofs.env_ok e parts ->
  (forall a p, In (a, p) parts -> NoDup (ae_outgoing e a p)) ->
  (forall a p, In (a, p) parts -> ae_app_fixed e a p = None -> ae_outgoing e a p <> [] -> counted e a p) ->
  (forall x, user_key e parts x -> km_ok x) ->
  (keys_complete e parts /\ keys_fit e parts <-> exists infos, allocate flexible e parts = Ok infos) /\
  (~ (keys_complete e parts /\ keys_fit e parts) <-> allocate flexible e parts = Err RouteInfoAllocation).
Proof. exact alloc_iff. Qed.
Print Assumptions C151_succeeds_iff.

(** C152: so on a connected machine routes, keys and tables are made for a graph with
    fixed keys exactly when these conditions hold. *)
Theorem C152_tables : forall merged entry_eq flexible i vs ps extra e, graph_ok i vs ps -> user_keys_ok flexible i vs ps extra e ->
  (merged = true -> mergeable flexible e (is_routed i vs ps)) ->
  connected (ri_mach i) -> (forall pt, routed_part i vs ps pt -> part_fit i pt) ->
  let parts := keyed_parts i vs ps extra in
  (forall a k, In (a, k) parts -> NoDup (ri_out i a k)) -> (forall x, user_key e parts x -> km_ok x) ->
  (forall a k, In (a, k) extra -> ae_app_fixed e a k = None -> ri_out i a k <> [] -> counted e a k) ->
  (keys_complete e parts /\ keys_fit e parts -> exists infos ts, make_tables merged entry_eq flexible i vs ps extra e = Ok (infos, ts)) /\
  (~ (keys_complete e parts /\ keys_fit e parts) -> make_tables merged entry_eq flexible i vs ps extra e = Err RouteInfoAllocation).
Proof. exact fix_chain_iff. Qed.
Print Assumptions C152_tables.

(** C152: the same from the placer on. *)
Theorem C152_mapped : forall merged entry_eq flexible i l vs ps extra e p, map_ok i l vs ps -> map_user_keys flexible i ps extra e ->
  (merged = true -> mergeable flexible e (sends_in ps)) ->
  connected (mi_mach i) -> (forall a, NoDup (mi_out i a)) ->
  let parts := all_parts ps extra in
  (forall x, user_key e parts x -> km_ok x) ->
  (forall a k, In (a, k) extra -> ae_app_fixed e a k = None -> mi_out i a <> [] -> counted e a k) ->
  place_graph (mi_env i) (mi_sys i) (map (mi_av i) vs) = Ok p ->
  (keys_complete e parts /\ keys_fit e parts -> exists infos ts, map_graph merged entry_eq flexible i vs ps extra e = Ok (p, infos, ts)) /\
  (~ (keys_complete e parts /\ keys_fit e parts) -> map_graph merged entry_eq flexible i vs ps extra e = Err RouteInfoAllocation).
Proof. exact fix_map_iff. Qed.
Print Assumptions C152_mapped.

(** C152: and to the end: what was made is compressed by the pair compressor to tables
    in which each vertex's packets reach its targets and nothing else. *)
Theorem C152_delivered : forall merged entry_eq flexible i l vs ps extra e p, map_ok i l vs ps -> map_user_keys flexible i ps extra e ->
  (merged = true -> mergeable flexible e (sends_in ps)) ->
  connected (mi_mach i) -> (forall a, NoDup (mi_out i a)) ->
  let parts := all_parts ps extra in
  (forall x, user_key e parts x -> km_ok x) ->
  (forall a k, In (a, k) extra -> ae_app_fixed e a k = None -> mi_out i a <> [] -> counted e a k) ->
  place_graph (mi_env i) (mi_sys i) (map (mi_av i) vs) = Ok p ->
  keys_complete e parts -> keys_fit e parts ->
  forall c_sort n_routes target as_needed (ordered accept_overflow : bool), 0 < n_routes ->
  exists infos ts, map_graph merged entry_eq flexible i vs ps extra e = Ok (p, infos, ts) /\
    ((forall t, In t ts -> length (nodup N.eq_dec (map e_route (t_entries t))) <= n_routes) ->
     accept_overflow = true \/ ordered = false \/ (forall t, In t ts -> length (t_entries t) <= target (t_x t) (t_y t)) ->
     exists out, compress_tables (fun t => compress_table ordered c_sort n_routes (t_entries t)) target as_needed ordered accept_overflow ts [] = Ok out /\
       all_delivered i ps p infos out).
Proof.
  intros merged entry_eq flexible i l vs ps extra e p OK MU MG CO ND parts KO CX PL KC KF c_sort n_routes target as_needed ordered accept_overflow P.
  destruct (C152_mapped merged entry_eq flexible i l vs ps extra e p OK MU MG CO ND KO CX PL) as [A _]. destruct (A (conj KC KF)) as [infos [ts T]].
  exists infos, ts. split; [exact T|]. intros N OV.
  destruct (C149_pair _ _ _ _ _ _ _ _ _ _ _ _ OK MU MG T c_sort n_routes target as_needed ordered accept_overflow P N OV) as [out [C [D _]]]. eauto.
Qed.
Print Assumptions C152_delivered.

(** * Examples *)
(** The graph of MapProps with the device's keys 0x1000 to 0x1FFF, see FixMapProps: a
    split at bit 12. *)
Example ex_success_keys : (forall x, user_key qx_user (all_parts qx_parts []) x -> km_ok x) /\ keys_complete qx_user (all_parts qx_parts []).
Proof.
  split.
  - intros x (a & k & I & [F|(m & M & F)]); [|discriminate F]. cases I; cbn in F; try discriminate F; injection F as <-; words.
  - intros a k I. cases I; unfold part_keys; cbn; try (intros; reflexivity). right. split; [lia|reflexivity].
Qed.
Example ex_success_fit : keys_fit qx_user (all_parts qx_parts []).
Proof.
  eexists 12%N, [1%N], _. split; [lia|]. split; [split; [repeat constructor; intros []|]|split; [apply senders_set|split]].
  - intro b. split.
    + intros [<-|[]]. exists 0x1000%N, (mkKM 0x1000 0xFFFFF000). split; [reflexivity|]. split; [exact ex_shrink_key|]. split; reflexivity.
    + intros (key & x & K & (a & k & I & [F|(m & _ & F)]) & M & ->); [|discriminate F]. left. symmetry.
      cases I; cbn in F; try discriminate F; injection F as <-. unfold km_matches in M. cbn [km_key km_mask] in M.
      rewrite <- N.shiftr_div_pow2. apply (proj1 (block_match 12 1 key (ltac:(lia)) K)). exact M.
  - vm_compute. discriminate.
  - intros a p I F N. exists 4%N, 8%N. split; [lia|]. split; [|intros; cbn; lia]. cases I; cbn; try lia.
Qed.
Example ex_success_placed : place_graph (mi_env qx) (mi_sys qx) (map (mi_av qx) [0; 1; 2]) = Ok (fst (fst (qu_made true))).
Proof. vm_compute. reflexivity. Qed.
Example ex_success_runs : exists infos ts, map_graph true eqe true qx [0; 1; 2] qx_parts [] qx_user = Ok (fst (fst (qu_made true)), infos, ts) /\
  ((forall t, In t ts -> length (nodup N.eq_dec (map e_route (t_entries t))) <= 1023) ->
   exists out, compress_tables (fun t => compress_table true true 1023 (t_entries t)) big false true true ts [] = Ok out /\
     all_delivered qx qx_parts (fst (fst (qu_made true))) infos out).
Proof.
  destruct ex_success_keys as [KO KC]. destruct ex_map_fits as [CO [ND _]].
  destruct (C152_delivered true eqe true qx xmon [0; 1; 2] qx_parts [] qx_user _ ex_map_ok (proj1 ex_map_user) (fun _ => proj2 ex_map_user)
    CO ND KO ltac:(intros a k []) ex_success_placed KC ex_success_fit true 1023 big false true true ltac:(lia)) as [infos [ts [T C]]].
  exists infos, ts. split; [exact T|]. intros N. apply C; [exact N | left; reflexivity].
Qed.
(** Two machine vertices with only a key for the partition: the keys do not belong
    together. *)
Definition bad_env : graph_env := mkEnv (fun _ _ => Some (mkKM 0x1000 0xFFFFF000)) (fun _ _ => [10; 11]) (fun _ _ _ => None) (fun _ _ => 16%N) N.of_nat N.of_nat (fun _ => 2%N).
Example ex_not_complete : ~ keys_complete bad_env [(0, 1)] /\ allocate true bad_env [(0, 1)] = Err RouteInfoAllocation.
Proof.
  split; [|vm_compute; reflexivity]. intros K. destruct (K 0 1 (or_introl eq_refl)) as [C|[C _]]; [|cbn in C; lia].
  destruct (C 10 (or_introl eq_refl)) as [y [Y _]]. discriminate Y.
Qed.

(** C153: a block is asked for each partition, also for those with fixed keys, so a
    graph can be refused although there is space for all of its keys: here half of the
    keys are fixed, the other partition could have the other half. *)
Definition half_env : graph_env := mkEnv (fun a _ => match a with 0 => Some (mkKM 0 0x80000000) | _ => None end)
  (fun a _ => match a with 0 => [10] | 1 => [11] | _ => [] end) (fun _ _ _ => None) (fun _ _ => 2 ^ 31)%N N.of_nat N.of_nat (fun _ => 1%N).
Theorem C153_spare_refuted : exists e parts a p m s x, AllocProofs.env_ok e parts /\
  (forall a p, In (a, p) parts -> NoDup (ae_outgoing e a p)) /\
  (forall a p, In (a, p) parts -> ae_app_fixed e a p = None -> ae_outgoing e a p <> [] -> counted e a p) /\
  (forall y, user_key e parts y -> km_ok y) /\ keys_complete e parts /\
  (forall b q, free_part e parts b q <-> (b, q) = (a, p)) /\ ae_outgoing e a p = [m] /\
  (ae_n_keys e m p <= 2 ^ s)%N /\ km_ok x /\ (km_mask x = 2 ^ 32 - 2 ^ s)%N /\ (forall y, user_key e parts y -> km_disjoint x y) /\
  forall flexible, allocate flexible e parts = Err RouteInfoAllocation.
Proof.
  assert (U : forall y, user_key half_env [(0, 1); (1, 1)] y -> y = mkKM 0 0x80000000).
  { intros y (a & k & I & [F|(m & _ & F)]); [|discriminate F]. cases I; cbn in F; congruence. }
  exists half_env, [(0, 1); (1, 1)], 1, 1, 11, 31%N, (mkKM 0x80000000 0x80000000).
  split; [split|].
  { intros a p I _. cases I; discriminate. }
  { intros a b p m I J M1 M2. cases I; cases J; auto; cbn in M1, M2; exfalso; lia. }
  split; [intros a p I; cases I; cbn; repeat constructor; intros []|].
  split; [intros a p I _ _; left; cases I; reflexivity|].
  split; [intros y Y; rewrite (U y Y); words|].
  split; [intros a p I; cases I; unfold part_keys; cbn; [right; split; [lia|reflexivity] | intros; reflexivity]|].
  split. { intros b q. unfold free_part. split; [intros [I F]; cases I; [discriminate F | reflexivity] | intros E; injection E as -> ->; split; [right; left|]; reflexivity]. }
  split; [reflexivity|]. split; [vm_compute; discriminate|]. split; [words|]. split; [reflexivity|].
  split; [intros y Y; rewrite (U y Y); apply disjoint_by; vm_compute; discriminate|].
  intros []; vm_compute; reflexivity.
Qed.
Print Assumptions C153_spare_refuted.
