(** Routes, keys and tables are made for graphs with fixed keys exactly when the keys fit. *)
From Coq Require Import List Arith NArith ZArith QArith Bool Lia Permutation.
From Verif Require Import Base Dict PlacementsModel PlacementsProofs PlacerModel PlacerProofs PlacerFinal.
From Verif Require Import RouteSpec KeyMask AllocModel AllocProofs TablesModel TablesProofs GenModel GenProofs
  PairModel RangeModel OrderedModel
  TreeModel TreeProofs MachModel LdfModel LdfProofs PathModel PathProofs
  RPartModel RPartProofs BfsModel BfsProofs TargetsModel TargetsProofs ConvModel ConvProofs RouterModel RouterProofs RouterTables RouterPlan RouterFinal
  RouterSuccess ChainModel ChainProofs MapModel MapProofs FixProofs FixChain FixMap FixAlloc.
Import ListNotations.
Local Open Scope nat_scope.

Lemma fix_chain_iff : forall merged entry_eq flexible i vs ps extra e, graph_ok i vs ps -> user_keys_ok flexible i vs ps extra e ->
  (merged = true -> mergeable flexible e (is_routed i vs ps)) ->
  connected (ri_mach i) -> (forall pt, routed_part i vs ps pt -> part_fit i pt) ->
  let parts := keyed_parts i vs ps extra in
  (forall a k, In (a, k) parts -> NoDup (ri_out i a k)) -> (forall x, user_key e parts x -> km_ok x) ->
  (forall a k, In (a, k) extra -> ae_app_fixed e a k = None -> ri_out i a k <> [] -> counted e a k) ->
  (keys_complete e parts /\ keys_fit e parts -> exists infos ts, make_tables merged entry_eq flexible i vs ps extra e = Ok (infos, ts)) /\
  (~ (keys_complete e parts /\ keys_fit e parts) -> make_tables merged entry_eq flexible i vs ps extra e = Err RouteInfoAllocation).
Proof.
  intros merged entry_eq flexible i vs ps extra e GO UO MG CO FIT parts ND KO CX.
  destruct (router_succeeds i vs ps GO CO FIT) as [t R].
  destruct (alloc_iff flexible e parts) as [[AS _] [AF _]].
  - exact (user_env _ _ _ _ _ _ GO UO).
  - intros a k I. rewrite (uo_out _ _ _ _ _ _ UO). exact (ND a k I).
  - intros a k I F N. rewrite (uo_out _ _ _ _ _ _ UO) in N. apply in_app_or in I. destruct I as [J|J]; [|exact (CX a k J F N)].
    apply in_map_iff in J. destruct J as [pt [X J]]. injection X as <- <-. apply (routed_part_In i vs ps pt (go_distinct _ _ _ GO)) in J.
    exact (uo_counted _ _ _ _ _ _ UO pt J F N).
  - exact KO.
  - split.
    + intros H. destruct (AS H) as [infos A]. destruct (user_delivers merged entry_eq flexible i vs ps extra e t infos GO UO MG R A) as [ts [T _]]. eauto.
    + intros H. apply AF in H. unfold make_tables. rewrite R. cbn [bind]. fold parts. rewrite H. reflexivity.
Qed.

Lemma fix_map_iff : forall merged entry_eq flexible i l vs ps extra e p, map_ok i l vs ps -> map_user_keys flexible i ps extra e ->
  (merged = true -> mergeable flexible e (sends_in ps)) ->
  connected (mi_mach i) -> (forall a, NoDup (mi_out i a)) ->
  let parts := all_parts ps extra in
  (forall x, user_key e parts x -> km_ok x) ->
  (forall a k, In (a, k) extra -> ae_app_fixed e a k = None -> mi_out i a <> [] -> counted e a k) ->
  place_graph (mi_env i) (mi_sys i) (map (mi_av i) vs) = Ok p ->
  (keys_complete e parts /\ keys_fit e parts -> exists infos ts, map_graph merged entry_eq flexible i vs ps extra e = Ok (p, infos, ts)) /\
  (~ (keys_complete e parts /\ keys_fit e parts) -> map_graph merged entry_eq flexible i vs ps extra e = Err RouteInfoAllocation).
Proof.
  intros merged entry_eq flexible i l vs ps extra e p OK MU MG CO ND parts KO CX PL.
  assert (KP : keyed_parts (router_input i p) vs ps extra = parts) by (unfold keyed_parts, parts, all_parts; rewrite only_parts; reflexivity).
  destruct (fix_chain_iff merged entry_eq flexible (router_input i p) vs ps extra e) as [A B].
  - exact (mapped_graph i l vs ps p OK PL).
  - exact (mapped_user _ _ _ _ _ _ _ p OK MU).
  - exact (mapped_mergeable _ _ _ _ _ _ _ MG).
  - exact CO.
  - exact (mapped_fits i l vs ps p OK PL).
  - intros a k _. exact (ND a).
  - rewrite KP. exact KO.
  - exact CX.
  - rewrite KP in A, B. split; intros H; unfold map_graph; rewrite PL; cbn [bind].
    + destruct (A H) as [infos [ts T]]. exists infos, ts. rewrite T. reflexivity.
    + rewrite (B H). reflexivity.
Qed.
