(** Proofs about the chain from the router to the routing tables when some keys are
    fixed by the user. *)
From Coq Require Import List Arith NArith ZArith Bool Lia Permutation.
From Verif Require Import Base Dict RouteSpec KeyMask AllocModel AllocProofs TablesModel TablesProofs GenModel GenProofs
  PairModel PairSort RangeModel RangeProofs OrderedModel OrderedProofs
  TreeModel TreeProofs MachModel LdfModel LdfProofs PathModel PathProofs
  RPartModel RPartProofs BfsModel BfsProofs TargetsModel TargetsProofs ConvModel ConvProofs RouterModel RouterProofs RouterTables RouterPlan RouterFinal RouterSuccess
  ChainModel ChainProofs FixProofs.
Import ListNotations.
Local Open Scope nat_scope.

(** The partitions of the router, for the allocator. *)
Definition is_routed (i : rinput) (vs : list nat) (ps : list apart) (a k : nat) : Prop :=
  exists pt, routed_part i vs ps pt /\ a = ap_pre pt /\ k = ap_id pt.

(** As [keys_ok], but partitions may have fixed keys. *)
Record user_keys_ok (flexible : bool) (i : rinput) (vs : list nat) (ps : list apart) (extra : list (nat * nat)) (e : graph_env) : Prop := mkUserKeysOk {
  uo_out : forall a k, ae_outgoing e a k = ri_out i a k;
  uo_only : only_outgoing i vs ps;
  uo_counted : forall pt, routed_part i vs ps pt -> ae_app_fixed e (ap_pre pt) (ap_id pt) = None -> ri_out i (ap_pre pt) (ap_id pt) <> [] ->
    counted e (ap_pre pt) (ap_id pt);
  uo_some : forall a k, In (a, k) (keyed_parts i vs ps extra) -> ae_app_fixed e a k <> None -> ri_out i a k <> [];
  uo_fixed : fixed_ok flexible e (keyed_parts i vs ps extra) (is_routed i vs ps) }.

(** Graphs without fixed keys are a special case. *)
Lemma keys_user_ok : forall flexible i vs ps extra e, graph_ok i vs ps -> keys_ok i vs ps extra e -> user_keys_ok flexible i vs ps extra e.
Proof.
  intros flexible i vs ps extra e GO KO.
  assert (F : forall a p, is_routed i vs ps a p -> ae_app_fixed e a p = None) by (intros a p [pt [RP [-> ->]]]; exact (ko_free _ _ _ _ _ KO pt RP)).
  assert (M : forall a p m, is_routed i vs ps a p -> mac_key e a p m = None) by (intros a p m H; unfold mac_key; rewrite (F a p H); reflexivity).
  constructor.
  - exact (ko_out _ _ _ _ _ KO).
  - exact (keys_only _ _ _ _ _ KO).
  - intros pt RP _. exact (ko_counted _ _ _ _ _ KO pt RP).
  - intros a k I X. rewrite <- (ko_out _ _ _ _ _ KO). exact (proj1 (keys_env _ _ _ _ _ GO KO) a k I X).
  - constructor.
    + intros a p x H E. rewrite (F a p H) in E. discriminate.
    + intros a p x H E. rewrite (F a p H) in E. discriminate.
    + intros a p m y H _ E. rewrite (M a p m H) in E. discriminate.
    + intros a p x m y k H E. rewrite (F a p H) in E. discriminate.
    + intros a p x b q y H _ E. rewrite (F a p H) in E. discriminate.
    + intros a p m n y z H _ _ _ E. rewrite (M a p m H) in E. discriminate.
Qed.

Section Fixed.
Variables (merged flexible : bool) (i : rinput) (vs : list nat) (ps : list apart) (extra : list (nat * nat)) (e : graph_env) (t : rtable) (infos : list info).
Hypothesis GO : graph_ok i vs ps.
Hypothesis UO : user_keys_ok flexible i vs ps extra e.
Hypothesis MG : merged = true -> mergeable flexible e (is_routed i vs ps).
Hypothesis ROUTE : route_application_graph i vs ps = Ok t.
Hypothesis ALLOC : allocate flexible e (keyed_parts i vs ps extra) = Ok infos.

Lemma user_env : AllocProofs.env_ok e (keyed_parts i vs ps extra).
Proof.
  split.
  - intros a k I F. rewrite (uo_out _ _ _ _ _ _ UO). exact (uo_some _ _ _ _ _ _ UO a k I F).
  - intros a a' k v _ _ A B. rewrite (uo_out _ _ _ _ _ _ UO) in A, B.
    pose proof (io_out i (go_input _ _ _ GO) a k v A). pose proof (io_out i (go_input _ _ _ GO) a' k v B). congruence.
Qed.
Lemma user_parts : forall a p, is_routed i vs ps a p -> In (a, p) (keyed_parts i vs ps extra).
Proof. intros a p [pt [RP [-> ->]]]. exact (keyed_In i vs ps extra pt GO RP). Qed.
Lemma user_counted : forall a p, is_routed i vs ps a p -> ae_app_fixed e a p = None -> ae_outgoing e a p <> [] -> counted e a p.
Proof. intros a p [pt [RP [-> ->]]] F NE. rewrite (uo_out _ _ _ _ _ _ UO) in NE. exact (uo_counted _ _ _ _ _ _ UO pt RP F NE). Qed.

(** The keys that are used are those that were fixed. *)
Lemma user_key_used : forall pt v y, routed_part i vs ps pt -> In v (ri_out i (ap_pre pt) (ap_id pt)) ->
  mac_key e (ap_pre pt) (ap_id pt) v = Some y -> exists j, get_info infos (AllocModel.Mac v) (ap_id pt) = Ok j /\ i_km j = y.
Proof.
  intros pt v y RP V Y. assert (H : is_routed i vs ps (ap_pre pt) (ap_id pt)) by (exists pt; auto).
  rewrite <- (uo_out _ _ _ _ _ _ UO) in V.
  destruct (fk_mac flexible e _ infos _ user_env ALLOC (uo_fixed _ _ _ _ _ _ UO) user_parts user_counted _ _ v H V) as (j & G & _ & _ & _ & X).
  exists j. split; [exact G|]. unfold mac_key in *. destruct (ae_app_fixed e (ap_pre pt) (ap_id pt)) as [x|]; [|discriminate].
  specialize (X x eq_refl). congruence.
Qed.

Lemma user_good : good_keys merged i vs ps t infos.
Proof.
  split.
  - exists (if merged then ve_app (ri_venv i) else fun _ => None). split; [intros ->; reflexivity|]. intros r I.
    destruct (router_items i vs ps t GO (uo_only _ _ _ _ _ _ UO) ROUTE r I) as [ND [MA [AP EX]]].
    apply (fixed_well_keyed flexible e (keyed_parts i vs ps extra) infos (is_routed i vs ps) user_env ALLOC (uo_fixed _ _ _ _ _ _ UO) user_parts user_counted
      _ _ ND (ve_app (ri_venv i))).
    + intros m p en X. destruct (MA m p en X) as [pt [RP [-> [V A]]]]. exists (ap_pre pt). split; [exact A|]. split; [exists pt; auto|].
      rewrite (uo_out _ _ _ _ _ _ UO). exact V.
    + intros a p en X. destruct (AP a p en X) as [pt [RP [-> [-> V]]]]. split; [exists pt; auto|]. rewrite (uo_out _ _ _ _ _ _ UO). exact V.
    + exact EX.
    + destruct merged; [right; split; [reflexivity | exact (MG eq_refl)] | left; reflexivity].
  - intros pt v RP V. assert (H : is_routed i vs ps (ap_pre pt) (ap_id pt)) by (exists pt; auto). rewrite <- (uo_out _ _ _ _ _ _ UO) in V.
    destruct (fk_mac flexible e _ infos _ user_env ALLOC (uo_fixed _ _ _ _ _ _ UO) user_parts user_counted _ _ v H V) as (j & G & IM & _).
    exists j. split; [exact G|]. intros key K M w j' [-> | ->] G'; cbn [vertex_of] in G'; [congruence|]. apply get_info_spec in G'.
    exact (fk_sub flexible e _ infos _ user_env ALLOC (uo_fixed _ _ _ _ _ _ UO) user_parts user_counted _ _ v j j' key H IM G' K M).
Qed.
End Fixed.

Lemma user_delivers : forall merged entry_eq flexible i vs ps extra e t infos, graph_ok i vs ps -> user_keys_ok flexible i vs ps extra e ->
  (merged = true -> mergeable flexible e (is_routed i vs ps)) ->
  route_application_graph i vs ps = Ok t -> allocate flexible e (keyed_parts i vs ps extra) = Ok infos ->
  exists ts, make_tables merged entry_eq flexible i vs ps extra e = Ok (infos, ts) /\ exact_delivery i vs ps infos ts.
Proof.
  intros merged entry_eq flexible i vs ps extra e t infos GO UO MG ROUTE ALLOC.
  exact (good_delivers merged entry_eq flexible i vs ps extra e t infos GO (user_good _ _ _ _ _ _ _ _ _ GO UO MG ROUTE ALLOC) ROUTE ALLOC).
Qed.

Lemma user_pair : forall merged entry_eq flexible i vs ps extra e infos ts c_sort n_routes target as_needed ordered accept_overflow out,
  graph_ok i vs ps -> user_keys_ok flexible i vs ps extra e -> (merged = true -> mergeable flexible e (is_routed i vs ps)) ->
  make_tables merged entry_eq flexible i vs ps extra e = Ok (infos, ts) ->
  compress_tables (fun t => compress_table ordered c_sort n_routes (t_entries t)) target as_needed ordered accept_overflow ts [] = Ok out ->
  exact_delivery i vs ps infos out.
Proof.
  intros merged entry_eq flexible i vs ps extra e infos ts c_sort n_routes target as_needed ordered accept_overflow out GO UO MG H C.
  refine (good_pair _ _ _ _ _ _ _ _ _ _ _ _ _ _ _ _ _ GO _ H C). intros t R A. exact (user_good _ _ _ _ _ _ _ _ _ GO UO MG R A).
Qed.
Lemma user_range : forall merged entry_eq flexible i vs ps extra e infos ts as_far target accept_overflow out,
  graph_ok i vs ps -> user_keys_ok flexible i vs ps extra e -> (merged = true -> mergeable flexible e (is_routed i vs ps)) ->
  make_tables merged entry_eq flexible i vs ps extra e = Ok (infos, ts) ->
  range_compressor as_far target accept_overflow ts = Ok out -> exact_delivery i vs ps infos out.
Proof.
  intros merged entry_eq flexible i vs ps extra e infos ts as_far target accept_overflow out GO UO MG H C.
  refine (good_range _ _ _ _ _ _ _ _ _ _ _ _ _ _ GO _ H C). intros t R A. exact (user_good _ _ _ _ _ _ _ _ _ GO UO MG R A).
Qed.
Lemma user_covering : forall entry_eq flexible i vs ps extra e infos ts target (as_needed accept_overflow : bool) out,
  graph_ok i vs ps -> user_keys_ok flexible i vs ps extra e -> make_tables false entry_eq flexible i vs ps extra e = Ok (infos, ts) ->
  compress_tables (fun t => oc_compress_table (t_entries t) (if as_needed then Some (target (t_x t) (t_y t)) else None))
    target as_needed true accept_overflow ts [] = Ok out ->
  exact_delivery i vs ps infos out.
Proof.
  intros entry_eq flexible i vs ps extra e infos ts target as_needed accept_overflow out GO UO H C.
  refine (good_covering _ _ _ _ _ _ _ _ _ _ _ _ _ GO _ H C). intros t R A. refine (user_good _ _ _ _ _ _ _ _ _ GO UO _ R A). discriminate.
Qed.
