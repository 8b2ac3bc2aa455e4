(** Properties of the chain from the router to the routing tables when keys are fixed
    by the user. *)
From Coq Require Import List Arith NArith ZArith Bool Lia Permutation.
From Verif Require Import Base Dict RouteSpec KeyMask AllocModel AllocProofs KeyOrder TablesModel TablesProofs GenModel GenProofs GenProps
  PairModel PairSort RangeModel RangeProofs OrderedModel OrderedProofs
  TreeModel TreeProofs MachModel LdfModel LdfProofs PathModel PathProofs PathProps
  RPartModel RPartProofs BfsModel BfsProofs TargetsModel TargetsProofs ConvModel ConvProofs RouterModel RouterProofs RouterTables RouterPlan RouterFinal
  RouterSuccess RouterProps ChainModel ChainProofs ChainProps FixProofs FixChain CoverMerged.
Import ListNotations.
Local Open Scope nat_scope.

(** C137: where a key is fixed for a machine vertex, or else for its partition, that
    is the key the vertex gets. *)
Theorem C137_key_used : forall flexible i vs ps extra e infos pt v y, graph_ok i vs ps -> user_keys_ok flexible i vs ps extra e ->
  allocate flexible e (keyed_parts i vs ps extra) = Ok infos -> routed_part i vs ps pt -> In v (ri_out i (ap_pre pt) (ap_id pt)) ->
  ae_app_fixed e (ap_pre pt) (ap_id pt) <> None ->
  Some y = match ae_mac_fixed e (ap_pre pt) v (ap_id pt) with Some y => Some y | None => ae_app_fixed e (ap_pre pt) (ap_id pt) end ->
  exists j, get_info infos (AllocModel.Mac v) (ap_id pt) = Ok j /\ i_km j = y.
Proof.
  intros flexible i vs ps extra e infos pt v y GO UO A RP V F E. apply (user_key_used flexible i vs ps extra e infos GO UO A pt v y RP V).
  unfold mac_key. destruct (ae_app_fixed e (ap_pre pt) (ap_id pt)) as [x|]; [|contradiction]. destruct (ae_mac_fixed e (ap_pre pt) v (ap_id pt)); congruence.
Qed.
Print Assumptions C137_key_used.

(** C137: when the router and the allocator succeed, so does the generator, and the
    packets sent with any key of a machine vertex, fixed or chosen, reach its targets. *)
Theorem C137_delivered : forall merged entry_eq flexible i vs ps extra e t infos, graph_ok i vs ps -> user_keys_ok flexible i vs ps extra e ->
  (merged = true -> mergeable flexible e (is_routed i vs ps)) ->
  route_application_graph i vs ps = Ok t -> allocate flexible e (keyed_parts i vs ps extra) = Ok infos ->
  exists ts, make_tables merged entry_eq flexible i vs ps extra e = Ok (infos, ts) /\
  forall pt v, routed_part i vs ps pt -> In v (ri_out i (ap_pre pt) (ap_id pt)) ->
  exists j, get_info infos (AllocModel.Mac v) (ap_id pt) = Ok j /\
    forall key w q pl, (key < 2 ^ 32)%N -> km_matches key (i_km j) -> target_of i pt v w -> ri_at i w = (q, pl) ->
      arrives (ri_mach i) ts key (chip_of i v) (link_of (snd (ri_at i v))) q pl.
Proof.
  intros merged entry_eq flexible i vs ps extra e t infos GO KO MG R A.
  destruct (user_delivers merged entry_eq flexible i vs ps extra e t infos GO KO MG R A) as [ts [T D]]. exists ts. split; [exact T|].
  intros pt v RP V. destruct (D pt v RP V) as [j [J K]]. exists j. split; [exact J|]. intros key w q pl K32 KM TG AT.
  exact (proj1 (K key K32 KM) w q pl TG AT).
Qed.
Print Assumptions C137_delivered.

(** C137: they reach no core and no device that is not a target (where no chip is
    asked for both the whole source and one of its machine vertices). *)
Theorem C137_nothing_else : forall merged entry_eq flexible i vs ps extra e infos ts, graph_ok i vs ps -> user_keys_ok flexible i vs ps extra e ->
  (merged = true -> mergeable flexible e (is_routed i vs ps)) ->
  make_tables merged entry_eq flexible i vs ps extra e = Ok (infos, ts) ->
  forall pt v j key q pl, routed_part i vs ps pt -> unmixed i pt -> In v (ri_out i (ap_pre pt) (ap_id pt)) ->
    get_info infos (AllocModel.Mac v) (ap_id pt) = Ok j -> (key < 2 ^ 32)%N -> km_matches key (i_km j) -> off_chip (ri_mach i) q pl ->
    arrives (ri_mach i) ts key (chip_of i v) (link_of (snd (ri_at i v))) q pl ->
    exists w, target_of i pt v w /\ ri_at i w = (q, pl).
Proof.
  intros merged entry_eq flexible i vs ps extra e infos ts GO KO MG H pt v j key q pl RP U V J K KM O A.
  destruct (chain_split _ _ _ _ _ _ _ _ _ _ H) as [t [R [AL G]]].
  destruct (user_delivers merged entry_eq flexible i vs ps extra e t infos GO KO MG R AL) as [ts' [T D]].
  assert (ts' = ts) by congruence. subst ts'. destruct (D pt v RP V) as [j' [J' X]]. assert (j' = j) by congruence. subst j'.
  exact (proj1 (proj2 (X key K KM)) U q pl O A).
Qed.
Print Assumptions C137_nothing_else.

(** C137: and no chip gets such a packet twice. *)
Theorem C137_once : forall merged entry_eq flexible i vs ps extra e infos ts, graph_ok i vs ps -> user_keys_ok flexible i vs ps extra e ->
  (merged = true -> mergeable flexible e (is_routed i vs ps)) ->
  make_tables merged entry_eq flexible i vs ps extra e = Ok (infos, ts) ->
  forall pt v j key p inn l q, routed_part i vs ps pt -> In v (ri_out i (ap_pre pt) (ap_id pt)) ->
    get_info infos (AllocModel.Mac v) (ap_id pt) = Ok j -> (key < 2 ^ 32)%N -> km_matches key (i_km j) ->
    let here := flies (ri_mach i) ts key (chip_of i v) (link_of (snd (ri_at i v))) in
    here p inn -> has_link (sends ts key p inn) l = true -> works (ri_mach i) p (l, q) ->
    q <> chip_of i v /\ forall p' inn' l', here p' inn' -> has_link (sends ts key p' inn') l' = true -> works (ri_mach i) p' (l', q) ->
      p' = p /\ inn' = inn /\ l' = l.
Proof.
  intros merged entry_eq flexible i vs ps extra e infos ts GO KO MG H pt v j key p inn l q RP V J K KM here F L W.
  destruct (chain_split _ _ _ _ _ _ _ _ _ _ H) as [t [R [AL G]]].
  destruct (user_delivers merged entry_eq flexible i vs ps extra e t infos GO KO MG R AL) as [ts' [T D]].
  assert (ts' = ts) by congruence. subst ts'. destruct (D pt v RP V) as [j' [J' X]]. assert (j' = j) by congruence. subst j'.
  destruct (X key K KM) as [_ [_ N]]. split; [exact (proj1 (N p inn l q p inn l F L W))|].
  intros p' inn' l' F' L' W'. exact (proj2 (N p inn l q p' inn' l' F L W) F' L' W').
Qed.
Print Assumptions C137_once.

(** C138: the same holds of the tables after each of the compressors. *)
Theorem C138_pair : forall merged entry_eq flexible i vs ps extra e infos ts c_sort n_routes target as_needed ordered accept_overflow out,
  graph_ok i vs ps -> user_keys_ok flexible i vs ps extra e -> (merged = true -> mergeable flexible e (is_routed i vs ps)) ->
  make_tables merged entry_eq flexible i vs ps extra e = Ok (infos, ts) ->
  compress_tables (fun t => compress_table ordered c_sort n_routes (t_entries t)) target as_needed ordered accept_overflow ts [] = Ok out ->
  exact_delivery i vs ps infos out.
Proof. exact user_pair. Qed.
Print Assumptions C138_pair.
Theorem C138_range : forall merged entry_eq flexible i vs ps extra e infos ts as_far target accept_overflow out,
  graph_ok i vs ps -> user_keys_ok flexible i vs ps extra e -> (merged = true -> mergeable flexible e (is_routed i vs ps)) ->
  make_tables merged entry_eq flexible i vs ps extra e = Ok (infos, ts) ->
  range_compressor as_far target accept_overflow ts = Ok out -> exact_delivery i vs ps infos out.
Proof. exact user_range. Qed.
Print Assumptions C138_range.
Theorem C138_covering : forall entry_eq flexible i vs ps extra e infos ts target (as_needed accept_overflow : bool) out,
  graph_ok i vs ps -> user_keys_ok flexible i vs ps extra e -> make_tables false entry_eq flexible i vs ps extra e = Ok (infos, ts) ->
  compress_tables (fun t => oc_compress_table (t_entries t) (if as_needed then Some (target (t_x t) (t_y t)) else None))
    target as_needed true accept_overflow ts [] = Ok out ->
  exact_delivery i vs ps infos out.
Proof. exact user_covering. Qed.
Print Assumptions C138_covering.
(** C128 with fixed keys: for merged tables the machine vertices of an application
    vertex with the same route on a chip must agree about default routing. *)
Theorem C128_fixed_keys_partial : forall entry_eq flexible i vs ps extra e infos ts t target (as_needed accept_overflow : bool) out,
  graph_ok i vs ps -> user_keys_ok flexible i vs ps extra e -> mergeable flexible e (is_routed i vs ps) ->
  make_tables true entry_eq flexible i vs ps extra e = Ok (infos, ts) ->
  route_application_graph i vs ps = Ok t ->
  (forall q m m' a k x x', ve_app (ri_venv i) m = Some a -> ve_app (ri_venv i) m' = Some a ->
     get_entry t (Mac m) k q = Some x -> get_entry t (Mac m') k q = Some x' ->
     RPartModel.re_route x = RPartModel.re_route x' -> re_default x = re_default x') ->
  compress_tables (fun t => oc_compress_table (t_entries t) (if as_needed then Some (target (t_x t) (t_y t)) else None))
    target as_needed true accept_overflow ts [] = Ok out ->
  exact_delivery i vs ps infos out.
Proof.
  intros entry_eq flexible i vs ps extra e infos ts t target as_needed accept_overflow out GO UO MG.
  apply good_merged_covering; [exact GO|]. intros t' R A. exact (user_good _ _ _ _ _ _ _ _ _ GO UO (fun _ => MG) R A).
Qed.
Print Assumptions C128_fixed_keys_partial.

(** * Examples *)
Lemma disjoint_by : forall x y, N.land (km_key x) (km_mask y) <> N.land (km_key y) (km_mask x) -> km_disjoint x y.
Proof.
  intros x y NE k _ [M1 M2]. apply NE. unfold km_matches in *. rewrite <- M1, <- M2, <- !N.land_assoc. f_equal. apply N.land_comm.
Qed.
Lemma within_by : forall x y k, N.land (km_mask y) (km_mask x) = km_mask x -> N.land (km_key y) (km_mask x) = km_key x -> km_matches k y -> km_matches k x.
Proof. intros x y k A B M. unfold km_matches in *. rewrite <- A, N.land_assoc, M. exact B. Qed.

(** The graph of RouterProps. Partition 7 of vertex 0 has fixed keys as the allocator
    would lay them out; those of partition 7 of vertex 10 have a mask of their own. The
    keys of the other partitions are chosen. *)
Definition rx_fixed (a p : nat) : option AllocModel.km :=
  match a, p with 0, 7 => Some (mkKM 0x4000 0xFFFFF000) | 10, 7 => Some (mkKM 0x80000001 0xFFFFF001) | _, _ => None end.
Definition rx_mac_fixed (a m p : nat) : option AllocModel.km :=
  match m, p with
  | 1, 7 => Some (mkKM 0x4000 0xFFFFFFF0) | 2, 7 => Some (mkKM 0x4010 0xFFFFFFF0)
  | 11, 7 => Some (mkKM 0x80000001 0xFFFFF003) | 12, 7 => Some (mkKM 0x80000003 0xFFFFF003) | _, _ => None
  end.
Definition rx_env : graph_env := mkEnv rx_fixed (fun a _ => rx_macs a) rx_mac_fixed (fun _ _ => 16%N) N.of_nat
  (fun m => match m with 2 | 12 => 1%N | _ => 0%N end) (fun a => N.of_nat (length (rx_macs a))).
Lemma rx_is : forall a p, is_routed rx [0; 10; 20] rx_parts a p -> In (a, p) [(10, 9); (0, 7); (0, 8); (10, 7)].
Proof. intros a p [pt [RP [-> ->]]]. apply rx_routed in RP. each RP; cbn; tauto. Qed.
Ltac cases H := repeat (destruct H as [H|H]; [inversion H; clear H; subst|]); [..|destruct H].
Ltac words := first [reflexivity | discriminate | (split; [reflexivity|]; split; reflexivity)].
Example ex_fixed_keys : user_keys_ok true rx [0; 10; 20] rx_parts [] rx_env /\ mergeable true rx_env (is_routed rx [0; 10; 20] rx_parts).
Proof.
  assert (KP : forall a p, In (a, p) (keyed_parts rx [0; 10; 20] rx_parts []) -> In (a, p) [(0, 7); (0, 8); (10, 7); (10, 9)]).
  { intros a p. vm_compute. tauto. }
  split; [constructor|].
  - reflexivity.
  - exact (keys_only _ _ _ _ _ ex_chain_keys).
  - intros pt RP _ _. apply rx_routed in RP. right. each RP; cbn; eexists; (split; [left; reflexivity | reflexivity]).
  - intros a k I F. apply KP in I. cases I; discriminate.
  - constructor.
    + auto.
    + intros a p x H E. apply rx_is in H. cases H; cbn in E; try discriminate E; injection E as <-; words.
    + intros a p m y H M E. apply rx_is in H. cases H; each M; cbn in E; try discriminate E; injection E as <-; words.
    + intros a p x m y k H E M Y _. apply rx_is in H. cases H; cbn in E; try discriminate E; injection E as <-; each M; cbn in Y; injection Y as <-;
        apply within_by; reflexivity.
    + intros a p x b q y H H' E E' NE. apply rx_is in H. apply rx_is in H'. cases H; cases H'; cbn in E, E'; try discriminate E; try discriminate E';
        try (destruct NE; reflexivity); injection E as <-; injection E' as <-; apply disjoint_by; vm_compute; discriminate.
    + intros a p m n y z H M N NE E E'. apply rx_is in H. cases H; each M; each N; try (destruct NE; reflexivity); cbn in E, E'; try discriminate E;
        injection E as <-; injection E' as <-; apply disjoint_by; vm_compute; discriminate.
  - intros a p H F. apply rx_is in H. cases H; try (destruct F; reflexivity).
    + right. exists 0x4000%N, 4%N, 8%N. split; [reflexivity|]. split; [vm_compute; discriminate|]. split; [intros m _; vm_compute; discriminate|].
      split; [vm_compute; discriminate|]. split; [vm_compute; discriminate|]. intros n m (l1 & l2 & E & ->). cbn in E.
      destruct l1 as [|c [|c' l1]]; cbn in E; injection E; intros; subst; [split; reflexivity | split; reflexivity|].
      destruct l1; discriminate.
    + left. intros m y b M E B. rewrite (just_is _ _ _ _ B). each M; cbn in E; injection E as <-; vm_compute; discriminate.
Qed.
Definition fx_made (merged : bool) : list info * list table :=
  ok_or ([], []) (make_tables merged eqe true rx [0; 10; 20] rx_parts [] rx_env).
Example ex_fixed_runs : forall merged, make_tables merged eqe true rx [0; 10; 20] rx_parts [] rx_env = Ok (fx_made merged).
Proof. intros []; vm_compute; reflexivity. Qed.
(** Packets with the fixed key of machine vertex 2 reach the device; the merged tables
    are smaller. *)
Example ex_fixed_key : sizes (snd (fx_made false)) = [5; 8; 4; 5; 2] /\ sizes (snd (fx_made true)) = [5; 7; 4; 5; 2] /\
  exists j, get_info (fst (fx_made true)) (AllocModel.Mac 2) 7 = Ok j /\ i_km j = mkKM 0x4010 0xFFFFFFF0 /\ km_matches 0x401F (i_km j) /\
    arrives dead_link (snd (fx_made true)) 0x401F (1, 0)%Z None (0, 1)%Z (OnLink 2).
Proof.
  split; [vm_compute; reflexivity|]. split; [vm_compute; reflexivity|].
  destruct (chain_split _ _ _ _ _ _ _ _ _ _ (eq_trans (ex_fixed_runs true) (f_equal Ok (surjective_pairing _)))) as [t [R [A _]]].
  destruct (C137_key_used true rx [0; 10; 20] rx_parts [] rx_env _ (mkPart 0 7 [10; 20]) 2 (mkKM 0x4010 0xFFFFFFF0) ex_router_graph (proj1 ex_fixed_keys) A
    (proj1 ex_router_part) (or_intror (or_introl eq_refl))) as [j [J E]]; [discriminate | reflexivity|].
  exists j. split; [exact J|]. split; [exact E|]. assert (M : km_matches 0x401F (i_km j)) by (rewrite E; reflexivity). split; [exact M|].
  destruct (C137_delivered true eqe true rx [0; 10; 20] rx_parts [] rx_env t _ ex_router_graph (proj1 ex_fixed_keys) (fun _ => proj2 ex_fixed_keys) R A)
    as [ts [T D]].
  assert (SND : forall (a : list table) (b : list info * list table), Ok (fst b, a) = Ok b -> snd b = a) by (intros a [x y] Q; injection Q as <-; reflexivity).
  rewrite (SND ts (fx_made true) (eq_trans (eq_sym T) (ex_fixed_runs true))).
  destruct (D (mkPart 0 7 [10; 20]) 2 (proj1 ex_router_part) (or_intror (or_introl eq_refl))) as [j' [J' X]].
  assert (j' = j) by congruence. subst j'. apply (X 0x401F%N 21); [reflexivity | exact M | apply ex_router_part | reflexivity].
Qed.

(** * What fails *)
(** C139: the merged tables of partitions with fixed keys of the allocator's mask that
    are not laid out as its own. Machine vertices 1 and 2 have the keys 0x20 and 0x50;
    both send to vertex 11; packets with key 0x50 do not arrive. *)
Definition pair_macs (a : nat) : list nat := match a with 0 => [1; 2] | 10 => [11] | _ => [] end.
Definition pair_app (v : nat) : option nat := match v with 1 | 2 => Some 0 | 11 => Some 10 | _ => None end.
Definition pair_in : rinput := mkRIn one_chip plain_vec (fun l => l) (mkVEnv pair_macs pair_app) (fun v => ((0, 0)%Z, OnCore v))
  (fun a k => match a with 0 => [1; 2] | _ => [] end)
  (fun target source k => match target with 10 => [(11, [Mac 1; Mac 2])] | _ => [] end) (fun _ => []).
Lemma pair_ok : graph_ok pair_in [0] [mkPart 0 7 [10]].
Proof.
  constructor; [constructor| |].
  - intros a v. cbn [pair_in ri_venv ve_macs ve_app]. split.
    + do 11 (destruct a as [|a]; [cbn; intuition (subst; reflexivity)|]). cbn. tauto.
    + do 13 (destruct v as [|v]; [cbn; intros H; try discriminate H; injection H as <-; cbn; tauto|]). cbn. discriminate.
  - intros b k v. cbn [pair_in ri_out ri_venv ve_app]. destruct b as [|b]; [|intros []]. intros H. each H; reflexivity.
  - intros v. exact I.
  - intros v. unfold chip_of, inside. cbn. lia.
  - intros v w. reflexivity.
  - intros v w l s H. apply no_repeat_no_return, nodup_b_spec. revert H. vm_compute. intros X. injection X as <-. reflexivity.
  - intros l. apply Permutation_refl.
  - repeat constructor. intros [].
  - intros pt [H|[_ [v [ip [V [X _]]]]]]; [|destruct X]. each H. constructor; cbn.
    + intros v V. exists v. tauto.
    + intros ip [].
    + intros target x src T X S. each T; each X; each S; right; eexists; split; reflexivity.
Qed.
Definition pair_env : graph_env := mkEnv (fun _ _ => Some (mkKM 0 0xFFFFFF00)) (ri_out pair_in)
  (fun _ m _ => Some (mkKM (match m with 1 => 0x20 | _ => 0x50 end) 0xFFFFFFF0)) (fun _ _ => 16%N) N.of_nat
  (fun m => match m with 2 => 1%N | _ => 0%N end) (fun _ => 2%N).
Theorem C139_merged_fixed_refuted : exists entry_eq flexible i vs ps e infos ts pt v w j key q pl,
  graph_ok i vs ps /\ user_keys_ok flexible i vs ps [] e /\ make_tables true entry_eq flexible i vs ps [] e = Ok (infos, ts) /\
  routed_part i vs ps pt /\ In v (ri_out i (ap_pre pt) (ap_id pt)) /\ target_of i pt v w /\ ri_at i w = (q, pl) /\
  get_info infos (AllocModel.Mac v) (ap_id pt) = Ok j /\ (key < 2 ^ 32)%N /\ km_matches key (i_km j) /\
  ~ arrives (ri_mach i) ts key (chip_of i v) (link_of (snd (ri_at i v))) q pl.
Proof.
  exists eqe, true, pair_in, [0], [mkPart 0 7 [10]], pair_env. eexists. eexists.
  exists (mkPart 0 7 [10]), 2, 11. eexists. exists 0x50%N, (0, 0)%Z, (OnCore 11).
  assert (IS : forall a p, is_routed pair_in [0] [mkPart 0 7 [10]] a p -> a = 0 /\ p = 7).
  { intros a p [pt [[H|[_ [v [ip [V [X _]]]]]] [-> ->]]]; [|destruct X]. each H. auto. }
  split; [exact pair_ok|]. split; [constructor|].
  { reflexivity. }
  { split; [|intros pt ip _ []]. intros pt target x v [H|[_ [u [ip [V [X _]]]]]]; [|destruct X]. each H. cbn. intros T X S.
    each T; each X; each S; injection S as <-; cbn; tauto. }
  { intros pt _ X. discriminate X. }
  { intros a k H _. vm_compute in H. destruct H as [H|[]]. injection H as <- <-. discriminate. }
  { constructor.
    - auto.
    - intros a p x _ E. injection E as <-. words.
    - intros a p m y _ _ E. injection E as <-. do 2 (destruct m as [|m]; [words|]). words.
    - intros a p x m y k H E M Y _. apply IS in H. destruct H as [-> ->]. injection E as <-. each M; injection Y as <-; apply within_by; reflexivity.
    - intros a p x b q y H H' _ _ NE. apply IS in H. apply IS in H'. destruct H as [-> ->], H' as [-> ->]. destruct NE. reflexivity.
    - intros a p m n y z H M N NE E E'. apply IS in H. destruct H as [-> ->]. each M; each N; try (destruct NE; reflexivity);
        injection E as <-; injection E' as <-; apply disjoint_by; vm_compute; discriminate. }
  split; [vm_compute; reflexivity|]. split; [left; left; reflexivity|]. split; [cbn; tauto|].
  split; [left; exists 10, (11, [Mac 1; Mac 2]), (Mac 2); cbn; intuition|]. split; [reflexivity|].
  split; [vm_compute; reflexivity|]. split; [reflexivity|]. split; [vm_compute; reflexivity|].
  intros [inn [F H]].
  assert (C : In ((0, 0)%Z, inn) [((0, 0)%Z, None)]).
  { revert F. apply shut_spec; [vm_compute; reflexivity | left; reflexivity]. }
  each C. injection C as <-. vm_compute in H. discriminate H.
Qed.
Print Assumptions C139_merged_fixed_refuted.
