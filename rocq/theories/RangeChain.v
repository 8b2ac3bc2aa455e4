(** The chain from the router to the tables, compressed by ranges and then by ordered
    covering. *)
From Coq Require Import List Arith NArith ZArith Bool Lia.
From Verif Require Import Base Dict RouteSpec KeyMask AllocModel AllocProofs TablesModel TablesProofs GenModel GenProofs
  PairModel PairSort RangeModel RangeProofs OrderedModel OrderedProofs
  TreeModel TreeProofs MachModel LdfModel LdfProofs PathModel PathProofs
  RPartModel RPartProofs BfsModel BfsProofs TargetsModel TargetsProofs ConvModel ConvProofs RouterModel RouterProofs RouterTables RouterPlan RouterFinal RouterSuccess
  ChainModel ChainProofs CoverMerged FixProofs FixChain ShrinkProofs RangeCover.
Import ListNotations.
Local Open Scope nat_scope.

Definition ranged (as_far : bool) (target : Z -> Z -> nat) (tb tb' : table) : Prop :=
  where_is tb tb' /\ range_compress (length (t_entries tb)) as_far (target (t_x tb) (t_y tb)) (t_entries tb) = Ok (t_entries tb').

Lemma ranged_each : forall as_far target accept_overflow ts out, range_compressor as_far target accept_overflow ts = Ok out ->
  Forall2 (ranged as_far target) ts out.
Proof.
  intros as_far target accept_overflow ts out H. unfold range_compressor in H.
  enough (G : exists l, out = [] ++ l /\ Forall2 (ranged as_far target) ts l) by (destruct G as [l [-> G]]; exact G).
  revert H. generalize (@nil table). revert out. induction ts as [|tb ts IH]; intros out done H; cbn [foldM] in H.
  - injection H as <-. exists []. rewrite app_nil_r. split; [reflexivity | constructor].
  - destruct (bind_Ok_inv _ _ _ H) as [done' [H1 H2]]. clear H. destruct (bind_Ok_inv _ _ _ H1) as [new [R H3]]. clear H1.
    destruct (Nat.ltb _ _ && _)%bool; [discriminate|]. unfold add_table in H3. destruct (existsb _ done); [discriminate|]. injection H3 as <-.
    destruct (IH _ _ H2) as [l [-> L]]. eexists. rewrite <- app_assoc. split; [reflexivity|]. constructor; [|exact L].
    split; [split; reflexivity | exact R].
Qed.

Lemma both_compressed : forall as_far target' overflow' target (as_needed accept_overflow : bool) ts mid out, Forall fine_table ts ->
  Forall block_table ts ->
  range_compressor as_far target' overflow' ts = Ok mid ->
  compress_tables (fun t => oc_compress_table (t_entries t) (if as_needed then Some (target (t_x t) (t_y t)) else None))
    target as_needed true accept_overflow mid [] = Ok out ->
  Forall2 (fun tb tb' => where_is tb tb' /\ compressed true tb tb') ts out.
Proof.
  intros as_far target' overflow' target as_needed accept_overflow ts mid out FI BL RC C.
  apply ranged_each in RC. destruct (driver_spec _ _ _ _ _ _ _ C) as [F _]. clear C.
  revert FI BL out F. induction RC as [|tb tm ts mid [[X Y] R] RC IH]; intros FI BL out F; inversion_clear F as [|? to ? out' (X' & Y' & D) F'].
  - constructor.
  - inversion_clear FI as [|? ? [E O] FI']. inversion_clear BL as [|? ? B BL']. constructor; [|exact (IH FI' BL' _ F')].
    split; [split; congruence|]. intros o k I K M. destruct D as [(_ & _ & ->) | D].
    + left. exact (range_preserves _ _ _ _ _ E O R o k I K M).
    + cbn beta in D. destruct (range_then_cover _ _ _ _ _ _ _ E O B R D o k I K M) as [(o' & A1 & A2 & _)|[A1 A2]].
      * left. exists o'. auto.
      * right. auto.
Qed.

Lemma range_covering : forall entry_eq flexible i vs ps extra e infos ts as_far target' overflow' mid target (as_needed accept_overflow : bool) out,
  graph_ok i vs ps -> user_keys_ok flexible i vs ps extra e ->
  (forall x, user_key e (keyed_parts i vs ps extra) x -> block (km_mask x)) ->
  make_tables false entry_eq flexible i vs ps extra e = Ok (infos, ts) ->
  range_compressor as_far target' overflow' ts = Ok mid ->
  compress_tables (fun t => oc_compress_table (t_entries t) (if as_needed then Some (target (t_x t) (t_y t)) else None))
    target as_needed true accept_overflow mid [] = Ok out ->
  exact_delivery i vs ps infos out.
Proof.
  intros entry_eq flexible i vs ps extra e infos ts as_far target' overflow' mid target as_needed accept_overflow out GO UO U H RC C.
  destruct (chain_split _ _ _ _ _ _ _ _ _ _ H) as [t [R [A G]]].
  assert (GK : good_keys false i vs ps t infos) by (refine (user_good _ _ _ _ _ _ _ _ _ GO UO _ R A); discriminate). destruct GK as [KT KW].
  destruct (made_holds false i vs ps t infos entry_eq R KT ts G) as [_ [FI HO]].
  apply (keeps_delivers i vs ps t infos out GO R KW).
  apply (compressed_keeps _ true infos t ts out HO); [reflexivity|].
  refine (both_compressed _ _ _ _ _ _ _ _ _ FI _ RC C).
  eapply Forall_impl; [|exact (made_blocks _ _ _ _ _ _ _ _ _ _ H U)]. intros tb [X _]. exact X.
Qed.

Lemma range_covering_merged : forall entry_eq flexible i vs ps extra e infos ts t as_far target' overflow' mid target (as_needed accept_overflow : bool) out,
  graph_ok i vs ps -> user_keys_ok flexible i vs ps extra e -> mergeable flexible e (is_routed i vs ps) ->
  (forall x, user_key e (keyed_parts i vs ps extra) x -> block (km_mask x)) ->
  make_tables true entry_eq flexible i vs ps extra e = Ok (infos, ts) ->
  route_application_graph i vs ps = Ok t -> flags_agree i t ->
  range_compressor as_far target' overflow' ts = Ok mid ->
  compress_tables (fun t => oc_compress_table (t_entries t) (if as_needed then Some (target (t_x t) (t_y t)) else None))
    target as_needed true accept_overflow mid [] = Ok out ->
  exact_delivery i vs ps infos out.
Proof.
  intros entry_eq flexible i vs ps extra e infos ts t as_far target' overflow' mid target as_needed accept_overflow out GO UO MG U H R AG RC C.
  destruct (chain_split _ _ _ _ _ _ _ _ _ _ H) as [t' [R' [A G]]]. assert (t' = t) by congruence. subst t'. clear R'.
  destruct (user_good _ _ _ _ _ _ _ _ _ GO UO (fun _ => MG) R A : good_keys true i vs ps t infos) as [KT KW].
  destruct (merged_holds i vs ps t infos entry_eq R KT AG ts G) as [FI HO].
  apply (keeps_delivers i vs ps t infos out GO R KW).
  apply (compressed_keeps _ true infos t ts out HO); [reflexivity|].
  refine (both_compressed _ _ _ _ _ _ _ _ _ FI _ RC C).
  eapply Forall_impl; [|exact (made_blocks _ _ _ _ _ _ _ _ _ _ H U)]. intros tb [X _]. exact X.
Qed.
