(** Properties of the mapping of whole graphs in which keys are fixed by the user, as
    those of devices are. *)
From Coq Require Import List Arith NArith ZArith QArith Bool Lia Permutation.
From Verif Require Import Base Dict PlacementsModel PlacementsProofs PlacerModel PlacerProofs PlacerFinal PlacerProps.
From Verif Require Import RouteSpec KeyMask AllocModel AllocProofs KeyOrder TablesModel TablesProofs GenModel GenProofs GenProps
  PairModel RangeModel OrderedModel
  TreeModel TreeProofs MachModel LdfModel LdfProofs PathModel PathProofs PathProps
  RPartModel RPartProofs BfsModel BfsProofs TargetsModel TargetsProofs ConvModel ConvProofs RouterModel RouterProofs RouterTables RouterPlan RouterFinal
  RouterSuccess RouterProps ChainModel ChainProofs ChainProps MapModel MapProofs MapProps FixProofs FixChain FixProps FixMap.
Import ListNotations.
Local Open Scope nat_scope.

(** C140: the keys that are fixed are used. *)
Theorem C140_key_used : forall merged flexible entry_eq i l vs ps extra e p infos ts, map_ok i l vs ps -> map_user_keys flexible i ps extra e ->
  map_graph merged entry_eq flexible i vs ps extra e = Ok (p, infos, ts) ->
  forall pt v y, In pt ps -> In v (mi_out i (ap_pre pt)) -> ae_app_fixed e (ap_pre pt) (ap_id pt) <> None ->
  Some y = match ae_mac_fixed e (ap_pre pt) v (ap_id pt) with Some y => Some y | None => ae_app_fixed e (ap_pre pt) (ap_id pt) end ->
  exists j, get_info infos (AllocModel.Mac v) (ap_id pt) = Ok j /\ i_km j = y.
Proof.
  intros merged flexible entry_eq i l vs ps extra e p infos ts OK MU H pt v y P V F E. apply (fix_map_key _ _ _ _ _ _ _ _ _ _ _ _ OK MU H pt v y P V).
  unfold mac_key. destruct (ae_app_fixed e (ap_pre pt) (ap_id pt)) as [x|]; [|contradiction]. destruct (ae_mac_fixed e (ap_pre pt) v (ap_id pt)); congruence.
Qed.
Print Assumptions C140_key_used.

(** C140: packets with the keys of a machine vertex, fixed or chosen, reach the cores
    on which its targets were placed and the links of target devices, and nothing
    else. *)
Theorem C140_delivered : forall merged flexible entry_eq i l vs ps extra e p infos ts, map_ok i l vs ps -> map_user_keys flexible i ps extra e ->
  (merged = true -> mergeable flexible e (sends_in ps)) ->
  map_graph merged entry_eq flexible i vs ps extra e = Ok (p, infos, ts) -> all_delivered i ps p infos ts.
Proof. exact fix_map_delivers. Qed.
Print Assumptions C140_delivered.

(** C140: and the same after each of the compressors. *)
Theorem C140_pair : forall merged flexible entry_eq i l vs ps extra e p infos ts, map_ok i l vs ps -> map_user_keys flexible i ps extra e ->
  (merged = true -> mergeable flexible e (sends_in ps)) ->
  map_graph merged entry_eq flexible i vs ps extra e = Ok (p, infos, ts) ->
  forall c_sort n_routes target as_needed ordered accept_overflow out,
  compress_tables (fun t => compress_table ordered c_sort n_routes (t_entries t)) target as_needed ordered accept_overflow ts [] = Ok out ->
  all_delivered i ps p infos out.
Proof. exact fix_map_pair. Qed.
Print Assumptions C140_pair.
Theorem C140_range : forall merged flexible entry_eq i l vs ps extra e p infos ts, map_ok i l vs ps -> map_user_keys flexible i ps extra e ->
  (merged = true -> mergeable flexible e (sends_in ps)) ->
  map_graph merged entry_eq flexible i vs ps extra e = Ok (p, infos, ts) ->
  forall as_far target accept_overflow out, range_compressor as_far target accept_overflow ts = Ok out -> all_delivered i ps p infos out.
Proof. exact fix_map_range. Qed.
Print Assumptions C140_range.
Theorem C140_covering : forall entry_eq flexible i l vs ps extra e p infos ts target (as_needed accept_overflow : bool) out,
  map_ok i l vs ps -> map_user_keys flexible i ps extra e -> map_graph false entry_eq flexible i vs ps extra e = Ok (p, infos, ts) ->
  compress_tables (fun t => oc_compress_table (t_entries t) (if as_needed then Some (target (t_x t) (t_y t)) else None))
    target as_needed true accept_overflow ts [] = Ok out ->
  all_delivered i ps p infos out.
Proof. exact fix_map_covering. Qed.
Print Assumptions C140_covering.

(** * An example *)
(** The graph of MapProps; the device sends with keys 0x1000 to 0x1FFF. *)
Definition qx_user : graph_env := mkEnv (fun a k => match a, k with 2, 7 => Some (mkKM 0x1000 0xFFFFF000) | _, _ => None end)
  (fun a _ => mi_out qx a) (fun _ _ _ => None) (fun _ _ => 16%N) N.of_nat N.of_nat (fun a => N.of_nat (length (a_vertices (qx_av a)))).
Lemma qx_sends : forall a k, sends_in qx_parts a k -> In (a, k) [(0, 7); (0, 8); (1, 7); (2, 7)].
Proof. intros a k [pt [P [-> ->]]]. each P; cbn; tauto. Qed.
Example ex_map_user : map_user_keys true qx qx_parts [] qx_user /\ mergeable true qx_user (sends_in qx_parts).
Proof.
  split; [constructor|].
  - reflexivity.
  - intros pt P _. right. each P; eexists; (split; [left; reflexivity | reflexivity]).
  - intros a k I F. cases I; discriminate.
  - constructor.
    + auto.
    + intros a p x H E. apply qx_sends in H. cases H; cbn in E; try discriminate E; injection E as <-; words.
    + intros a p m y H M E. apply qx_sends in H. cases H; each M; cbn in E; try discriminate E; injection E as <-; words.
    + intros a p x m y k H E M Y _. apply qx_sends in H. cases H; cbn in E; try discriminate E; injection E as <-; each M; cbn in Y; injection Y as <-;
        apply within_by; reflexivity.
    + intros a p x b q y H H' E E' NE. apply qx_sends in H. apply qx_sends in H'. cases H; cases H'; cbn in E, E'; try discriminate E; try discriminate E';
        destruct NE; reflexivity.
    + intros a p m n y z H M N NE E E'. apply qx_sends in H. cases H; each M; each N; try (destruct NE; reflexivity); cbn in E, E'; discriminate E.
  - intros a p H F. apply qx_sends in H. cases H; try (destruct F; reflexivity).
    left. intros m y b M E B. rewrite (just_is _ _ _ _ B). each M; cbn in E; injection E as <-; vm_compute; discriminate.
Qed.
Definition qu_made (merged : bool) : placements * list info * list table :=
  ok_or (empty_placements, [], []) (map_graph merged eqe true qx [0; 1; 2] qx_parts [] qx_user).
Example ex_map_user_runs : forall merged, map_graph merged eqe true qx [0; 1; 2] qx_parts [] qx_user = Ok (qu_made merged).
Proof. intros []; vm_compute; reflexivity. Qed.
(** A packet of the device with key 0x1234, coming in at link 4 of chip (0, 0),
    reaches machine vertex 13 on chip (1, 1). *)
Example ex_map_user_arrives : arrives quad (snd (qu_made true)) 0x1234 (0, 0)%Z (Some 4) (1, 1)%Z (OnCore 2).
Proof.
  assert (RUN : map_graph true eqe true qx [0; 1; 2] qx_parts [] qx_user = Ok (fst (fst (qu_made true)), snd (fst (qu_made true)), snd (qu_made true))).
  { rewrite <- !surjective_pairing. apply ex_map_user_runs. }
  assert (LAST : In (mkPart 2 7 [1]) qx_parts) by (cbn; tauto).
  destruct (C140_delivered _ _ _ _ _ _ _ _ _ _ _ _ ex_map_ok (proj1 ex_map_user) (fun _ => proj2 ex_map_user) RUN (mkPart 2 7 [1]) 50 LAST (or_introl eq_refl))
    as [home [from [j [S [J D]]]]].
  assert (H : home = (0, 0)%Z /\ from = OnLink 4) by (destruct S as [[n [S ->]]|[S _]]; [injection S as <- <-; auto | discriminate S]).
  destruct H as [-> ->]. vm_compute in J. injection J as <-.
  apply (D 0x1234%N eq_refl eq_refl). cbn; exact I. exists 1, 13. split; [left; reflexivity|]. split; [cbn; tauto|]. right. split; [reflexivity|].
  exists (mkPl 13 1 1 2). split; [vm_compute; tauto|]. repeat split.
Qed.
