(** Properties of the route validity checker on the tables that were made for a graph. *)
From Coq Require Import List Arith NArith ZArith QArith Bool Lia Permutation.
From Verif Require Import Base Dict PlacementsModel PlacementsProofs PlacerModel PlacerProofs PlacerFinal PlacerProps.
From Verif Require Import RouteSpec KeyMask AllocModel AllocProofs TablesModel TablesProofs GenModel GenProofs GenProps
  ValidModel ValidProofs PairModel PairSort RangeModel RangeProofs OrderedModel OrderedProofs
  TreeModel TreeProofs MachModel LdfModel LdfProofs PathModel PathProofs PathProps
  RPartModel RPartProofs BfsModel BfsProofs TargetsModel TargetsProofs ConvModel ConvProofs RouterModel RouterProofs RouterTables RouterPlan RouterFinal
  RouterSuccess RouterProps ChainModel ChainProofs CoverMerged ChainProps MapModel MapProofs MapProps FixProofs FixChain ValidChainModel ValidChainProofs.
Import ListNotations.
Local Open Scope nat_scope.

(** C180: validate_routes accepts the tables of either generator exactly when every
    vertex that receives something is on a core, and no chip that packets of a source
    come to has a contiguous entry whose key is the one after the keys of its atoms. *)
Theorem C180_exact : forall merged entry_eq flexible i vs ps extra e infos ts atoms, graph_ok i vs ps -> keys_ok i vs ps extra e ->
  (forall pt, routed_part i vs ps pt -> unmixed i pt) ->
  (forall pt v n, routed_part i vs ps pt -> In v (ri_out i (ap_pre pt) (ap_id pt)) -> snd (ri_at i v) = OnCore n ->
     1 <= atoms v /\ (N.of_nat (atoms v) <= ae_n_keys e v (ap_id pt))%N) ->
  make_tables merged entry_eq flexible i vs ps extra e = Ok (infos, ts) ->
  (validate i vs ps atoms infos ts = Ok tt <->
   ((forall pt target x, routed_part i vs ps pt -> In target (ap_posts pt) -> In x (ri_in i target (ap_pre pt) (ap_id pt)) ->
       exists n, snd (ri_at i (fst x)) = OnCore n) /\
    (forall pt ip w, routed_part i vs ps pt -> In ip (ri_internal i (ap_pre pt)) -> in_id ip = ap_id pt -> In w (in_posts ip) ->
       exists n, snd (ri_at i w) = OnCore n)) /\
   (forall pt v n j q inn tb o, routed_part i vs ps pt -> In v (ri_out i (ap_pre pt) (ap_id pt)) -> snd (ri_at i v) = OnCore n ->
      get_info infos (AllocModel.Mac v) (ap_id pt) = Ok j ->
      flies (ri_mach i) ts (km_key (i_km j)) (RouterModel.chip_of i v) None q inn ->
      get_table ts (fst q) (snd q) = Some tb -> In o (t_entries tb) -> contiguous o ->
      e_key o <> (km_key (i_km j) + N.of_nat (atoms v))%N)).
Proof. exact chain_checked. Qed.
Print Assumptions C180_exact.

(** C180: the same when the user has fixed keys, if the keys of the atoms match the
    key and mask of the source. *)
Theorem C180_fixed_keys : forall merged entry_eq flexible i vs ps extra e infos ts atoms, graph_ok i vs ps -> user_keys_ok flexible i vs ps extra e ->
  (merged = true -> mergeable flexible e (is_routed i vs ps)) -> (forall pt, routed_part i vs ps pt -> unmixed i pt) ->
  make_tables merged entry_eq flexible i vs ps extra e = Ok (infos, ts) ->
  (forall pt v n j, routed_part i vs ps pt -> In v (ri_out i (ap_pre pt) (ap_id pt)) -> snd (ri_at i v) = OnCore n ->
     get_info infos (AllocModel.Mac v) (ap_id pt) = Ok j -> 1 <= atoms v /\ (km_key (i_km j) + N.of_nat (atoms v) <= 2 ^ 32)%N /\
     forall x, x < atoms v -> km_matches (km_key (i_km j) + N.of_nat x) (i_km j)) ->
  (validate i vs ps atoms infos ts = Ok tt <-> all_placed i vs ps /\ no_entry_after i vs ps atoms infos ts).
Proof. exact user_checked. Qed.
Print Assumptions C180_fixed_keys.

(** C180: so they are accepted when no device receives anything and every source asks
    for more keys than it has atoms. *)
Theorem C180_spare : forall merged entry_eq flexible i vs ps extra e infos ts atoms, graph_ok i vs ps -> keys_ok i vs ps extra e ->
  (forall pt, routed_part i vs ps pt -> unmixed i pt) -> all_placed i vs ps ->
  (forall pt v n, routed_part i vs ps pt -> In v (ri_out i (ap_pre pt) (ap_id pt)) -> snd (ri_at i v) = OnCore n ->
     1 <= atoms v /\ (N.of_nat (atoms v) < ae_n_keys e v (ap_id pt))%N) ->
  make_tables merged entry_eq flexible i vs ps extra e = Ok (infos, ts) -> validate i vs ps atoms infos ts = Ok tt.
Proof. exact chain_spare. Qed.
Print Assumptions C180_spare.

(** C180: a graph that was mapped, from the placer on, with more keys than atoms: it is
    accepted exactly when no partition has a target with a device that receives. *)
Lemma located_core : forall i p v, (exists n, snd (located i p v) = OnCore n) <-> mi_dev i v = None.
Proof.
  intros i p v. unfold located. destruct (mi_dev i v) as [[c n]|]; cbn [snd].
  - split; [intros [n' H]|]; discriminate.
  - split; [reflexivity|]. intros _. destruct (dget Nat.eqb (ps_verts p) v); cbn [snd]; eauto.
Qed.
Theorem C180_mapped : forall merged entry_eq flexible i l vs ps extra e p infos ts atoms, map_ok i l vs ps -> map_keys i ps extra e ->
  map_graph merged entry_eq flexible i vs ps extra e = Ok (p, infos, ts) ->
  (forall pt v, In pt ps -> In v (mi_out i (ap_pre pt)) -> mi_dev i v = None -> 1 <= atoms v /\ (N.of_nat (atoms v) < ae_n_keys e v (ap_id pt))%N) ->
  (validate (router_input i p) vs ps atoms infos ts = Ok tt <->
   forall pt a w, In pt ps -> In a (ap_posts pt) -> In w (mi_in i a) -> mi_dev i w = None).
Proof.
  intros merged entry_eq flexible i l vs ps extra e p infos ts atoms OK MK H AT. apply map_split in H. destruct H as [PL H].
  pose proof (mapped_graph i l vs ps p OK PL) as GO. pose proof (mapped_keys i l vs ps extra e p OK MK) as KO.
  assert (UN : forall pt, routed_part (router_input i p) vs ps pt -> unmixed (router_input i p) pt) by (intros pt _; apply mapped_unmixed).
  assert (AT' : forall pt v n, routed_part (router_input i p) vs ps pt -> In v (ri_out (router_input i p) (ap_pre pt) (ap_id pt)) ->
    snd (ri_at (router_input i p) v) = OnCore n -> 1 <= atoms v /\ (N.of_nat (atoms v) < ae_n_keys e v (ap_id pt))%N).
  { intros pt v n RP V C. apply routed_in in RP. apply (AT pt v RP V). apply (located_core i p v). exists n. exact C. }
  split.
  - intros V pt a w P A W. apply (located_core i p w).
    assert (AT2 : forall pt v n, routed_part (router_input i p) vs ps pt -> In v (ri_out (router_input i p) (ap_pre pt) (ap_id pt)) ->
      snd (ri_at (router_input i p) v) = OnCore n -> 1 <= atoms v /\ (N.of_nat (atoms v) <= ae_n_keys e v (ap_id pt))%N).
    { intros pt' v n RP V' C. destruct (AT' pt' v n RP V' C). split; [assumption | lia]. }
    destruct (proj1 (chain_checked _ _ _ _ _ _ _ _ _ _ _ GO KO UN AT2 H) V) as [[X _] _].
    apply (X pt a (w, [RPartModel.App (ap_pre pt)]) (or_introl P) A). cbn [router_input ri_in].
    apply (in_map (fun v => (v, [RPartModel.App (ap_pre pt)]))). exact W.
  - intros D. refine (chain_spare _ _ _ _ _ _ _ _ _ _ _ GO KO UN _ AT' H). split.
    + intros pt target x RP T X. apply routed_in in RP. cbn [router_input ri_in] in X. apply in_map_iff in X. destruct X as (w & <- & X).
      apply (located_core i p w). exact (D pt target w RP T X).
    + intros pt ip w _ [].
Qed.
Print Assumptions C180_mapped.

(** * Examples *)
(** The graph of RouterProps without its device: accepted with 15 atoms to each block
    of 16 keys. *)
Definition vx_parts : list apart := [mkPart 0 7 [10]; mkPart 0 8 [0; 10]; mkPart 10 7 [0]].
Definition vx_made (merged : bool) (ps : list apart) : list info * list table :=
  ok_or ([], []) (make_tables merged eqe true rx [0; 10; 20] ps [] (env_of rx 16)).
Lemma vx_runs : forall merged, make_tables merged eqe true rx [0; 10; 20] vx_parts [] (env_of rx 16) = Ok (vx_made merged vx_parts).
Proof. intros []; vm_compute; reflexivity. Qed.
Lemma vx_routed : forall pt, routed_part rx [0; 10; 20] vx_parts pt -> In pt (mkPart 10 9 [] :: vx_parts).
Proof.
  intros pt [H|[_ [v [ip [V [I ->]]]]]]; [right; exact H|]. left.
  destruct V as [<-|[<-|[<-|[]]]]; cbn in I; try contradiction. destruct I as [<-|[]]. reflexivity.
Qed.
Lemma vx_graph : graph_ok rx [0; 10; 20] vx_parts.
Proof.
  constructor.
  - exact ex_router_input.
  - cbn. repeat constructor; cbn; intuition discriminate.
  - intros pt H. apply vx_routed in H. destruct H as [<-|[<-|[<-|[<-|[]]]]]; constructor; cbn; try (intros v H; exists v; tauto); try solve [intros ip []];
      try solve [intros target x src []]; try (intros ip [<-|[]]; (discriminate || (intros _; reflexivity)));
      try (intros target x src T X S; each T; each X; each S; first [left; reflexivity | right; eexists; split; reflexivity]).
Qed.
Lemma vx_keys : keys_ok rx [0; 10; 20] vx_parts [] (env_of rx 16).
Proof.
  apply env_of_ok; [reflexivity| |].
  - intros pt target x v RP. apply vx_routed in RP. destruct RP as [<-|[<-|[<-|[<-|[]]]]]; cbn; intros T X S; each T; each X; each S;
      try discriminate S; injection S as <-; cbn; tauto.
  - intros pt ip RP. apply vx_routed in RP. destruct RP as [<-|[<-|[<-|[<-|[]]]]]; cbn; intros T E; each T; cbn; tauto.
Qed.
Lemma vx_unmixed : forall pt, routed_part rx [0; 10; 20] vx_parts pt -> unmixed rx pt.
Proof.
  intros pt RP. apply vx_routed in RP. intros t1 x1 t2 x2 w T1 X1 A1 T2 X2 A2 E.
  destruct RP as [<-|[<-|[<-|[<-|[]]]]]; each T1; each X1; each A1; try discriminate A1; each T2; each X2; each A2; try discriminate A2; try discriminate E.
Qed.
Example C180_spare_example : all_placed rx [0; 10; 20] vx_parts /\
  (forall merged, validate rx [0; 10; 20] vx_parts (fun _ => 15) (fst (vx_made merged vx_parts)) (snd (vx_made merged vx_parts)) = Ok tt) /\
  sizes (snd (vx_made true vx_parts)) = [4; 6; 4; 4].
Proof.
  assert (AP : all_placed rx [0; 10; 20] vx_parts).
  { split.
    - intros pt target x RP T X. apply vx_routed in RP. destruct RP as [<-|[<-|[<-|[<-|[]]]]]; each T; each X; cbn; eauto.
    - intros pt ip w RP I E W. apply vx_routed in RP. destruct RP as [<-|[<-|[<-|[<-|[]]]]]; each I; each W; cbn; eauto. }
  split; [exact AP|]. split; [|vm_compute; reflexivity].
  intros merged. apply (C180_spare merged eqe true rx [0; 10; 20] vx_parts [] (env_of rx 16) _ _ _ vx_graph vx_keys vx_unmixed AP).
  - intros pt v n _ _ _. cbn. lia.
  - rewrite <- surjective_pairing. apply vx_runs.
Qed.

(** A mapped graph with a device that only sends. *)
Definition wx_parts : list apart := [mkPart 0 7 [1; 0]; mkPart 1 7 [0]; mkPart 2 7 [1]].
Definition wx_made (merged : bool) : placements * list info * list table :=
  ok_or (empty_placements, [], []) (map_graph merged eqe true qx [0; 1; 2] wx_parts [] qx_keys).
Example C180_mapped_example : forall merged,
  map_graph merged eqe true qx [0; 1; 2] wx_parts [] qx_keys = Ok (wx_made merged) /\
  validate (router_input qx (fst (fst (wx_made merged)))) [0; 1; 2] wx_parts (fun _ => 15) (snd (fst (wx_made merged))) (snd (wx_made merged)) = Ok tt /\
  validate (router_input qx (fst (fst (qx_made merged)))) [0; 1; 2] qx_parts (fun _ => 15) (snd (fst (qx_made merged))) (snd (qx_made merged)) = Err NotPlaced.
Proof. intros []; (split; [vm_compute; reflexivity|]; split; vm_compute; reflexivity). Qed.
Example C180_mapped_hypotheses : map_ok qx xmon [0; 1; 2] wx_parts /\ map_keys qx wx_parts [] qx_keys /\
  (forall pt a w, In pt wx_parts -> In a (ap_posts pt) -> In w (mi_in qx a) -> mi_dev qx w = None).
Proof.
  destruct ex_map_ok as [A B C D E F G H I J]. split; [|split].
  - constructor; auto.
    + cbn. repeat constructor; cbn; intuition congruence.
    + intros pt P. each P; (split; [cbn; tauto|]); (split; [discriminate|]); (split; [discriminate|]); intros a K; each K; (split; [cbn; tauto | discriminate]).
  - constructor; try reflexivity.
    + intros pt P. right. each P; eexists; (split; [left; reflexivity | reflexivity]).
    + intros a k [].
  - intros pt a w P K W. each P; each K; each W; reflexivity.
Qed.

(** * What fails *)
Lemma made_delivers : forall merged entry_eq flexible i vs ps extra e infos ts, graph_ok i vs ps -> keys_ok i vs ps extra e ->
  make_tables merged entry_eq flexible i vs ps extra e = Ok (infos, ts) -> exact_delivery i vs ps infos ts.
Proof.
  intros merged entry_eq flexible i vs ps extra e infos ts GO KO R. destruct (chain_split _ _ _ _ _ _ _ _ _ _ R) as [t [RT [A _]]].
  destruct (chain_delivers merged entry_eq flexible _ _ _ _ _ _ _ GO KO RT A) as [ts' [R' D]]. rewrite R in R'. injection R' as <-. exact D.
Qed.
(** C181: not every graph whose packets all arrive is accepted. When a device is the
    target of an edge, get_placement_of_vertex raises PacmanNotPlacedError. *)
Theorem C181_device_refuted : exists i vs ps extra e infos ts atoms, graph_ok i vs ps /\ keys_ok i vs ps extra e /\
  (forall pt, routed_part i vs ps pt -> unmixed i pt) /\
  (forall v, 1 <= atoms v) /\ (forall v k, (N.of_nat (atoms v) < ae_n_keys e v k)%N) /\
  make_tables true eqe true i vs ps extra e = Ok (infos, ts) /\ exact_delivery i vs ps infos ts /\
  validate i vs ps atoms infos ts = Err NotPlaced.
Proof.
  exists rx, [0; 10; 20], rx_parts, [], (env_of rx 16), (fst (rx_made true)), (snd (rx_made true)), (fun _ => 15).
  assert (R : make_tables true eqe true rx [0; 10; 20] rx_parts [] (env_of rx 16) = Ok (fst (rx_made true), snd (rx_made true)))
    by (rewrite <- surjective_pairing; apply ex_chain_runs).
  split; [exact ex_router_graph|]. split; [exact ex_chain_keys|]. split.
  { intros pt RP. apply rx_routed in RP. intros t1 x1 t2 x2 w T1 X1 A1 T2 X2 A2 E.
    destruct RP as [<-|[<-|[<-|[<-|[]]]]]; each T1; each X1; each A1; try discriminate A1; each T2; each X2; each A2; try discriminate A2; try discriminate E. }
  split; [intros _; lia|]. split; [intros v k; cbn; lia|]. split; [exact R|]. split; [|vm_compute; reflexivity].
  exact (made_delivers _ _ _ _ _ _ _ _ _ _ ex_router_graph ex_chain_keys R).
Qed.
Print Assumptions C181_device_refuted.

(** C181: nor when the atoms use all the keys of their blocks. *)
Theorem C181_full_block_refuted : exists i vs ps extra e infos ts atoms, graph_ok i vs ps /\ keys_ok i vs ps extra e /\
  (forall pt, routed_part i vs ps pt -> unmixed i pt) /\ all_placed i vs ps /\
  (forall v, 1 <= atoms v) /\ (forall v k, N.of_nat (atoms v) = ae_n_keys e v k) /\
  make_tables true eqe true i vs ps extra e = Ok (infos, ts) /\ exact_delivery i vs ps infos ts /\
  validate i vs ps atoms infos ts = Err ConfigurationException.
Proof.
  exists rx, [0; 10; 20], vx_parts, [], (env_of rx 16), (fst (vx_made true vx_parts)), (snd (vx_made true vx_parts)), (fun _ => 16).
  assert (R : make_tables true eqe true rx [0; 10; 20] vx_parts [] (env_of rx 16) = Ok (fst (vx_made true vx_parts), snd (vx_made true vx_parts)))
    by (rewrite <- surjective_pairing; apply vx_runs).
  split; [exact vx_graph|]. split; [exact vx_keys|]. split; [exact vx_unmixed|]. split; [exact (proj1 C180_spare_example)|].
  split; [intros _; lia|]. split; [intros v k; reflexivity|]. split; [exact R|]. split; [|vm_compute; reflexivity].
  exact (made_delivers _ _ _ _ _ _ _ _ _ _ vx_graph vx_keys R).
Qed.
Print Assumptions C181_full_block_refuted.
