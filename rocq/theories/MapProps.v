(** Properties of the mapping of whole graphs: the placer, the router, the keys and
    the tables together. *)
From Coq Require Import List Arith NArith ZArith QArith Bool Lia Permutation.
From Verif Require Import Base Dict PlacementsModel PlacementsProofs PlacerModel PlacerProofs PlacerFinal PlacerProps.
From Verif Require Import RouteSpec KeyMask AllocModel AllocProofs TablesModel TablesProofs GenModel GenProofs GenProps
  PairModel RangeModel OrderedModel
  TreeModel TreeProofs MachModel LdfModel LdfProofs PathModel PathProofs PathProps
  RPartModel RPartProofs BfsModel BfsProofs TargetsModel TargetsProofs ConvModel ConvProofs RouterModel RouterProofs RouterTables RouterPlan RouterFinal
  RouterSuccess RouterProps ChainModel ChainProofs ChainProps MapModel MapProofs.
Import ListNotations.
Local Open Scope nat_scope.

(** C130: when the placer finds room for the graph on a connected machine and the
    partitions fit into 32 bits, routes, keys and tables are made. *)
Theorem C130_succeeds : forall merged entry_eq flexible i l vs ps extra e p, map_ok i l vs ps -> map_keys i ps extra e ->
  connected (mi_mach i) -> (forall a, NoDup (mi_out i a)) ->
  let parts := map (fun p => (ap_pre p, ap_id p)) ps ++ extra in
  no_fixed e parts -> fields_fit e parts -> (forall a k, In (a, k) extra -> mi_out i a <> [] -> counted e a k) ->
  place_graph (mi_env i) (mi_sys i) (map (mi_av i) vs) = Ok p ->
  exists infos ts, map_graph merged entry_eq flexible i vs ps extra e = Ok (p, infos, ts).
Proof. exact map_succeeds. Qed.
Print Assumptions C130_succeeds.

(** C131: in the tables, packets reach the cores on which the targets were placed and
    the links of target devices, and nothing else. *)
Theorem C131_delivered : forall merged entry_eq flexible i l vs ps extra e p infos ts, map_ok i l vs ps -> map_keys i ps extra e ->
  map_graph merged entry_eq flexible i vs ps extra e = Ok (p, infos, ts) -> all_delivered i ps p infos ts.
Proof. exact map_delivers. Qed.
Print Assumptions C131_delivered.

(** C131: so a placed machine vertex gets a packet exactly when it is one of the
    incoming vertices of a target of the partition. *)
Theorem C131_only_targets : forall merged entry_eq flexible i l vs ps extra e p infos ts, map_ok i l vs ps -> map_keys i ps extra e ->
  map_graph merged entry_eq flexible i vs ps extra e = Ok (p, infos, ts) ->
  forall pt v, In pt ps -> In v (mi_out i (ap_pre pt)) ->
  exists home from j, sits i p v home from /\ get_info infos (AllocModel.Mac v) (ap_id pt) = Ok j /\
    forall key x, (key < 2 ^ 32)%N -> km_matches key (i_km j) -> In x (abs p) -> mi_dev i (pl_v x) = None ->
      (arrives (mi_mach i) ts key home (link_of from) (zxy (pl_x x, pl_y x)) (OnCore (pl_p x)) <->
       exists a, In a (ap_posts pt) /\ In (pl_v x) (mi_in i a)).
Proof.
  intros merged entry_eq flexible i l vs ps extra e p infos ts OK MK H.
  exact (delivered_placed i ps p infos ts (map_placed _ _ _ _ _ _ _ _ _ _ _ _ OK H) (map_delivers _ _ _ _ _ _ _ _ _ _ _ _ OK MK H)).
Qed.
Print Assumptions C131_only_targets.

(** C131: and the same after each of the compressors. *)
Theorem C131_pair : forall merged entry_eq flexible i l vs ps extra e p infos ts c_sort n_routes target as_needed ordered accept_overflow out,
  map_ok i l vs ps -> map_keys i ps extra e -> map_graph merged entry_eq flexible i vs ps extra e = Ok (p, infos, ts) ->
  compress_tables (fun t => compress_table ordered c_sort n_routes (t_entries t)) target as_needed ordered accept_overflow ts [] = Ok out ->
  all_delivered i ps p infos out.
Proof. exact map_pair. Qed.
Print Assumptions C131_pair.
Theorem C131_range : forall merged entry_eq flexible i l vs ps extra e p infos ts as_far target accept_overflow out,
  map_ok i l vs ps -> map_keys i ps extra e -> map_graph merged entry_eq flexible i vs ps extra e = Ok (p, infos, ts) ->
  range_compressor as_far target accept_overflow ts = Ok out -> all_delivered i ps p infos out.
Proof. exact map_range. Qed.
Print Assumptions C131_range.
Theorem C131_covering : forall entry_eq flexible i l vs ps extra e p infos ts target (as_needed accept_overflow : bool) out,
  map_ok i l vs ps -> map_keys i ps extra e -> map_graph false entry_eq flexible i vs ps extra e = Ok (p, infos, ts) ->
  compress_tables (fun t => oc_compress_table (t_entries t) (if as_needed then Some (target (t_x t) (t_y t)) else None))
    target as_needed true accept_overflow ts [] = Ok out ->
  all_delivered i ps p infos out.
Proof. exact map_covering. Qed.
Print Assumptions C131_covering.

(** * An example *)
(** The four chips of PlacerProps, without diagonal links. Vertices 0 and 1 are placed
    on them, vertex 2 is a device behind link 4 of the first chip: it sends as
    machine vertex 50 and receives as machine vertex 51. *)
Definition quad : MachModel.machine := MachModel.mkMachine 2 2 false false [(0, 0); (1, 0); (0, 1); (1, 1)]%Z
  [((0, 0)%Z, 0); ((0, 0)%Z, 2); ((1, 0)%Z, 2); ((1, 0)%Z, 3); ((0, 1)%Z, 0); ((0, 1)%Z, 5); ((1, 1)%Z, 3); ((1, 1)%Z, 5)].
Definition qx_av (a : nat) : appv :=
  match a with
  | 0 => PlacerModel.mkApp None [10; 11; 12] [([10; 11], xq 21); ([12], xq 12)]
  | 1 => PlacerModel.mkApp None [13; 14; 15; 16] [([16; 15], xq 31); ([13], xq 13); ([14], xq 14)]
  | 2 => PlacerModel.mkApp None [50; 51] [([50], xq 0); ([51], xq 0)]
  | _ => PlacerModel.mkApp None [] []
  end.
Definition qx_app (v : nat) : option nat :=
  match v with 10 | 11 | 12 => Some 0 | 13 | 14 | 15 | 16 => Some 1 | 50 | 51 => Some 2 | _ => None end.
Definition qx : mapin := mkMapIn xenv xsys qx_av qx_app
  (fun v => match v with 50 | 51 => Some ((0, 0)%Z, 4) | _ => None end)
  (fun a => match a with 2 => [50] | _ => a_vertices (qx_av a) end)
  (fun a => match a with 2 => [51] | _ => a_vertices (qx_av a) end) quad plain_vec (fun l => l).
Definition qx_parts : list apart := [mkPart 0 7 [1; 0]; mkPart 0 8 [2]; mkPart 1 7 [0; 2]; mkPart 2 7 [1]].
Definition qx_keys : graph_env := mkEnv (fun _ _ => None) (fun a _ => mi_out qx a) (fun _ _ _ => None) (fun _ _ => 16%N) N.of_nat N.of_nat
  (fun a => N.of_nat (length (a_vertices (qx_av a)))).
Lemma quad_chip : forall p, is_chip quad p = true -> In p [(0, 0); (1, 0); (0, 1); (1, 1)]%Z.
Proof.
  intros p H. unfold is_chip in H. apply existsb_exists in H. destruct H as [q [I E]]. apply xy_eqb_eq in E. subst q. exact I.
Qed.
Lemma xlinked : forall a b, PlacerProofs.linked xenv a b ->
  In (a, b) [((0, 0), (1, 0)); ((0, 0), (0, 1)); ((1, 0), (0, 0)); ((1, 0), (1, 1)); ((0, 1), (1, 1)); ((0, 1), (0, 0)); ((1, 1), (0, 1)); ((1, 1), (1, 0))].
Proof.
  intros a b (c & C & I). cbn in C. destruct a as [x y]. destruct x as [|[|x]], y as [|[|y]]; try discriminate C; injection C as <-;
    cbn in I; destruct I as [<-|[<-|[]]]; cbn; tauto.
Qed.
Lemma qx_machines : machines_ok qx.
Proof.
  constructor.
  - intros c d C. cbn in C. destruct c as [x y]. destruct x as [|[|x]], y as [|[|y]]; try discriminate C; reflexivity.
  - intros a b L _. apply xlinked in L. cbn [qx mi_mach]. revert L. generalize a, b. clear. intros a b L.
    cbn [In] in L. decompose [or] L; clear L; try contradiction;
      match goal with H : _ = (a, b) |- _ => injection H as <- <- end;
      (exists 0; repeat split; cbn; lia) || (exists 2; repeat split; cbn; lia) || (exists 3; repeat split; cbn; lia) || (exists 5; repeat split; cbn; lia).
  - intros p n q P W. apply quad_chip in P. destruct W as [W1 [W2 [W3 W4]]]. cbn [fst snd] in *.
    exists ((n + 3) mod 6). assert (N : In n [0; 1; 2; 3; 4; 5]) by (cbn; lia).
    rewrite W3. each P; each N; try discriminate W2; repeat split; cbn; lia.
  - reflexivity.
  - intros p P. apply quad_chip in P. unfold inside. each P; cbn; lia.
  - intros p q P Q. apply quad_chip in P, Q. each P; each Q; reflexivity.
  - intros p q l P Q. apply quad_chip in P, Q. intros H. apply no_repeat_no_return, nodup_b_spec.
    each P; each Q; revert H; vm_compute; intros X; injection X as <-; reflexivity.
  - intros l. apply Permutation_refl.
Qed.
Example ex_map_ok : map_ok qx xmon [0; 1; 2] qx_parts.
Proof.
  constructor.
  - split; [exact xwf|]. split; [exact xset | exact xmade].
  - intros pl I. each I; discriminate.
  - exact qx_machines.
  - unfold separate, all_of. cbn. repeat constructor; cbn; lia.
  - intros a v. cbn [qx mi_av mi_app]. split.
    + do 3 (destruct a as [|a]; [cbn; intuition (subst; reflexivity)|]). cbn. tauto.
    + do 52 (destruct v as [|v]; [cbn; intros H; try discriminate H; injection H as <-; cbn; tauto|]). cbn. discriminate.
  - intros v c n H. do 52 (destruct v as [|v]; [cbn in H; try discriminate H; injection H as <- <-; repeat split; lia|]). discriminate H.
  - intros a v. do 3 (destruct a as [|a]; [cbn; tauto|]). cbn. tauto.
  - assert (R : forall a, a < 2 -> on_machine qx xmon a).
    { intros a A. split; [apply has_fixed_not; do 2 (destruct a as [|a]; [reflexivity|]); lia|].
      split; [intros v; do 2 (destruct a as [|a]; [cbn; lia|]); lia|].
      split; [intros v; do 2 (destruct a as [|a]; [cbn; tauto|]); lia|].
      split; [|do 2 (destruct a as [|a]; [split; reflexivity|]); lia].
      intros v V. do 2 (destruct a as [|a]; [each V; split; reflexivity|]). lia. }
    intros a A. destruct A as [<-|[<-|[<-|[]]]]; [left; apply R; lia | left; apply R; lia|]. right. split; [|split].
    + exists (0, 0)%Z. intros v V. each V; eexists; reflexivity.
    + intros v V. cbn in *. tauto.
    + intros v V. cbn in *. tauto.
  - cbn. repeat constructor; cbn; intuition congruence.
  - intros pt P. each P; (split; [cbn; tauto|]); (split; [discriminate|]); (split; [discriminate|]); intros a A; each A; (split; [cbn; tauto | discriminate]).
Qed.
Example ex_map_keys : map_keys qx qx_parts [] qx_keys.
Proof.
  constructor; try reflexivity.
  - intros pt P. right. each P; eexists; (split; [left; reflexivity | reflexivity]).
  - intros a k [].
Qed.
Example ex_map_fits : connected quad /\ (forall a, NoDup (mi_out qx a)) /\
  no_fixed qx_keys (map (fun p => (ap_pre p, ap_id p)) qx_parts ++ []) /\ fields_fit qx_keys (map (fun p => (ap_pre p, ap_id p)) qx_parts ++ []).
Proof.
  split; [apply connected_b_spec; vm_compute; reflexivity|]. split; [|split].
  - intros a. do 3 (destruct a as [|a]; [cbn; repeat constructor; cbn; lia|]). constructor.
  - intros a k _. split; reflexivity.
  - eexists 8%N, _. split; [lia|]. split; [apply senders_set|]. split; [vm_compute; discriminate|]. intros a k I _. exists 4%N, 2%N. split; [lia|]. split; [|intros; cbn; lia].
    each I; injection I as <- <-; vm_compute; discriminate.
Qed.
Definition qx_made (merged : bool) : placements * list info * list table :=
  ok_or (empty_placements, [], []) (map_graph merged eqe true qx [0; 1; 2] qx_parts [] qx_keys).
Example ex_map_runs : forall merged, map_graph merged eqe true qx [0; 1; 2] qx_parts [] qx_keys = Ok (qx_made merged).
Proof. intros []; vm_compute; reflexivity. Qed.
(** Machine vertex 11 was placed on chip (0, 0) and its packets for partition 7 reach
    machine vertex 13 on chip (1, 1); they reach no monitor. *)
Example ex_map_placed : In (mkPl 13 1 1 2) (abs (fst (fst (qx_made true)))) /\ In (mkPl 3 1 1 1) (abs (fst (fst (qx_made true)))) /\
  sizes (snd (qx_made true)) = [5; 3; 3; 4] /\ sizes (snd (qx_made false)) = [8; 4; 6; 5].
Proof. split; [vm_compute; tauto|]. split; [vm_compute; tauto|]. split; vm_compute; reflexivity. Qed.
Example ex_map_arrives : arrives quad (snd (qx_made true)) 20 (0, 0)%Z None (1, 1)%Z (OnCore 2) /\
  ~ arrives quad (snd (qx_made true)) 20 (0, 0)%Z None (1, 1)%Z (OnCore 1).
Proof.
  assert (RUN : map_graph true eqe true qx [0; 1; 2] qx_parts [] qx_keys = Ok (fst (fst (qx_made true)), snd (fst (qx_made true)), snd (qx_made true))).
  { rewrite <- !surjective_pairing. apply ex_map_runs. }
  destruct (C131_only_targets _ _ _ _ _ _ _ _ _ _ _ _ ex_map_ok ex_map_keys RUN (mkPart 0 7 [1; 0]) 11 (or_introl eq_refl) (or_intror (or_introl eq_refl)))
    as [home [from [j [S [J D]]]]].
  assert (H : home = (0, 0)%Z /\ from = OnCore 3).
  { destruct S as [[n [S _]]|[_ [x [X1 [X2 [X3 X4]]]]]]; [discriminate S|]. vm_compute in X1.
    decompose [or] X1; clear X1; try contradiction; subst x; try discriminate X2. auto. }
  destruct H as [-> ->]. vm_compute in J. injection J as <-.
  destruct ex_map_placed as [P1 [P2 _]].
  split; [apply (D 20%N _ eq_refl eq_refl P1 eq_refl) | intros A; apply (D 20%N _ eq_refl eq_refl P2 eq_refl) in A].
  - exists 1. split; [left; reflexivity | cbn; tauto].
  - destruct A as [a [A W]]. each A; each W; discriminate W.
Qed.
