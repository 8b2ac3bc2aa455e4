(** Properties of the mapping of graphs with two dimensional devices. *)
From Coq Require Import List Arith NArith ZArith QArith Bool Lia Permutation.
From Verif Require Import Base Dict PlacementsModel PlacementsProofs PlacerModel PlacerProofs PlacerFinal PlacerProps.
From Verif Require Import RouteSpec KeyMask AllocModel AllocProofs KeyOrder TablesModel TablesProofs GenModel GenProofs GenProps
  PairModel RangeModel OrderedModel
  TreeModel TreeProofs MachModel LdfModel LdfProofs PathModel PathProofs PathProps
  RPartModel RPartProofs BfsModel BfsProofs TargetsModel TargetsProofs ConvModel ConvProofs RouterModel RouterProofs RouterTables RouterPlan RouterFinal
  RouterSuccess RouterProps ChainModel ChainProofs ChainProps MapModel MapProofs MapProps FixProofs FixChain FixProps FixMap.
From Verif Require Import FixMapProps UtilModel SliceModel DeviceModel DeviceProofs DeviceMap.
Import ListNotations.
Local Open Scope nat_scope.

(** C191: the packets of the pixels of a device, entering over the link of the
    machine vertex of the rectangle in which the pixel lies, reach the places of the
    targets of the device's partition and no other core or device. *)
Theorem C191_pixels : forall merged flexible entry_eq i l vs ps extra e dev rect p infos ts, map_ok i l vs ps ->
  devices_ok flexible i ps extra e dev rect -> (merged = true -> mergeable flexible e (sends_in ps)) ->
  map_graph merged entry_eq flexible i vs ps extra e = Ok (p, infos, ts) -> pixels_arrive i ps p ts dev rect.
Proof.
  intros merged flexible entry_eq i l vs ps extra e dev rect p infos ts OK DO MG H. apply (delivered_pixels _ _ _ _ _ _ _ _ _ _ _ _ _ _ _ OK DO H).
  exact (C140_delivered _ _ _ _ _ _ _ _ _ _ _ _ OK (devices_user _ _ _ _ _ _ _ DO) MG H).
Qed.
Print Assumptions C191_pixels.

(** C191: and the same after each of the compressors. *)
Theorem C191_pair : forall merged flexible entry_eq i l vs ps extra e dev rect p infos ts, map_ok i l vs ps ->
  devices_ok flexible i ps extra e dev rect -> (merged = true -> mergeable flexible e (sends_in ps)) ->
  map_graph merged entry_eq flexible i vs ps extra e = Ok (p, infos, ts) ->
  forall c_sort n_routes target as_needed ordered accept_overflow out,
  compress_tables (fun t => compress_table ordered c_sort n_routes (t_entries t)) target as_needed ordered accept_overflow ts [] = Ok out ->
  pixels_arrive i ps p out dev rect.
Proof.
  intros merged flexible entry_eq i l vs ps extra e dev rect p infos ts OK DO MG H c_sort n_routes target as_needed ordered accept_overflow out C.
  apply (delivered_pixels _ _ _ _ _ _ _ _ _ _ _ _ _ _ _ OK DO H).
  exact (C140_pair _ _ _ _ _ _ _ _ _ _ _ _ OK (devices_user _ _ _ _ _ _ _ DO) MG H _ _ _ _ _ _ _ C).
Qed.
Print Assumptions C191_pair.
Theorem C191_range : forall merged flexible entry_eq i l vs ps extra e dev rect p infos ts, map_ok i l vs ps ->
  devices_ok flexible i ps extra e dev rect -> (merged = true -> mergeable flexible e (sends_in ps)) ->
  map_graph merged entry_eq flexible i vs ps extra e = Ok (p, infos, ts) ->
  forall as_far target accept_overflow out, range_compressor as_far target accept_overflow ts = Ok out -> pixels_arrive i ps p out dev rect.
Proof.
  intros merged flexible entry_eq i l vs ps extra e dev rect p infos ts OK DO MG H as_far target accept_overflow out C.
  apply (delivered_pixels _ _ _ _ _ _ _ _ _ _ _ _ _ _ _ OK DO H).
  exact (C140_range _ _ _ _ _ _ _ _ _ _ _ _ OK (devices_user _ _ _ _ _ _ _ DO) MG H _ _ _ _ C).
Qed.
Print Assumptions C191_range.
Theorem C191_covering : forall flexible entry_eq i l vs ps extra e dev rect p infos ts, map_ok i l vs ps ->
  devices_ok flexible i ps extra e dev rect ->
  map_graph false entry_eq flexible i vs ps extra e = Ok (p, infos, ts) ->
  forall target (as_needed accept_overflow : bool) out,
  compress_tables (fun t => oc_compress_table (t_entries t) (if as_needed then Some (target (t_x t) (t_y t)) else None))
    target as_needed true accept_overflow ts [] = Ok out ->
  pixels_arrive i ps p out dev rect.
Proof.
  intros flexible entry_eq i l vs ps extra e dev rect p infos ts OK DO H target as_needed accept_overflow out C.
  apply (delivered_pixels _ _ _ _ _ _ _ _ _ _ _ _ _ _ _ OK DO H).
  exact (C140_covering _ _ _ _ _ _ _ _ _ _ _ _ _ _ _ OK (devices_user _ _ _ _ _ _ _ DO) H C).
Qed.
Print Assumptions C191_covering.

(** * An example *)
(** The graph of MapProps with a device that only sends: four pixels in a row in two
    rectangles, machine vertices 50 and 51, with keys 0x1000 to 0x1007 (base key
    0x200, three bits for a pixel). *)
Definition qd : mapin := mkMapIn xenv xsys qx_av qx_app
  (fun v => match v with 50 | 51 => Some ((0, 0)%Z, 4) | _ => None end)
  (fun a => a_vertices (qx_av a)) (fun a => match a with 2 => [] | _ => a_vertices (qx_av a) end) quad plain_vec (fun l => l).
Definition qd_parts : list apart := [mkPart 0 7 [1; 0]; mkPart 1 7 [0]; mkPart 2 7 [1]].
Definition row_of_pixels : device := mkDevice 4 1 2 1.
Definition qd_dev (a k : nat) : option (device * N) := match a, k with 2, 7 => Some (row_of_pixels, 0x200%N) | _, _ => None end.
Definition qd_rect (m : nat) : N := match m with 51 => 1%N | _ => 0%N end.
Definition qd_env : graph_env := mkEnv (fun a k => match a, k with 2, 7 => Some (mkKM 0x1000 0xFFFFFFF8) | _, _ => None end)
  (fun a _ => mi_out qd a)
  (fun a m k => match a, m, k with 2, 50, 7 => Some (mkKM 0x1000 0xFFFFFFFE) | 2, 51, 7 => Some (mkKM 0x1002 0xFFFFFFFE) | _, _, _ => None end)
  (fun _ _ => 16%N) N.of_nat N.of_nat (fun a => N.of_nat (length (a_vertices (qx_av a)))).
Example C191_map_ok : map_ok qd xmon [0; 1; 2] qd_parts.
Proof.
  constructor.
  - split; [exact xwf|]. split; [exact xset | exact xmade].
  - intros pl I. each I; discriminate.
  - destruct qx_machines. constructor; assumption.
  - unfold separate, all_of. cbn. repeat constructor; cbn; lia.
  - exact (ma_owner _ _ _ _ ex_map_ok).
  - exact (ma_dev _ _ _ _ ex_map_ok).
  - intros a v. do 3 (destruct a as [|a]; [cbn; tauto|]). cbn. tauto.
  - assert (R : forall a, a < 2 -> on_machine qd xmon a).
    { intros a A. split; [apply has_fixed_not; do 2 (destruct a as [|a]; [reflexivity|]); lia|].
      split; [intros v; do 2 (destruct a as [|a]; [cbn; lia|]); lia|].
      split; [intros v; do 2 (destruct a as [|a]; [cbn; tauto|]); lia|].
      split; [|do 2 (destruct a as [|a]; [split; reflexivity|]); lia].
      intros v V. do 2 (destruct a as [|a]; [each V; split; reflexivity|]). lia. }
    intros a A. destruct A as [<-|[<-|[<-|[]]]]; [left; apply R; lia | left; apply R; lia|]. right. split; [|split].
    + exists (0, 0)%Z. intros v V. each V; eexists; reflexivity.
    + intros v V. cbn in *. tauto.
    + intros v V. cbn in *. tauto.
  - cbn. repeat constructor; cbn; intuition congruence.
  - intros pt P. each P; (split; [cbn; tauto|]); (split; [discriminate|]); (split; [discriminate|]); intros a A; each A; (split; [cbn; tauto | discriminate]).
Qed.
Example C191_devices_ok : devices_ok true qd qd_parts [] qd_env qd_dev qd_rect /\ mergeable true qd_env (sends_in qd_parts).
Proof.
  assert (D : forall a k d base, qd_dev a k = Some (d, base) -> a = 2 /\ k = 7 /\ d = row_of_pixels /\ base = 0x200%N).
  { intros a k d base H. do 3 (destruct a as [|a]; [try discriminate H|]); [|discriminate H].
    do 8 (destruct k as [|k]; [try discriminate H|]); [|discriminate H]. injection H as <- <-. auto. }
  split; [constructor|].
  - left. reflexivity.
  - reflexivity.
  - intros pt P N. each P; try discriminate N; right; eexists; (split; [left; reflexivity | reflexivity]).
  - intros a k I N. destruct (qd_dev a k) as [[d base]|] eqn:E; [|contradiction]. apply D in E. destruct E as (-> & _). discriminate.
  - intros a k H. do 3 (destruct a as [|a]; [try reflexivity|]); [|reflexivity].
    do 8 (destruct k as [|k]; [try reflexivity; try discriminate H|]). reflexivity.
  - intros a k d base H. apply D in H. destruct H as (-> & -> & -> & ->). repeat split; discriminate.
  - intros a k d base H. apply D in H. destruct H as (-> & -> & -> & ->). reflexivity.
  - intros a k d base m H M. apply D in H. destruct H as (-> & -> & -> & ->). each M; (split; [reflexivity|]); eexists; split; reflexivity.
  - intros a k m n H M N E. destruct (qd_dev a k) as [[d base]|] eqn:Q; [|contradiction]. apply D in Q. destruct Q as (-> & _).
    each M; each N; try reflexivity; discriminate E.
  - intros a k d base a' k' d' base' H H' NE. apply D in H, H'. destruct H as (-> & -> & _). destruct H' as (-> & -> & _). contradiction.
  - intros a k [pt [P [-> ->]]] F. left. each P; try (cbn in F; contradiction).
    intros m y b M Y J. rewrite (just_is _ _ _ _ J). each M; cbn in Y; injection Y as <-; vm_compute; discriminate.
Qed.
Definition qd_made (merged : bool) : placements * list info * list table :=
  ok_or (empty_placements, [], []) (map_graph merged eqe true qd [0; 1; 2] qd_parts [] qd_env).
Example C191_runs : forall merged, map_graph merged eqe true qd [0; 1; 2] qd_parts [] qd_env = Ok (qd_made merged).
Proof. intros []; vm_compute; reflexivity. Qed.
(** The packet of the last pixel reaches machine vertex 13 on chip (1, 1). *)
Example C191_arrives : arrives quad (snd (qd_made true)) 0x1003 (0, 0)%Z (Some 4) (1, 1)%Z (OnCore 2).
Proof.
  assert (RUN : map_graph true eqe true qd [0; 1; 2] qd_parts [] qd_env = Ok (fst (fst (qd_made true)), snd (fst (qd_made true)), snd (qd_made true))).
  { rewrite <- !surjective_pairing. apply C191_runs. }
  assert (LAST : In (mkPart 2 7 [1]) qd_parts) by (cbn; tauto).
  destruct (C191_pixels _ _ _ _ _ _ _ _ _ _ _ _ _ _ C191_map_ok (proj1 C191_devices_ok) (fun _ => proj2 C191_devices_ok) RUN
    (mkPart 2 7 [1]) row_of_pixels 0x200%N 51 3%N 0%N LAST eq_refl (or_intror (or_introl eq_refl)) (or_intror eq_refl) (or_introl eq_refl) eq_refl eq_refl eq_refl)
    as [home [from [S D]]].
  assert (H : home = (0, 0)%Z /\ from = OnLink 4) by (destruct S as [[n [S ->]]|[S _]]; [injection S as <- <-; auto | discriminate S]).
  destruct H as [-> ->].
  apply (D (1, 1)%Z (OnCore 2)). cbn; exact I. exists 1, 13. split; [left; reflexivity|]. split; [cbn; tauto|]. right. split; [reflexivity|].
  exists (mkPl 13 1 1 2). split; [vm_compute; tauto|]. repeat split.
Qed.
