(** Properties of compressing the tables of a whole graph: it returns. *)
From Coq Require Import List Arith NArith ZArith QArith Bool Lia Permutation.
From Verif Require Import Base Dict PlacementsModel PlacementsProofs PlacerModel PlacerProofs PlacerFinal PlacerProps.
From Verif Require Import RouteSpec KeyMask AllocModel AllocProofs TablesModel TablesProofs GenModel GenProofs GenProps
  PairModel RangeModel RangeProofs OrderedModel
  TreeModel TreeProofs MachModel LdfModel LdfProofs PathModel PathProofs PathProps
  RPartModel RPartProofs BfsModel BfsProofs TargetsModel TargetsProofs ConvModel ConvProofs RouterModel RouterProofs RouterTables RouterPlan RouterFinal
  RouterSuccess RouterProps ChainModel ChainProofs ChainProps MapModel MapProofs MapProps FixProofs FixChain FixProps FixMap FixMapProps ShrinkProofs.
Import ListNotations.
Local Open Scope nat_scope.

(** C148: a table is made only for a chip that has entries, and the masks of the entries
    are blocks of [2 ^ s] keys if those fixed by the user are. *)
Theorem C148_shape : forall merged entry_eq flexible i vs ps extra e infos ts,
  make_tables merged entry_eq flexible i vs ps extra e = Ok (infos, ts) ->
  (forall x, user_key e (keyed_parts i vs ps extra) x -> exists s, s <= 32 /\ Z.of_N (km_mask x) = (2 ^ 32 - 2 ^ Z.of_nat s)%Z) ->
  forall t, In t ts -> t_entries t <> [] /\ forall o, In o (t_entries t) -> exists s, s <= 32 /\ Z.of_N (e_mask o) = (2 ^ 32 - 2 ^ Z.of_nat s)%Z.
Proof.
  intros merged entry_eq flexible i vs ps extra e infos ts H U t I. pose proof (made_blocks _ _ _ _ _ _ _ _ _ _ H U) as F.
  rewrite Forall_forall in F. destruct (F t I) as [B NE]. split; [exact NE|]. intros o O. unfold block_table in B. rewrite Forall_forall in B. exact (B o O).
Qed.
Print Assumptions C148_shape.

(** C148: the range compressor returns a table for each that was made, with no more
    entries, unless a table is too long. *)
Theorem C148_range : forall merged flexible entry_eq i vs ps extra e infos ts, graph_ok i vs ps -> user_keys_ok flexible i vs ps extra e ->
  (merged = true -> mergeable flexible e (is_routed i vs ps)) ->
  make_tables merged entry_eq flexible i vs ps extra e = Ok (infos, ts) ->
  forall as_far target accept_overflow,
  (forall x, user_key e (keyed_parts i vs ps extra) x -> exists s, s <= 32 /\ Z.of_N (km_mask x) = (2 ^ 32 - 2 ^ Z.of_nat s)%Z) ->
  accept_overflow = true \/ (forall t, In t ts -> length (t_entries t) <= target (t_x t) (t_y t)) ->
  exists out, range_compressor as_far target accept_overflow ts = Ok out /\
    Forall2 (fun t t' => (t_x t' = t_x t /\ t_y t' = t_y t) /\ length (t_entries t') <= length (t_entries t)) ts out.
Proof.
  intros merged flexible entry_eq i vs ps extra e infos ts GO UO MG MT as_far target accept_overflow U OV.
  apply (shrink_range _ _ _ _ _ _ _ _ _ _ GO UO MG MT); [exact U|]. destruct OV as [OV|OV]; [left; exact OV | right; apply Forall_forall; exact OV].
Qed.
Print Assumptions C148_range.

(** C148: so does the pair compressor, where no table has more different routes than
    the router has entries, whatever the masks. *)
Theorem C148_pair : forall merged flexible entry_eq i vs ps extra e infos ts, graph_ok i vs ps -> user_keys_ok flexible i vs ps extra e ->
  (merged = true -> mergeable flexible e (is_routed i vs ps)) ->
  make_tables merged entry_eq flexible i vs ps extra e = Ok (infos, ts) ->
  forall c_sort n_routes target as_needed (ordered accept_overflow : bool), 0 < n_routes ->
  (forall t, In t ts -> length (nodup N.eq_dec (map e_route (t_entries t))) <= n_routes) ->
  accept_overflow = true \/ ordered = false \/ (forall t, In t ts -> length (t_entries t) <= target (t_x t) (t_y t)) ->
  exists out, compress_tables (fun t => compress_table ordered c_sort n_routes (t_entries t)) target as_needed ordered accept_overflow ts [] = Ok out /\
    Forall2 (fun t t' => (t_x t' = t_x t /\ t_y t' = t_y t) /\ length (t_entries t') <= length (t_entries t)) ts out.
Proof.
  intros merged flexible entry_eq i vs ps extra e infos ts GO UO MG MT c_sort n_routes target as_needed ordered accept_overflow P N OV.
  apply (shrink_pair _ _ _ _ _ _ _ _ _ _ GO UO MG MT); [exact P | exact N|].
  destruct OV as [OV|[OV|OV]]; [left; exact OV | right; left; exact OV | right; right; apply Forall_forall; exact OV].
Qed.
Print Assumptions C148_pair.

(** C148: and ordered covering, which when it is to compress only as far as needed may
    also report that it cannot; nothing else happens. *)
Theorem C148_covering : forall merged flexible entry_eq i vs ps extra e infos ts, graph_ok i vs ps -> user_keys_ok flexible i vs ps extra e ->
  (merged = true -> mergeable flexible e (is_routed i vs ps)) ->
  make_tables merged entry_eq flexible i vs ps extra e = Ok (infos, ts) ->
  forall target (as_needed accept_overflow : bool),
  let r := compress_tables (fun t => oc_compress_table (t_entries t) (if as_needed then Some (target (t_x t) (t_y t)) else None))
    target as_needed true accept_overflow ts [] in
  let returns := exists out, r = Ok out /\
    Forall2 (fun t t' => (t_x t' = t_x t /\ t_y t' = t_y t) /\ length (t_entries t') <= length (t_entries t)) ts out in
  (returns \/ r = Err MinimisationFailed) /\
  ((forall t, In t ts -> length (t_entries t) <= target (t_x t) (t_y t)) \/ as_needed = false /\ accept_overflow = true -> returns).
Proof.
  intros merged flexible entry_eq i vs ps extra e infos ts GO UO MG MT target as_needed accept_overflow r returns.
  destruct (shrink_covering _ _ _ _ _ _ _ _ _ _ GO UO MG MT target as_needed accept_overflow) as [A B]. split; [exact A|].
  intros OV. apply B. destruct OV as [OV|OV]; [left; apply Forall_forall; exact OV | right; exact OV].
Qed.
Print Assumptions C148_covering.

(** C149: after the mapping of a whole graph each compressor returns tables that are no
    longer and that deliver the packets of every vertex to its targets and nothing
    else. *)
Theorem C149_range : forall merged flexible entry_eq i l vs ps extra e p infos ts, map_ok i l vs ps -> map_user_keys flexible i ps extra e ->
  (merged = true -> mergeable flexible e (sends_in ps)) ->
  map_graph merged entry_eq flexible i vs ps extra e = Ok (p, infos, ts) ->
  (forall x, user_key e (all_parts ps extra) x -> exists s, s <= 32 /\ Z.of_N (km_mask x) = (2 ^ 32 - 2 ^ Z.of_nat s)%Z) ->
  forall as_far target accept_overflow,
  accept_overflow = true \/ (forall t, In t ts -> length (t_entries t) <= target (t_x t) (t_y t)) ->
  exists out, range_compressor as_far target accept_overflow ts = Ok out /\ all_delivered i ps p infos out /\
    Forall2 (fun t t' => (t_x t' = t_x t /\ t_y t' = t_y t) /\ length (t_entries t') <= length (t_entries t)) ts out.
Proof.
  intros merged flexible entry_eq i l vs ps extra e p infos ts OK MU MG H U as_far target accept_overflow OV.
  pose proof (map_split _ _ _ _ _ _ _ _ _ _ _ H) as [PL MT].
  assert (KP : keyed_parts (router_input i p) vs ps extra = all_parts ps extra) by (unfold keyed_parts, all_parts; rewrite only_parts; reflexivity).
  rewrite <- KP in U.
  destruct (C148_range _ _ _ _ _ _ _ _ _ _ (mapped_graph i l vs ps p OK PL) (mapped_user _ _ _ _ _ _ _ p OK MU) (mapped_mergeable _ _ _ _ _ _ _ MG) MT
    as_far target accept_overflow U OV) as [out [C S]].
  exists out. split; [exact C|]. split; [|exact S]. exact (fix_map_range _ _ _ _ _ _ _ _ _ _ _ _ OK MU MG H _ _ _ _ C).
Qed.
Print Assumptions C149_range.
Theorem C149_pair : forall merged flexible entry_eq i l vs ps extra e p infos ts, map_ok i l vs ps -> map_user_keys flexible i ps extra e ->
  (merged = true -> mergeable flexible e (sends_in ps)) ->
  map_graph merged entry_eq flexible i vs ps extra e = Ok (p, infos, ts) ->
  forall c_sort n_routes target as_needed (ordered accept_overflow : bool), 0 < n_routes ->
  (forall t, In t ts -> length (nodup N.eq_dec (map e_route (t_entries t))) <= n_routes) ->
  accept_overflow = true \/ ordered = false \/ (forall t, In t ts -> length (t_entries t) <= target (t_x t) (t_y t)) ->
  exists out, compress_tables (fun t => compress_table ordered c_sort n_routes (t_entries t)) target as_needed ordered accept_overflow ts [] = Ok out /\
    all_delivered i ps p infos out /\
    Forall2 (fun t t' => (t_x t' = t_x t /\ t_y t' = t_y t) /\ length (t_entries t') <= length (t_entries t)) ts out.
Proof.
  intros merged flexible entry_eq i l vs ps extra e p infos ts OK MU MG H c_sort n_routes target as_needed ordered accept_overflow P N OV.
  pose proof (map_split _ _ _ _ _ _ _ _ _ _ _ H) as [PL MT].
  destruct (C148_pair _ _ _ _ _ _ _ _ _ _ (mapped_graph i l vs ps p OK PL) (mapped_user _ _ _ _ _ _ _ p OK MU) (mapped_mergeable _ _ _ _ _ _ _ MG) MT
    c_sort n_routes target as_needed ordered accept_overflow P N OV) as [out [C S]].
  exists out. split; [exact C|]. split; [|exact S]. exact (fix_map_pair _ _ _ _ _ _ _ _ _ _ _ _ OK MU MG H _ _ _ _ _ _ _ C).
Qed.
Print Assumptions C149_pair.
Theorem C149_covering : forall entry_eq flexible i l vs ps extra e p infos ts, map_ok i l vs ps -> map_user_keys flexible i ps extra e ->
  map_graph false entry_eq flexible i vs ps extra e = Ok (p, infos, ts) ->
  forall target (as_needed accept_overflow : bool),
  (forall t, In t ts -> length (t_entries t) <= target (t_x t) (t_y t)) \/ as_needed = false /\ accept_overflow = true ->
  exists out, compress_tables (fun t => oc_compress_table (t_entries t) (if as_needed then Some (target (t_x t) (t_y t)) else None))
    target as_needed true accept_overflow ts [] = Ok out /\ all_delivered i ps p infos out /\
    Forall2 (fun t t' => (t_x t' = t_x t /\ t_y t' = t_y t) /\ length (t_entries t') <= length (t_entries t)) ts out.
Proof.
  intros entry_eq flexible i l vs ps extra e p infos ts OK MU H target as_needed accept_overflow OV.
  pose proof (map_split _ _ _ _ _ _ _ _ _ _ _ H) as [PL MT]. assert (MG : false = true -> mergeable flexible e (sends_in ps)) by discriminate.
  destruct (proj2 (C148_covering _ _ _ _ _ _ _ _ _ _ (mapped_graph i l vs ps p OK PL) (mapped_user _ _ _ _ _ _ _ p OK MU) (mapped_mergeable _ _ _ _ _ _ _ MG) MT
    target as_needed accept_overflow) OV) as [out [C S]].
  exists out. split; [exact C|]. split; [|exact S]. exact (fix_map_covering _ _ _ _ _ _ _ _ _ _ _ _ _ _ _ OK MU H C).
Qed.
Print Assumptions C149_covering.

(** * Examples *)
(** The graph of MapProps with the device's keys 0x1000 to 0x1FFF, see FixMapProps. *)
Example ex_shrink_masks : forall x, user_key qx_user (all_parts qx_parts []) x -> exists s, s <= 32 /\ Z.of_N (km_mask x) = (2 ^ 32 - 2 ^ Z.of_nat s)%Z.
Proof.
  intros x (a & k & I & [F|(m & M & F)]); [|discriminate F]. exists 12. split; [lia|].
  cases I; cbn in F; try discriminate F; injection F as <-; reflexivity.
Qed.
Example ex_shrink_key : user_key qx_user (all_parts qx_parts []) (mkKM 0x1000 0xFFFFF000).
Proof. exists 2, 7. split; [cbn; tauto | left; reflexivity]. Qed.
Example ex_shrink_sizes : forall merged,
  (forall t, In t (snd (qu_made merged)) -> length (t_entries t) <= big (t_x t) (t_y t)) /\
  (forall t, In t (snd (qu_made merged)) -> length (nodup N.eq_dec (map e_route (t_entries t))) <= 1023) /\
  sizes (snd (qu_made merged)) = (if merged then [5; 3; 3; 4] else [8; 4; 6; 5]) /\
  match range_compressor true big false (snd (qu_made merged)) with Ok out => sizes out = [5; 3; 3; 4] | Err _ => False end.
Proof.
  intros merged. split; [|split].
  - assert (N : forall n, In n (sizes (snd (qu_made merged))) -> n <= 1023).
    { destruct merged; (intros n I; vm_compute in I; decompose [or] I; subst; try contradiction; lia). }
    intros t I. exact (N _ (in_map (fun t => length (t_entries t)) _ _ I)).
  - assert (N : forall n, In n (map (fun t => length (nodup N.eq_dec (map e_route (t_entries t)))) (snd (qu_made merged))) -> n <= 1023).
    { destruct merged; (intros n I; vm_compute in I; decompose [or] I; subst; try contradiction; lia). }
    intros t I. exact (N _ (in_map (fun t => length (nodup N.eq_dec (map e_route (t_entries t)))) _ _ I)).
  - destruct merged; (split; [vm_compute; reflexivity|]); vm_compute; reflexivity.
Qed.
(** The packet of the device of FixMapProps after range compression. *)
Example ex_shrink_delivers : exists out, range_compressor true big false (snd (qu_made false)) = Ok out /\
  all_delivered qx qx_parts (fst (fst (qu_made false))) (snd (fst (qu_made false))) out.
Proof.
  assert (RUN : map_graph false eqe true qx [0; 1; 2] qx_parts [] qx_user = Ok (fst (fst (qu_made false)), snd (fst (qu_made false)), snd (qu_made false))).
  { rewrite <- !surjective_pairing. apply ex_map_user_runs. }
  destruct (C149_range false true eqe qx xmon [0; 1; 2] qx_parts [] qx_user _ _ _ ex_map_ok (proj1 ex_map_user) (fun _ => proj2 ex_map_user) RUN ex_shrink_masks
    true big false (or_intror (proj1 (ex_shrink_sizes false)))) as [out [C [D _]]]. exists out. auto.
Qed.
(** With two entries to a router ordered covering reports that it cannot. *)
Example ex_shrink_fails :
  compress_tables (fun t => oc_compress_table (t_entries t) (Some 2)) (fun _ _ => 2) true true false (snd (qu_made false)) [] = Err MinimisationFailed.
Proof. vm_compute. reflexivity. Qed.

(** * What fails *)
(** C150: with a mask fixed by the user that has a gap the range compressor never
    returns. Machine vertices 1, 2 and 3 send with the key 9, with the keys 10 and 14
    and with the key 15; the first to vertex 11, the others to vertex 12. *)
Definition gap_macs (a : nat) : list nat := match a with 0 => [1; 2; 3] | 10 => [11; 12] | _ => [] end.
Definition gap_app (v : nat) : option nat := match v with 1 | 2 | 3 => Some 0 | 11 | 12 => Some 10 | _ => None end.
Definition gap_in : rinput := mkRIn one_chip plain_vec (fun l => l) (mkVEnv gap_macs gap_app) (fun v => ((0, 0)%Z, OnCore v))
  (fun a k => match a with 0 => [1; 2; 3] | _ => [] end)
  (fun target source k => match target with 10 => [(11, [Mac 1]); (12, [Mac 2; Mac 3])] | _ => [] end) (fun _ => []).
Definition gap_parts : list apart := [mkPart 0 7 [10]].
Definition gap_env : graph_env := mkEnv (fun a p => match a, p with 0, 7 => Some (mkKM 8 0xFFFFFFF8) | _, _ => None end) (ri_out gap_in)
  (fun _ m p => match m, p with 1, 7 => Some (mkKM 9 0xFFFFFFFF) | 2, 7 => Some (mkKM 10 0xFFFFFFFB) | 3, 7 => Some (mkKM 15 0xFFFFFFFF) | _, _ => None end)
  (fun _ _ => 1%N) N.of_nat N.of_nat (fun a => N.of_nat (length (gap_macs a))).
Lemma gap_ok : graph_ok gap_in [0] gap_parts.
Proof.
  constructor; [constructor| |].
  - intros a v. cbn [gap_in ri_venv ve_macs ve_app]. split.
    + do 11 (destruct a as [|a]; [cbn; intuition (subst; reflexivity)|]). cbn. tauto.
    + do 13 (destruct v as [|v]; [cbn; intros H; try discriminate H; injection H as <-; cbn; tauto|]). cbn. discriminate.
  - intros b k v. cbn [gap_in ri_out ri_venv ve_app]. destruct b as [|b]; [|intros []]. intros H. each H; reflexivity.
  - intros v. exact I.
  - intros v. unfold chip_of, inside. cbn. lia.
  - intros v w. reflexivity.
  - intros v w l s H. apply no_repeat_no_return, nodup_b_spec. revert H. vm_compute. intros X. injection X as <-. reflexivity.
  - intros l. apply Permutation_refl.
  - repeat constructor. intros [].
  - intros pt [H|[_ [v [ip [V [X _]]]]]]; [|destruct X]. each H. constructor; cbn.
    + intros v V. exists v. tauto.
    + intros ip [].
    + intros target x src T X S. each T; each X; each S; right; eexists; split; reflexivity.
Qed.
Lemma gap_routed : forall pt, routed_part gap_in [0] gap_parts pt -> pt = mkPart 0 7 [10].
Proof. intros pt [H|[_ [v [ip [V [X _]]]]]]; [|destruct X]. each H. reflexivity. Qed.
Lemma gap_keys : user_keys_ok true gap_in [0] gap_parts [] gap_env.
Proof.
  assert (R : forall a p, is_routed gap_in [0] gap_parts a p -> a = 0 /\ p = 7) by (intros a p [pt [RP [-> ->]]]; rewrite (gap_routed pt RP); auto).
  constructor.
  - reflexivity.
  - split.
    + intros pt target x v RP. rewrite (gap_routed pt RP). cbn. intros T X S. each T; each X; each S; injection S as <-; cbn; tauto.
    + intros pt ip _ [].
  - intros pt RP F. rewrite (gap_routed pt RP) in F. discriminate F.
  - intros a k I _. assert (X : In (a, k) [(0, 7)]) by (revert I; vm_compute; tauto). cases X. discriminate.
  - constructor.
    + auto.
    + intros a p x H E. destruct (R a p H) as [-> ->]. injection E as <-. words.
    + intros a p m y H M E. destruct (R a p H) as [-> ->]. each M; injection E as <-; words.
    + intros a p x m y k H E M Y _. destruct (R a p H) as [-> ->]. injection E as <-. each M; injection Y as <-; apply within_by; reflexivity.
    + intros a p x b q y H H' _ _ NE. destruct (R a p H) as [-> ->]. destruct (R b q H') as [-> ->]. destruct NE. reflexivity.
    + intros a p m n y z H M N NE E E'. destruct (R a p H) as [-> ->]. each M; each N; try (destruct NE; reflexivity); injection E as <-; injection E' as <-;
        apply disjoint_by; vm_compute; discriminate.
Qed.
Definition gap_table : table := match snd (ok_or ([], []) (make_tables false eqe true gap_in [0] gap_parts [] gap_env)) with t :: _ => t | [] => mkTable 0 0 [] 0 end.
Lemma gap_step : forall fuel, merge_range (S fuel) (t_entries gap_table) 1 2 =
  let* more := merge_range fuel (t_entries gap_table) 1 2 in Ok (mkEntry 10 0xFFFFFFFE 0x40000 false :: more).
Proof. intros fuel. cbn [merge_range]. remember (merge_range fuel) as F. vm_compute. reflexivity. Qed.
Lemma gap_never : forall fuel, merge_range fuel (t_entries gap_table) 1 2 = Err OutOfFuel.
Proof. induction fuel as [|fuel IH]; [reflexivity|]. rewrite gap_step, IH. reflexivity. Qed.
Theorem C150_gap_range_refuted : exists entry_eq i vs ps e infos ts t,
  graph_ok i vs ps /\ user_keys_ok true i vs ps [] e /\ make_tables false entry_eq true i vs ps [] e = Ok (infos, ts) /\ In t ts /\
  forall fuel, range_compress fuel true 1023 (t_entries t) = Err OutOfFuel.
Proof.
  exists eqe, gap_in, [0], gap_parts, gap_env. eexists. eexists. exists gap_table. split; [exact gap_ok|]. split; [exact gap_keys|].
  split; [vm_compute; reflexivity|]. split; [left; vm_compute; reflexivity|]. intros fuel.
  assert (E : range_compress fuel true 1023 (t_entries gap_table) =
    let* a := merge_range fuel (t_entries gap_table) 0 0 in let* b := merge_range fuel (t_entries gap_table) 1 2 in Ok (a ++ b)) by reflexivity.
  rewrite E, gap_never. destruct fuel; reflexivity.
Qed.
Print Assumptions C150_gap_range_refuted.
