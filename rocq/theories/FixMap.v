(** The mapping of a whole graph when some keys are fixed by the user. *)
From Coq Require Import List Arith NArith ZArith QArith Bool Lia Permutation.
From Verif Require Import Base Dict PlacementsModel PlacementsProofs PlacerModel PlacerProofs PlacerFinal.
From Verif Require Import RouteSpec KeyMask AllocModel AllocProofs TablesModel TablesProofs GenModel GenProofs
  PairModel RangeModel OrderedModel
  TreeModel TreeProofs MachModel LdfModel LdfProofs PathModel PathProofs
  RPartModel RPartProofs BfsModel BfsProofs TargetsModel TargetsProofs ConvModel ConvProofs RouterModel RouterProofs RouterTables RouterPlan RouterFinal
  RouterSuccess ChainModel ChainProofs MapModel MapProofs FixProofs FixChain.
Import ListNotations.
Local Open Scope nat_scope.

(** The partitions of the graph. *)
Definition sends_in (ps : list apart) (a k : nat) : Prop := exists pt, In pt ps /\ a = ap_pre pt /\ k = ap_id pt.
Definition all_parts (ps : list apart) (extra : list (nat * nat)) : list (nat * nat) := map (fun p => (ap_pre p, ap_id p)) ps ++ extra.

(** As [map_keys], but partitions may have fixed keys. *)
Record map_user_keys (flexible : bool) (i : mapin) (ps : list apart) (extra : list (nat * nat)) (e : graph_env) : Prop := mkMapUserKeys {
  mu_out : forall a k, ae_outgoing e a k = mi_out i a;
  mu_counted : forall pt, In pt ps -> ae_app_fixed e (ap_pre pt) (ap_id pt) = None -> counted e (ap_pre pt) (ap_id pt);
  mu_some : forall a k, In (a, k) (all_parts ps extra) -> ae_app_fixed e a k <> None -> mi_out i a <> [];
  mu_fixed : fixed_ok flexible e (all_parts ps extra) (sends_in ps) }.

Lemma fixed_ok_sub : forall flexible e parts (R S : nat -> nat -> Prop), (forall a p, S a p -> R a p) -> fixed_ok flexible e parts R -> fixed_ok flexible e parts S.
Proof.
  intros flexible e parts R S H [A B C D E F]. constructor; [eauto | eauto | eauto | eauto | |]; intros.
  - apply (E a p x b q y); auto.
  - apply (F a p m n y z); auto.
Qed.


Lemma mapped_user : forall flexible i l vs ps extra e p, map_ok i l vs ps -> map_user_keys flexible i ps extra e ->
  user_keys_ok flexible (router_input i p) vs ps extra e.
Proof.
  intros flexible i l vs ps extra e p OK MU.
  assert (KP : keyed_parts (router_input i p) vs ps extra = all_parts ps extra) by (unfold keyed_parts, all_parts; rewrite only_parts; reflexivity).
  constructor.
  - exact (mu_out _ _ _ _ _ MU).
  - split.
    + intros pt target x v _ _ X S. cbn [router_input ri_in] in X. apply in_map_iff in X. destruct X as [u [<- _]]. cbn [snd] in S.
      destruct S as [S|[]]. discriminate S.
    + intros pt ip _ [].
  - intros pt RP F _. apply routed_in in RP. exact (mu_counted _ _ _ _ _ MU pt RP F).
  - rewrite KP. exact (mu_some _ _ _ _ _ MU).
  - rewrite KP. refine (fixed_ok_sub _ _ _ _ _ _ (mu_fixed _ _ _ _ _ MU)). intros a k [pt [RP E]]. apply routed_in in RP. exists pt. auto.
Qed.
Lemma mapped_mergeable : forall flexible e i vs ps p (merged : bool), (merged = true -> mergeable flexible e (sends_in ps)) ->
  merged = true -> mergeable flexible e (is_routed (router_input i p) vs ps).
Proof.
  intros flexible e i vs ps p merged MG E a k [pt [RP X]]. apply routed_in in RP. apply (MG E). exists pt. auto.
Qed.

Section MapFixed.
Variables (merged flexible : bool) (entry_eq : entry -> entry -> bool) (i : mapin) (l : list placement) (vs : list nat) (ps : list apart)
  (extra : list (nat * nat)) (e : graph_env) (p : placements) (infos : list info) (ts : list table).
Hypothesis OK : map_ok i l vs ps.
Hypothesis MU : map_user_keys flexible i ps extra e.
Hypothesis MG : merged = true -> mergeable flexible e (sends_in ps).
Hypothesis H : map_graph merged entry_eq flexible i vs ps extra e = Ok (p, infos, ts).

Lemma fix_map_delivers : all_delivered i ps p infos ts.
Proof.
  destruct (map_split _ _ _ _ _ _ _ _ _ _ _ H) as [PL MT].
  apply (exact_all i l vs); [exact OK | exact PL|]. pose proof (mapped_graph i l vs ps p OK PL) as GO.
  destruct (chain_split _ _ _ _ _ _ _ _ _ _ MT) as [t [R [AL G]]].
  destruct (user_delivers merged entry_eq flexible _ vs ps extra e t infos GO (mapped_user _ _ _ _ _ _ _ p OK MU) (mapped_mergeable _ _ _ _ _ _ _ MG) R AL)
    as [ts' [T D]]. assert (ts' = ts) by congruence. subst ts'. exact D.
Qed.
Lemma fix_map_key : forall pt v y, In pt ps -> In v (mi_out i (ap_pre pt)) -> mac_key e (ap_pre pt) (ap_id pt) v = Some y ->
  exists j, get_info infos (AllocModel.Mac v) (ap_id pt) = Ok j /\ i_km j = y.
Proof.
  intros pt v y P V Y. destruct (map_split _ _ _ _ _ _ _ _ _ _ _ H) as [PL MT]. destruct (chain_split _ _ _ _ _ _ _ _ _ _ MT) as [t [R [AL G]]].
  refine (user_key_used _ (router_input i p) vs ps _ _ infos (mapped_graph i l vs ps p OK PL) (mapped_user _ _ _ _ _ _ _ p OK MU) AL pt v y _ V Y).
  apply routed_in. exact P.
Qed.
Lemma fix_map_pair : forall c_sort n_routes target as_needed ordered accept_overflow out,
  compress_tables (fun t => compress_table ordered c_sort n_routes (t_entries t)) target as_needed ordered accept_overflow ts [] = Ok out ->
  all_delivered i ps p infos out.
Proof.
  intros c_sort n_routes target as_needed ordered accept_overflow out C.
  destruct (map_split _ _ _ _ _ _ _ _ _ _ _ H) as [PL MT]. apply (exact_all i l vs); [exact OK | exact PL|].
  exact (user_pair _ _ _ _ _ _ _ _ _ _ _ _ _ _ _ _ _ (mapped_graph i l vs ps p OK PL) (mapped_user _ _ _ _ _ _ _ p OK MU) (mapped_mergeable _ _ _ _ _ _ _ MG) MT C).
Qed.
Lemma fix_map_range : forall as_far target accept_overflow out,
  range_compressor as_far target accept_overflow ts = Ok out -> all_delivered i ps p infos out.
Proof.
  intros as_far target accept_overflow out C.
  destruct (map_split _ _ _ _ _ _ _ _ _ _ _ H) as [PL MT]. apply (exact_all i l vs); [exact OK | exact PL|].
  exact (user_range _ _ _ _ _ _ _ _ _ _ _ _ _ _ (mapped_graph i l vs ps p OK PL) (mapped_user _ _ _ _ _ _ _ p OK MU) (mapped_mergeable _ _ _ _ _ _ _ MG) MT C).
Qed.
End MapFixed.

Lemma fix_map_covering : forall entry_eq flexible i l vs ps extra e p infos ts target (as_needed accept_overflow : bool) out,
  map_ok i l vs ps -> map_user_keys flexible i ps extra e -> map_graph false entry_eq flexible i vs ps extra e = Ok (p, infos, ts) ->
  compress_tables (fun t => oc_compress_table (t_entries t) (if as_needed then Some (target (t_x t) (t_y t)) else None))
    target as_needed true accept_overflow ts [] = Ok out ->
  all_delivered i ps p infos out.
Proof.
  intros entry_eq flexible i l vs ps extra e p infos ts target as_needed accept_overflow out OK MU H C.
  apply map_split in H. destruct H as [PL MT]. apply (exact_all i l vs); [exact OK | exact PL|].
  exact (user_covering _ _ _ _ _ _ _ _ _ _ _ _ _ (mapped_graph i l vs ps p OK PL) (mapped_user _ _ _ _ _ _ _ p OK MU) MT C).
Qed.
