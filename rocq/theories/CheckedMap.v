(** The checker and the tables of a placed graph, some of whose keys may be fixed. *)
From Coq Require Import List Arith NArith ZArith QArith Bool Lia Permutation.
From Verif Require CheckerModel CheckedProofs.
From Verif Require Import Base Dict PlacementsModel PlacementsProofs PlacerModel PlacerProofs PlacerFinal.
From Verif Require Import RouteSpec KeyMask AllocModel AllocProofs TablesModel TablesProofs GenModel GenProofs
  PairModel PairSort RangeModel RangeProofs OrderedModel OrderedProofs
  TreeModel TreeProofs MachModel LdfModel LdfProofs PathModel PathProofs
  RPartModel RPartProofs BfsModel BfsProofs TargetsModel TargetsProofs ConvModel ConvProofs RouterModel RouterProofs RouterTables RouterPlan RouterFinal
  RouterSuccess ChainModel ChainProofs CoverMerged CheckedChain MapModel MapProofs FixProofs FixChain FixMap.
Import ListNotations.
Local Open Scope nat_scope.

Section Mapped.
Variables (merged flexible : bool) (entry_eq eqe : entry -> entry -> bool) (i : mapin) (l : list placement) (vs : list nat) (ps : list apart)
  (extra : list (nat * nat)) (e : graph_env) (p : placements) (infos : list info) (ts : list table).
Hypothesis OK : map_ok i l vs ps.
Hypothesis MU : map_user_keys flexible i ps extra e.
Hypothesis MG : merged = true -> mergeable flexible e (sends_in ps).
Hypothesis H : map_graph merged eqe flexible i vs ps extra e = Ok (p, infos, ts).

Lemma mapped_holds : exists t, graph_ok (router_input i p) vs ps /\ route_application_graph (router_input i p) vs ps = Ok t /\
  place_graph (mi_env i) (mi_sys i) (map (mi_av i) vs) = Ok p /\
  good_keys merged (router_input i p) vs ps t infos /\
  generate (if merged then merged_table eqe infos (ve_app (ri_venv (router_input i p))) else basic_table eqe infos) (routers_of t) = Ok ts.
Proof.
  destruct (map_split _ _ _ _ _ _ _ _ _ _ _ H) as [PL MT]. pose proof (mapped_graph i l vs ps p OK PL) as GO.
  destruct (chain_split _ _ _ _ _ _ _ _ _ _ MT) as [t [R [A G]]]. exists t. split; [exact GO|]. split; [exact R|]. split; [exact PL|]. split; [|exact G].
  exact (user_good merged flexible _ vs ps extra e t infos GO (mapped_user _ _ _ _ _ _ _ p OK MU) (mapped_mergeable _ _ _ _ _ _ _ MG) R A).
Qed.
Lemma mapped_fine : Forall fine_table ts.
Proof.
  destruct mapped_holds as (t & GO & R & _ & [KT KW] & G). exact (proj1 (proj2 (made_holds merged _ vs ps t infos eqe R KT ts G))).
Qed.
Lemma mapped_pair_checked : forall c_sort n_routes target as_needed ordered accept_overflow out,
  (forall a b, entry_eq a b = true -> e_key a = e_key b /\ e_mask a = e_mask b) ->
  compress_tables (fun t => compress_table ordered c_sort n_routes (t_entries t)) target as_needed ordered accept_overflow ts [] = Ok out ->
  checked entry_eq ts out.
Proof.
  intros c_sort n_routes target as_needed ordered accept_overflow out EQ C. pose proof mapped_fine as FI.
  refine (driver_checked _ _ _ _ _ _ _ _ FI _ C). intros tb es I CT. rewrite Forall_forall in FI. destruct (FI tb I) as [E O].
  exact (CheckedProofs.pair_checked _ _ _ _ _ _ EQ E O CT).
Qed.
Lemma mapped_range_checked : forall as_far target accept_overflow out,
  range_compressor as_far target accept_overflow ts = Ok out -> checked entry_eq ts out.
Proof. intros as_far target accept_overflow out C. exact (ranged_checked _ _ _ _ _ _ mapped_fine C). Qed.
Lemma mapped_covering_checked : forall target (as_needed accept_overflow : bool) out,
  compress_tables (fun t => oc_compress_table (t_entries t) (if as_needed then Some (target (t_x t) (t_y t)) else None))
    target as_needed true accept_overflow ts [] = Ok out -> checked entry_eq ts out.
Proof.
  intros target as_needed accept_overflow out C. pose proof mapped_fine as FI.
  refine (driver_checked _ _ _ _ _ _ _ _ FI _ C). intros tb es I CT. rewrite Forall_forall in FI. destruct (FI tb I) as [E O].
  exact (CheckedProofs.covering_checked _ _ _ _ E O CT).
Qed.
End Mapped.

(** Any tables that the checker accepts against the basic tables deliver. *)
Lemma mapped_checked_delivers : forall flexible entry_eq eqe i l vs ps extra e p infos ts out, map_ok i l vs ps -> map_user_keys flexible i ps extra e ->
  map_graph false eqe flexible i vs ps extra e = Ok (p, infos, ts) ->
  Forall (fun tb => Forall entry32 (t_entries tb) /\ NoDup (map (fun x => (e_key x, e_mask x)) (t_entries tb))) out ->
  checked entry_eq ts out -> all_delivered i ps p infos out.
Proof.
  intros flexible entry_eq eqe i l vs ps extra e p infos ts out OK MU H W C.
  assert (MG : false = true -> mergeable flexible e (sends_in ps)) by discriminate.
  destruct (mapped_holds _ _ _ _ _ _ _ _ _ _ _ _ OK MU MG H) as (t & GO & R & PL & [KT KW] & G).
  destruct (made_holds false _ vs ps t infos eqe R KT ts G) as [_ [FI HO]].
  apply (exact_all i l vs); [exact OK | exact PL|]. apply (keeps_delivers _ vs ps t infos out GO R KW).
  apply (compressed_keeps _ true infos t ts out HO); [reflexivity|]. exact (checked_all _ _ _ FI W C).
Qed.
