(** Merged tables whose members agree about default routes may be compressed with
    ordered covering. *)
From Coq Require Import List Arith NArith ZArith Bool Lia.
From Verif Require Import Base Dict RouteSpec KeyMask AllocModel AllocProofs TablesModel TablesProofs GenModel GenProofs
  PairModel PairSort RangeModel RangeProofs OrderedModel OrderedProofs
  TreeModel TreeProofs MachModel LdfModel LdfProofs PathModel PathProofs
  RPartModel RPartProofs BfsModel BfsProofs TargetsModel TargetsProofs ConvModel ConvProofs RouterModel RouterProofs RouterTables RouterPlan RouterFinal RouterSuccess
  ChainModel ChainProofs.
Import ListNotations.
Local Open Scope nat_scope.

(** On each chip the machine vertices of an application vertex with the same route in
    one partition are all defaultable or all not. *)
Definition flags_agree (i : rinput) (t : rtable) : Prop := forall q m m' a k e e',
  ve_app (ri_venv i) m = Some a -> ve_app (ri_venv i) m' = Some a ->
  get_entry t (Mac m) k q = Some e -> get_entry t (Mac m') k q = Some e' ->
  RPartModel.re_route e = RPartModel.re_route e' -> re_default e = re_default e'.

Lemma NoDup_fst : forall {A B} (l : list (A * B)) a b b', NoDup (map fst l) -> In (a, b) l -> In (a, b') l -> b = b'.
Proof.
  intros A B l a b b' ND. induction l as [|[x y] l IH]; intros I J; [destruct I|]. cbn [map fst] in ND. inversion_clear ND as [|? ? N1 N2].
  destruct I as [I|I], J as [J|J]; [congruence| | |exact (IH N2 I J)]; exfalso; apply N1; apply in_map_iff.
  - injection I as -> ->. exists (a, b'). auto.
  - injection J as -> ->. exists (a, b). auto.
Qed.

Section Merged.
Variables (i : rinput) (vs : list nat) (ps : list apart) (t : rtable) (infos : list info).
Variable entry_eq : entry -> entry -> bool.
Hypothesis ROUTE : route_application_graph i vs ps = Ok t.
Hypothesis KT : keyed_tables true i t infos.
Hypothesis AGREE : flags_agree i t.
Let maker := merged_table entry_eq infos (ve_app (ri_venv i)).

Lemma merged_holds : forall ts, generate maker (routers_of t) = Ok ts -> Forall fine_table ts /\ holds true infos t ts.
Proof.
  intros ts H. destruct (made_holds true i vs ps t infos entry_eq ROUTE KT ts H) as [ND [FI _]]. split; [exact FI|].
  destruct (tables_made true i vs ps t infos entry_eq ROUTE KT) as [ts' [H' F]].
  assert (ts' = ts) by (unfold maker in H; congruence). subst ts'. clear H'.
  destruct KT as [app_of [AO well]]. specialize (AO eq_refl). subst app_of.
  intros w k q x G. pose proof G as G0. unfold get_entry in G. destruct (dget xy_eqb t q) as [d|] eqn:D; [|discriminate].
  apply (dget_In _ xy_eqb_eq) in D. apply (dget_In _ skey_eqb_eq) in G.
  set (r := (q, items_of d)). assert (IR : In r (routers_of t)) by (apply in_map_iff; exists (q, d); auto).
  assert (II : In ((vertex_of w, k), rent_of x) (snd r)) by (apply items_In; eauto).
  destruct (wk_info _ _ _ (well r IR) _ _ _ II) as [j [J _]]. exists j. split; [exact J|]. intros key K M.
  destruct (Forall2_In _ _ _ r F IR) as [tb [T1 [T2 T3]]]. cbn [fst r] in T2.
  destruct (merged_flag _ _ _ _ _ _ _ _ _ _ _ _ (well r IR) T3 II J K M) as (o & s' & en' & H1 & H2 & KN & H3 & H4 & H5).
  exists o. unfold found.
  rewrite (get_table_pos ts (fst q) (snd q) tb ND T1); [| rewrite T2; reflexivity | rewrite T2; reflexivity].
  split; [exact H1|]. split; [exact H2|]. intros _. rewrite H5.
  destruct KN as [<- |(m & m' & p & a & E1 & E2 & A1 & A2)].
  - rewrite <- (NoDup_fst _ _ _ _ (wk_nodup _ _ _ (well r IR)) II H3). reflexivity.
  - injection E1 as E1 ->. subst s'. apply items_In in H3. destruct H3 as [w' [x' [W' [X' I']]]].
    destruct w as [?|u]; [discriminate|]. injection E1 as ->. destruct w' as [?|u']; [discriminate|]. injection W' as ->. subst en'.
    symmetry. apply (AGREE q m u' a p x x' A1 A2 G0 (entry_In i vs ps t ROUTE q d (Mac u') p x' D I')). symmetry. exact H4.
Qed.
End Merged.

Lemma good_merged_covering : forall entry_eq flexible i vs ps extra e infos ts t target (as_needed accept_overflow : bool) out,
  graph_ok i vs ps -> (forall t, route_application_graph i vs ps = Ok t -> allocate flexible e (keyed_parts i vs ps extra) = Ok infos -> good_keys true i vs ps t infos) -> make_tables true entry_eq flexible i vs ps extra e = Ok (infos, ts) ->
  route_application_graph i vs ps = Ok t -> flags_agree i t ->
  compress_tables (fun t => oc_compress_table (t_entries t) (if as_needed then Some (target (t_x t) (t_y t)) else None))
    target as_needed true accept_overflow ts [] = Ok out ->
  exact_delivery i vs ps infos out.
Proof.
  intros entry_eq flexible i vs ps extra e infos ts t target as_needed accept_overflow out GO KO H R AG C.
  destruct (chain_split _ _ _ _ _ _ _ _ _ _ H) as [t' [R' [A G]]]. assert (t' = t) by congruence. subst t'. clear R'.
  destruct (KO t R A) as [KT KW].
  destruct (merged_holds i vs ps t infos entry_eq R KT AG ts G) as [FI HO].
  apply (keeps_delivers i vs ps t infos out GO R KW).
  apply (compressed_keeps _ true infos t ts out HO); [reflexivity|].
  refine (driver_compressed true _ _ _ _ _ _ _ FI _ C). intros tb es I CT o k J K M.
  rewrite Forall_forall in FI. destruct (FI tb I) as [E O]. cbn beta in CT.
  assert (E' : Forall entry_ok (t_entries tb)) by (eapply Forall_impl; [|exact E]; intros x X; exact (proj1 X)).
  destruct (oc_compress_preserves _ _ _ E' O CT o k J M) as [[o' [X Y]]|[X Y]].
  - left. exists o'. split; [exact X|]. congruence.
  - right. auto.
Qed.
