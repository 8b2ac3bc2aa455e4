(** The checker and the tables of a mapped graph. *)
From Coq Require Import List Arith NArith ZArith Bool Lia.
From Verif Require CheckerModel CheckerProofs CheckedRange CheckedProofs PairModel.
From Verif Require Import Base Dict RouteSpec KeyMask AllocModel AllocProofs TablesModel TablesProofs GenModel GenProofs
  PairModel PairSort RangeModel RangeProofs OrderedModel OrderedProofs
  TreeModel TreeProofs MachModel LdfModel LdfProofs PathModel PathProofs
  RPartModel RPartProofs BfsModel BfsProofs TargetsModel TargetsProofs ConvModel ConvProofs RouterModel RouterProofs RouterTables RouterPlan RouterFinal RouterSuccess
  ChainModel ChainProofs CoverMerged.
Import ListNotations.
Local Open Scope nat_scope.

(** [compare_tables] on the tables of each chip. *)
Definition checked (entry_eq : entry -> entry -> bool) (ts out : list table) : Prop :=
  Forall2 (fun tb tb' => t_x tb' = t_x tb /\ t_y tb' = t_y tb /\
    CheckerModel.compare_tables entry_eq (t_entries tb) (t_entries tb') = Ok tt) ts out.

Lemma self_checked entry_eq t : Forall entry32 t -> orthogonal t -> CheckerModel.compare_tables entry_eq t t = Ok tt.
Proof.
  intros E O. assert (F : Forall entry_ok t) by (eapply Forall_impl; [|exact E]; intros e H; apply H).
  apply CheckerProofs.checker_complete; auto.
  - now apply CheckedRange.orthogonal_nodup.
  - intros o k Ho Hk Mk. left. destruct (first_match_exists t k o Ho Mk) as (c & Fc).
    exists c. split; [exact Fc|]. apply first_match_Some in Fc. destruct Fc as [Ic Mc].
    assert (c = o) by (eapply orthogonal_unique; eauto). subst. auto.
Qed.

Lemma driver_checked entry_eq compress target as_needed ordered accept_overflow ts out :
  Forall fine_table ts ->
  (forall tb es, In tb ts -> compress tb = Ok es -> CheckerModel.compare_tables entry_eq (t_entries tb) es = Ok tt) ->
  compress_tables compress target as_needed ordered accept_overflow ts [] = Ok out -> checked entry_eq ts out.
Proof.
  intros FI C H. apply driver_spec in H. destruct H as [F _]. unfold checked.
  induction F as [|tb tb' ts out (X & Y & R) F IH]; [constructor|].
  inversion FI as [|? ? [E O] FI']; subst. constructor.
  - split; [exact X|]. split; [exact Y|]. destruct R as [(_ & _ & ->)|R].
    + now apply self_checked.
    + apply C; [now left|exact R].
  - apply IH; [exact FI'|]. intros tb0 es I. apply C. now right.
Qed.

Lemma ranged_checked entry_eq as_far target accept_overflow ts out :
  Forall fine_table ts -> range_compressor as_far target accept_overflow ts = Ok out -> checked entry_eq ts out.
Proof.
  intros FI H. unfold range_compressor in H.
  assert (G : forall ts done out, Forall fine_table ts ->
    foldM (fun done t =>
      let* new := range_compress (length (t_entries t)) as_far (target (t_x t) (t_y t)) (t_entries t) in
      if Nat.ltb (target (t_x t) (t_y t)) (length new) && negb accept_overflow then Err MinimisationFailed
      else add_table done (mkTable (t_x t) (t_y t) new (length (filter e_def new)))) done ts = Ok out ->
    exists l, out = done ++ l /\ checked entry_eq ts l).
  { clear. induction ts as [|tb ts IH]; intros done out FI H; cbn [foldM] in H.
    - injection H as <-. exists []. rewrite app_nil_r. split; [reflexivity | constructor].
    - destruct (bind_Ok_inv _ _ _ H) as [done' [H1 H2]]. clear H. destruct (bind_Ok_inv _ _ _ H1) as [new [R H3]]. clear H1.
      destruct (Nat.ltb _ _ && _); [discriminate|]. unfold add_table in H3. destruct (existsb _ done); [discriminate|]. injection H3 as <-.
      inversion_clear FI as [|? ? [E O] FI']. destruct (IH _ _ FI' H2) as [l [-> L]].
      exists (mkTable (t_x tb) (t_y tb) new (length (filter e_def new)) :: l). rewrite <- app_assoc. split; [reflexivity|]. constructor; [|exact L].
      cbn [t_x t_y t_entries]. split; [reflexivity|]. split; [reflexivity|].
      exact (CheckedProofs.range_checked entry_eq _ _ _ _ _ E O R). }
  destruct (G ts [] out FI H) as [l [-> L]]. exact L.
Qed.

(** The tables of a graph. *)
Lemma made_fine : forall merged entry_eq flexible i vs ps extra e infos ts, graph_ok i vs ps -> keys_ok i vs ps extra e ->
  make_tables merged entry_eq flexible i vs ps extra e = Ok (infos, ts) -> Forall fine_table ts.
Proof.
  intros merged entry_eq flexible i vs ps extra e infos ts GO KO H.
  destruct (chain_split _ _ _ _ _ _ _ _ _ _ H) as [t [R [A G]]].
  destruct (keys_good merged _ _ _ _ _ _ _ _ GO KO R A) as [KT KW].
  exact (proj1 (proj2 (made_holds merged i vs ps t infos entry_eq R KT ts G))).
Qed.

Lemma chain_pair_checked : forall entry_eq merged eqe flexible i vs ps extra e infos ts c_sort n_routes target as_needed ordered accept_overflow out,
  (forall a b, entry_eq a b = true -> e_key a = e_key b /\ e_mask a = e_mask b) ->
  graph_ok i vs ps -> keys_ok i vs ps extra e -> make_tables merged eqe flexible i vs ps extra e = Ok (infos, ts) ->
  compress_tables (fun t => compress_table ordered c_sort n_routes (t_entries t)) target as_needed ordered accept_overflow ts [] = Ok out ->
  checked entry_eq ts out.
Proof.
  intros entry_eq merged eqe flexible i vs ps extra e infos ts c_sort n_routes target as_needed ordered accept_overflow out EQ GO KO H C.
  pose proof (made_fine _ _ _ _ _ _ _ _ _ _ GO KO H) as FI. refine (driver_checked _ _ _ _ _ _ _ _ FI _ C).
  intros tb es I CT. rewrite Forall_forall in FI. destruct (FI tb I) as [E O]. exact (CheckedProofs.pair_checked _ _ _ _ _ _ EQ E O CT).
Qed.
Lemma chain_range_checked : forall entry_eq merged eqe flexible i vs ps extra e infos ts as_far target accept_overflow out,
  graph_ok i vs ps -> keys_ok i vs ps extra e -> make_tables merged eqe flexible i vs ps extra e = Ok (infos, ts) ->
  range_compressor as_far target accept_overflow ts = Ok out -> checked entry_eq ts out.
Proof.
  intros entry_eq merged eqe flexible i vs ps extra e infos ts as_far target accept_overflow out GO KO H C.
  exact (ranged_checked _ _ _ _ _ _ (made_fine _ _ _ _ _ _ _ _ _ _ GO KO H) C).
Qed.
Lemma chain_covering_checked : forall entry_eq merged eqe flexible i vs ps extra e infos ts target (as_needed accept_overflow : bool) out,
  graph_ok i vs ps -> keys_ok i vs ps extra e -> make_tables merged eqe flexible i vs ps extra e = Ok (infos, ts) ->
  compress_tables (fun t => oc_compress_table (t_entries t) (if as_needed then Some (target (t_x t) (t_y t)) else None))
    target as_needed true accept_overflow ts [] = Ok out -> checked entry_eq ts out.
Proof.
  intros entry_eq merged eqe flexible i vs ps extra e infos ts target as_needed accept_overflow out GO KO H C.
  pose proof (made_fine _ _ _ _ _ _ _ _ _ _ GO KO H) as FI. refine (driver_checked _ _ _ _ _ _ _ _ FI _ C).
  intros tb es I CT. rewrite Forall_forall in FI. destruct (FI tb I) as [E O]. exact (CheckedProofs.covering_checked _ _ _ _ E O CT).
Qed.

(** Tables that the checker accepts deliver the packets of the basic tables. *)
Lemma checked_compressed entry_eq tb es : Forall entry32 (t_entries tb) -> Forall entry32 es ->
  NoDup (map (fun x => (e_key x, e_mask x)) es) ->
  CheckerModel.compare_tables entry_eq (t_entries tb) es = Ok tt ->
  forall o k, In o (t_entries tb) -> entry_matches k o ->
    routes_to es k (e_route o) \/ (first_match es k = None /\ e_def o = true).
Proof. intros E1 E2 ND C o k. now apply (CheckerProofs.checker_sound entry_eq _ _ E1 E2 ND C). Qed.

Lemma checked_all entry_eq ts out : Forall fine_table ts ->
  Forall (fun tb => Forall entry32 (t_entries tb) /\ NoDup (map (fun x => (e_key x, e_mask x)) (t_entries tb))) out ->
  checked entry_eq ts out -> Forall2 (fun tb tb' => where_is tb tb' /\ compressed true tb tb') ts out.
Proof.
  intros FI W C. unfold checked in C.
  induction C as [|tb tb' ts out (X & Y & C) F IH]; [constructor|].
  inversion FI as [|? ? [E O] FI']; subst. inversion W as [|? ? [E' ND] W']; subst. constructor; [|now apply IH].
  split; [split; assumption|]. intros o k I K M.
  destruct (checked_compressed _ _ _ E E' ND C o k I M) as [Q|[Q1 Q2]]; [now left|right; auto].
Qed.

Lemma checked_delivers : forall entry_eq eqe flexible i vs ps extra e infos ts out,
  graph_ok i vs ps -> keys_ok i vs ps extra e -> make_tables false eqe flexible i vs ps extra e = Ok (infos, ts) ->
  Forall (fun tb => Forall entry32 (t_entries tb) /\ NoDup (map (fun x => (e_key x, e_mask x)) (t_entries tb))) out ->
  checked entry_eq ts out -> exact_delivery i vs ps infos out.
Proof.
  intros entry_eq eqe flexible i vs ps extra e infos ts out GO KO H W C.
  destruct (chain_split _ _ _ _ _ _ _ _ _ _ H) as [t [R [A G]]].
  destruct (keys_good false _ _ _ _ _ _ _ _ GO KO R A) as [KT KW].
  destruct (made_holds false i vs ps t infos eqe R KT ts G) as [_ [FI HO]].
  apply (keeps_delivers i vs ps t infos out GO R KW).
  apply (compressed_keeps _ true infos t ts out HO); [reflexivity|]. exact (checked_all _ _ _ FI W C).
Qed.
Lemma checked_delivers_merged : forall entry_eq eqe flexible i vs ps extra e infos ts t out,
  graph_ok i vs ps -> keys_ok i vs ps extra e -> make_tables true eqe flexible i vs ps extra e = Ok (infos, ts) ->
  route_application_graph i vs ps = Ok t -> flags_agree i t ->
  Forall (fun tb => Forall entry32 (t_entries tb) /\ NoDup (map (fun x => (e_key x, e_mask x)) (t_entries tb))) out ->
  checked entry_eq ts out -> exact_delivery i vs ps infos out.
Proof.
  intros entry_eq eqe flexible i vs ps extra e infos ts t out GO KO H R AG W C.
  destruct (chain_split _ _ _ _ _ _ _ _ _ _ H) as [t' [R' [A G]]]. assert (t' = t) by congruence. subst t'. clear R'.
  destruct (keys_good true _ _ _ _ _ _ _ _ GO KO R A) as [KT KW].
  destruct (merged_holds i vs ps t infos eqe R KT AG ts G) as [FI HO].
  apply (keeps_delivers i vs ps t infos out GO R KW).
  apply (compressed_keeps _ true infos t ts out HO); [reflexivity|]. exact (checked_all _ _ _ FI W C).
Qed.
