(** Properties of the table generators whatever the keys: no source is left out. *)
From Coq Require Import List Arith NArith ZArith Bool Lia Permutation.
From Verif Require Import Base Dict RouteSpec KeyMask AllocModel AllocProofs TablesModel TablesProofs GenModel GenProofs GenProps
  PairModel PairSort RangeModel RangeProofs OrderedModel OrderedProofs
  TreeModel TreeProofs MachModel LdfModel LdfProofs PathModel PathProofs PathProps
  RPartModel RPartProofs BfsModel BfsProofs TargetsModel TargetsProofs ConvModel ConvProofs RouterModel RouterProofs RouterTables RouterPlan RouterFinal
  RouterSuccess RouterProps ChainModel ChainProofs CoverMerged ChainProps SourcesProofs.
Import ListNotations.
Local Open Scope nat_scope.

(** C184: whenever tables of the basic generator are returned there is one for each
    router, in order, with one entry for each of its sources, in order; the entry has
    the key and mask of the source, and the route and the flag of its routing entry. *)
Theorem C184_basic : forall entry_eq infos routers ts, Forall (fun r => NoDup (map fst (snd r))) routers ->
  generate (basic_table entry_eq infos) routers = Ok ts ->
  Forall2 (fun r t => t_x t = fst (fst r) /\ t_y t = snd (fst r) /\
    Forall2 (fun it e => exists i, get_info infos (fst (fst it)) (snd (fst it)) = Ok i /\
      e_key e = km_key (i_km i) /\ e_mask e = km_mask (i_km i) /\
      e_route e = GenModel.re_route (snd it) /\ e_def e = re_def (snd it)) (snd r) (t_entries t)) routers ts.
Proof.
  intros entry_eq infos routers ts ND H. apply generate_tables in H. induction H as [|r t routers ts H F IH]; [constructor|].
  inversion ND as [|r' l N1 N2]; subst. constructor; [|exact (IH N2)].
  destruct (basic_exact _ _ _ _ _ _ N1 H) as [X [Y E]]. split; [exact X|]. split; [exact Y|].
  clear - E. induction E as [|it e its es [i [G [_ ->]]] E IH]; constructor; [|exact IH]. exists i. cbn. auto.
Qed.
Print Assumptions C184_basic.

(** Tables of the merging generator are returned only if each source of each router
    has a key; their entries have the route and the flag of some source. *)
Theorem C184_merged : forall entry_eq infos app_of routers ts, generate (merged_table entry_eq infos app_of) routers = Ok ts ->
  Forall2 (fun r t => t_x t = fst (fst r) /\ t_y t = snd (fst r) /\
    (forall v p en, In ((v, p), en) (snd r) -> exists i, get_info infos v p = Ok i) /\
    (forall e, In e (t_entries t) -> exists v p en, In ((v, p), en) (snd r) /\
       e_route e = GenModel.re_route en /\ e_def e = re_def en)) routers ts.
Proof.
  intros entry_eq infos app_of routers ts H. apply generate_tables in H. induction H as [|r t routers ts H F IH]; constructor; [|exact IH].
  destruct (merged_sources _ _ _ _ _ _ _ _ H) as [X [Y [K E]]]. split; [exact X|]. split; [exact Y|]. split.
  - intros v p en I. rewrite Forall_forall in K. exact (K _ I).
  - intros e I. destruct (E e I) as [[]|[[[v p] en] [I1 R]]]. exists v, p, en. auto.
Qed.
Print Assumptions C184_merged.

(** So a source without a key is never left out in silence. *)
Theorem C184_missing : forall entry_eq infos app_of routers r v p en, In r routers -> In ((v, p), en) (snd r) ->
  (forall i, In i infos -> ~ (i_vertex i = v /\ i_part i = p)) ->
  (forall ts, generate (merged_table entry_eq infos app_of) routers <> Ok ts) /\
  (Forall (fun r => NoDup (map fst (snd r))) routers -> forall ts, generate (basic_table entry_eq infos) routers <> Ok ts).
Proof.
  intros entry_eq infos app_of routers r v p en R I NO.
  assert (G : forall i, get_info infos v p <> Ok i).
  { intros i H. unfold get_info in H. destruct (find (same_info v p) infos) as [j|] eqn:F; [|discriminate].
    apply find_some in F. destruct F as [F1 F2]. apply (NO j F1). unfold same_info in F2. apply andb_prop in F2. destruct F2 as [F2 F3].
    apply AllocProofs.vertex_eqb_spec in F2. apply Nat.eqb_eq in F3. auto. }
  split.
  - intros ts H. apply C184_merged in H. induction H as [|r' t rs ts [_ [_ [K _]]] F IH]; [destruct R|].
    destruct R as [<-|R]; [|exact (IH R)]. destruct (K v p en I) as [i Gi]. exact (G i Gi).
  - intros ND ts H. apply C184_basic in H; [|exact ND]. clear ND. induction H as [|r' t rs ts [_ [_ E]] F IH]; [destruct R|].
    destruct R as [<-|R]; [|exact (IH R)]. clear - E I G. induction E as [|it e its es [i [Gi _]] E IH]; [destruct I|].
    destruct I as [->|I]; [exact (G i Gi) | exact (IH I)].
Qed.
Print Assumptions C184_missing.
(** The routers of the graph of C124 are such routers. *)
Example C184_example : exists t, route_application_graph rx [0; 10; 20] rx_parts = Ok t /\ length (routers_of t) = 5 /\
  Forall (fun r => NoDup (map fst (snd r))) (routers_of t) /\
  generate (basic_table eqe (fst (rx_made false))) (routers_of t) = Ok (snd (rx_made false)) /\
  generate (merged_table eqe (fst (rx_made true)) (ve_app (ri_venv rx))) (routers_of t) = Ok (snd (rx_made true)) /\
  generate (basic_table eqe (tl (fst (rx_made false)))) (routers_of t) = Err KeyError /\
  generate (merged_table eqe (tl (fst (rx_made true))) (ve_app (ri_venv rx))) (routers_of t) = Err KeyError.
Proof.
  eexists. split; [vm_compute; reflexivity|]. split; [reflexivity|]. split.
  { vm_compute. repeat constructor; cbn; intuition discriminate. }
  split; [vm_compute; reflexivity|]. split; [vm_compute; reflexivity|]. split; vm_compute; reflexivity.
Qed.

(** C185: the router may be asked for a machine vertex that gets no key. Vertex 11
    asks for the packets of machine vertex 2, but the splitter of vertex 0 names only
    1 and 3 as outgoing; the router makes a route for 2, the allocator gives keys to
    1 and 3, and both generators raise. *)
Definition both_at (v : nat) : xy * place :=
  match v with 1 => ((0, 0)%Z, OnCore 3) | 2 => ((0, 0)%Z, OnCore 4) | 3 => ((1, 0)%Z, OnCore 5) | _ => ((3, 0)%Z, OnCore 6) end.
Lemma both_chips : forall v, In (fst (both_at v)) [(0, 0); (1, 0); (2, 0); (3, 0)]%Z.
Proof. intros v. do 4 (destruct v as [|v]; [cbn; tauto|]). cbn. tauto. Qed.
Definition unkeyed : rinput := mkRIn four plain_vec (fun l => l) (mkVEnv four_macs four_app) both_at
  (fun a k => match a with 0 => [1; 3] | _ => [] end) (fun target source k => match target with 10 => [(11, [Mac 2])] | _ => [] end) (fun _ => []).
Lemma unkeyed_ok : graph_ok unkeyed [0] [mkPart 0 7 [10]].
Proof.
  constructor; [constructor| |].
  - intros a v. cbn [unkeyed ri_venv ve_macs ve_app]. split.
    + do 11 (destruct a as [|a]; [cbn; intuition (subst; reflexivity)|]). cbn. tauto.
    + do 12 (destruct v as [|v]; [cbn; intros H; try discriminate H; injection H as <-; cbn; tauto|]). cbn. discriminate.
  - intros b k v. cbn [unkeyed ri_out ri_venv ve_app]. destruct b as [|b]; [|intros []]. intros H. each H; reflexivity.
  - intros v. unfold chip_of. cbn [unkeyed ri_at ri_mach]. do 4 (destruct v as [|v]; [exact I|]). exact I.
  - intros v. unfold chip_of, inside. cbn [unkeyed ri_at ri_mach]. destruct (both_chips v) as [H|[H|[H|[H|[]]]]]; rewrite <- H; cbn; lia.
  - intros v w. unfold chip_of. cbn [unkeyed ri_mach ri_vec ri_at]. generalize (both_chips v), (both_chips w). generalize (fst (both_at v)), (fst (both_at w)).
    intros p q Hp Hq. each Hp; each Hq; reflexivity.
  - intros v w l. unfold chip_of. cbn [unkeyed ri_mach ri_vec ri_at]. generalize (both_chips v), (both_chips w). generalize (fst (both_at v)), (fst (both_at w)).
    intros p q Hp Hq H. apply no_repeat_no_return, nodup_b_spec. each Hp; each Hq; revert H; vm_compute; intros X; injection X as <-; reflexivity.
  - intros l. apply Permutation_refl.
  - repeat constructor. intros [].
  - intros pt [H|[_ [v [ip [V [X _]]]]]]; [|destruct X]. each H. constructor; cbn.
    + intros v V. each V; [exists 1 | exists 1 | exists 3]; cbn; (split; [tauto | reflexivity]).
    + intros ip [].
    + intros target x src T X S. each T; each X; each S. right. exists 2. cbn. tauto.
Qed.
Theorem C185_asked_without_key_refuted : exists i vs ps e t infos, graph_ok i vs ps /\
  route_application_graph i vs ps = Ok t /\ allocate true e (keyed_parts i vs ps []) = Ok infos /\
  ae_outgoing e = ri_out i /\
  forall merged entry_eq, make_tables merged entry_eq true i vs ps [] e = Err KeyError.
Proof.
  exists unkeyed, [0], [mkPart 0 7 [10]], (env_of unkeyed 16). eexists. eexists. split; [exact unkeyed_ok|].
  split; [vm_compute; reflexivity|]. split; [vm_compute; reflexivity|]. split; [reflexivity|]. intros [] entry_eq; vm_compute; reflexivity.
Qed.
Print Assumptions C185_asked_without_key_refuted.
