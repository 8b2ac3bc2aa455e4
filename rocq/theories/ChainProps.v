(** Properties of the chain from the router to the routing tables that are loaded:
    packets sent with the keys that a machine vertex is given reach its targets. *)
From Coq Require Import List Arith NArith ZArith Bool Lia Permutation.
From Verif Require Import Base Dict RouteSpec KeyMask AllocModel AllocProofs TablesModel TablesProofs GenModel GenProofs GenProps
  PairModel PairSort RangeModel RangeProofs OrderedModel OrderedProofs
  TreeModel TreeProofs MachModel LdfModel LdfProofs PathModel PathProofs PathProps
  RPartModel RPartProofs BfsModel BfsProofs TargetsModel TargetsProofs ConvModel ConvProofs RouterModel RouterProofs RouterTables RouterPlan RouterFinal
  RouterSuccess RouterProps ChainModel ChainProofs CoverMerged.
Import ListNotations.
Local Open Scope nat_scope.

(** C124: when the router and the key allocator succeed, both generators do, and in
    the tables they make the packets sent with any key of a machine vertex reach each
    core or link that is a target of the vertex. *)
Theorem C124_delivered : forall merged entry_eq flexible i vs ps extra e t infos, graph_ok i vs ps -> keys_ok i vs ps extra e ->
  route_application_graph i vs ps = Ok t -> allocate flexible e (keyed_parts i vs ps extra) = Ok infos ->
  exists ts, make_tables merged entry_eq flexible i vs ps extra e = Ok (infos, ts) /\
  forall pt v, routed_part i vs ps pt -> In v (ri_out i (ap_pre pt) (ap_id pt)) ->
  exists j, get_info infos (AllocModel.Mac v) (ap_id pt) = Ok j /\
    forall key w q pl, (key < 2 ^ 32)%N -> km_matches key (i_km j) -> target_of i pt v w -> ri_at i w = (q, pl) ->
      arrives (ri_mach i) ts key (chip_of i v) (link_of (snd (ri_at i v))) q pl.
Proof.
  intros merged entry_eq flexible i vs ps extra e t infos GO KO R A.
  destruct (chain_delivers merged entry_eq flexible i vs ps extra e t infos GO KO R A) as [ts [T D]]. exists ts. split; [exact T|].
  intros pt v RP V. destruct (D pt v RP V) as [j [J K]]. exists j. split; [exact J|]. intros key w q pl K32 KM TG AT.
  exact (proj1 (K key K32 KM) w q pl TG AT).
Qed.
Print Assumptions C124_delivered.

(** C124: where no chip is asked for both the whole source and one of its machine
    vertices, they reach no core and no device that is not a target. *)
Theorem C124_nothing_else : forall merged entry_eq flexible i vs ps extra e infos ts, graph_ok i vs ps -> keys_ok i vs ps extra e ->
  make_tables merged entry_eq flexible i vs ps extra e = Ok (infos, ts) ->
  forall pt v j key q pl, routed_part i vs ps pt -> unmixed i pt -> In v (ri_out i (ap_pre pt) (ap_id pt)) ->
    get_info infos (AllocModel.Mac v) (ap_id pt) = Ok j -> (key < 2 ^ 32)%N -> km_matches key (i_km j) -> off_chip (ri_mach i) q pl ->
    arrives (ri_mach i) ts key (chip_of i v) (link_of (snd (ri_at i v))) q pl ->
    exists w, target_of i pt v w /\ ri_at i w = (q, pl).
Proof.
  intros merged entry_eq flexible i vs ps extra e infos ts GO KO H pt v j key q pl RP U V J K KM O A.
  destruct (chain_split _ _ _ _ _ _ _ _ _ _ H) as [t [R [AL G]]].
  destruct (chain_delivers merged entry_eq flexible i vs ps extra e t infos GO KO R AL) as [ts' [T D]].
  assert (ts' = ts) by congruence. subst ts'. destruct (D pt v RP V) as [j' [J' X]]. assert (j' = j) by congruence. subst j'.
  exact (proj1 (proj2 (X key K KM)) U q pl O A).
Qed.
Print Assumptions C124_nothing_else.

(** C124: a chip gets such a packet at most once, and the chip it is sent from gets
    none back. *)
Theorem C124_once : forall merged entry_eq flexible i vs ps extra e infos ts, graph_ok i vs ps -> keys_ok i vs ps extra e ->
  make_tables merged entry_eq flexible i vs ps extra e = Ok (infos, ts) ->
  forall pt v j key p inn l q, routed_part i vs ps pt -> In v (ri_out i (ap_pre pt) (ap_id pt)) ->
    get_info infos (AllocModel.Mac v) (ap_id pt) = Ok j -> (key < 2 ^ 32)%N -> km_matches key (i_km j) ->
    let here := flies (ri_mach i) ts key (chip_of i v) (link_of (snd (ri_at i v))) in
    here p inn -> has_link (sends ts key p inn) l = true -> works (ri_mach i) p (l, q) ->
    q <> chip_of i v /\ forall p' inn' l', here p' inn' -> has_link (sends ts key p' inn') l' = true -> works (ri_mach i) p' (l', q) ->
      p' = p /\ inn' = inn /\ l' = l.
Proof.
  intros merged entry_eq flexible i vs ps extra e infos ts GO KO H pt v j key p inn l q RP V J K KM here F L W.
  destruct (chain_split _ _ _ _ _ _ _ _ _ _ H) as [t [R [AL G]]].
  destruct (chain_delivers merged entry_eq flexible i vs ps extra e t infos GO KO R AL) as [ts' [T D]].
  assert (ts' = ts) by congruence. subst ts'. destruct (D pt v RP V) as [j' [J' X]]. assert (j' = j) by congruence. subst j'.
  destruct (X key K KM) as [_ [_ N]]. split; [exact (proj1 (N p inn l q p inn l F L W))|].
  intros p' inn' l' F' L' W'. exact (proj2 (N p inn l q p' inn' l' F L W) F' L' W').
Qed.
Print Assumptions C124_once.

(** C125: the same holds of the tables after pair compression, and of those after
    range compression. *)
Theorem C125_pair : forall merged entry_eq flexible i vs ps extra e infos ts c_sort n_routes target as_needed ordered accept_overflow out,
  graph_ok i vs ps -> keys_ok i vs ps extra e -> make_tables merged entry_eq flexible i vs ps extra e = Ok (infos, ts) ->
  compress_tables (fun t => compress_table ordered c_sort n_routes (t_entries t)) target as_needed ordered accept_overflow ts [] = Ok out ->
  exact_delivery i vs ps infos out.
Proof. exact chain_pair. Qed.
Print Assumptions C125_pair.
Theorem C125_range : forall merged entry_eq flexible i vs ps extra e infos ts as_far target accept_overflow out,
  graph_ok i vs ps -> keys_ok i vs ps extra e -> make_tables merged entry_eq flexible i vs ps extra e = Ok (infos, ts) ->
  range_compressor as_far target accept_overflow ts = Ok out -> exact_delivery i vs ps infos out.
Proof. exact chain_range. Qed.
Print Assumptions C125_range.

(** C125: when overflow is not accepted, every table that range_compressor returns
    fits into its router, and it returns tables when they can be made and fit. *)
Theorem C125_range_fits : forall as_far target ts out, range_compressor as_far target false ts = Ok out ->
  Forall (fun t => length (t_entries t) <= target (t_x t) (t_y t)) out.
Proof. exact ranged_fits. Qed.
Print Assumptions C125_range_fits.
Theorem C125_range_made : forall as_far target accept_overflow ts, NoDup (map (fun t => (t_x t, t_y t)) ts) ->
  (forall tb, In tb ts -> exists es, range_compress (length (t_entries tb)) as_far (target (t_x tb) (t_y tb)) (t_entries tb) = Ok es /\
     (accept_overflow = false -> length es <= target (t_x tb) (t_y tb))) ->
  exists out, range_compressor as_far target accept_overflow ts = Ok out.
Proof. exact ranged_made. Qed.
Print Assumptions C125_range_made.

(** C126: the same holds of the basic tables after ordered covering, which leaves
    out entries that default routing makes unnecessary. *)
Theorem C126_covering : forall entry_eq flexible i vs ps extra e infos ts target (as_needed accept_overflow : bool) out,
  graph_ok i vs ps -> keys_ok i vs ps extra e -> make_tables false entry_eq flexible i vs ps extra e = Ok (infos, ts) ->
  compress_tables (fun t => oc_compress_table (t_entries t) (if as_needed then Some (target (t_x t) (t_y t)) else None))
    target as_needed true accept_overflow ts [] = Ok out ->
  exact_delivery i vs ps infos out.
Proof. exact chain_covering. Qed.
Print Assumptions C126_covering.

(** C127: routing, keys and tables are made for every graph that fits: see C122 for
    the router; with no fixed keys, the partitions must fit into 32 bits (C16). *)
Theorem C127_succeeds : forall merged entry_eq flexible i vs ps extra e, graph_ok i vs ps -> keys_ok i vs ps extra e ->
  connected (ri_mach i) -> (forall pt, routed_part i vs ps pt -> part_fit i pt) ->
  no_fixed e (keyed_parts i vs ps extra) -> fields_fit e (keyed_parts i vs ps extra) ->
  (forall a k, In (a, k) (keyed_parts i vs ps extra) -> NoDup (ri_out i a k)) ->
  (forall a k, In (a, k) extra -> ri_out i a k <> [] -> counted e a k) ->
  exists infos ts, make_tables merged entry_eq flexible i vs ps extra e = Ok (infos, ts).
Proof. exact chain_succeeds. Qed.
Print Assumptions C127_succeeds.

(** * Examples *)
(** Each machine vertex of a graph asks for [n] keys. *)
Definition env_of (i : rinput) (n : N) : graph_env :=
  mkEnv (fun _ _ => None) (ri_out i) (fun _ _ _ => None) (fun _ _ => n) N.of_nat N.of_nat (fun a => N.of_nat (length (ve_macs (ri_venv i) a))).
Lemma env_of_ok : forall i vs ps n, (0 < n)%N ->
  (forall pt target x v, routed_part i vs ps pt -> In target (ap_posts pt) -> In x (ri_in i target (ap_pre pt) (ap_id pt)) ->
     In (Mac v) (snd x) -> In v (ri_out i (ap_pre pt) (ap_id pt))) ->
  (forall pt ip, routed_part i vs ps pt -> In ip (ri_internal i (ap_pre pt)) -> in_id ip = ap_id pt -> In (in_pre ip) (ri_out i (ap_pre pt) (ap_id pt))) ->
  keys_ok i vs ps [] (env_of i n).
Proof.
  intros i vs ps n N A B. constructor; auto.
  - intros pt RP O. right. destruct (ri_out i (ap_pre pt) (ap_id pt)) as [|m l] eqn:E; [contradiction|]. exists m. cbn. rewrite E. split; [left; reflexivity | exact N].
Qed.
Example ex_chain_keys : keys_ok rx [0; 10; 20] rx_parts [] (env_of rx 16).
Proof.
  apply env_of_ok; [reflexivity| |].
  - intros pt target x v RP. apply rx_routed in RP. destruct RP as [<-|[<-|[<-|[<-|[]]]]]; cbn; intros T X S; each T; each X; each S;
      try discriminate S; injection S as <-; cbn; tauto.
  - intros pt ip RP. apply rx_routed in RP. destruct RP as [<-|[<-|[<-|[<-|[]]]]]; cbn; intros T E; each T; cbn; tauto.
Qed.
Definition ok_or {A} (d : A) (r : res A) : A := match r with Ok x => x | Err _ => d end.
Definition rx_made (merged : bool) : list info * list table :=
  ok_or ([], []) (make_tables merged eqe true rx [0; 10; 20] rx_parts [] (env_of rx 16)).
Example ex_chain_runs : forall merged, make_tables merged eqe true rx [0; 10; 20] rx_parts [] (env_of rx 16) = Ok (rx_made merged).
Proof. intros []; vm_compute; reflexivity. Qed.
Example ex_chain_fits : no_fixed (env_of rx 16) (keyed_parts rx [0; 10; 20] rx_parts []) /\ fields_fit (env_of rx 16) (keyed_parts rx [0; 10; 20] rx_parts []) /\
  (forall a k, In (a, k) (keyed_parts rx [0; 10; 20] rx_parts []) -> NoDup (ri_out rx a k)).
Proof.
  split; [|split].
  - intros a p _. split; reflexivity.
  - eexists 8%N, _. split; [lia|]. split; [apply senders_set|]. split; [vm_compute; discriminate|]. intros a p I _. exists 4%N, 1%N. split; [lia|]. split; [|intros; cbn; lia].
    assert (X : length (rx_macs a) <= 2); [do 21 (destruct a as [|a]; [cbn; lia|]); cbn; lia|]. cbn [env_of ae_outgoing rx ri_out]. cbn. lia.
  - intros a k _. cbn [rx ri_out]. do 21 (destruct a as [|a]; [cbn; repeat constructor; cbn; intuition discriminate|]). constructor.
Qed.
(** The packets of machine vertex 2 for vertex 11 after each of the compressors; in
    the basic tables the chip (0, 1) loses its entry for the device. *)
Definition big (x y : Z) : nat := 1023.
Definition rx_pair : list table :=
  ok_or [] (compress_tables (fun t => compress_table true false 1023 (t_entries t)) big false true false (snd (rx_made true)) []).
Definition rx_range : list table := ok_or [] (range_compressor true big false (snd (rx_made true))).
Definition rx_cover : list table :=
  ok_or [] (compress_tables (fun t => oc_compress_table (t_entries t) None) big false true false (snd (rx_made false)) []).
Definition sizes (ts : list table) : list nat := map (fun t => length (t_entries t)) ts.
Example ex_chain_compressed :
  compress_tables (fun t => compress_table true false 1023 (t_entries t)) big false true false (snd (rx_made true)) [] = Ok rx_pair /\
  range_compressor true big false (snd (rx_made true)) = Ok rx_range /\
  compress_tables (fun t => oc_compress_table (t_entries t) None) big false true false (snd (rx_made false)) [] = Ok rx_cover /\
  sizes (snd (rx_made true)) = [5; 6; 4; 5; 2] /\ sizes rx_pair = [5; 5; 2; 4; 2] /\ sizes rx_range = [5; 6; 2; 5; 2] /\
  sizes (snd (rx_made false)) = [5; 8; 4; 5; 2] /\ sizes rx_cover = [5; 5; 2; 4; 1].
Proof.
  split; [vm_compute; reflexivity|]. split; [vm_compute; reflexivity|]. split; [vm_compute; reflexivity|]. vm_compute. auto.
Qed.
(** A key of machine vertex 2 and a packet that default routing takes on. *)
Example ex_chain_key : exists j, get_info (fst (rx_made false)) (AllocModel.Mac 2) 7 = Ok j /\ km_matches 18 (i_km j) /\
  arrives dead_link rx_cover 18 (1, 0)%Z None (0, 1)%Z (OnLink 2) /\ found rx_cover (0, 1)%Z 18 = None.
Proof.
  destruct (chain_covering eqe true rx [0; 10; 20] rx_parts [] (env_of rx 16) (fst (rx_made false)) (snd (rx_made false)) big false false rx_cover
    ex_router_graph ex_chain_keys (eq_trans (ex_chain_runs false) (f_equal Ok (surjective_pairing _))) (proj1 (proj2 (proj2 ex_chain_compressed)))
    (mkPart 0 7 [10; 20]) 2 (proj1 ex_router_part) (or_intror (or_introl eq_refl))) as [j [J D]].
  exists j. split; [exact J|].
  assert (M : km_matches 18 (i_km j)).
  { vm_compute in J. injection J as <-. vm_compute. reflexivity. }
  split; [exact M|]. split; [|vm_compute; reflexivity].
  apply (proj1 (D 18%N eq_refl M) 21); [apply ex_router_part | reflexivity].
Qed.

(** * What fails *)
(** The chips of a list are all that a packet comes to. *)
Definition shut_b (m : machine) (ts : list table) (key : N) (l : list (xy * option nat)) : bool :=
  forallb (fun x => forallb (fun d => negb (has_link (sends ts key (fst x) (snd x)) d) || negb (is_link m (fst x) d) ||
    existsb (fun y => xy_eqb (over_link m (fst x) d) (fst y) && match snd y with Some n => Nat.eqb n ((d + 3) mod 6) | None => false end) l) (seq 0 6)) l.
Lemma shut_spec : forall m ts key root inn0 l, shut_b m ts key l = true -> In (root, inn0) l ->
  forall q inn, flies m ts key root inn0 q inn -> In (q, inn) l.
Proof.
  intros m ts key root inn0 l C R q inn F. induction F as [|p inn d q F IH H W]; [exact R|].
  unfold shut_b in C. rewrite forallb_forall in C. specialize (C _ IH). rewrite forallb_forall in C. cbn [fst snd] in C.
  destruct W as [W1 [W2 [W3 W4]]]. cbn [fst snd] in *. assert (D : In d (seq 0 6)) by (apply in_seq; lia). specialize (C d D). rewrite H, W2 in C. cbn in C.
  apply existsb_exists in C. destruct C as [[y n] [I E]]. cbn [fst snd] in E. apply andb_prop in E. destruct E as [E1 E2]. apply xy_eqb_eq in E1.
  destruct n as [n|]; [|discriminate]. apply Nat.eqb_eq in E2. subst. exact I.
Qed.

(** C128: with merged tables ordered covering loses packets. The machine vertices 1, 2
    and 3 of vertex 0 are on the first three of four chips in a row and send to the
    fourth. On the second chip the packets of vertex 1 go straight on, so that their
    entry is defaultable; those of vertex 2 start there. The merged entry has the flag
    of the first, and is left out. *)
Definition four : machine := mkMachine 4 1 false false [(0, 0); (1, 0); (2, 0); (3, 0)]%Z
  [((0, 0)%Z, 0); ((1, 0)%Z, 0); ((1, 0)%Z, 3); ((2, 0)%Z, 0); ((2, 0)%Z, 3); ((3, 0)%Z, 3)].
Definition four_macs (a : nat) : list nat := match a with 0 => [1; 2; 3] | 10 => [11] | _ => [] end.
Definition four_app (v : nat) : option nat := match v with 1 | 2 | 3 => Some 0 | 11 => Some 10 | _ => None end.
Definition four_at (v : nat) : xy * place :=
  match v with 1 => ((0, 0)%Z, OnCore 3) | 2 => ((1, 0)%Z, OnCore 4) | 3 => ((2, 0)%Z, OnCore 5) | _ => ((3, 0)%Z, OnCore 6) end.
Definition four_input : rinput := mkRIn four plain_vec (fun l => l) (mkVEnv four_macs four_app) four_at
  (fun a k => match a with 0 => [1; 2; 3] | _ => [] end) (fun target source k => match target with 10 => [(11, [App 0])] | _ => [] end) (fun _ => []).
Lemma four_chips : forall v, In (fst (four_at v)) [(0, 0); (1, 0); (2, 0); (3, 0)]%Z.
Proof. intros v. do 4 (destruct v as [|v]; [cbn; tauto|]). cbn. tauto. Qed.
Lemma four_ok : graph_ok four_input [0] [mkPart 0 7 [10]].
Proof.
  constructor; [constructor| |].
  - intros a v. cbn [four_input ri_venv ve_macs ve_app]. split.
    + do 11 (destruct a as [|a]; [cbn; intuition (subst; reflexivity)|]). cbn. tauto.
    + do 12 (destruct v as [|v]; [cbn; intros H; try discriminate H; injection H as <-; cbn; tauto|]). cbn. discriminate.
  - intros b k v. cbn [four_input ri_out ri_venv ve_app]. destruct b as [|b]; [|intros []]. intros H. each H; reflexivity.
  - intros v. unfold chip_of. cbn [four_input ri_at ri_mach]. do 4 (destruct v as [|v]; [exact I|]). exact I.
  - intros v. unfold chip_of, inside. cbn [four_input ri_at ri_mach]. destruct (four_chips v) as [H|[H|[H|[H|[]]]]]; rewrite <- H; cbn; lia.
  - intros v w. unfold chip_of. cbn [four_input ri_mach ri_vec ri_at]. generalize (four_chips v), (four_chips w). generalize (fst (four_at v)), (fst (four_at w)).
    intros p q Hp Hq. each Hp; each Hq; reflexivity.
  - intros v w l. unfold chip_of. cbn [four_input ri_mach ri_vec ri_at]. generalize (four_chips v), (four_chips w). generalize (fst (four_at v)), (fst (four_at w)).
    intros p q Hp Hq H. apply no_repeat_no_return, nodup_b_spec. each Hp; each Hq; revert H; vm_compute; intros X; injection X as <-; reflexivity.
  - intros l. apply Permutation_refl.
  - repeat constructor. intros [].
  - intros pt [H|[_ [v [ip [V [X _]]]]]]; [|destruct X]. each H. constructor; cbn.
    + intros v V. exists v. tauto.
    + intros ip [].
    + intros target x src T X S. each T; each X; each S. left. reflexivity.
Qed.
Theorem C128_merged_covering_refuted : exists entry_eq i vs ps e infos ts out pt v w j key q pl,
  graph_ok i vs ps /\ keys_ok i vs ps [] e /\ make_tables true entry_eq true i vs ps [] e = Ok (infos, ts) /\
  compress_tables (fun t => oc_compress_table (t_entries t) None) (fun _ _ => 1023) false true false ts [] = Ok out /\
  routed_part i vs ps pt /\ In v (ri_out i (ap_pre pt) (ap_id pt)) /\ target_of i pt v w /\ ri_at i w = (q, pl) /\
  get_info infos (AllocModel.Mac v) (ap_id pt) = Ok j /\ (key < 2 ^ 32)%N /\ km_matches key (i_km j) /\
  ~ arrives (ri_mach i) out key (chip_of i v) (link_of (snd (ri_at i v))) q pl.
Proof.
  exists eqe, four_input, [0], [mkPart 0 7 [10]], (env_of four_input 16). eexists. eexists. eexists.
  exists (mkPart 0 7 [10]), 2, 11. eexists. exists 16%N, (3, 0)%Z, (OnCore 6).
  split; [exact four_ok|]. split.
  { apply env_of_ok; [reflexivity| |].
    - intros pt target x v [H|[_ [u [ip [V [X _]]]]]]; [|destruct X]. each H. cbn. intros T X S. each T; each X; each S. discriminate S.
    - intros pt ip _ []. }
  split; [vm_compute; reflexivity|]. split; [vm_compute; reflexivity|]. split; [left; left; reflexivity|]. split; [cbn; tauto|].
  split; [left; exists 10, (11, [App 0]), (App 0); cbn; intuition; right; exists 0; cbn; tauto|]. split; [reflexivity|].
  split; [vm_compute; reflexivity|]. split; [reflexivity|]. split; [vm_compute; reflexivity|].
  intros [inn [F _]].
  assert (C : In ((3, 0)%Z, inn) [((1, 0)%Z, None)]); [|each C; discriminate C].
  revert F. apply shut_spec; [vm_compute; reflexivity | left; reflexivity].
Qed.
Print Assumptions C128_merged_covering_refuted.

(** It is true when on each chip the machine vertices of one application vertex whose
    packets take the same route all go straight through or all do not. *)
Theorem C128_same_flags_partial : forall entry_eq flexible i vs ps extra e infos ts t target (as_needed accept_overflow : bool) out,
  graph_ok i vs ps -> keys_ok i vs ps extra e -> make_tables true entry_eq flexible i vs ps extra e = Ok (infos, ts) ->
  route_application_graph i vs ps = Ok t ->
  (forall q m m' a k x x', ve_app (ri_venv i) m = Some a -> ve_app (ri_venv i) m' = Some a ->
     get_entry t (Mac m) k q = Some x -> get_entry t (Mac m') k q = Some x' ->
     RPartModel.re_route x = RPartModel.re_route x' -> re_default x = re_default x') ->
  compress_tables (fun t => oc_compress_table (t_entries t) (if as_needed then Some (target (t_x t) (t_y t)) else None))
    target as_needed true accept_overflow ts [] = Ok out ->
  exact_delivery i vs ps infos out.
Proof.
  intros entry_eq flexible i vs ps extra e infos ts t target as_needed accept_overflow out GO KO.
  apply good_merged_covering; [exact GO|]. intros t' R A. exact (keys_good _ _ _ _ _ _ _ _ _ GO KO R A).
Qed.
Print Assumptions C128_same_flags_partial.
(** The example above is such a graph; three of its entries are left out. *)
Definition agree_b (i : rinput) (t : rtable) : bool :=
  forallb (fun '(_, d) => forallb (fun '((w, k), x) => forallb (fun '((w', k'), x') =>
    match w, w' with
    | Mac m, Mac m' =>
        match ve_app (ri_venv i) m, ve_app (ri_venv i) m' with
        | Some a, Some a' => negb (Nat.eqb a a' && Nat.eqb k k' && N.eqb (RPartModel.re_route x) (RPartModel.re_route x')) ||
            Bool.eqb (re_default x) (re_default x')
        | _, _ => true
        end
    | _, _ => true
    end) d) d) t.
Lemma agree_spec : forall i t, agree_b i t = true -> flags_agree i t.
Proof.
  intros i t H q m m' a k x x' A A' G G' R. unfold get_entry in *. destruct (dget xy_eqb t q) as [d|] eqn:D; [|discriminate].
  apply (dget_In _ xy_eqb_eq) in D. apply (dget_In _ skey_eqb_eq) in G, G'.
  unfold agree_b in H. rewrite forallb_forall in H. specialize (H _ D). cbn beta iota in H.
  rewrite forallb_forall in H. specialize (H _ G). cbn beta iota in H. rewrite forallb_forall in H. specialize (H _ G'). cbn beta iota in H.
  rewrite A, A', !Nat.eqb_refl, R, N.eqb_refl in H. cbn [andb negb orb] in H. apply eqb_prop in H. exact H.
Qed.
Example ex_same_flags : exists t out, route_application_graph rx [0; 10; 20] rx_parts = Ok t /\ flags_agree rx t /\
  compress_tables (fun t => oc_compress_table (t_entries t) None) big false true false (snd (rx_made true)) [] = Ok out /\
  sizes (snd (rx_made true)) = [5; 6; 4; 5; 2] /\ sizes out = [5; 5; 2; 4; 1] /\ exact_delivery rx [0; 10; 20] rx_parts (fst (rx_made true)) out.
Proof.
  destruct (route_application_graph rx [0; 10; 20] rx_parts) as [t|] eqn:R; [|vm_compute in R; discriminate].
  destruct (compress_tables (fun t => oc_compress_table (t_entries t) None) big false true false (snd (rx_made true)) []) as [out|] eqn:C; [|vm_compute in C; discriminate].
  assert (F : flags_agree rx t).
  { apply agree_spec. change (match Ok t with Ok t => agree_b rx t | Err _ => false end = true). rewrite <- R. vm_compute. reflexivity. }
  exists t, out. split; [reflexivity|]. split; [exact F|]. split; [reflexivity|]. split; [vm_compute; reflexivity|]. split.
  - change (match Ok out with Ok o => sizes o | Err _ => [] end = [5; 5; 2; 4; 1]). rewrite <- C. vm_compute. reflexivity.
  - exact (C128_same_flags_partial eqe true rx [0; 10; 20] rx_parts [] (env_of rx 16) _ _ t big false false out ex_router_graph ex_chain_keys
      (eq_trans (ex_chain_runs true) (f_equal Ok (surjective_pairing _))) R F C).
Qed.

(** C129: range compression followed by pair compression misroutes packets. Eight
    machine vertices with one key each; vertex 11 asks for the first and the last,
    vertex 12 for the second to the fourth. *)
Definition one_macs (a : nat) : list nat := match a with 0 => [1; 2; 3; 4; 5; 6; 7; 8] | 10 => [11; 12] | _ => [] end.
Definition one_app (v : nat) : option nat := match v with 1 | 2 | 3 | 4 | 5 | 6 | 7 | 8 => Some 0 | 11 | 12 => Some 10 | _ => None end.
Definition one_chip : machine := mkMachine 1 1 false false [(0, 0)]%Z [].
Definition one : rinput := mkRIn one_chip plain_vec (fun l => l) (mkVEnv one_macs one_app) (fun v => ((0, 0)%Z, OnCore v))
  (fun a k => match a with 0 => one_macs 0 | _ => [] end)
  (fun target source k => match target with 10 => [(11, [Mac 1; Mac 8]); (12, [Mac 2; Mac 3; Mac 4])] | _ => [] end) (fun _ => []).
Lemma one_ok : graph_ok one [0] [mkPart 0 7 [10]].
Proof.
  constructor; [constructor| |].
  - intros a v. cbn [one ri_venv ve_macs ve_app]. split.
    + do 11 (destruct a as [|a]; [cbn; intuition (subst; reflexivity)|]). cbn. tauto.
    + do 13 (destruct v as [|v]; [cbn; intros H; try discriminate H; injection H as <-; cbn; tauto|]). cbn. discriminate.
  - intros b k v. cbn [one ri_out ri_venv ve_app]. destruct b as [|b]; [|intros []]. intros H. each H; reflexivity.
  - intros v. exact I.
  - intros v. unfold chip_of, inside. cbn. lia.
  - intros v w. reflexivity.
  - intros v w l s H. apply no_repeat_no_return, nodup_b_spec. revert H. vm_compute. intros X. injection X as <-. reflexivity.
  - intros l. apply Permutation_refl.
  - repeat constructor. intros [].
  - intros pt [H|[_ [v [ip [V [X _]]]]]]; [|destruct X]. each H. constructor; cbn.
    + intros v V. exists v. tauto.
    + intros ip [].
    + intros target x src T X S. each T; each X; each S; right; eexists; split; reflexivity.
Qed.
Theorem C129_range_pair_refuted : exists entry_eq i vs ps e infos ts mid out pt v w j key q pl pl',
  graph_ok i vs ps /\ keys_ok i vs ps [] e /\ make_tables true entry_eq true i vs ps [] e = Ok (infos, ts) /\
  range_compressor true (fun _ _ => 1023) true ts = Ok mid /\
  compress_tables (fun t => compress_table true false 1023 (t_entries t)) (fun _ _ => 1023) false true false mid [] = Ok out /\
  routed_part i vs ps pt /\ In v (ri_out i (ap_pre pt) (ap_id pt)) /\ target_of i pt v w /\ ri_at i w = (q, pl) /\
  get_info infos (AllocModel.Mac v) (ap_id pt) = Ok j /\ (key < 2 ^ 32)%N /\ km_matches key (i_km j) /\
  ~ arrives (ri_mach i) out key (chip_of i v) (link_of (snd (ri_at i v))) q pl /\
  arrives (ri_mach i) out key (chip_of i v) (link_of (snd (ri_at i v))) q pl' /\ off_chip (ri_mach i) q pl' /\
  ~ exists w', target_of i pt v w' /\ ri_at i w' = (q, pl').
Proof.
  exists eqe, one, [0], [mkPart 0 7 [10]], (env_of one 1). eexists. eexists. eexists. eexists.
  exists (mkPart 0 7 [10]), 1, 11. eexists. exists 0%N, (0, 0)%Z, (OnCore 11), (OnCore 12).
  split; [exact one_ok|]. split.
  { apply env_of_ok; [reflexivity| |].
    - intros pt target x v [H|[_ [u [ip [V [X _]]]]]]; [|destruct X]. each H. cbn. intros T X S. each T; each X; each S; injection S as <-; cbn; tauto.
    - intros pt ip _ []. }
  split; [vm_compute; reflexivity|]. split; [vm_compute; reflexivity|]. split; [vm_compute; reflexivity|].
  split; [left; left; reflexivity|]. split; [cbn; tauto|].
  split; [left; exists 10, (11, [Mac 1; Mac 8]), (Mac 1); cbn; intuition|]. split; [reflexivity|].
  split; [vm_compute; reflexivity|]. split; [reflexivity|]. split; [vm_compute; reflexivity|].
  split.
  { intros [inn [F H]].
    assert (C : In ((0, 0)%Z, inn) [((0, 0)%Z, None)]).
    { revert F. apply shut_spec; [vm_compute; reflexivity | left; reflexivity]. }
    each C. injection C as <-. vm_compute in H. discriminate H. }
  split; [exists None; split; [apply fl_root | vm_compute; reflexivity]|]. split; [exact I|].
  intros [w [T A]]. injection A as ->. destruct T as [[target [x [src [T [X [E [S O]]]]]]]|[ip [[] _]]].
  each T; each X; try discriminate E. each S; destruct O as [O|[b [O _]]]; discriminate O.
Qed.
Print Assumptions C129_range_pair_refuted.
