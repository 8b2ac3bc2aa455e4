(** Properties C106 to C111, C122 and C123: the application router. *)
From Coq Require Import List ZArith NArith Arith Bool Lia Permutation.
From Verif Require Import Base Dict TreeModel MachModel LdfModel LdfProofs PathModel PathProofs PathProps
  RPartModel RPartProofs BfsModel TargetsModel ConvModel ConvProofs RouterModel RouterProofs RouterTables RouterPlan RouterFinal RouterSuccess RouterErrors.
Import ListNotations.
Local Open Scope nat_scope.

(** C106: when the router succeeds, the packets of each outgoing vertex reach the
    core or device of each of its targets, and, when no chip away from the source
    asks both for the whole source and for single vertices of it, no other core
    or device. *)
Theorem C106_delivered : forall i vs ps t pt v w q pl,
  graph_ok i vs ps -> route_application_graph i vs ps = Ok t -> routed_part i vs ps pt ->
  In v (ri_out i (ap_pre pt) (ap_id pt)) -> target_of i pt v w -> ri_at i w = (q, pl) ->
  delivered (ri_mach i) t (ap_id pt) (ap_pre pt) v (chip_of i v) q pl.
Proof. intros. eapply router_delivers; eassumption. Qed.
Print Assumptions C106_delivered.
Theorem C106_nothing_else : forall i vs ps t pt v q pl,
  graph_ok i vs ps -> route_application_graph i vs ps = Ok t -> routed_part i vs ps pt -> unmixed i pt ->
  In v (ri_out i (ap_pre pt) (ap_id pt)) -> off_chip (ri_mach i) q pl ->
  delivered (ri_mach i) t (ap_id pt) (ap_pre pt) v (chip_of i v) q pl ->
  exists w, target_of i pt v w /\ ri_at i w = (q, pl).
Proof. intros i vs ps t pt v q pl GO H RP U V. exact (proj2 (router_delivers i vs ps t pt v GO H RP V) U q pl). Qed.
Print Assumptions C106_nothing_else.

(** C107: the packets of an internal partition reach its targets, also when its
    sender is not an outgoing vertex of the application vertex. *)
Theorem C107_internal : forall i vs ps t pt ip w q pl,
  graph_ok i vs ps -> route_application_graph i vs ps = Ok t -> routed_part i vs ps pt ->
  In ip (ri_internal i (ap_pre pt)) -> in_id ip = ap_id pt -> In w (in_posts ip) -> ri_at i w = (q, pl) ->
  delivered (ri_mach i) t (ap_id pt) (ap_pre pt) (in_pre ip) (chip_of i (in_pre ip)) q pl.
Proof. exact router_internal. Qed.
Print Assumptions C107_internal.

(** C107: each internal partition of a vertex of the graph belongs to one of the
    partitions that are routed, which are those of the graph and those made up for
    internal partitions, no two for the same vertex and name. *)
Theorem C107_partitions : forall i vs ps, NoDup (map (fun p => (ap_pre p, ap_id p)) ps) ->
  NoDup (map (fun p => (ap_pre p, ap_id p)) (app_partitions i vs ps)) /\
  (forall pt, In pt (app_partitions i vs ps) <-> routed_part i vs ps pt) /\
  (forall v ip, In v vs -> In ip (ri_internal i v) ->
     exists pt, In pt (app_partitions i vs ps) /\ (ap_pre pt, ap_id pt) = (v, in_id ip)).
Proof.
  intros i vs ps ND. destruct (app_partitions_spec i vs ps ND) as [A [B [C D]]].
  split; [exact A|]. split; [intros pt; apply routed_part_In; exact ND|].
  intros v ip V I. destruct (C v ip V I) as [pt [X Y]]. exists pt. split; [exact X | exact Y].
Qed.
Print Assumptions C107_partitions.

(** C108: the packets of a vertex enter no chip twice, and never come back to the
    chip they start from. *)
Theorem C108_once : forall i vs ps t pt v, graph_ok i vs ps -> route_application_graph i vs ps = Ok t ->
  routed_part i vs ps pt -> In v (ri_out i (ap_pre pt) (ap_id pt)) ->
  let go p l q := travels (ri_mach i) t (ap_id pt) (Some (ap_pre pt)) v (chip_of i v) p /\
    exists e, route_for t (ap_id pt) (Some (ap_pre pt)) v p = Some e /\ has_link (re_route e) l = true /\ works (ri_mach i) p (l, q) in
  forall p l q p' l', go p l q -> q <> chip_of i v /\ (go p' l' q -> p' = p /\ l' = l).
Proof. exact router_once. Qed.
Print Assumptions C108_once.

(** Three application vertices on a machine with a dead link. Vertex 0 has machine
    vertices on two chips and sends to vertex 10, to the device 20 and, in a second
    partition, to itself and vertex 10; vertex 10 sends to vertex 0 and, in an
    internal partition, from its machine vertex 11 to its machine vertex 12. *)
Definition plain_vec (s d : Z * Z) : Z * Z * Z :=
  let x := (fst d - fst s)%Z in
  let y := (snd d - snd s)%Z in
  let m := Z.max (Z.min x y) (Z.min (Z.max x y) 0) in (x - m, y - m, 0 - m)%Z.
Definition rx_macs (a : nat) : list nat := match a with 0 => [1; 2] | 10 => [11; 12] | 20 => [21] | _ => [] end.
Definition rx_app (v : nat) : option nat := match v with 1 | 2 => Some 0 | 11 | 12 => Some 10 | 21 => Some 20 | _ => None end.
Definition rx_at (v : nat) : (Z * Z) * place :=
  match v with
  | 1 => ((0, 0)%Z, OnCore 3) | 2 => ((1, 0)%Z, OnCore 4) | 11 => ((2, 0)%Z, OnCore 5) | 12 => ((2, 1)%Z, OnCore 6)
  | 21 => ((0, 1)%Z, OnLink 2) | _ => ((1, 1)%Z, OnCore 1)
  end.
Definition rx_in (target source part : nat) : list (nat * list vtx) :=
  match target with
  | 10 => [(11, [App source]); (12, match part with 7 => [Mac 1] | _ => [Mac 1; Mac 2] end)]
  | 0 => [(1, [App source]); (2, [App source])]
  | 20 => [(21, [Mac 2])]
  | _ => []
  end.
Definition rx : rinput := mkRIn dead_link plain_vec (fun l => l) (mkVEnv rx_macs rx_app) rx_at
  (fun a k => rx_macs a) rx_in (fun a => match a with 10 => [mkInternal 11 9 [12]] | _ => [] end).
Definition rx_parts : list apart := [mkPart 0 7 [10; 20]; mkPart 0 8 [0; 10]; mkPart 10 7 [0]].

Lemma rx_places : forall v, In (rx_at v) [((0, 0)%Z, OnCore 3); ((1, 0)%Z, OnCore 4); ((2, 0)%Z, OnCore 5);
  ((2, 1)%Z, OnCore 6); ((0, 1)%Z, OnLink 2); ((1, 1)%Z, OnCore 1)].
Proof. intros v. do 22 (destruct v as [|v]; [cbn; tauto|]). cbn. tauto. Qed.
Lemma rx_chips : forall v, In (chip_of rx v) [(0, 0); (1, 0); (2, 0); (2, 1); (0, 1); (1, 1)]%Z.
Proof. intros v. exact (in_map fst _ _ (rx_places v)). Qed.
Definition nodup_b (l : list (Z * Z)) : bool := (fix go l := match l with [] => true | p :: r => negb (xy_in p r) && go r end) l.
Lemma nodup_b_spec : forall l, nodup_b l = true -> NoDup l.
Proof.
  induction l as [|p l IH]; intros H; [constructor|]. cbn in H. apply andb_true_iff in H. destruct H as [A B].
  constructor; [|exact (IH B)]. intros C. apply xy_in_spec in C. rewrite C in A. discriminate A.
Qed.
Example ex_router_input : input_ok rx.
Proof.
  constructor.
  - intros a v. cbn [rx ri_venv ve_macs ve_app]. split.
    + do 21 (destruct a as [|a]; [cbn; intuition (subst; reflexivity)|]). cbn. tauto.
    + do 22 (destruct v as [|v]; [cbn; intros H; try discriminate H; injection H as <-; cbn; tauto|]). cbn. discriminate.
  - intros b k v. cbn [rx ri_out ri_venv ve_app].
    do 21 (destruct b as [|b]; [cbn; intuition (subst; reflexivity)|]). cbn. tauto.
  - intros v. unfold chip_of. cbn [rx ri_at ri_mach].
    destruct (rx_places v) as [H|[H|[H|[H|[H|[H|[]]]]]]]; rewrite <- H; cbn; auto. split; [lia | reflexivity].
  - intros v. destruct (rx_chips v) as [H|[H|[H|[H|[H|[H|[]]]]]]]; rewrite <- H; unfold inside; cbn; lia.
  - intros v w. cbn [rx ri_mach ri_vec]. fold rx. generalize (rx_chips v), (rx_chips w). generalize (chip_of rx v), (chip_of rx w).
    intros p q Hp Hq. cbn [In] in Hp, Hq. intuition (subst; reflexivity).
  - intros v w l. cbn [rx ri_mach ri_vec]. fold rx. generalize (rx_chips v), (rx_chips w). generalize (chip_of rx v), (chip_of rx w).
    intros p q Hp Hq H. apply no_repeat_no_return. apply nodup_b_spec. revert H.
    cbn [In] in Hp, Hq. intuition (subst; revert H; vm_compute; intros X; injection X as <-; reflexivity).
  - intros l. apply Permutation_refl.
Qed.
Ltac each H := cbn in H; lazymatch type of H with
  | _ \/ _ => destruct H as [H|H]; [try subst | each H]
  | False => destruct H
  end.
Lemma rx_routed : forall pt, routed_part rx [0; 10; 20] rx_parts pt -> In pt (mkPart 10 9 [] :: rx_parts).
Proof.
  intros pt [H|[_ [v [ip [V [I ->]]]]]]; [right; exact H|]. left.
  destruct V as [<-|[<-|[<-|[]]]]; cbn in I; try contradiction. destruct I as [<-|[]]. reflexivity.
Qed.
Example ex_router_graph : graph_ok rx [0; 10; 20] rx_parts.
Proof.
  constructor.
  - exact ex_router_input.
  - cbn. repeat constructor; cbn; intuition discriminate.
  - intros pt H. apply rx_routed in H. destruct H as [<-|[<-|[<-|[<-|[]]]]]; constructor; cbn.
    + intros v H. exists v. tauto.
    + intros ip [<-|[]] _. reflexivity.
    + intros target x src [].
    + intros v H. exists v. tauto.
    + intros ip [].
    + intros target x src T X S. each T; each X; each S;
        first [left; reflexivity | right; eexists; split; reflexivity].
    + intros v H. exists v. tauto.
    + intros ip [].
    + intros target x src T X S. each T; each X; each S;
        first [left; reflexivity | right; eexists; split; reflexivity].
    + intros v H. exists v. tauto.
    + intros ip [<-|[]]. discriminate.
    + intros target x src T X S. each T; each X; each S;
        first [left; reflexivity | right; eexists; split; reflexivity].
Qed.
Definition rx_table : rtable := match route_application_graph rx [0; 10; 20] rx_parts with Ok t => t | Err _ => [] end.
Example ex_router_runs : route_application_graph rx [0; 10; 20] rx_parts = Ok rx_table.
Proof. vm_compute. reflexivity. Qed.
Example ex_router_part : routed_part rx [0; 10; 20] rx_parts (mkPart 0 7 [10; 20]) /\ unmixed rx (mkPart 0 7 [10; 20]) /\
  target_of rx (mkPart 0 7 [10; 20]) 2 11 /\ target_of rx (mkPart 0 7 [10; 20]) 2 21 /\ ~ target_of rx (mkPart 0 7 [10; 20]) 2 12 /\
  off_chip dead_link (2, 1)%Z (OnCore 6) /\ routed_part rx [0; 10; 20] rx_parts (mkPart 10 9 []).
Proof.
  split; [left; left; reflexivity|]. split.
  { intros t1 x1 t2 x2 w T1 X1 A1 T2 X2 A2 E. exfalso.
    each T1; each X1; each A1; try discriminate A1; each T2; each X2; each A2; try discriminate A2; discriminate E. }
  split; [left; exists 10, (11, [App 0]), (App 0); cbn; intuition; right; exists 0; cbn; tauto|].
  split; [left; exists 20, (21, [Mac 2]), (Mac 2); cbn; intuition|].
  split.
  { intros [[target [x [src [T [X [E [S O]]]]]]]|[ip [[] _]]].
    each T; each X; try discriminate E. each S. destruct O as [O|[b [O _]]]; discriminate O. }
  split; [exact I|]. right. split; [cbn; intuition discriminate|]. exists 10, (mkInternal 11 9 [12]). cbn. tauto.
Qed.
(** The packets of machine vertex 2 for vertex 11 go round the dead link. *)
Example ex_router_way : delivered dead_link rx_table 7 0 2 (1, 0)%Z (2, 0)%Z (OnCore 5) /\
  map (fun q => match route_for rx_table 7 (Some 0) 2 q with Some e => Some (re_route e) | None => None end)
    [(1, 0); (2, 1); (2, 0); (0, 0); (0, 1)]%Z = [Some 10; Some 32; Some 2048; Some 4; Some 4]%N.
Proof.
  split; [|vm_compute; reflexivity].
  apply (C106_delivered rx [0; 10; 20] rx_parts rx_table (mkPart 0 7 [10; 20]) 2 11 (2, 0)%Z (OnCore 5) ex_router_graph ex_router_runs);
    [apply ex_router_part | cbn; tauto | apply ex_router_part | reflexivity].
Qed.

(** C122: the router succeeds on a connected machine when, for each partition it
    routes, something is sent, each target has incoming vertices, these and the
    source are on chips of the machine, the chips of the source are joined with each
    other and so are those of each target, self-connections and internal partitions
    stay on the chips of the source, and where the whole source is asked for on
    another chip only outgoing vertices are asked for as well. *)
Theorem C122_succeeds : forall i vs ps, graph_ok i vs ps -> connected (ri_mach i) ->
  (forall pt, routed_part i vs ps pt -> part_fit i pt) -> exists t, route_application_graph i vs ps = Ok t.
Proof. exact router_succeeds. Qed.
Print Assumptions C122_succeeds.

(** A check of joined chips. *)
Definition joined_b (m : machine) (l : list (Z * Z)) : bool :=
  forallb (fun p => forallb (fun q => match find_reachable m p l [] with Ok v => xy_in q v | Err _ => false end) l) l.
Lemma joined_b_spec : forall m l, joined_b m l = true -> joined m l.
Proof.
  intros m l H p q P Q. unfold joined_b in H. rewrite forallb_forall in H. specialize (H p P). rewrite forallb_forall in H. specialize (H q Q).
  destruct (BfsProofs.find_reachable_spec m p l []) as [vis [E [_ V]]]. rewrite E in H. apply xy_in_spec, V in H. destruct H as [w [W [A L]]].
  exists w. split; [|exact L]. split; [exact W|]. revert A. apply Forall_impl. tauto.
Qed.
Definition connected_b (m : machine) : bool := joined_b m (m_chips m).
Lemma connected_b_spec : forall m, connected_b m = true -> connected m.
Proof.
  intros m H p q P Q. apply xy_in_spec in P, Q. destruct (joined_b_spec m _ H p q P Q) as [w [[W _] L]]. eauto.
Qed.
Example ex_router_fits : connected dead_link /\ forall pt, routed_part rx [0; 10; 20] rx_parts pt -> part_fit rx pt.
Proof.
  split; [apply connected_b_spec; vm_compute; reflexivity|].
  intros pt H. apply rx_routed in H.
  assert (CH : forall v, is_chip dead_link (chip_of rx v) = true).
  { intros v. destruct (rx_chips v) as [X|[X|[X|[X|[X|[X|[]]]]]]]; rewrite <- X; reflexivity. }
  destruct H as [<-|[<-|[<-|[<-|[]]]]]; constructor; cbn [ap_pre ap_id ap_posts];
    try (intros; apply CH); try (apply joined_b_spec; vm_compute; reflexivity);
    try (left; discriminate);
    try (intros target T; each T; discriminate);
    try (intros target T _; each T; apply joined_b_spec; vm_compute; reflexivity).
  - right. exists (mkInternal 11 9 [12]). split; [left; reflexivity | discriminate].
  - intros ip w X W. each X. each W. exists 12. split; [right; left; reflexivity | reflexivity].
  - intros t1 x1 t2 x2 w [].
  - intros ip w [].
  - intros t1 x1 t2 x2 w T1 X1 A1 T2 X2 A2 E. left. each T1; each X1; each A1; try discriminate A1; each T2; each X2; each A2; try discriminate A2; try discriminate E.
  - intros x _ X. each X; [exists 1 | exists 2]; cbn; tauto.
  - intros ip w [].
  - intros t1 x1 t2 x2 w T1 X1 A1 T2 X2 A2 E. left. each T1; each X1; each A1; try discriminate A1; each T2; each X2; each A2; try discriminate A2; try discriminate E.
  - intros ip w X. each X.
  - intros t1 x1 t2 x2 w T1 X1 A1 T2 X2 A2 E. left. each T1; each X1; each A1; try discriminate A1; each T2; each X2; each A2; try discriminate A2; try discriminate E.
Qed.

(** * What fails *)
(** The chips of a list are all that a packet comes to. *)
Definition closed_b (m : machine) (t : rtable) (k a v : nat) (l : list (Z * Z)) : bool :=
  forallb (fun p => match route_for t k (Some a) v p with
                    | None => true
                    | Some e => forallb (fun d => negb (has_link (re_route e) d) || negb (is_link m p d) || xy_in (over_link m p d) l) (seq 0 6)
                    end) l.
Lemma closed_spec : forall m t k a v root l, closed_b m t k a v l = true -> In root l ->
  forall q, travels m t k (Some a) v root q -> In q l.
Proof.
  intros m t k a v root l C R q T. induction T as [|p e d q T IH E H W]; [exact R|].
  unfold closed_b in C. rewrite forallb_forall in C. specialize (C p IH). rewrite E in C.
  destruct W as [W1 [W2 [W3 W4]]]. rewrite forallb_forall in C. cbn [fst snd] in *.
  assert (D : In d (seq 0 6)) by (apply in_seq; lia). specialize (C d D). rewrite H, W2 in C. cbn in C.
  apply xy_in_spec in C. congruence.
Qed.

(** Three chips in a row; vertex 0 has its machine vertices on the first two. *)
Definition row : machine := mkMachine 3 1 false false [(0, 0); (1, 0); (2, 0)]%Z
  [((0, 0)%Z, 0); ((1, 0)%Z, 0); ((1, 0)%Z, 3); ((2, 0)%Z, 3)].
Definition row_at (v : nat) : (Z * Z) * place :=
  match v with
  | 1 => ((0, 0)%Z, OnCore 3) | 2 => ((1, 0)%Z, OnCore 4) | 11 => ((2, 0)%Z, OnCore 5) | 12 => ((2, 0)%Z, OnCore 6)
  | 21 => ((0, 0)%Z, OnCore 7) | _ => ((0, 0)%Z, OnCore 1)
  end.
Definition row_input (out : list nat) (inn : nat -> list (nat * list vtx)) (int : list internal) : rinput :=
  mkRIn row plain_vec (fun l => l) (mkVEnv rx_macs rx_app) row_at (fun a k => match a with 0 => out | _ => [] end)
    (fun target source k => inn target) (fun a => match a with 0 => int | _ => [] end).
Lemma row_chips : forall v, In (fst (row_at v)) [(0, 0); (1, 0); (2, 0)]%Z.
Proof. intros v. do 22 (destruct v as [|v]; [cbn; tauto|]). cbn. tauto. Qed.
Lemma row_ok : forall out inn int, incl out [1; 2] -> input_ok (row_input out inn int).
Proof.
  intros out inn int O. constructor.
  - exact (io_env rx ex_router_input).
  - intros b k v. cbn [row_input ri_out ri_venv ve_app]. destruct b as [|b]; [|intros []]. intros H. apply O in H. each H; reflexivity.
  - intros v. unfold chip_of. cbn [row_input ri_at ri_mach].
    do 22 (destruct v as [|v]; [exact I|]). exact I.
  - intros v. unfold chip_of, inside. cbn [row_input ri_at ri_mach]. destruct (row_chips v) as [H|[H|[H|[]]]]; rewrite <- H; cbn; lia.
  - intros v w. unfold chip_of. cbn [row_input ri_mach ri_vec ri_at]. generalize (row_chips v), (row_chips w). generalize (fst (row_at v)), (fst (row_at w)).
    intros p q Hp Hq. each Hp; each Hq; reflexivity.
  - intros v w l. unfold chip_of. cbn [row_input ri_mach ri_vec ri_at]. generalize (row_chips v), (row_chips w). generalize (fst (row_at v)), (fst (row_at w)).
    intros p q Hp Hq H. apply no_repeat_no_return, nodup_b_spec. each Hp; each Hq; revert H; vm_compute; intros X; injection X as <-; reflexivity.
  - intros l. apply Permutation_refl.
Qed.
Lemma row_parts : forall out inn int ps, incl out [1; 2] -> incl (map in_pre int) [1; 2] ->
  (forall ip, In ip int -> in_id ip = 7) ->
  incl [1; 2] (out ++ map in_pre int) ->
  (forall target x src, In x (inn target) -> In src (snd x) -> In src [App 0; Mac 1; Mac 2]) ->
  (forall pt, In pt ps -> ap_pre pt = 0 /\ ap_id pt = 7) -> NoDup (map (fun p => (ap_pre p, ap_id p)) ps) ->
  graph_ok (row_input out inn int) [0] ps.
Proof.
  intros out inn int ps O I IK C S PS ND. constructor; [exact (row_ok out inn int O) | exact ND|].
  intros pt H.
  assert (E : ap_pre pt = 0 /\ ap_id pt = 7).
  { destruct H as [H|[_ [v [ip [V [X ->]]]]]]; [exact (PS pt H)|]. each V. cbn in X |- *. split; [reflexivity | exact (IK ip X)]. }
  destruct E as [E1 E2]. constructor; rewrite ?E1, ?E2; cbn [row_input ri_venv ri_out ri_internal ri_in ve_macs ve_app rx_macs].
  - intros v V. exists v. split; [|reflexivity]. specialize (C v V). apply in_app_iff in C. destruct C as [C|C]; [left; exact C|].
    right. apply in_map_iff in C. destruct C as [ip [A B]]. exists ip. split; [exact B|]. split; [exact (IK ip B) | exact A].
  - intros ip X _. assert (Y := I _ (in_map in_pre _ _ X)). destruct Y as [<-|[<-|[]]]; reflexivity.
  - intros target x src _ X Y. destruct (S target x src X Y) as [<-|[<-|[<-|[]]]]; [left; reflexivity | right; eauto | right; eauto].
Qed.

(** C67: the router sends the packets of machine vertex 2 to the core of vertex 12,
    which asked for machine vertex 1 only. *)
Definition mixed_in (target : nat) : list (nat * list vtx) :=
  match target with 10 => [(11, [App 0]); (12, [Mac 1])] | _ => [] end.
Theorem C67_router_refuted : exists i vs ps t pt v q pl,
  graph_ok i vs ps /\ route_application_graph i vs ps = Ok t /\ routed_part i vs ps pt /\
  In v (ri_out i (ap_pre pt) (ap_id pt)) /\ off_chip (ri_mach i) q pl /\
  delivered (ri_mach i) t (ap_id pt) (ap_pre pt) v (chip_of i v) q pl /\
  ~ exists w, target_of i pt v w /\ ri_at i w = (q, pl).
Proof.
  exists (row_input [1; 2] mixed_in []), [0], [mkPart 0 7 [10]]. eexists. exists (mkPart 0 7 [10]), 2, (2, 0)%Z, (OnCore 6).
  split; [apply row_parts|].
  { apply incl_refl. } { intros x []. } { intros ip []. } { apply incl_refl. }
  { intros target x src X S. do 11 (destruct target as [|target]; [each X; each S; cbn; tauto|]). destruct X. }
  { intros pt P. each P. auto. } { repeat constructor. intros []. }
  split; [vm_compute; reflexivity|]. split; [left; left; reflexivity|]. split; [cbn; tauto|]. split; [exact I|]. split.
  - split; [|eexists; split; vm_compute; reflexivity].
    eapply (tv_hop _ _ _ _ _ _ (1, 0)%Z _ 0 (2, 0)%Z); [apply tv_root | vm_compute; reflexivity | reflexivity|].
    unfold works. cbn. repeat split; lia.
  - intros [w [T A]]. assert (w = 12).
    { cbn in A. do 22 (destruct w as [|w]; [first [reflexivity | discriminate A]|]). discriminate A. }
    subst w. destruct T as [[target [x [src [T [X [E [S O]]]]]]]|[ip [[] _]]].
    each T; each X; try discriminate E. each S. destruct O as [O|[b [O _]]]; discriminate O.
Qed.
Print Assumptions C67_router_refuted.

(** C109: the packets of a machine vertex that sends only in an internal partition
    also go to the targets of the application vertex: machine vertex 2 is not an
    outgoing vertex, and its packets for machine vertex 1 reach vertex 11 too. *)
Definition whole_in (target : nat) : list (nat * list vtx) :=
  match target with 10 => [(11, [App 0])] | 20 => [(21, [App 0])] | _ => [] end.
Theorem C109_internal_leak_refuted : exists i vs ps t pt ip q pl,
  graph_ok i vs ps /\ route_application_graph i vs ps = Ok t /\ routed_part i vs ps pt /\
  In ip (ri_internal i (ap_pre pt)) /\ in_id ip = ap_id pt /\ ~ In (in_pre ip) (ri_out i (ap_pre pt) (ap_id pt)) /\
  unmixed i pt /\ off_chip (ri_mach i) q pl /\
  delivered (ri_mach i) t (ap_id pt) (ap_pre pt) (in_pre ip) (chip_of i (in_pre ip)) q pl /\
  ~ exists w, target_of i pt (in_pre ip) w /\ ri_at i w = (q, pl).
Proof.
  exists (row_input [1] whole_in [mkInternal 2 7 [1]]), [0], [mkPart 0 7 [10]]. eexists. exists (mkPart 0 7 [10]), (mkInternal 2 7 [1]), (2, 0)%Z, (OnCore 5).
  split; [apply row_parts|].
  { intros x X. each X; cbn; tauto. } { intros x X. each X; cbn; tauto. } { intros ip X. each X. reflexivity. } { apply incl_refl. }
  { intros target x src X S. do 21 (destruct target as [|target]; [each X; each S; cbn; tauto|]). destruct X. }
  { intros pt P. each P. auto. } { repeat constructor. intros []. }
  split; [vm_compute; reflexivity|]. split; [left; left; reflexivity|]. split; [cbn; tauto|]. split; [reflexivity|].
  split; [intros X; each X; discriminate X|].
  split.
  { intros t1 x1 t2 x2 w _ _ _ T2 X2 A2. each T2. each X2. each A2. discriminate A2. }
  split; [exact I|]. split.
  - split; [|eexists; split; vm_compute; reflexivity].
    eapply (tv_hop _ _ _ _ _ _ (1, 0)%Z _ 0 (2, 0)%Z); [apply tv_root | vm_compute; reflexivity | reflexivity|].
    unfold works. cbn. repeat split; lia.
  - intros [w [T A]]. assert (w = 11).
    { cbn in A. do 22 (destruct w as [|w]; [first [reflexivity | discriminate A]|]). discriminate A. }
    subst w. destruct T as [[target [x [src [T [X [E [S O]]]]]]]|[ip [X [_ [_ W]]]]].
    + each T; each X. each S. destruct O as [O|[b [O V]]]; [discriminate O|]. injection O as <-. each V. discriminate V.
    + each X. each W. discriminate W.
Qed.
Print Assumptions C109_internal_leak_refuted.

(** C110: a machine vertex that sends nothing: when the path to a target leads over
    its chip, the packets of the sending vertices never reach that target. *)
Theorem C110_silent_chip_refuted : exists i ps t pt v w q pl,
  input_ok i /\ NoDup (map (fun p => (ap_pre p, ap_id p)) ps) /\
  (forall target x src, In target (ap_posts pt) -> In x (ri_in i target (ap_pre pt) (ap_id pt)) -> In src (snd x) -> src = App (ap_pre pt)) /\
  route_application_graph i [] ps = Ok t /\ In pt ps /\
  In v (ri_out i (ap_pre pt) (ap_id pt)) /\ target_of i pt v w /\ ri_at i w = (q, pl) /\
  ~ delivered (ri_mach i) t (ap_id pt) (ap_pre pt) v (chip_of i v) q pl.
Proof.
  exists (row_input [1] whole_in []), [mkPart 0 7 [10; 20]]. eexists. exists (mkPart 0 7 [10; 20]), 1, 11, (2, 0)%Z, (OnCore 5).
  split; [apply row_ok; intros x X; each X; cbn; tauto|]. split; [repeat constructor; intros []|].
  split; [intros target x src T X S; each T; each X; each S; reflexivity|].
  split; [vm_compute; reflexivity|]. split; [left; reflexivity|]. split; [cbn; tauto|].
  split; [left; exists 10, (11, [App 0]), (App 0); cbn; intuition; right; exists 0; cbn; tauto|]. split; [reflexivity|].
  intros [T _].
  assert (C : In (2, 0)%Z [(0, 0)%Z]); [|each C; discriminate C].
  revert T. apply closed_spec; [vm_compute; reflexivity | left; reflexivity].
Qed.
Print Assumptions C110_silent_chip_refuted.
(** C110: with no other target the router fails with KeyError. *)
Theorem C110_silent_error_refuted : exists i ps, input_ok i /\ NoDup (map (fun p => (ap_pre p, ap_id p)) ps) /\
  connected (ri_mach i) /\ route_application_graph i [] ps = Err KeyError.
Proof.
  exists (row_input [1] whole_in []), [mkPart 0 7 [10]].
  split; [apply row_ok; intros x X; each X; cbn; tauto|]. split; [repeat constructor; intros []|].
  split; [|vm_compute; reflexivity].
  intros p q Hp Hq. pose proof (find_path_spec row p q) as F. cbn [row_input ri_mach] in *.
  assert (G : exists l, find_path row p q = Ok l).
  { apply xy_in_spec in Hp, Hq. cbn [m_chips row In] in Hp, Hq. intuition (subst; cbv; eauto). }
  destruct G as [l G]. rewrite G in F. eauto.
Qed.
Print Assumptions C110_silent_error_refuted.

(** C111: a target without incoming vertices, and a self-connection that nobody
    asks for, make the router fail with errors of Python. *)
Theorem C111_no_incoming_refuted : exists i ps, graph_ok i [0] ps /\ connected (ri_mach i) /\
  route_application_graph i [0] ps = Err UnboundLocal.
Proof.
  exists (row_input [1; 2] (fun _ => []) []), [mkPart 0 7 [10]].
  split; [apply row_parts|].
  { apply incl_refl. } { intros x []. } { intros ip []. } { apply incl_refl. }
  { intros target x src []. }
  { intros pt P. each P. auto. } { repeat constructor. intros []. }
  split; [|vm_compute; reflexivity].
  intros p q Hp Hq. pose proof (find_path_spec row p q) as F. cbn [row_input ri_mach] in *.
  assert (G : exists l, find_path row p q = Ok l).
  { apply xy_in_spec in Hp, Hq. cbn [m_chips row In] in Hp, Hq. intuition (subst; cbv; eauto). }
  destruct G as [l G]. rewrite G in F. eauto.
Qed.
Print Assumptions C111_no_incoming_refuted.
Theorem C111_self_refuted : exists i ps, graph_ok i [0] ps /\ route_application_graph i [0] ps = Err KeyError.
Proof.
  exists (row_input [1; 2] (fun _ => []) []), [mkPart 0 7 [0]].
  split; [apply row_parts|vm_compute; reflexivity].
  { apply incl_refl. } { intros x []. } { intros ip []. } { apply incl_refl. }
  { intros target x src []. }
  { intros pt P. each P. auto. } { repeat constructor. intros []. }
Qed.
Print Assumptions C111_self_refuted.

(** C111: what does hold. When each partition has somebody who asks for its packets
    and each target has incoming vertices, on any machine, the router fails only
    with a routing exception or with the refusal to add an entry for a machine
    vertex beside one for its application vertex; when moreover the chips of each
    source are joined, self-connections and internal partitions stay on them, and
    where the whole source is asked for elsewhere only outgoing vertices are asked
    for as well, only with a routing exception. *)
Theorem C111_errors_partial : forall i vs ps e, graph_ok i vs ps ->
  (forall pt, routed_part i vs ps pt ->
     (ap_posts pt <> [] \/ exists ip, In ip (ri_internal i (ap_pre pt)) /\ in_id ip = ap_id pt /\ in_posts ip <> []) /\
     forall target, In target (ap_posts pt) -> ri_in i target (ap_pre pt) (ap_id pt) <> []) ->
  route_application_graph i vs ps = Err e -> e = RoutingException \/ e = InvalidParameter.
Proof.
  intros i vs ps e GO PA. apply router_errors; [exact GO|]. intros pt R. destruct (PA pt R) as [A B]. constructor; [|exact B].
  destruct A as [A|[ip [I [K W]]]]; [left; exact A|]. right. exists ip. split; [apply internal_of_In; auto | exact W].
Qed.
Print Assumptions C111_errors_partial.
Theorem C111_unreachable_partial : forall i vs ps e, graph_ok i vs ps ->
  (forall pt, routed_part i vs ps pt -> part_whole i pt) ->
  route_application_graph i vs ps = Err e -> e = RoutingException.
Proof. exact router_whole. Qed.
Print Assumptions C111_unreachable_partial.

(** C123: on a connected machine with all targets incoming on chips of the machine,
    the router fails when the chips of a target are not neighbours, and when the
    whole source and a machine vertex that sends only in an internal partition are
    asked for on one chip. *)
Theorem C123_apart_refuted : exists i ps, graph_ok i [0] ps /\ connected (ri_mach i) /\
  (forall v, is_chip (ri_mach i) (chip_of i v) = true) /\
  (forall pt target, In pt ps -> In target (ap_posts pt) -> ri_in i target (ap_pre pt) (ap_id pt) <> []) /\
  route_application_graph i [0] ps = Err RoutingException.
Proof.
  exists (row_input [1; 2] (fun target => match target with 10 => [(11, [App 0]); (21, [App 0])] | _ => [] end) []), [mkPart 0 7 [10]].
  split; [apply row_parts|].
  { apply incl_refl. } { intros x []. } { intros ip []. } { apply incl_refl. }
  { intros target x src X S. do 11 (destruct target as [|target]; [each X; each S; cbn; tauto|]). destruct X. }
  { intros pt P. each P. auto. } { repeat constructor. intros []. }
  split; [apply connected_b_spec; vm_compute; reflexivity|].
  split; [intros v; unfold chip_of; cbn [row_input ri_at ri_mach]; destruct (row_chips v) as [X|[X|[X|[]]]]; rewrite <- X; reflexivity|].
  split; [intros pt target P T; each P; each T; discriminate | vm_compute; reflexivity].
Qed.
Print Assumptions C123_apart_refuted.
Theorem C123_clash_refuted : exists i ps, graph_ok i [0] ps /\ connected (ri_mach i) /\
  (forall v, is_chip (ri_mach i) (chip_of i v) = true) /\
  (forall pt target, In pt ps -> In target (ap_posts pt) -> ri_in i target (ap_pre pt) (ap_id pt) <> []) /\
  route_application_graph i [0] ps = Err InvalidParameter.
Proof.
  exists (row_input [1] (fun target => match target with 10 => [(11, [Mac 2]); (12, [App 0])] | _ => [] end) [mkInternal 2 7 [1]]), [mkPart 0 7 [10]].
  split; [apply row_parts|].
  { intros x X. each X; cbn; tauto. } { intros x X. each X; cbn; tauto. } { intros ip X. each X. reflexivity. } { apply incl_refl. }
  { intros target x src X S. do 11 (destruct target as [|target]; [each X; each S; cbn; tauto|]). destruct X. }
  { intros pt P. each P. auto. } { repeat constructor. intros []. }
  split; [apply connected_b_spec; vm_compute; reflexivity|].
  split; [intros v; unfold chip_of; cbn [row_input ri_at ri_mach]; destruct (row_chips v) as [X|[X|[X|[]]]]; rewrite <- X; reflexivity|].
  split; [intros pt target P T; each P; each T; discriminate | vm_compute; reflexivity].
Qed.
Print Assumptions C123_clash_refuted.

(** Both errors of C111 happen: those of C123, whose inputs meet the conditions. *)
Definition apart_input : rinput :=
  row_input [1; 2] (fun target => match target with 10 => [(11, [App 0]); (21, [App 0])] | _ => [] end) [].
Example C111_unreachable_example :
  (forall pt, routed_part apart_input [0] [mkPart 0 7 [10]] pt -> part_whole apart_input pt) /\
  route_application_graph apart_input [0] [mkPart 0 7 [10]] = Err RoutingException.
Proof.
  split; [|vm_compute; reflexivity]. intros pt [H|[_ [v [ip [V [X _]]]]]]; [|each V; destruct X].
  each H. constructor; cbn [ap_pre ap_id ap_posts].
  - left. discriminate.
  - intros target T. each T. discriminate.
  - apply joined_b_spec. vm_compute. reflexivity.
  - intros x T. each T. discriminate T.
  - intros ip w [].
  - intros t1 x1 t2 x2 w T1 X1 A1 T2 X2 A2. each T2; each X2; each A2; discriminate A2.
Qed.
Definition clash_input : rinput :=
  row_input [1] (fun target => match target with 10 => [(11, [Mac 2]); (12, [App 0])] | _ => [] end) [mkInternal 2 7 [1]].
Example C111_errors_example :
  (forall pt, routed_part clash_input [0] [mkPart 0 7 [10]] pt ->
     ap_posts pt <> [] /\ forall target, In target (ap_posts pt) -> ri_in clash_input target (ap_pre pt) (ap_id pt) <> []) /\
  route_application_graph clash_input [0] [mkPart 0 7 [10]] = Err InvalidParameter.
Proof.
  split; [|vm_compute; reflexivity]. intros pt [H|[N [v [ip [V [X ->]]]]]].
  - each H. split; [discriminate|]. intros target T. each T. discriminate.
  - exfalso. each V. each X. apply N. left. reflexivity.
Qed.

(** C65: on the machine of C65_route_refuted the router makes a table in which the
    packets are sent over a dead link and do not arrive. *)
Definition faulty_input : rinput := mkRIn faulty plain_vec (fun l => l) (mkVEnv rx_macs rx_app)
  (fun v => match v with 1 => ((4, 0)%Z, OnCore 3) | 2 => ((4, 0)%Z, OnCore 4) | _ => ((2, 3)%Z, OnCore 5) end)
  (fun a k => match a with 0 => [1; 2] | _ => [] end) (fun target source k => whole_in target) (fun a => []).
Theorem C65_router_refuted : exists i ps t pt v w q pl,
  (forall p d, In (p, d) (m_links (ri_mach i)) -> is_link (ri_mach i) (over_link (ri_mach i) p d) ((d + 3) mod 6) = true) /\
  (forall p, is_chip (ri_mach i) p = true -> exists path, find_path (ri_mach i) (chip_of i v) p = Ok path) /\
  part_ok i pt /\ route_application_graph i [] ps = Ok t /\ In pt ps /\
  In v (ri_out i (ap_pre pt) (ap_id pt)) /\ target_of i pt v w /\ ri_at i w = (q, pl) /\
  ~ delivered (ri_mach i) t (ap_id pt) (ap_pre pt) v (chip_of i v) q pl.
Proof.
  exists faulty_input, [mkPart 0 7 [10]]. eexists. exists (mkPart 0 7 [10]), 1, 11, (2, 3)%Z, (OnCore 5).
  split.
  { intros p d H. cbn [m_links faulty faulty_input ri_mach In] in H.
    repeat (destruct H as [H|H]; [injection H as <- <-; reflexivity|]). destruct H. }
  split.
  { intros p H. apply xy_in_spec in H. cbn [m_chips faulty faulty_input ri_mach In] in H.
    repeat (destruct H as [<-|H]; [vm_compute; eauto|]). destruct H. }
  split.
  { constructor; cbn.
    - intros v H. exists v. tauto.
    - intros ip [].
    - intros target x src T X S. each T; each X; each S. left. reflexivity. }
  split; [vm_compute; reflexivity|]. split; [left; reflexivity|]. split; [cbn; tauto|].
  split; [left; exists 10, (11, [App 0]), (App 0); cbn; intuition; right; exists 0; cbn; tauto|]. split; [reflexivity|].
  intros [T _].
  assert (C : In (2, 3)%Z [(4, 0); (5, 1); (5, 2); (5, 3); (4, 3); (3, 3)]%Z); [|each C; discriminate C].
  revert T. apply closed_spec; [vm_compute; reflexivity | left; reflexivity].
Qed.
Print Assumptions C65_router_refuted.
