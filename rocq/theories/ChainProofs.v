(** Proofs about the chain from the router to the routing tables. *)
From Coq Require Import List Arith NArith ZArith Bool Lia Permutation.
From Verif Require Import Base Dict RouteSpec KeyMask AllocModel AllocProofs TablesModel TablesProofs GenModel GenProofs
  PairModel PairSort RangeModel RangeProofs OrderedModel OrderedProofs
  TreeModel TreeProofs MachModel LdfModel LdfProofs PathModel PathProofs
  RPartModel RPartProofs BfsModel BfsProofs TargetsModel TargetsProofs ConvModel ConvProofs RouterModel RouterProofs RouterTables RouterPlan RouterFinal RouterSuccess
  ChainModel.
Import ListNotations.
Local Open Scope nat_scope.

(** * Packets *)
(** The entry of a chip for a packet key. *)
Definition found (ts : list table) (p : xy) (key : N) : option entry :=
  match get_table ts (fst p) (snd p) with Some tb => first_match (t_entries tb) key | None => None end.
(** Where a router sends a packet: the route of the first entry that matches; else,
    if it came in over a link, straight on; else nowhere. *)
Definition sends (ts : list table) (key : N) (p : xy) (inn : option nat) : N :=
  match found ts p key with
  | Some e => e_route e
  | None => match inn with Some l => route_of [(l + 3) mod 6] [] | None => 0%N end
  end.
(** The chips that a packet comes to, with the link over which it comes in. *)
Inductive flies (m : machine) (ts : list table) (key : N) (root : xy) (inn0 : option nat) : xy -> option nat -> Prop :=
| fl_root : flies m ts key root inn0 root inn0
| fl_hop : forall p inn l q, flies m ts key root inn0 p inn -> has_link (sends ts key p inn) l = true -> works m p (l, q) ->
    flies m ts key root inn0 q (Some ((l + 3) mod 6)).
(** It is handed to a core, or leaves over a link. *)
Definition arrives (m : machine) (ts : list table) (key : N) (root : xy) (inn0 : option nat) (q : xy) (pl : place) : Prop :=
  exists inn, flies m ts key root inn0 q inn /\
    match pl with OnCore n => has_proc (sends ts key q inn) n = true | OnLink l => has_link (sends ts key q inn) l = true end.

(** * Tables that do what the table by partition says *)
Definition keeps (infos : list info) (t : rtable) (ts : list table) : Prop := forall w k q e, get_entry t w k q = Some e ->
  exists i, get_info infos (vertex_of w) k = Ok i /\ forall key, (key < 2 ^ 32)%N -> km_matches key (i_km i) ->
    (exists o, found ts q key = Some o /\ e_route o = RPartModel.re_route e) \/ (found ts q key = None /\ re_default e = true).

Lemma back_twice : forall l, l < 6 -> ((l + 3) mod 6 + 3) mod 6 = l.
Proof. intros l H. do 6 (destruct l as [|l]; [reflexivity|]). lia. Qed.
Lemma single_link : forall l x, l < 6 -> RPartModel.route_of [l] [] = RPartModel.route_of [x] [] -> x = l.
Proof.
  intros l x H E. assert (B : has_link (RPartModel.route_of [x] []) l = true).
  { rewrite <- E. apply route_of_link; [exact H | left; reflexivity]. }
  apply route_of_link in B; [|exact H]. destruct B as [B|[]]. exact B.
Qed.

Section Follow.
Variables (i : rinput) (vs : list nat) (ps : list apart) (t : rtable) (pt : apart) (v : nat) (infos : list info) (ts : list table) (key : N).
Hypothesis GO : graph_ok i vs ps.
Hypothesis ROUTE : route_application_graph i vs ps = Ok t.
Hypothesis RP : routed_part i vs ps pt.
Hypothesis OUT : In v (ri_out i (ap_pre pt) (ap_id pt)).
Hypothesis KEEPS : keeps infos t ts.
Hypothesis K32 : (key < 2 ^ 32)%N.
Hypothesis MINE : forall w j, w = Mac v \/ w = App (ap_pre pt) -> get_info infos (vertex_of w) (ap_id pt) = Ok j -> km_matches key (i_km j).
Let m := ri_mach i.
Let k := ap_id pt.
Let a := ap_pre pt.
Let root := chip_of i v.
Let inn0 := link_of (snd (ri_at i v)).

Definition goes (p : xy) (l : nat) (q : xy) : Prop := travels m t k (Some a) v root p /\
    exists e, route_for t k (Some a) v p = Some e /\ has_link (RPartModel.re_route e) l = true /\ works m p (l, q).
(** The link over which the packet comes in. *)
Definition came (q : xy) (inn : option nat) : Prop := (q = root /\ inn = inn0) \/ exists p l, goes p l q /\ inn = Some ((l + 3) mod 6).

Lemma right_route : forall q inn, travels m t k (Some a) v root q -> came q inn ->
  exists e, route_for t k (Some a) v q = Some e /\ sends ts key q inn = RPartModel.re_route e.
Proof.
  intros q inn T C. destruct (router_entry i vs ps t pt v GO ROUTE RP OUT q T) as [e [E D]]. fold k a root m in E, D.
  change (let go := goes in re_default e = true -> (exists p l, go p l q /\ RPartModel.re_route e = RPartModel.route_of [l] []) \/
         (q = root /\ exists j, inn0 = Some j /\ RPartModel.re_route e = RPartModel.route_of [(j + 3) mod 6] [])) in D. cbv zeta in D.
  exists e. split; [exact E|].
  assert (X : exists w, (w = Mac v \/ w = App a) /\ get_entry t w k q = Some e).
  { unfold route_for in E. destruct (get_entry t (Mac v) k q) eqn:EM; [exists (Mac v); split; [auto | congruence] | exists (App a); auto]. }
  destruct X as [w [W X]]. destruct (KEEPS w k q e X) as [j [J F]]. specialize (F key K32 (MINE w j W J)). unfold sends.
  destruct F as [[o [F1 F2]]|[F1 F2]]; rewrite F1; [exact F2|].
  assert (ONCE := router_once i vs ps t pt v GO ROUTE RP OUT). cbv zeta in ONCE. fold k a root m in ONCE.
  assert (TOP : forall p l, goes p l root -> False).
  { intros p l G. destruct (ONCE p l root p l G) as [N _]. apply N. reflexivity. }
  destruct (D F2) as [[p [l [G R]]]|[-> [j' [IN R]]]].
  - destruct C as [[-> _]|[p' [l' [G' ->]]]]; [destruct (TOP p l G)|].
    destruct (ONCE p l q p' l' G) as [_ N]. destruct (N G') as [-> ->]. rewrite R.
    destruct G as [_ [_ [_ [_ [L6 _]]]]]. cbn [fst] in L6. rewrite back_twice by exact L6. reflexivity.
  - destruct C as [[_ ->]|[p' [l' [G' ->]]]]; [|destruct (TOP p' l' G')]. rewrite IN, R. reflexivity.
Qed.

Lemma flies_travels : forall q inn, flies m ts key root inn0 q inn -> travels m t k (Some a) v root q /\ came q inn.
Proof.
  intros q inn F. induction F as [|p inn l q F [T C] B W]; [split; [constructor | left; auto]|].
  destruct (right_route p inn T C) as [e [E S]]. rewrite S in B.
  assert (G : goes p l q) by (split; [exact T|]; exists e; auto).
  split; [exact (tv_hop _ _ _ _ _ _ p e l q T E B W) | right; eauto].
Qed.
Lemma travels_flies : forall q, travels m t k (Some a) v root q -> exists inn, flies m ts key root inn0 q inn.
Proof.
  intros q T. induction T as [|p e l q T IH E B W]; [exists inn0; constructor|].
  destruct IH as [inn F]. destruct (flies_travels p inn F) as [_ C]. destruct (right_route p inn T C) as [e' [E' S]].
  assert (e' = e) by congruence. subst e'. exists (Some ((l + 3) mod 6)). apply (fl_hop _ _ _ _ _ p inn l q F); [rewrite S; exact B | exact W].
Qed.

Lemma arrives_delivered : forall q pl, arrives m ts key root inn0 q pl <-> delivered m t k a v root q pl.
Proof.
  intros q pl. unfold arrives, delivered. split.
  - intros [inn [F B]]. destruct (flies_travels q inn F) as [T C]. destruct (right_route q inn T C) as [e [E S]]. rewrite S in B.
    split; [exact T|]. exists e. auto.
  - intros [T [e [E B]]]. destruct (travels_flies q T) as [inn F]. exists inn. split; [exact F|].
    destruct (flies_travels q inn F) as [_ C]. destruct (right_route q inn T C) as [e' [E' S]]. rewrite S. assert (e' = e) by congruence. subst e'. exact B.
Qed.
(** No chip gets the packet twice. *)
Lemma flies_once : forall p inn l q p' inn' l', flies m ts key root inn0 p inn -> has_link (sends ts key p inn) l = true -> works m p (l, q) ->
  q <> root /\ (flies m ts key root inn0 p' inn' -> has_link (sends ts key p' inn') l' = true -> works m p' (l', q) -> p' = p /\ inn' = inn /\ l' = l).
Proof.
  assert (ONCE := router_once i vs ps t pt v GO ROUTE RP OUT). cbv zeta in ONCE. fold k a root m in ONCE.
  assert (G : forall p inn l q, flies m ts key root inn0 p inn -> has_link (sends ts key p inn) l = true -> works m p (l, q) -> goes p l q).
  { intros p inn l q F B W. destruct (flies_travels p inn F) as [T C]. destruct (right_route p inn T C) as [e [E S]]. rewrite S in B.
    split; [exact T|]. exists e. auto. }
  assert (ONE : forall p inn inn', came p inn -> came p inn' -> inn = inn').
  { intros p inn inn' C C'. destruct C as [[-> ->]|[p1 [l1 [G1 ->]]]]; destruct C' as [[E ->]|[p2 [l2 [G2 ->]]]]; try reflexivity.
    - destruct (ONCE p2 l2 root p2 l2 G2) as [N _]. destruct (N eq_refl).
    - subst p. destruct (ONCE p1 l1 root p1 l1 G1) as [N _]. destruct (N eq_refl).
    - destruct (ONCE p1 l1 p p2 l2 G1) as [_ N]. destruct (N G2) as [_ ->]. reflexivity. }
  intros p inn l q p' inn' l' F B W. pose proof (G p inn l q F B W) as G1. destruct (ONCE p l q p' l' G1) as [N1 N2]. split; [exact N1|].
  intros F' B' W'. destruct (N2 (G p' inn' l' q F' B' W')) as [-> ->]. split; [reflexivity|]. split; [|reflexivity].
  apply (ONE p); apply flies_travels; assumption.
Qed.
End Follow.

(** * The table by partition is a dictionary of dictionaries *)
Definition dicts (t : rtable) : Prop := NoDup (map fst t) /\ forall p d, In (p, d) t -> NoDup (map fst d).
Lemma foldM_keeps : forall {A B} (P : B -> Prop) (f : B -> A -> res B) l s s',
  (forall s x s', P s -> f s x = Ok s' -> P s') -> P s -> foldM f s l = Ok s' -> P s'.
Proof.
  intros A B P f. induction l as [|x l IH]; intros s s' F H E; cbn [foldM] in E; [injection E as <-; exact H|].
  apply bind_Ok_inv in E. destruct E as [s1 [E1 E2]]. exact (IH s1 s' F (F s x s1 H E1) E2).
Qed.
(** What every added entry keeps, the router keeps. *)
Lemma router_keeps : forall (P : rtable -> Prop) i, (forall t e p src part t', P t -> add_path_entry (ri_venv i) t e p src part = Ok t' -> P t') ->
  forall vs ps t, P [] -> route_application_graph i vs ps = Ok t -> P t.
Proof.
  intros P i ADD vs ps t P0 H. unfold route_application_graph in H. revert H. apply foldM_keeps; [|exact P0]. clear t vs ps P0.
  assert (SERVED : forall c p hops iproc ilink l t t', cv_env c = ri_venv i -> P t -> add_served c t p hops iproc ilink l = Ok t' -> P t').
  { intros c p hops iproc ilink. induction l as [|[src [cores links]] l IH]; intros t t' EC PT E; cbn [add_served] in E; [injection E as <-; exact PT|].
    apply bind_Ok_inv in E. destruct E as [e [_ E]]. apply bind_Ok_inv in E. destruct E as [t1 [E1 E]]. rewrite EC in E1.
    exact (IH t1 t' EC (ADD _ _ _ _ _ _ PT E1) E). }
  assert (LOOP : forall c fuel t stack t', cv_env c = ri_venv i -> P t -> convert_loop fuel c t stack = Ok t' -> P t').
  { intros c. induction fuel as [|fuel IH]; intros t stack t' EC PT E; destruct stack as [|[[iproc ilink] route] rest]; cbn [convert_loop] in E;
      [injection E as <-; exact PT | discriminate | injection E as <-; exact PT|].
    apply bind_Ok_inv in E. destruct E as [[hops push] [_ E]]. apply bind_Ok_inv in E. destruct E as [l [_ E]].
    apply bind_Ok_inv in E. destruct E as [t1 [E1 E]]. exact (IH _ _ _ EC (SERVED _ _ _ _ _ _ _ _ EC PT E1) E). }
  assert (CONV : forall c t iproc ilink first t', cv_env c = ri_venv i -> P t -> convert_a_route c t iproc ilink first = Ok t' -> P t').
  { intros c t iproc ilink first t' EC PT E. unfold convert_a_route in E. exact (LOOP _ _ _ _ _ EC PT E). }
  intros t pt t' PT H. unfold route_partition in H. destruct (outgoing_mapping i (ap_pre pt) (ap_id pt)) as [|[source ms] mp] eqn:EM; [injection H as <-; exact PT|].
  rewrite <- EM in H. apply bind_Ok_inv in H. destruct H as [s [_ H]]. apply bind_Ok_inv in H. destruct H as [[ts t1] [H1 H]].
  assert (P1 : P t1).
  { eapply (foldM_keeps (fun x => P (snd x)) _ _ _ (ts, t1)); [| |exact H1]; [|exact PT].
    intros [ts0 t0] e [ts2 t2] PT0 E. cbn [snd] in *. unfold target_routes_step in E. destruct (dmem xy_eqb _ e); [|discriminate].
    apply bind_Ok_inv in E. destruct E as [t3 [E1 E]]. injection E as _ <-. refine (CONV _ _ _ _ _ _ _ PT0 E1); reflexivity. }
  revert H. apply foldM_keeps; [|exact P1]. intros t0 [p l] t2 PT0 E. unfold source_routes_step in E.
  apply bind_Ok_inv in E. destruct E as [r [_ E]]. destruct (dmem xy_eqb r p); [|discriminate].
  revert E. apply foldM_keeps; [|exact PT0]. intros t3 x t4 PT3 E. unfold vertex_route in E. refine (CONV _ _ _ _ _ _ _ PT3 E); reflexivity.
Qed.
Lemma router_dicts : forall i vs ps t, route_application_graph i vs ps = Ok t -> dicts t.
Proof.
  intros i vs ps t. apply router_keeps; [|split; [constructor | intros p d []]].
  intros t0 e p src part t' [D1 D2] H. unfold add_path_entry in H.
  match type of H with (if ?c then _ else _) = _ => destruct c end; [discriminate|]. injection H as <-.
  split; [apply (dset_NoDup _ xy_eqb_eq); exact D1|]. intros q d I. apply (dset_In _ xy_eqb_eq) in I. destruct I as [[-> ->]|I]; [|exact (D2 q d I)].
  apply (dset_NoDup _ skey_eqb_eq). destruct (dget xy_eqb t0 p) as [d0|] eqn:E; [|constructor]. apply (dget_In _ xy_eqb_eq) in E. exact (D2 p d0 E).
Qed.
Lemma router_exclusive : forall i vs ps t, ve_ok (ri_venv i) -> route_application_graph i vs ps = Ok t -> exclusive (ri_venv i) t.
Proof.
  intros i vs ps t V. apply router_keeps; [|apply empty_exclusive]. intros t0 e p src part t' X H. exact (add_exclusive _ _ _ _ _ _ _ V X H).
Qed.

(** * Keys for the sources *)
(** What is assumed of the graph for the allocator: it is the graph of the router,
    the routed partitions have no fixed keys and every vertex that sends, or is asked
    for, is one of the outgoing vertices; and partitions with a fixed key have some. *)
Record keys_ok (i : rinput) (vs : list nat) (ps : list apart) (extra : list (nat * nat)) (e : graph_env) : Prop := mkKeysOk {
  ko_out : forall a k, ae_outgoing e a k = ri_out i a k;
  ko_free : forall pt, routed_part i vs ps pt -> ae_app_fixed e (ap_pre pt) (ap_id pt) = None;
  ko_counted : forall pt, routed_part i vs ps pt -> ri_out i (ap_pre pt) (ap_id pt) <> [] -> counted e (ap_pre pt) (ap_id pt);
  ko_asked : forall pt target x v, routed_part i vs ps pt -> In target (ap_posts pt) -> In x (ri_in i target (ap_pre pt) (ap_id pt)) ->
    In (Mac v) (snd x) -> In v (ri_out i (ap_pre pt) (ap_id pt));
  ko_internal : forall pt ip, routed_part i vs ps pt -> In ip (ri_internal i (ap_pre pt)) -> in_id ip = ap_id pt ->
    In (in_pre ip) (ri_out i (ap_pre pt) (ap_id pt));
  ko_extra : forall a k, In (a, k) extra -> ae_app_fixed e a k <> None -> ri_out i a k <> [] }.

Lemma keyed_In : forall i vs ps extra pt, graph_ok i vs ps -> routed_part i vs ps pt -> In (ap_pre pt, ap_id pt) (keyed_parts i vs ps extra).
Proof.
  intros i vs ps extra pt GO RP. unfold keyed_parts. apply in_app_iff. left. apply in_map_iff. exists pt. split; [reflexivity|].
  apply (routed_part_In i vs ps pt (go_distinct _ _ _ GO)). exact RP.
Qed.
Lemma keys_env : forall i vs ps extra e, graph_ok i vs ps -> keys_ok i vs ps extra e -> AllocProofs.env_ok e (keyed_parts i vs ps extra).
Proof.
  intros i vs ps extra e GO KO. split.
  - intros a k I F. rewrite (ko_out _ _ _ _ _ KO). unfold keyed_parts in I. apply in_app_iff in I. destruct I as [I|I]; [|exact (ko_extra _ _ _ _ _ KO a k I F)].
    apply in_map_iff in I. destruct I as [pt [E I]]. injection E as <- <-. apply (routed_part_In i vs ps pt (go_distinct _ _ _ GO)) in I.
    destruct F. exact (ko_free _ _ _ _ _ KO pt I).
  - intros a a' k v _ _ A B. rewrite (ko_out _ _ _ _ _ KO) in A, B. pose proof (io_out i (go_input _ _ _ GO) a k v A). pose proof (io_out i (go_input _ _ _ GO) a' k v B). congruence.
Qed.

Lemma vertex_of_inj : forall w w', vertex_of w = vertex_of w' -> w = w'.
Proof. intros [a|v] [b|u] E; cbn [vertex_of] in E; congruence. Qed.

(** Every machine vertex that sends, or is asked for, is one of the outgoing vertices. *)
Definition only_outgoing (i : rinput) (vs : list nat) (ps : list apart) : Prop :=
  (forall pt target x v, routed_part i vs ps pt -> In target (ap_posts pt) -> In x (ri_in i target (ap_pre pt) (ap_id pt)) ->
    In (Mac v) (snd x) -> In v (ri_out i (ap_pre pt) (ap_id pt))) /\
  (forall pt ip, routed_part i vs ps pt -> In ip (ri_internal i (ap_pre pt)) -> in_id ip = ap_id pt ->
    In (in_pre ip) (ri_out i (ap_pre pt) (ap_id pt))).
Lemma keys_only : forall i vs ps extra e, keys_ok i vs ps extra e -> only_outgoing i vs ps.
Proof. intros i vs ps extra e KO. split; [exact (ko_asked _ _ _ _ _ KO) | exact (ko_internal _ _ _ _ _ KO)]. Qed.

Section Sources.
Variables (i : rinput) (vs : list nat) (ps : list apart) (t : rtable).
Hypothesis GO : graph_ok i vs ps.
Hypothesis ONLY : only_outgoing i vs ps.
Hypothesis ROUTE : route_application_graph i vs ps = Ok t.

Lemma items_In : forall d w k en, In ((w, k), en) (items_of d) <-> exists w' x, w = vertex_of w' /\ en = rent_of x /\ In ((w', k), x) d.
Proof.
  intros d w k en. unfold items_of. rewrite in_map_iff. split.
  - intros [[[w' k'] x] [E I]]. cbn [fst snd] in E. injection E as <- <- <-. eauto.
  - intros [w' [x [-> [-> I]]]]. exists ((w', k), x). auto.
Qed.
Lemma entry_In : forall q d w k x, In (q, d) t -> In ((w, k), x) d -> get_entry t w k q = Some x.
Proof.
  intros q d w k x I J. destruct (router_dicts i vs ps t ROUTE) as [D1 D2]. unfold get_entry.
  rewrite (proj2 (dget_Some_iff _ xy_eqb_eq t q d D1) I). apply (dget_Some_iff _ skey_eqb_eq d (w, k) x (D2 q d I)). exact J.
Qed.
(** A machine vertex with an entry is an outgoing vertex; an application vertex
    with one has some. *)
Lemma sender_of : forall v k q, get_entry t (Mac v) k q <> None -> exists pt, routed_part i vs ps pt /\ k = ap_id pt /\ In v (ri_out i (ap_pre pt) k).
Proof.
  intros v k q E. destruct (router_named i vs ps t (Mac v) k q GO ROUTE E) as [pt [RP [-> [N _]]]]. exists pt. split; [exact RP|]. split; [reflexivity|].
  destruct N as [N|[[v' [N V]]|[v' [target [x [N [T [X V]]]]]]]]; [discriminate | |]; injection N as <-.
  - apply in_app_iff in V. destruct V as [V|V]; [exact V|]. apply in_map_iff in V. destruct V as [ip [<- V]]. apply internal_of_In in V.
    apply (proj2 ONLY pt ip RP); tauto.
  - exact (proj1 ONLY pt target x v RP T X V).
Qed.
Lemma senders_of : forall a k q, get_entry t (App a) k q <> None -> exists pt, routed_part i vs ps pt /\ k = ap_id pt /\ a = ap_pre pt /\ ri_out i a k <> [].
Proof.
  intros a k q E. destruct (router_named i vs ps t (App a) k q GO ROUTE E) as [pt [RP [-> [N NE]]]]. exists pt. split; [exact RP|]. split; [reflexivity|].
  destruct N as [N|[[v' [N V]]|[v' [target [x [N [T [X V]]]]]]]]; [|discriminate|discriminate]. injection N as ->. split; [reflexivity|].
  intros Z. apply NE. rewrite Z. cbn [app]. destruct (internal_of i (ap_pre pt) (ap_id pt)) as [|ip l] eqn:IE; [reflexivity|]. exfalso.
  assert (I : In ip (internal_of i (ap_pre pt) (ap_id pt))) by (rewrite IE; left; reflexivity). apply internal_of_In in I.
  pose proof (proj2 ONLY pt ip RP (proj1 I) (proj2 I)) as X. rewrite Z in X. destruct X.
Qed.

(** What the table of a chip has entries for. *)
Lemma router_items : forall r, In r (routers_of t) ->
  NoDup (map fst (snd r)) /\
  (forall m k en, In ((AllocModel.Mac m, k), en) (snd r) -> exists pt, routed_part i vs ps pt /\ k = ap_id pt /\
     In m (ri_out i (ap_pre pt) k) /\ ve_app (ri_venv i) m = Some (ap_pre pt)) /\
  (forall a k en, In ((AllocModel.App a, k), en) (snd r) -> exists pt, routed_part i vs ps pt /\ k = ap_id pt /\ a = ap_pre pt /\ ri_out i a k <> []) /\
  (forall a k en m en', In ((AllocModel.App a, k), en) (snd r) -> In ((AllocModel.Mac m, k), en') (snd r) -> ve_app (ri_venv i) m <> Some a).
Proof.
  intros r I. unfold routers_of in I. apply in_map_iff in I. destruct I as [[q d] [<- I]]. cbn [fst snd].
  assert (IO := go_input _ _ _ GO). destruct (router_dicts i vs ps t ROUTE) as [D1 D2]. split; [|split; [|split]].
  - unfold items_of. rewrite map_map. cbn [fst]. specialize (D2 q d I). revert D2. clear. induction d as [|[[w k] x] d IH]; intros ND; [constructor|].
    cbn [map fst snd] in *. inversion_clear ND as [|? ? N1 N2]. constructor; [|exact (IH N2)]. intros X. apply N1. apply in_map_iff in X.
    destruct X as [[[w' k'] x'] [E X]]. cbn [fst snd] in E. injection E as E1 E2. apply vertex_of_inj in E1. subst. apply in_map_iff. exists ((w, k), x'). auto.
  - intros m k en X. apply items_In in X. destruct X as [[b|v] [x [E [_ X]]]]; [discriminate|]. injection E as ->.
    pose proof (entry_In q d (Mac v) k x I X) as G. destruct (sender_of v k q) as [pt [RP [-> V]]]; [congruence|].
    exists pt. split; [exact RP|]. split; [reflexivity|]. split; [exact V | exact (io_out i IO _ _ _ V)].
  - intros a k en X. apply items_In in X. destruct X as [[b|v] [x [E [_ X]]]]; [|discriminate]. injection E as ->.
    pose proof (entry_In q d (App b) k x I X) as G. destruct (senders_of b k q) as [pt [RP [-> [-> V]]]]; [congruence|]. exists pt. auto.
  - intros a k en m en' X Y A. apply items_In in X, Y. destruct X as [[b|v] [x [E [_ X]]]]; [|discriminate]. injection E as ->.
    destruct Y as [[b'|v] [y [E [_ Y]]]]; [discriminate|]. injection E as ->.
    assert (V : ve_ok (ri_venv i)) by exact (io_env i IO).
    pose proof (router_exclusive i vs ps t V ROUTE q k b v) as EX. pose proof (entry_In q d _ k x I X) as G1. pose proof (entry_In q d _ k y I Y) as G2.
    rewrite EX in G2; [discriminate | apply V; exact A | congruence].
Qed.
Lemma router_sources : forall extra e r, keys_ok i vs ps extra e -> In r (routers_of t) ->
  table_sources e (keyed_parts i vs ps extra) (ve_app (ri_venv i)) (snd r).
Proof.
  intros extra e r KO I. destruct (router_items r I) as [ND [MA [AP EX]]]. split; [exact ND|]. split; [|split; [|exact EX]].
  - intros m k en X. destruct (MA m k en X) as [pt [RP [-> [V A]]]].
    exists (ap_pre pt). split; [exact A|]. split; [split; [exact (keyed_In i vs ps extra pt GO RP) | exact (ko_free _ _ _ _ _ KO pt RP)]|].
    split; [apply (ko_counted _ _ _ _ _ KO pt RP); intros Z; rewrite Z in V; destruct V|]. rewrite (ko_out _ _ _ _ _ KO). exact V.
  - intros a k en X. destruct (AP a k en X) as [pt [RP [-> [-> V]]]].
    split; [split; [exact (keyed_In i vs ps extra pt GO RP) | exact (ko_free _ _ _ _ _ KO pt RP)]|]. rewrite (ko_out _ _ _ _ _ KO). exact V.
Qed.
Lemma routers_NoDup : NoDup (map fst (routers_of t)).
Proof. unfold routers_of. rewrite map_map. cbn [fst]. exact (proj1 (router_dicts i vs ps t ROUTE)). Qed.
End Sources.

(** * Generated tables *)
(** What the tables do for the sources; [flag]: the defaultable flag is that of the
    source. *)
Definition holds (flag : bool) (infos : list info) (t : rtable) (ts : list table) : Prop := forall w k q e, get_entry t w k q = Some e ->
  exists i, get_info infos (vertex_of w) k = Ok i /\ forall key, (key < 2 ^ 32)%N -> km_matches key (i_km i) ->
    exists o, found ts q key = Some o /\ e_route o = RPartModel.re_route e /\ (flag = true -> e_def o = re_default e).
Definition fine_table (tb : table) : Prop := Forall entry32 (t_entries tb) /\ orthogonal (t_entries tb).

Lemma holds_keeps : forall flag infos t ts, holds flag infos t ts -> keeps infos t ts.
Proof.
  intros flag infos t ts H w k q e E. destruct (H w k q e E) as [i [G F]]. exists i. split; [exact G|]. intros key K M. left.
  destruct (F key K M) as [o [A [B _]]]. eauto.
Qed.
Lemma get_table_pos : forall ts x y tb, NoDup (map (fun t => (t_x t, t_y t)) ts) -> In tb ts -> t_x tb = x -> t_y tb = y -> get_table ts x y = Some tb.
Proof.
  intros ts x y tb ND I <- <-. unfold get_table. induction ts as [|u ts IH]; [destruct I|]. cbn [map find] in *. inversion_clear ND as [|? ? N1 N2].
  destruct I as [->|I]; [rewrite !Z.eqb_refl; reflexivity|].
  destruct (Z.eqb (t_x u) (t_x tb) && Z.eqb (t_y u) (t_y tb)) eqn:E; [|exact (IH N2 I)].
  apply andb_prop in E. destruct E as [E1 E2]. apply Z.eqb_eq in E1, E2. destruct N1. apply in_map_iff. exists tb. split; [congruence | exact I].
Qed.
Lemma Forall2_In : forall {A B} (R : A -> B -> Prop) l l' x, Forall2 R l l' -> In x l -> exists y, In y l' /\ R x y.
Proof. intros A B R l l' x F. induction F as [|a b l l' H F IH]; intros []; [subst; exists b; split; [left; reflexivity | assumption]|]. destruct (IH H0) as [y [Y1 Y2]]. exists y. split; [right; exact Y1 | exact Y2]. Qed.
Lemma Forall2_In_r : forall {A B} (R : A -> B -> Prop) l l' y, Forall2 R l l' -> In y l' -> exists x, In x l /\ R x y.
Proof. intros A B R l l' y F. induction F as [|a b l l' H F IH]; intros []; [subst; exists a; split; [left; reflexivity | assumption]|]. destruct (IH H0) as [x [Y1 Y2]]. exists x. split; [right; exact Y1 | exact Y2]. Qed.

(** The keys suit the entries of every chip and the generator: the basic one does
    not ask for the application vertex of a machine vertex. *)
Definition keyed_tables (merged : bool) (i : rinput) (t : rtable) (infos : list info) : Prop :=
  exists app_of, (merged = true -> app_of = ve_app (ri_venv i)) /\ forall r, In r (routers_of t) -> well_keyed infos app_of (snd r).
(** Machine vertices have keys, which are also keys of the application vertex. *)
Definition keys_within (i : rinput) (vs : list nat) (ps : list apart) (infos : list info) : Prop :=
  forall pt v, routed_part i vs ps pt -> In v (ri_out i (ap_pre pt) (ap_id pt)) ->
  exists j, get_info infos (AllocModel.Mac v) (ap_id pt) = Ok j /\ forall key, (key < 2 ^ 32)%N -> km_matches key (i_km j) ->
    forall w j', w = Mac v \/ w = App (ap_pre pt) -> get_info infos (vertex_of w) (ap_id pt) = Ok j' -> km_matches key (i_km j').
Definition good_keys (merged : bool) (i : rinput) (vs : list nat) (ps : list apart) (t : rtable) (infos : list info) : Prop :=
  keyed_tables merged i t infos /\ keys_within i vs ps infos.

Section Generated.
Variables (merged : bool) (i : rinput) (vs : list nat) (ps : list apart) (t : rtable) (infos : list info).
Variable entry_eq : entry -> entry -> bool.
Hypothesis ROUTE : route_application_graph i vs ps = Ok t.
Hypothesis KT : keyed_tables merged i t infos.
Let maker := if merged then merged_table entry_eq infos (ve_app (ri_venv i)) else basic_table entry_eq infos.

Lemma tables_made : exists ts, generate maker (routers_of t) = Ok ts /\
  Forall2 (fun r tb => fst r = (t_x tb, t_y tb) /\ maker (t_x tb) (t_y tb) (snd r) = Ok tb) (routers_of t) ts.
Proof.
  destruct KT as [app_of [AO well]].
  destruct (generate_ok maker (fun items tb => maker (t_x tb) (t_y tb) items = Ok tb) (routers_of t)) as [ts [A B]].
  - intros r I. destruct (generators_agree entry_eq infos app_of (snd r) (well r I) (fst (fst r)) (snd (fst r)))
      as (tb & tm & H1 & H2 & H3 & H4 & H5 & H6 & _). unfold maker. destruct merged; [exists tm; rewrite <- (AO eq_refl) | exists tb].
    + rewrite H5, H6. auto.
    + rewrite H3, H4. auto.
  - exact (routers_NoDup i vs ps t ROUTE).
  - exists ts. split; [exact A | exact B].
Qed.

Lemma made_holds : forall ts, generate maker (routers_of t) = Ok ts ->
  NoDup (map (fun t => (t_x t, t_y t)) ts) /\ Forall fine_table ts /\ holds (negb merged) infos t ts.
Proof.
  intros ts H. destruct tables_made as [ts' [H' F]]. destruct KT as [app_of [AO well]]. assert (ts' = ts) by congruence. subst ts'.
  assert (ND : NoDup (map (fun t => (t_x t, t_y t)) ts)).
  { replace (map (fun t => (t_x t, t_y t)) ts) with (map fst (routers_of t)); [exact (routers_NoDup i vs ps t ROUTE)|].
    clear - F. induction F as [|r tb l l' [H _] F IH]; cbn [map]; [reflexivity|]. rewrite H, IH. reflexivity. }
  assert (ONE : forall r tb, In r (routers_of t) -> maker (t_x tb) (t_y tb) (snd r) = Ok tb ->
    fine_table tb /\ forall w p en j key, In ((w, p), en) (snd r) -> get_info infos w p = Ok j -> (key < 2 ^ 32)%N -> km_matches key (i_km j) ->
      exists o, first_match (t_entries tb) key = Some o /\ e_route o = GenModel.re_route en /\ (negb merged = true -> e_def o = re_def en)).
  { intros r tb I M. pose proof (well r I) as W. destruct (generators_agree entry_eq infos app_of (snd r) W (t_x tb) (t_y tb))
      as (tb' & tm' & H1 & H2 & _ & _ & _ & _ & O1 & O2 & _ & _ & R & _).
    destruct (generators_words entry_eq infos app_of (snd r) _ _ _ _ W H1 H2) as [W1 W2]. unfold maker in M. destruct merged.
    - rewrite <- (AO eq_refl) in M. assert (tm' = tb) by congruence. subst tm'. split; [split; [exact W2 | exact O2]|]. intros w p en j key J G K KM.
      destruct (R w p en j key J G K KM) as [_ [o [X Y]]]. exists o. split; [exact X|]. split; [exact Y | discriminate].
    - assert (tb' = tb) by congruence. subst tb'. split; [split; [exact W1 | exact O1]|]. intros w p en j key J G K KM.
      destruct (R w p en j key J G K KM) as [[o [X Y]] _]. exists o. split; [exact X|]. split; [exact Y|]. intros _.
      destruct (first_match_Some _ _ _ X) as [X1 X2].
      exact (proj2 (basic_flag _ _ _ _ _ _ _ _ _ _ _ _ _ W H1 J G K KM X1 X2)). }
  split; [exact ND|]. split.
  - apply Forall_forall. intros tb I. destruct (Forall2_In_r _ _ _ tb F I) as [r [R1 [_ R2]]]. exact (proj1 (ONE r tb R1 R2)).
  - intros w k q x G. unfold get_entry in G. destruct (dget xy_eqb t q) as [d|] eqn:D; [|discriminate].
    apply (dget_In _ xy_eqb_eq) in D. apply (dget_In _ skey_eqb_eq) in G.
    set (r := (q, items_of d)). assert (IR : In r (routers_of t)) by (apply in_map_iff; exists (q, d); auto).
    assert (II : In ((vertex_of w, k), rent_of x) (snd r)) by (apply items_In; eauto).
    destruct (wk_info _ _ _ (well r IR) _ _ _ II) as [j [J _]]. exists j. split; [exact J|]. intros key K M.
    destruct (Forall2_In _ _ _ r F IR) as [tb [T1 [T2 T3]]]. cbn [fst r] in T2.
    destruct (proj2 (ONE r tb IR T3) _ _ _ _ key II J K M) as [o O]. exists o. unfold found.
    rewrite (get_table_pos ts (fst q) (snd q) tb ND T1); [exact O | rewrite T2; reflexivity | rewrite T2; reflexivity].
Qed.

End Generated.

(** The keys of a machine vertex are also keys of its application vertex. *)
Lemma keys_mine : forall i vs ps extra e flexible infos, graph_ok i vs ps -> keys_ok i vs ps extra e ->
  allocate flexible e (keyed_parts i vs ps extra) = Ok infos -> keys_within i vs ps infos.
Proof.
  intros i vs ps extra e flexible infos GO KO ALLOC pt v RP V. pose proof (keys_env i vs ps extra e GO KO) as EO.
  assert (U : forall i j, In i infos -> In j infos -> i_vertex i = i_vertex j -> i_part i = i_part j -> i = j)
    by (intros; eapply alloc_unique; eauto).
  assert (F : free_part e (keyed_parts i vs ps extra) (ap_pre pt) (ap_id pt)) by (split; [exact (keyed_In i vs ps extra pt GO RP) | exact (ko_free _ _ _ _ _ KO pt RP)]).
  assert (C : counted e (ap_pre pt) (ap_id pt)) by (apply (ko_counted _ _ _ _ _ KO pt RP); intros Z; rewrite Z in V; destruct V).
  assert (O : In v (ae_outgoing e (ap_pre pt) (ap_id pt))) by (rewrite (ko_out _ _ _ _ _ KO); exact V).
  destruct (alloc_machine_block _ _ _ _ _ _ _ EO ALLOC F C O) as (j & ja & b & (J1 & J2 & J3 & _) & (A1 & A2 & A3) & _ & _ & _ & _ & _ & S).
  exists j. split; [apply get_info_In; assumption|]. intros key K M w j' W G.
  apply get_info_spec in G. destruct G as (G1 & G2 & G3). destruct W as [-> | ->]; cbn [vertex_of] in G2.
  - replace j' with j by (apply U; congruence). exact M.
  - replace j' with ja by (apply U; congruence). exact (S key K M).
Qed.
Lemma keys_good : forall merged i vs ps extra e t flexible infos, graph_ok i vs ps -> keys_ok i vs ps extra e ->
  route_application_graph i vs ps = Ok t -> allocate flexible e (keyed_parts i vs ps extra) = Ok infos -> good_keys merged i vs ps t infos.
Proof.
  intros merged i vs ps extra e t flexible infos GO KO ROUTE ALLOC. split; [|exact (keys_mine _ _ _ _ _ _ _ GO KO ALLOC)].
  exists (ve_app (ri_venv i)). split; [reflexivity|]. intros r I.
  eapply alloc_well_keyed; [exact (keys_env i vs ps extra e GO KO) | exact ALLOC|].
  exact (router_sources i vs ps t GO (keys_only _ _ _ _ _ KO) ROUTE extra e r KO I).
Qed.

(** * What the user gets *)
(** Every key of every machine vertex that sends takes packets to the targets of
    the vertex and nowhere else, and to no chip twice. *)
Definition exact_delivery (i : rinput) (vs : list nat) (ps : list apart) (infos : list info) (ts : list table) : Prop :=
  forall pt v, routed_part i vs ps pt -> In v (ri_out i (ap_pre pt) (ap_id pt)) ->
  exists j, get_info infos (AllocModel.Mac v) (ap_id pt) = Ok j /\
    forall key, (key < 2 ^ 32)%N -> km_matches key (i_km j) ->
      let root := chip_of i v in
      let inn0 := link_of (snd (ri_at i v)) in
      (forall w q pl, target_of i pt v w -> ri_at i w = (q, pl) -> arrives (ri_mach i) ts key root inn0 q pl) /\
      (unmixed i pt -> forall q pl, off_chip (ri_mach i) q pl -> arrives (ri_mach i) ts key root inn0 q pl ->
         exists w, target_of i pt v w /\ ri_at i w = (q, pl)) /\
      (forall p inn l q p' inn' l', flies (ri_mach i) ts key root inn0 p inn -> has_link (sends ts key p inn) l = true -> works (ri_mach i) p (l, q) ->
         q <> root /\ (flies (ri_mach i) ts key root inn0 p' inn' -> has_link (sends ts key p' inn') l' = true -> works (ri_mach i) p' (l', q) ->
           p' = p /\ inn' = inn /\ l' = l)).

Lemma keeps_delivers : forall i vs ps t infos ts, graph_ok i vs ps -> route_application_graph i vs ps = Ok t ->
  keys_within i vs ps infos -> keeps infos t ts -> exact_delivery i vs ps infos ts.
Proof.
  intros i vs ps t infos ts GO ROUTE KW K pt v RP V.
  destruct (KW pt v RP V) as [j [J M]]. exists j. split; [exact J|].
  intros key K32 KM. cbv zeta. pose proof (M key K32 KM) as MINE.
  pose proof (arrives_delivered i vs ps t pt v infos ts key GO ROUTE RP V K K32 MINE) as AD.
  destruct (router_delivers i vs ps t pt v GO ROUTE RP V) as [D1 D2]. split; [|split].
  - intros w q pl T A. apply AD. exact (D1 w q pl T A).
  - intros U q pl O A. apply AD in A. exact (D2 U q pl O A).
  - intros p inn l q p' inn' l'. exact (flies_once i vs ps t pt v infos ts key GO ROUTE RP V K K32 MINE p inn l q p' inn' l').
Qed.

Lemma good_delivers : forall merged entry_eq flexible i vs ps extra e t infos, graph_ok i vs ps -> good_keys merged i vs ps t infos ->
  route_application_graph i vs ps = Ok t -> allocate flexible e (keyed_parts i vs ps extra) = Ok infos ->
  exists ts, make_tables merged entry_eq flexible i vs ps extra e = Ok (infos, ts) /\ exact_delivery i vs ps infos ts.
Proof.
  intros merged entry_eq flexible i vs ps extra e t infos GO [KT KW] ROUTE ALLOC.
  destruct (tables_made merged i vs ps t infos entry_eq ROUTE KT) as [ts [G F]]. exists ts.
  split; [unfold make_tables; rewrite ROUTE; cbn [bind]; rewrite ALLOC; cbn [bind]; rewrite G; reflexivity|].
  destruct (made_holds merged i vs ps t infos entry_eq ROUTE KT ts G) as [_ [_ H]].
  exact (keeps_delivers i vs ps t infos ts GO ROUTE KW (holds_keeps _ _ _ _ H)).
Qed.
Lemma chain_delivers : forall merged entry_eq flexible i vs ps extra e t infos, graph_ok i vs ps -> keys_ok i vs ps extra e ->
  route_application_graph i vs ps = Ok t -> allocate flexible e (keyed_parts i vs ps extra) = Ok infos ->
  exists ts, make_tables merged entry_eq flexible i vs ps extra e = Ok (infos, ts) /\ exact_delivery i vs ps infos ts.
Proof.
  intros merged entry_eq flexible i vs ps extra e t infos GO KO ROUTE ALLOC.
  exact (good_delivers merged entry_eq flexible i vs ps extra e t infos GO (keys_good _ _ _ _ _ _ _ _ _ GO KO ROUTE ALLOC) ROUTE ALLOC).
Qed.

(** * Compressed tables *)
Definition where_is (tb tb' : table) : Prop := t_x tb' = t_x tb /\ t_y tb' = t_y tb.
Lemma get_table_map : forall (R : table -> table -> Prop) ts ts' x y, Forall2 (fun tb tb' => where_is tb tb' /\ R tb tb') ts ts' ->
  match get_table ts x y with
  | Some tb => exists tb', get_table ts' x y = Some tb' /\ In tb ts /\ R tb tb'
  | None => get_table ts' x y = None
  end.
Proof.
  intros R ts ts' x y F. unfold get_table. induction F as [|tb tb' ts ts' [[X Y] H] F IH]; cbn [find]; [reflexivity|]. rewrite X, Y.
  destruct (Z.eqb (t_x tb) x && Z.eqb (t_y tb) y); [exists tb'; split; [reflexivity|]; split; [left; reflexivity | exact H]|].
  destruct (find _ ts) as [u|]; [|exact IH]. destruct IH as [u' [A [B C]]]. exists u'. split; [exact A|]. split; [right; exact B | exact C].
Qed.

(** What a compressor may do to the table of a chip; [flag]: may entries be left out? *)
Definition compressed (flag : bool) (tb tb' : table) : Prop := forall o k, In o (t_entries tb) -> (k < 2 ^ 32)%N -> entry_matches k o ->
  routes_to (t_entries tb') k (e_route o) \/ (flag = true /\ first_match (t_entries tb') k = None /\ e_def o = true).

Lemma compressed_keeps : forall flag flag' infos t ts ts', holds flag infos t ts -> (flag' = true -> flag = true) ->
  Forall2 (fun tb tb' => where_is tb tb' /\ compressed flag' tb tb') ts ts' -> keeps infos t ts'.
Proof.
  intros flag flag' infos t ts ts' H FL F w k q e E. destruct (H w k q e E) as [j [J M]]. exists j. split; [exact J|]. intros key K KM.
  destruct (M key K KM) as [o [O1 [O2 O3]]]. unfold found in *. pose proof (get_table_map _ ts ts' (fst q) (snd q) F) as G.
  destruct (get_table ts (fst q) (snd q)) as [tb|]; [|discriminate]. destruct G as [tb' [-> [G2 G3]]].
  destruct (first_match_Some _ _ _ O1) as [I1 I2]. destruct (G3 o key I1 K I2) as [[o' [A B]]|[A [B C]]].
  - left. exists o'. split; [exact A|]. congruence.
  - right. split; [exact B|]. rewrite <- (O3 (FL A)). exact C.
Qed.

Lemma driver_compressed : forall flag compress target as_needed ordered accept_overflow ts out, Forall fine_table ts ->
  (forall tb es, In tb ts -> compress tb = Ok es -> forall o k, In o (t_entries tb) -> (k < 2 ^ 32)%N -> entry_matches k o ->
     routes_to es k (e_route o) \/ (flag = true /\ first_match es k = None /\ e_def o = true)) ->
  compress_tables compress target as_needed ordered accept_overflow ts [] = Ok out ->
  Forall2 (fun tb tb' => where_is tb tb' /\ compressed flag tb tb') ts out.
Proof.
  intros flag compress target as_needed ordered accept_overflow ts out FI C H. destruct (driver_spec _ _ _ _ _ _ _ H) as [F _]. clear H.
  revert FI C. induction F as [|tb tb' ts out (X & Y & R) F IH]; intros FI C; constructor.
  - split; [split; assumption|]. inversion_clear FI as [|? ? [_ O] _]. intros o k I K M. destruct R as [(_ & _ & ->) | R].
    + left. destruct (first_match_exists _ _ _ I M) as [o' O']. exists o'. split; [exact O'|]. f_equal.
      destruct (first_match_Some _ _ _ O') as [I' M']. exact (orthogonal_unique _ _ _ _ O I' I M' M).
    + eapply C; [left; reflexivity | exact R | exact I | exact K | exact M].
  - apply IH; [inversion FI; assumption|]. intros u es U. apply C. right. exact U.
Qed.

Lemma ranged_compressed : forall as_far target accept_overflow ts out, Forall fine_table ts ->
  range_compressor as_far target accept_overflow ts = Ok out ->
  Forall2 (fun tb tb' => where_is tb tb' /\ compressed false tb tb') ts out.
Proof.
  intros as_far target accept_overflow ts out FI H. unfold range_compressor in H.
  assert (G : forall ts done out, Forall fine_table ts ->
    foldM (fun done t =>
      let* new := range_compress (length (t_entries t)) as_far (target (t_x t) (t_y t)) (t_entries t) in
      if Nat.ltb (target (t_x t) (t_y t)) (length new) && negb accept_overflow then Err MinimisationFailed
      else add_table done (mkTable (t_x t) (t_y t) new (length (filter e_def new)))) done ts = Ok out ->
    exists l, out = done ++ l /\ Forall2 (fun tb tb' => where_is tb tb' /\ compressed false tb tb') ts l).
  { clear. induction ts as [|tb ts IH]; intros done out FI H; cbn [foldM] in H.
    - injection H as <-. exists []. rewrite app_nil_r. split; [reflexivity | constructor].
    - destruct (bind_Ok_inv _ _ _ H) as [done' [H1 H2]]. clear H. destruct (bind_Ok_inv _ _ _ H1) as [new [R H3]]. clear H1.
      destruct (Nat.ltb _ _ && _); [discriminate|]. unfold add_table in H3. destruct (existsb _ done); [discriminate|]. injection H3 as <-.
      inversion_clear FI as [|? ? [E O] FI']. destruct (IH _ _ FI' H2) as [l [-> L]].
      exists (mkTable (t_x tb) (t_y tb) new (length (filter e_def new)) :: l). rewrite <- app_assoc. split; [reflexivity|]. constructor; [|exact L].
      split; [split; reflexivity|]. intros o k I K M. left. cbn [t_entries]. exact (range_preserves _ _ _ _ _ E O R o k I K M). }
  destruct (G ts [] out FI H) as [l [-> L]]. exact L.
Qed.

(** Without overflow every table fits, and tables that can be made and fit are returned. *)
Lemma ranged_fits : forall as_far target ts out, range_compressor as_far target false ts = Ok out -> Forall (fits target) out.
Proof.
  intros as_far target ts out. unfold range_compressor. assert (F : Forall (fits target) []) by constructor. revert F. generalize (@nil table).
  induction ts as [|tb ts IH]; intros done F H; cbn [foldM] in H; [injection H as <-; exact F|].
  destruct (bind_Ok_inv _ _ _ H) as [done' [H1 H2]]. clear H. destruct (bind_Ok_inv _ _ _ H1) as [new [R H3]]. clear H1. refine (IH done' _ H2).
  destruct (Nat.ltb _ _) eqn:L; [discriminate|]. cbn [andb] in H3. unfold add_table in H3. destruct (existsb _ done); [discriminate|]. injection H3 as <-.
  apply Forall_app. split; [exact F|]. constructor; [|constructor]. unfold fits. cbn [t_entries t_x t_y]. apply Nat.ltb_ge in L. exact L.
Qed.
Lemma ranged_made : forall as_far target accept_overflow ts, NoDup (map (fun t => (t_x t, t_y t)) ts) ->
  (forall tb, In tb ts -> exists es, range_compress (length (t_entries tb)) as_far (target (t_x tb) (t_y tb)) (t_entries tb) = Ok es /\
     (accept_overflow = false -> length es <= target (t_x tb) (t_y tb))) ->
  exists out, range_compressor as_far target accept_overflow ts = Ok out.
Proof.
  intros as_far target accept_overflow ts ND H. unfold range_compressor.
  assert (G : forall ts done, NoDup (map (fun t => (t_x t, t_y t)) (done ++ ts)) ->
    (forall tb, In tb ts -> exists es, range_compress (length (t_entries tb)) as_far (target (t_x tb) (t_y tb)) (t_entries tb) = Ok es /\
       (accept_overflow = false -> length es <= target (t_x tb) (t_y tb))) ->
    exists out, foldM (fun done t =>
      let* new := range_compress (length (t_entries t)) as_far (target (t_x t) (t_y t)) (t_entries t) in
      if Nat.ltb (target (t_x t) (t_y t)) (length new) && negb accept_overflow then Err MinimisationFailed
      else add_table done (mkTable (t_x t) (t_y t) new (length (filter e_def new)))) done ts = Ok out).
  { clear. induction ts as [|tb ts IH]; intros done ND H; cbn [foldM]; [eauto|].
    destruct (H tb (or_introl eq_refl)) as [es [-> L]]. cbn [bind].
    replace (Nat.ltb (target (t_x tb) (t_y tb)) (length es) && negb accept_overflow) with false.
    2:{ symmetry. destruct accept_overflow; [apply andb_false_r|]. rewrite andb_true_r. apply Nat.ltb_ge. exact (L eq_refl). }
    rewrite map_app in ND. cbn [map] in ND. rewrite add_table_new; [|cbn [t_x t_y]; intros I; apply NoDup_remove_2 in ND; apply ND, in_or_app; left; exact I].
    cbn [bind]. apply IH; [|intros u U; apply H; right; exact U]. rewrite <- app_assoc, map_app. cbn [map app t_x t_y]. exact ND. }
  exact (G ts [] ND H).
Qed.

Lemma chain_split : forall merged entry_eq flexible i vs ps extra e infos ts, make_tables merged entry_eq flexible i vs ps extra e = Ok (infos, ts) ->
  exists t, route_application_graph i vs ps = Ok t /\ allocate flexible e (keyed_parts i vs ps extra) = Ok infos /\
    generate (if merged then merged_table entry_eq infos (ve_app (ri_venv i)) else basic_table entry_eq infos) (routers_of t) = Ok ts.
Proof.
  intros merged entry_eq flexible i vs ps extra e infos ts H. unfold make_tables in H. destruct (bind_Ok_inv _ _ _ H) as [t [H1 H2]].
  destruct (bind_Ok_inv _ _ _ H2) as [inf [H3 H4]]. destruct (bind_Ok_inv _ _ _ H4) as [ts' [H5 H6]]. injection H6 as -> ->. exists t. auto.
Qed.

Lemma good_pair : forall merged entry_eq flexible i vs ps extra e infos ts c_sort n_routes target as_needed ordered accept_overflow out,
  graph_ok i vs ps -> (forall t, route_application_graph i vs ps = Ok t -> allocate flexible e (keyed_parts i vs ps extra) = Ok infos -> good_keys merged i vs ps t infos) ->
  make_tables merged entry_eq flexible i vs ps extra e = Ok (infos, ts) ->
  compress_tables (fun t => compress_table ordered c_sort n_routes (t_entries t)) target as_needed ordered accept_overflow ts [] = Ok out ->
  exact_delivery i vs ps infos out.
Proof.
  intros merged entry_eq flexible i vs ps extra e infos ts c_sort n_routes target as_needed ordered accept_overflow out GO KO H C.
  destruct (chain_split _ _ _ _ _ _ _ _ _ _ H) as [t [R [A G]]]. destruct (KO t R A) as [KT KW].
  destruct (made_holds merged i vs ps t infos entry_eq R KT ts G) as [_ [FI HO]].
  apply (keeps_delivers i vs ps t infos out GO R KW).
  apply (compressed_keeps _ false infos t ts out HO); [discriminate|].
  refine (driver_compressed false _ _ _ _ _ _ _ FI _ C). intros tb es I CT o k J K M. left.
  rewrite Forall_forall in FI. destruct (FI tb I) as [E O]. refine (pair_preserves_routing _ _ _ _ _ _ O CT o k J M).
  eapply Forall_impl; [|exact E]. intros x X. exact (proj1 X).
Qed.
Lemma chain_pair : forall merged entry_eq flexible i vs ps extra e infos ts c_sort n_routes target as_needed ordered accept_overflow out,
  graph_ok i vs ps -> keys_ok i vs ps extra e -> make_tables merged entry_eq flexible i vs ps extra e = Ok (infos, ts) ->
  compress_tables (fun t => compress_table ordered c_sort n_routes (t_entries t)) target as_needed ordered accept_overflow ts [] = Ok out ->
  exact_delivery i vs ps infos out.
Proof.
  intros merged entry_eq flexible i vs ps extra e infos ts c_sort n_routes target as_needed ordered accept_overflow out GO KO H C. refine (good_pair _ _ _ _ _ _ _ _ _ _ _ _ _ _ _ _ _ GO _ H C).
  intros t R A. exact (keys_good _ _ _ _ _ _ _ _ _ GO KO R A).
Qed.

Lemma good_range : forall merged entry_eq flexible i vs ps extra e infos ts as_far target accept_overflow out,
  graph_ok i vs ps -> (forall t, route_application_graph i vs ps = Ok t -> allocate flexible e (keyed_parts i vs ps extra) = Ok infos -> good_keys merged i vs ps t infos) ->
  make_tables merged entry_eq flexible i vs ps extra e = Ok (infos, ts) ->
  range_compressor as_far target accept_overflow ts = Ok out -> exact_delivery i vs ps infos out.
Proof.
  intros merged entry_eq flexible i vs ps extra e infos ts as_far target accept_overflow out GO KO H C.
  destruct (chain_split _ _ _ _ _ _ _ _ _ _ H) as [t [R [A G]]]. destruct (KO t R A) as [KT KW].
  destruct (made_holds merged i vs ps t infos entry_eq R KT ts G) as [_ [FI HO]].
  apply (keeps_delivers i vs ps t infos out GO R KW).
  apply (compressed_keeps _ false infos t ts out HO); [discriminate|]. exact (ranged_compressed _ _ _ _ _ FI C).
Qed.
Lemma chain_range : forall merged entry_eq flexible i vs ps extra e infos ts as_far target accept_overflow out,
  graph_ok i vs ps -> keys_ok i vs ps extra e -> make_tables merged entry_eq flexible i vs ps extra e = Ok (infos, ts) ->
  range_compressor as_far target accept_overflow ts = Ok out -> exact_delivery i vs ps infos out.
Proof.
  intros merged entry_eq flexible i vs ps extra e infos ts as_far target accept_overflow out GO KO H C. refine (good_range _ _ _ _ _ _ _ _ _ _ _ _ _ _ GO _ H C).
  intros t R A. exact (keys_good _ _ _ _ _ _ _ _ _ GO KO R A).
Qed.

Lemma good_covering : forall entry_eq flexible i vs ps extra e infos ts target (as_needed accept_overflow : bool) out,
  graph_ok i vs ps -> (forall t, route_application_graph i vs ps = Ok t -> allocate flexible e (keyed_parts i vs ps extra) = Ok infos -> good_keys false i vs ps t infos) ->
  make_tables false entry_eq flexible i vs ps extra e = Ok (infos, ts) ->
  compress_tables (fun t => oc_compress_table (t_entries t) (if as_needed then Some (target (t_x t) (t_y t)) else None))
    target as_needed true accept_overflow ts [] = Ok out ->
  exact_delivery i vs ps infos out.
Proof.
  intros entry_eq flexible i vs ps extra e infos ts target as_needed accept_overflow out GO KO H C.
  destruct (chain_split _ _ _ _ _ _ _ _ _ _ H) as [t [R [A G]]]. destruct (KO t R A) as [KT KW].
  destruct (made_holds false i vs ps t infos entry_eq R KT ts G) as [_ [FI HO]].
  apply (keeps_delivers i vs ps t infos out GO R KW).
  apply (compressed_keeps _ true infos t ts out HO); [reflexivity|].
  refine (driver_compressed true _ _ _ _ _ _ _ FI _ C). intros tb es I CT o k J K M.
  rewrite Forall_forall in FI. destruct (FI tb I) as [E O]. cbn beta in CT.
  assert (E' : Forall entry_ok (t_entries tb)) by (eapply Forall_impl; [|exact E]; intros x X; exact (proj1 X)).
  destruct (oc_compress_preserves _ _ _ E' O CT o k J M) as [[o' [X Y]]|[X Y]].
  - left. exists o'. split; [exact X|]. congruence.
  - right. auto.
Qed.
Lemma chain_covering : forall entry_eq flexible i vs ps extra e infos ts target (as_needed accept_overflow : bool) out,
  graph_ok i vs ps -> keys_ok i vs ps extra e -> make_tables false entry_eq flexible i vs ps extra e = Ok (infos, ts) ->
  compress_tables (fun t => oc_compress_table (t_entries t) (if as_needed then Some (target (t_x t) (t_y t)) else None))
    target as_needed true accept_overflow ts [] = Ok out ->
  exact_delivery i vs ps infos out.
Proof.
  intros entry_eq flexible i vs ps extra e infos ts target as_needed accept_overflow out GO KO H C. refine (good_covering _ _ _ _ _ _ _ _ _ _ _ _ _ GO _ H C).
  intros t R A. exact (keys_good _ _ _ _ _ _ _ _ _ GO KO R A).
Qed.

(** The whole chain succeeds. *)
Lemma chain_succeeds : forall merged entry_eq flexible i vs ps extra e, graph_ok i vs ps -> keys_ok i vs ps extra e ->
  connected (ri_mach i) -> (forall pt, routed_part i vs ps pt -> part_fit i pt) ->
  no_fixed e (keyed_parts i vs ps extra) -> fields_fit e (keyed_parts i vs ps extra) ->
  (forall a k, In (a, k) (keyed_parts i vs ps extra) -> NoDup (ri_out i a k)) ->
  (forall a k, In (a, k) extra -> ri_out i a k <> [] -> counted e a k) ->
  exists infos ts, make_tables merged entry_eq flexible i vs ps extra e = Ok (infos, ts).
Proof.
  intros merged entry_eq flexible i vs ps extra e GO KO CO FIT NF FF ND CX.
  destruct (router_succeeds i vs ps GO CO FIT) as [t R].
  destruct (alloc_succeeds_iff flexible e (keyed_parts i vs ps extra)) as [[AS _] _].
  - exact (keys_env _ _ _ _ _ GO KO).
  - exact NF.
  - intros a k I. rewrite (ko_out _ _ _ _ _ KO). exact (ND a k I).
  - intros a k I N. rewrite (ko_out _ _ _ _ _ KO) in N. apply in_app_or in I. destruct I as [J|J]; [|exact (CX a k J N)].
    apply in_map_iff in J. destruct J as [pt [X J]]. injection X as <- <-. apply (routed_part_In i vs ps pt (go_distinct _ _ _ GO)) in J.
    exact (ko_counted _ _ _ _ _ KO pt J N).
  - destruct (AS FF) as [infos A]. destruct (chain_delivers merged entry_eq flexible i vs ps extra e t infos GO KO R A) as [ts [T _]]. eauto.
Qed.
