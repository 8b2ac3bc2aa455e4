(** What the table of the application router does to the packets of a partition. *)
From Coq Require Import List ZArith NArith Arith Bool Lia Permutation.
From Verif Require Import Base Dict TreeModel TreeProofs MachModel LdfModel LdfProofs PathModel PathProofs
  RPartModel RPartProofs BfsModel BfsProofs TargetsModel TargetsProofs ConvModel ConvProofs RouterModel RouterProofs RouterTables RouterPlan.
Import ListNotations.
Local Open Scope nat_scope.

Section Partition.
Variables (i : rinput) (pt : apart) (t t' : rtable) (edges : list xy) (r : routes) (ts : list (xy * tstate)) (self : bool) (wanted : list xy).
Hypothesis IO : input_ok i.
Hypothesis PO : part_ok i pt.
Hypothesis PR : part_routed i pt t t' edges r ts self wanted.
Hypothesis EX : exclusive (ri_venv i) t.
Hypothesis FRESH : forall w q, w = App (ap_pre pt) \/ (exists v, w = Mac v /\ ve_app (ri_venv i) v = Some (ap_pre pt)) ->
  get_entry t w (ap_id pt) q = None.
Let PL : part_plan i pt edges r ts self wanted := pr_plan _ _ _ _ _ _ _ _ _ PR.
Let a := ap_pre pt.
Let k := ap_id pt.
Let src := src_chips i pt.
Let tree_from (v : nat) := source_tree i src wanted (chip_of i v).

(* The lemmas about the plan. *)
Lemma env_fine : env_ok (renv i k).
Proof. exact (RouterPlan.env_fine i pt IO). Qed.
Lemma wanted_src : src <> [] -> incl wanted src.
Proof. exact (RouterPlan.wanted_src i pt edges r ts self wanted PL). Qed.
Lemma src_some : forall v, In v (ri_out i a k ++ map in_pre (internal_of i a k)) -> In (chip_of i v) src.
Proof. exact (RouterPlan.src_some i pt IO PO). Qed.
Lemma call_reached : forall q c, In (q, c) (part_calls i pt) -> known r q \/ (self = true /\ In q wanted).
Proof. exact (RouterPlan.call_reached i pt edges r ts self wanted PL). Qed.
Lemma call_machine : forall q c, src <> [] -> In (q, c) (part_calls i pt) -> (tc_machine c = true <-> In q src).
Proof. exact (RouterPlan.call_machine i pt edges r ts self wanted IO PO PL). Qed.
Lemma call_sources : forall q c s, In (q, c) (part_calls i pt) -> In s (tc_srcs c) ->
  s = App a \/ exists v, s = Mac v /\ ve_app (ri_venv i) v = Some a.
Proof. exact (RouterPlan.call_sources i pt wanted PO). Qed.
Lemma chip_targets : forall q s, dget xy_eqb ts q = Some s ->
  (exists cs, cs <> [] /\ cs = calls_at (part_calls i pt) q /\ s = run_calls (renv i k) cs) \/
  (In q edges /\ calls_at (part_calls i pt) q = [] /\ s = edge_targets (outgoing_mapping i a k)).
Proof. exact (RouterPlan.chip_targets i pt edges r ts self wanted PL). Qed.
Lemma chip_valid : forall q s, dget xy_eqb ts q = Some s -> valid s /\ unique_keys s.
Proof. exact (RouterPlan.chip_valid i pt edges r ts self wanted PL). Qed.
Lemma aim_app : forall q b p, src <> [] -> aim ts q (App b) p -> b = a /\ ~ In q src.
Proof. exact (RouterPlan.aim_app i pt edges r ts self wanted IO PO PL). Qed.
Lemma aim_apart : forall q v p p', In v (ri_out i a k) -> aim ts q (App a) p -> aim ts q (Mac v) p' -> False.
Proof. exact (RouterPlan.aim_apart i pt edges r ts self wanted IO PL). Qed.
Lemma aim_call : forall q w cores links b, aim ts q w (cores, links) -> (In b links \/ exists n, In n cores /\ b = 6 + n) ->
  exists c, In (q, c) (part_calls i pt).
Proof. exact (RouterPlan.aim_call i pt edges r ts self wanted PL). Qed.
Lemma items_In : forall q s w p, dget xy_eqb ts q = Some s -> (In (w, p) (targets_by_source s) <-> aim ts q w p).
Proof. exact (RouterPlan.items_In i pt edges r ts self wanted PL). Qed.
Lemma gives_app : forall q w cores links, gives (conv_app i a k ts) q w cores links <->
  (dget xy_eqb ts q = None /\ w = App a /\ cores = [] /\ links = []) \/
  aim ts q w (cores, links) \/
  (dget xy_eqb ts q <> None /\ (forall b p, ~ aim ts q (App b) p) /\
   exists v, w = Mac v /\ In v (ri_out i a k) /\ (forall p, ~ aim ts q (Mac v) p) /\ cores = [] /\ links = []).
Proof. exact (RouterPlan.gives_app i pt edges r ts self wanted PL). Qed.
Lemma gives_mac : forall q v w cores links, gives (conv_mac i k ts self v) q w cores links <->
  w = Mac v /\ ((self = true /\ aim ts q (Mac v) (cores, links)) \/
                ((self = false \/ forall p, ~ aim ts q (Mac v) p) /\ cores = [] /\ links = [])).
Proof. exact (RouterPlan.gives_mac i pt edges r ts self wanted PL). Qed.
Lemma gives_mac_some : forall q v, exists cores links, gives (conv_mac i k ts self v) q (Mac v) cores links.
Proof. exact (RouterPlan.gives_mac_some i pt edges r ts self wanted PL). Qed.

(** * The entries for a vertex that sends *)
Variable v : nat.
Hypothesis SENDS : In v (ri_out i a k ++ map in_pre (internal_of i a k)).
Let s := tree_from v.

Lemma v_src : In (chip_of i v) src.
Proof. apply src_some. exact SENDS. Qed.
Lemma src_ne : src <> [].
Proof. intros E. pose proof v_src as V. rewrite E in V. destruct V. Qed.
Lemma v_app : ve_app (ri_venv i) v = Some a.
Proof.
  apply in_app_iff in SENDS. destruct SENDS as [V|V]; [exact (io_out i IO _ _ _ V)|].
  apply in_map_iff in V. destruct V as [ip [<- V]]. apply internal_of_In in V. apply (po_internal i pt PO); tauto.
Qed.
Lemma v_tree : is_tree (ri_mach i) (chip_of i v) s /\ (forall q, In q wanted -> known s q) /\ (forall q, known s q -> In q src).
Proof. exact (pr_trees _ _ _ _ _ _ _ _ _ PR _ v_src). Qed.

Lemma mac_entry : forall q, get_entry t' (Mac v) k q <> None <->
  (known r q /\ exists cores links, gives (conv_app i a k ts) q (Mac v) cores links) \/ known s q.
Proof.
  intros q. rewrite (pr_entry _ _ _ _ _ _ _ _ _ PR (Mac v) k q). fold a k src.
  assert (F : get_entry t (Mac v) k q = None) by (apply FRESH; right; exists v; split; [reflexivity | exact v_app]).
  split.
  - intros [X|[_ [X|[v' [cores [links [X [Y G]]]]]]]]; [congruence | left; exact X|].
    right. apply gives_mac in G. destruct G as [G _]. injection G as <-. exact Y.
  - intros [X|X]; right; (split; [reflexivity|]); [left; exact X|]. right.
    pose proof (gives_mac_some q v) as G.
    destruct G as [cores [links G]]. exists v, cores, links. split; [exact SENDS|]. split; [exact X | exact G].
Qed.
Lemma mac_bits : forall q b, has_bit t' (Mac v) k q b <->
  (exists cores links, known r q /\ gives (conv_app i a k ts) q (Mac v) cores links /\
     ((exists x, BfsProofs.child r q b x) \/ In b links \/ exists n, In n cores /\ b = 6 + n)) \/
  (known s q /\ ((exists x, BfsProofs.child s q b x) \/
     (self = true /\ exists cores links, aim ts q (Mac v) (cores, links) /\ (In b links \/ exists n, In n cores /\ b = 6 + n)))).
Proof.
  intros q b. rewrite (pr_bits _ _ _ _ _ _ _ _ _ PR (Mac v) k q b). fold a k src.
  assert (F : ~ has_bit t (Mac v) k q b).
  { intros [e [X _]]. assert (F : get_entry t (Mac v) k q = None) by (apply FRESH; right; exists v; split; [reflexivity | exact v_app]). congruence. }
  split.
  - intros [X|[_ [X|[v' [cores [links [X [Y [G Z]]]]]]]]]; [contradiction | left; exact X|].
    right. apply gives_mac in G. destruct G as [G G']. injection G as <-. split; [exact Y|]. destruct Z as [Z|Z]; [left; exact Z|].
    right. destruct G' as [[G1 G2]|[_ [-> ->]]]; [split; [exact G1|]; exists cores, links; auto|]. destruct Z as [[]|[n [[] _]]].
  - intros [X|[X Y]]; right; (split; [reflexivity|]); [left; exact X|]. right.
    pose proof SENDS as IV.
    destruct Y as [Y|[S [cores [links [A Y]]]]].
    + pose proof (gives_mac_some q v) as G.
      destruct G as [cores [links G]]. exists v, cores, links. split; [exact IV|]. split; [exact X|]. split; [exact G | left; exact Y].
    + exists v, cores, links. split; [exact IV|]. split; [exact X|]. split; [|right; exact Y]. apply gives_mac. split; [reflexivity|]. left. auto.
Qed.
Lemma app_entry : forall q, get_entry t' (App a) k q <> None <-> known r q /\ exists cores links, gives (conv_app i a k ts) q (App a) cores links.
Proof.
  intros q. rewrite (pr_entry _ _ _ _ _ _ _ _ _ PR (App a) k q). fold a k src.
  assert (F : get_entry t (App a) k q = None) by (apply FRESH; left; reflexivity). split.
  - intros [X|[_ [X|[v' [cores [links [X [Y G]]]]]]]]; [congruence | exact X|]. apply gives_mac in G. destruct G as [G _]. discriminate.
  - intros X. right. split; [reflexivity|]. left. exact X.
Qed.
Lemma app_bits : forall q b, has_bit t' (App a) k q b <-> exists cores links, known r q /\ gives (conv_app i a k ts) q (App a) cores links /\
     ((exists x, BfsProofs.child r q b x) \/ In b links \/ exists n, In n cores /\ b = 6 + n).
Proof.
  intros q b. rewrite (pr_bits _ _ _ _ _ _ _ _ _ PR (App a) k q b). fold a k src.
  assert (F : ~ has_bit t (App a) k q b).
  { intros [e [X _]]. assert (F : get_entry t (App a) k q = None) by (apply FRESH; left; reflexivity). congruence. }
  split.
  - intros [X|[_ [X|[v' [cores [links [X [Y [G Z]]]]]]]]]; [contradiction | exact X|]. apply gives_mac in G. destruct G as [G _]. discriminate.
  - intros X. right. split; [reflexivity|]. left. exact X.
Qed.

Lemma aim_link : forall q w cores links l, aim ts q w (cores, links) -> In l links -> l < 6 /\ is_link (ri_mach i) q l = false.
Proof.
  intros q w cores links l [st [D T]] L. destruct (chip_targets q st D) as [[cs [_ [-> ->]]]|[_ [_ ->]]].
  - destruct (filled_run _ _ _ _ false l T L) as [c [C1 C2]]. cbn [pick_opt] in C2. apply calls_at_In in C1. apply part_calls_In in C1.
    assert (G : exists u, chip_of i u = q /\ link_of (snd (ri_at i u)) = Some l).
    { destruct C1 as [[target [x [_ [_ [X ->]]]]]|[ip [u [_ [_ [X ->]]]]]]; cbn [tc_link] in C2; eauto. }
    destruct G as [u [U1 U2]]. pose proof (io_places i IO u) as P. rewrite U1 in P. destruct (snd (ri_at i u)); [discriminate|].
    cbn [link_of] in U2. injection U2 as <-. exact P.
  - exfalso. destruct (edge_targets_spec (outgoing_mapping i a k)) as [_ [_ [_ E]]]. specialize (E _ _ T). injection E as -> ->. destruct L.
Qed.

(** The packets of the vertex go to all chips of its source routes, and to the
    targets of its internal partitions. *)
Lemma source_chips : forall q, known s q -> travels (ri_mach i) t' k (Some a) v (chip_of i v) q.
Proof.
  intros q K. pose proof (tr_reach _ _ _ (proj1 v_tree) q K) as D. clear K. induction D as [|p l x D IH C]; [constructor|].
  pose proof (child_known _ _ _ _ C) as K. pose proof (proj2 (mac_entry p) (or_intror K)) as EN.
  assert (B : has_bit t' (Mac v) k p l) by (apply mac_bits; right; split; [exact K|]; left; eauto).
  destruct B as [e [E B]]. apply (tv_hop _ _ _ _ _ _ p e l x IH).
  - unfold route_for. rewrite E. reflexivity.
  - exact B.
  - exact (proj1 (tr_edge _ _ _ (proj1 v_tree) _ _ _ C)).
Qed.
Lemma internal_delivered : forall ip w q pl, In ip (ri_internal i a) -> in_id ip = k -> in_pre ip = v -> In w (in_posts ip) ->
  ri_at i w = (q, pl) -> delivered (ri_mach i) t' k a v (chip_of i v) q pl.
Proof.
  intros ip w q pl IP KP PP W AT.
  assert (CW : chip_of i w = q) by (unfold chip_of; rewrite AT; reflexivity).
  assert (PW : snd (ri_at i w) = pl) by (rewrite AT; reflexivity).
  assert (IT : In ip (internal_of i a k)) by (apply internal_of_In; auto).
  destruct (pr_inside _ _ _ _ _ _ _ _ _ PR ip IT) as [SE WA].
  assert (KS : known s q) by (apply (proj1 (proj2 v_tree)); rewrite <- CW; exact (WA w W)).
  split; [exact (source_chips q KS)|].
  set (c := mkTCall true (core_of pl) (link_of pl) [Mac v]).
  assert (C : In (q, c) (part_calls i pt)).
  { apply part_calls_In. right. exists ip, w. split; [exact IT|]. split; [exact W|]. split; [exact CW|]. rewrite PW, PP. reflexivity. }
  assert (D : dget xy_eqb ts q = Some (run_calls (renv i k) (calls_at (part_calls i pt) q))).
  { rewrite (pr_targets _ _ _ _ _ _ _ _ _ PR q). apply calls_at_In in C. destruct (calls_at (part_calls i pt) q); [destruct C | reflexivity]. }
  assert (X : forall b, exists p, aim ts q (Mac v) p /\ forall x, pick_opt b (core_of pl) (link_of pl) = Some x -> In x (pick b p)).
  { intros b. apply calls_at_In in C. destruct (targets_kept (renv i k) _ c (Mac v) v b env_fine C (or_introl eq_refl) eq_refl) as [p [E P]].
    exists p. split; [|exact P]. exists (run_calls (renv i k) (calls_at (part_calls i pt) q)). split; [exact D|]. unfold effective in E.
    destruct (targets_of (run_calls (renv i k) (calls_at (part_calls i pt) q)) (Mac v)); [exact E|]. exfalso.
    assert (TA : te_app (renv i k) v = Some a) by exact v_app. rewrite TA in E.
    destruct (aim_app q a p src_ne) as [_ Y]; [exists (run_calls (renv i k) (calls_at (part_calls i pt) q)); auto|].
    apply Y. exact (proj2 (proj2 v_tree) q KS). }
  assert (B : forall b, (exists cores links, aim ts q (Mac v) (cores, links) /\ (In b links \/ exists n, In n cores /\ b = 6 + n)) ->
    exists e, route_for t' k (Some a) v q = Some e /\ N.testbit (re_route e) (N.of_nat b) = true).
  { intros b H. assert (BB : has_bit t' (Mac v) k q b) by (apply mac_bits; right; split; [exact KS|]; right; auto).
    destruct BB as [e [E BB]]. exists e. split; [|exact BB]. unfold route_for. rewrite E. reflexivity. }
  destruct pl as [n|l].
  - destruct (X true) as [[cores links] [A P]]. apply (B (6 + n)). exists cores, links. split; [exact A|]. right. exists n. split; [|reflexivity]. apply P. reflexivity.
  - destruct (X false) as [[cores links] [A P]]. apply (B l). exists cores, links. split; [exact A|]. left. apply P. reflexivity.
Qed.

(** * Outgoing vertices *)
Hypothesis OUT : In v (ri_out i a k).

Definition visited (q : xy) : Prop := known s q \/ known r q.

Lemma outside_tree : forall q, known r q -> ~ known s q -> ~ In q src.
Proof.
  intros q K N S. apply N. apply (proj1 (proj2 v_tree)). apply (pr_edges _ _ _ _ _ _ _ _ _ PR).
  exact (ro_source _ _ _ _ (pr_routed _ _ _ _ _ _ _ _ _ PR) q K S).
Qed.

Lemma chip_route : forall q, visited q -> exists e, route_for t' k (Some a) v q = Some e /\
  forall b, N.testbit (re_route e) (N.of_nat b) = true <->
    (exists x, BfsProofs.child s q b x) \/ (exists x, BfsProofs.child r q b x) \/
    exists w cores links, (w = App a \/ w = Mac v) /\ aim ts q w (cores, links) /\ (In b links \/ exists n, In n cores /\ b = 6 + n).
Proof.
  intros q V.
  assert (BIT : forall w e b, get_entry t' w k q = Some e -> (N.testbit (re_route e) (N.of_nat b) = true <-> has_bit t' w k q b)).
  { intros w e b E. unfold has_bit. split; [eauto|]. intros [e' [X Y]]. congruence. }
  unfold route_for. destruct (known_dec s q) as [KS|KS].
  - pose proof (proj2 (mac_entry q) (or_intror KS)) as EN. destruct (get_entry t' (Mac v) k q) as [e|] eqn:E; [|congruence].
    exists e. split; [reflexivity|]. intros b. rewrite (BIT _ _ b E), mac_bits.
    assert (QS : In q src) by exact (proj2 (proj2 v_tree) q KS). split.
    + intros [[cores [links [K [G [X|X]]]]]|[_ [X|[_ [cores [links [A X]]]]]]].
      * right. left. exact X.
      * right. right. apply gives_app in G. destruct G as [[_ [G _]]|[G|[_ [_ [v' [_ [_ [_ [-> ->]]]]]]]]]; [discriminate | | destruct X as [[]|[n [[] _]]]].
        exists (Mac v), cores, links. auto.
      * left. exact X.
      * right. right. exists (Mac v), cores, links. auto.
    + intros [X|[[x X]|[w [cores [links [W [A X]]]]]]].
      * right. auto.
      * left. pose proof (child_known _ _ _ _ X) as K. assert (QE : In q edges) by exact (ro_source _ _ _ _ (pr_routed _ _ _ _ _ _ _ _ _ PR) q K QS).
        assert (DS : dget xy_eqb ts q <> None).
        { rewrite (pr_targets _ _ _ _ _ _ _ _ _ PR q). destruct (calls_at (part_calls i pt) q); [|discriminate].
          assert (xy_in q edges = true) as -> by (apply xy_in_spec; exact QE). discriminate. }
        destruct (dget xy_eqb ts q) as [st|] eqn:D; [|congruence]. destruct (targets_of st (Mac v)) as [[cores links]|] eqn:T.
        -- exists cores, links. split; [exact K|]. split; [|left; eauto]. apply gives_app. right. left. exists st. auto.
        -- exists [], []. split; [exact K|]. split; [|left; eauto]. apply gives_app. right. right. split; [congruence|]. split.
           ++ intros b' p A. destruct (aim_app q b' p src_ne A) as [_ Y]. exact (Y QS).
           ++ exists v. split; [reflexivity|]. split; [exact OUT|]. split; [|auto]. intros p [st' [Y Z]]. congruence.
      * destruct W as [-> | ->]; [exfalso; destruct (aim_app q a _ src_ne A) as [_ Y]; exact (Y QS)|].
        destruct (known_dec r q) as [K|K].
        -- left. exists cores, links. split; [exact K|]. split; [apply gives_app; right; left; exact A | right; exact X].
        -- right. split; [exact KS|]. right. destruct (aim_call q (Mac v) cores links b A X) as [c C].
           destruct (call_reached q c C) as [Y|[Y _]]; [contradiction|]. split; [exact Y|]. exists cores, links. auto.
  - assert (K : known r q) by (destruct V; [contradiction | assumption]). pose proof (outside_tree q K KS) as QS.
    assert (NS : forall b x, ~ BfsProofs.child s q b x) by (intros b x C; apply KS; exact (child_known _ _ _ _ C)).
    destruct (get_entry t' (Mac v) k q) as [e|] eqn:E.
    + exists e. split; [reflexivity|]. assert (EN : get_entry t' (Mac v) k q <> None) by congruence. apply mac_entry in EN.
      destruct EN as [[_ [c0 [l0 G0]]]|EN]; [|contradiction].
      assert (NA : forall p, ~ aim ts q (App a) p).
      { intros p A. apply gives_app in G0. destruct G0 as [[_ [G0 _]]|[G0|[_ [G0 _]]]]; [discriminate | exact (aim_apart q v _ _ OUT A G0) | exact (G0 a p A)]. }
      intros b. rewrite (BIT _ _ b E), mac_bits. split.
      * intros [[cores [links [_ [G [X|X]]]]]|[X _]]; [right; left; exact X | | contradiction].
        right. right. apply gives_app in G. destruct G as [[_ [G _]]|[G|[_ [_ [v' [_ [_ [_ [-> ->]]]]]]]]]; [discriminate | | destruct X as [[]|[n [[] _]]]].
        exists (Mac v), cores, links. auto.
      * intros [[x X]|[X|[w [cores [links [[-> | ->] [A X]]]]]]].
        -- destruct (NS b x X).
        -- left. exists c0, l0. auto.
        -- destruct (NA _ A).
        -- left. exists cores, links. split; [exact K|]. split; [apply gives_app; right; left; exact A | right; exact X].
    + assert (NG : forall cores links, ~ gives (conv_app i a k ts) q (Mac v) cores links).
      { intros cores links G. assert (X : get_entry t' (Mac v) k q <> None) by (apply mac_entry; left; eauto). congruence. }
      assert (GA : exists cores links, gives (conv_app i a k ts) q (App a) cores links).
      { destruct (dget xy_eqb ts q) as [st|] eqn:D.
        - destruct (targets_of st (App a)) as [[cores links]|] eqn:T.
          + exists cores, links. apply gives_app. right. left. exists st. auto.
          + exfalso. apply (NG [] []). apply gives_app. right. right. split; [congruence|]. split.
            * intros b p A. destruct (aim_app q b p src_ne A) as [-> _]. destruct A as [st' [Y Z]]. congruence.
            * exists v. split; [reflexivity|]. split; [exact OUT|]. split; [|auto]. intros [cores links] A. apply (NG cores links).
              apply gives_app. right. left. exact A.
        - exists [], []. apply gives_app. left. auto. }
      assert (EA : get_entry t' (App a) k q <> None) by (apply app_entry; auto).
      destruct (get_entry t' (App a) k q) as [e|] eqn:E'; [|congruence]. exists e. split; [reflexivity|].
      intros b. rewrite (BIT _ _ b E'), app_bits. split.
      * intros [cores [links [_ [G [X|X]]]]]; [right; left; exact X|]. right. right.
        apply gives_app in G. destruct G as [[_ [_ [-> ->]]]|[G|[_ [_ [v' [_ [_ [_ [-> ->]]]]]]]]]; [destruct X as [[]|[n [[] _]]] | | destruct X as [[]|[n [[] _]]]].
        exists (App a), cores, links. auto.
      * intros [[x X]|[X|[w [cores [links [[-> | ->] [A X]]]]]]].
        -- destruct (NS b x X).
        -- destruct GA as [cores [links GA]]. exists cores, links. auto.
        -- exists cores, links. split; [exact K|]. split; [apply gives_app; right; left; exact A | right; exact X].
        -- exfalso. apply (NG cores links). apply gives_app. right. left. exact A.
Qed.

(** The packets of the vertex go to the chips of the two sets of routes. *)
Lemma packet_chips : forall q, travels (ri_mach i) t' k (Some a) v (chip_of i v) q <-> visited q.
Proof.
  intros q. destruct v_tree as [T1 [T2 T3]]. destruct (ro_forest _ _ _ _ (pr_routed _ _ _ _ _ _ _ _ _ PR)) as [F1 F2 F3 F4 F5].
  assert (HOP : forall p l x, visited p -> (BfsProofs.child s p l x \/ BfsProofs.child r p l x) -> works (ri_mach i) p (l, x) ->
     travels (ri_mach i) t' k (Some a) v (chip_of i v) p -> travels (ri_mach i) t' k (Some a) v (chip_of i v) x).
  { intros p l x V C W T. destruct (chip_route p V) as [e [E B]]. apply (tv_hop _ _ _ _ _ _ p e l x T E); [|exact W].
    unfold has_link. apply B. destruct C; eauto. }
  assert (TS : forall x, descends s (chip_of i v) x -> travels (ri_mach i) t' k (Some a) v (chip_of i v) x).
  { intros x D. induction D as [|p' l x D IH C]; [constructor|]. apply (HOP p' l x); [left; exact (child_known _ _ _ _ C) | auto | exact (proj1 (tr_edge _ _ _ T1 _ _ _ C)) | exact IH]. }
  split.
  - intros T. induction T as [|p e l x T IH E L W]; [left; exact (tr_root _ _ _ T1)|].
    destruct (chip_route p IH) as [e' [E' B]]. assert (e' = e) by congruence. subst e'. apply B in L.
    assert (DET : forall y, works (ri_mach i) p (l, y) -> y = x).
    { intros y [_ [_ [Y _]]]. destruct W as [_ [_ [W _]]]. cbn [fst snd] in *. congruence. }
    destruct L as [[y Y]|[[y Y]|[w [cores [links [_ [A L]]]]]]].
    + destruct (tr_edge _ _ _ T1 _ _ _ Y) as [Y1 Y2]. rewrite <- (DET y Y1). left. exact Y2.
    + destruct (F2 _ _ _ Y) as [Y1 Y2]. rewrite <- (DET y Y1). right. exact Y2.
    + exfalso. destruct W as [W1 [W2 _]]. cbn [fst snd] in *. destruct L as [L|[n [_ L]]]; [|lia].
      destruct (aim_link _ _ _ _ _ A L) as [_ Z]. congruence.
  - intros [K|K].
    + apply TS. exact (tr_reach _ _ _ T1 q K).
    + destruct (F5 q K) as [p [P D]]. induction D as [|p' l x D IH C].
      * apply TS. apply (tr_reach _ _ _ T1). apply T2. apply (pr_edges _ _ _ _ _ _ _ _ _ PR). exact P.
      * pose proof (child_known _ _ _ _ C) as K'. apply (HOP p' l x); [right; exact K' | auto | exact (proj1 (F2 _ _ _ C)) | exact (IH K')].
Qed.

(** What arrives off the chips is what the targets say. *)
Definition asks (q : xy) (pl : place) : Prop := exists w cores links, (w = App a \/ w = Mac v) /\ aim ts q w (cores, links) /\
  match pl with OnCore n => In n cores | OnLink l => In l links end.

Lemma delivered_asks : forall q pl, off_chip (ri_mach i) q pl ->
  (delivered (ri_mach i) t' k a v (chip_of i v) q pl <-> visited q /\ asks q pl).
Proof.
  intros q pl OFF. unfold delivered. rewrite packet_chips.
  assert (CH : forall b x, BfsProofs.child s q b x \/ BfsProofs.child r q b x -> works (ri_mach i) q (b, x)).
  { intros b x [C|C]; [exact (proj1 (tr_edge _ _ _ (proj1 v_tree) _ _ _ C))|].
    exact (proj1 (fo_edge _ _ _ (ro_forest _ _ _ _ (pr_routed _ _ _ _ _ _ _ _ _ PR)) _ _ _ C)). }
  split.
  - intros [V [e [E B]]]. split; [exact V|]. destruct (chip_route q V) as [e' [E' BIT]]. assert (e' = e) by congruence. subst e'.
    destruct pl as [n|l]; [unfold has_proc in B | unfold has_link in B]; apply BIT in B.
    + destruct B as [[x B]|[[x B]|[w [cores [links [W [A [B|[n' [B E2]]]]]]]]]].
      * destruct (CH _ _ (or_introl B)) as [X _]. cbn [fst] in X. lia.
      * destruct (CH _ _ (or_intror B)) as [X _]. cbn [fst] in X. lia.
      * destruct (aim_link _ _ _ _ _ A B) as [X _]. lia.
      * assert (n' = n) by lia. subst n'. exists w, cores, links. auto.
    + destruct OFF as [L6 OFF]. destruct B as [[x B]|[[x B]|[w [cores [links [W [A [B|[n' [B E2]]]]]]]]]].
      * destruct (CH _ _ (or_introl B)) as [_ [X _]]. cbn [fst] in X. congruence.
      * destruct (CH _ _ (or_intror B)) as [_ [X _]]. cbn [fst] in X. congruence.
      * exists w, cores, links. auto.
      * lia.
  - intros [V [w [cores [links [W [A B]]]]]]. split; [exact V|]. destruct (chip_route q V) as [e [E BIT]]. exists e. split; [exact E|].
    destruct pl as [n|l]; [unfold has_proc | unfold has_link]; apply BIT; right; right; exists w, cores, links; (split; [exact W|]); (split; [exact A|]).
    + right. eauto.
    + left. exact B.
Qed.

Lemma aim_effective : forall q c, In (q, c) (part_calls i pt) ->
  exists cs, cs = calls_at (part_calls i pt) q /\ forall p,
    effective (renv i k) (run_calls (renv i k) cs) v = Some p <-> exists w, (w = App a \/ w = Mac v) /\ aim ts q w p.
Proof.
  intros q c C. exists (calls_at (part_calls i pt) q). split; [reflexivity|].
  assert (D : dget xy_eqb ts q = Some (run_calls (renv i k) (calls_at (part_calls i pt) q))).
  { rewrite (pr_targets _ _ _ _ _ _ _ _ _ PR q). apply calls_at_In in C. destruct (calls_at (part_calls i pt) q); [destruct C | reflexivity]. }
  intros p. unfold effective. assert (TA : te_app (renv i k) v = Some a) by exact v_app. rewrite TA.
  set (st := run_calls (renv i k) (calls_at (part_calls i pt) q)) in *. split.
  - destruct (targets_of st (Mac v)) as [p0|] eqn:T; intros H.
    + injection H as ->. exists (Mac v). split; [auto|]. exists st. auto.
    + exists (App a). split; [auto|]. exists st. auto.
  - intros [w [W A]]. destruct (targets_of st (Mac v)) as [p0|] eqn:T.
    + destruct W as [-> | ->].
      * exfalso. apply (aim_apart q v p p0 OUT A). exists st. auto.
      * destruct A as [st' [D' A]]. congruence.
    + destruct A as [st' [D' A]]. destruct W as [-> | ->]; congruence.
Qed.

Lemma pick_place : forall (pl : place) (cores links : list nat),
  match pl with OnCore n => In n cores | OnLink l => In l links end <->
  exists b x, In x (pick b (cores, links)) /\ pick_opt b (core_of pl) (link_of pl) = Some x.
Proof.
  intros [n|l] cores links; split.
  - intros H. exists true, n. auto.
  - intros [[|] [x [X E]]]; cbn [pick_opt core_of link_of pick fst] in *; [injection E as ->; exact X | discriminate].
  - intros H. exists false, l. auto.
  - intros [[|] [x [X E]]]; cbn [pick_opt core_of link_of pick snd] in *; [discriminate | injection E as ->; exact X].
Qed.

(** Nothing is lost. *)
Lemma targets_delivered : forall w q pl, target_of i pt v w -> ri_at i w = (q, pl) ->
  delivered (ri_mach i) t' k a v (chip_of i v) q pl.
Proof.
  intros w q pl TG AT.
  assert (CW : chip_of i w = q) by (unfold chip_of; rewrite AT; reflexivity).
  assert (PW : snd (ri_at i w) = pl) by (rewrite AT; reflexivity).
  assert (OFF : off_chip (ri_mach i) q pl) by (rewrite <- CW, <- PW; apply (io_places i IO)).
  assert (CALL : exists c sv, In (q, c) (part_calls i pt) /\ In sv (tc_srcs c) /\ concerns (renv i k) sv v /\ tc_core c = core_of pl /\ tc_link c = link_of pl).
  { destruct TG as [[target [x [sv [T [X [E [S C]]]]]]]|[ip [IP [K [P W]]]]].
    - eexists. exists sv. split; [apply part_calls_In; left; exists target, x; split; [exact T|]; split; [exact X|]; split; [rewrite E; exact CW | reflexivity]|].
      cbn [tc_srcs tc_core tc_link]. split; [exact S|]. rewrite E, PW. split; [|auto].
      destruct C as [->|[b [-> C]]]; [reflexivity | exact C].
    - eexists. exists (Mac v). split; [apply part_calls_In; right; exists ip, w; split; [apply internal_of_In; auto|]; split; [exact W|]; split; [exact CW | reflexivity]|].
      cbn [tc_srcs tc_core tc_link]. rewrite P, PW. split; [left; reflexivity|]. split; [reflexivity | auto]. }
  destruct CALL as [c [sv [C [S [CO [C1 C2]]]]]].
  apply delivered_asks; [exact OFF|]. split.
  - destruct (call_reached q c C) as [K|[_ K]]; [right; exact K | left; apply (proj1 (proj2 v_tree)); exact K].
  - destruct (aim_effective q c C) as [cs [-> EF]]. apply calls_at_In in C.
    destruct pl as [n|l].
    + destruct (targets_kept (renv i k) _ c sv v true env_fine C S CO) as [[cores links] [E P]].
      apply EF in E. destruct E as [w' [W' A]]. exists w', cores, links. split; [exact W'|]. split; [exact A|].
      cbn [pick_opt pick fst] in P. apply P. rewrite C1. reflexivity.
    + destruct (targets_kept (renv i k) _ c sv v false env_fine C S CO) as [[cores links] [E P]].
      apply EF in E. destruct E as [w' [W' A]]. exists w', cores, links. split; [exact W'|]. split; [exact A|].
      cbn [pick_opt pick snd] in P. apply P. rewrite C2. reflexivity.
Qed.

(** Nothing is added. *)
Lemma delivered_targets : forall q pl, unmixed i pt -> off_chip (ri_mach i) q pl -> delivered (ri_mach i) t' k a v (chip_of i v) q pl ->
  exists w, target_of i pt v w /\ ri_at i w = (q, pl).
Proof.
  intros q pl UN OFF H. apply delivered_asks in H; [|exact OFF]. destruct H as [V [w [cores [links [W [A B]]]]]].
  assert (C : exists c, In (q, c) (part_calls i pt)).
  { destruct pl as [n|l].
    - apply (aim_call q w cores links (6 + n) A). right. eauto.
    - apply (aim_call q w cores links l A). left. exact B. }
  destruct C as [c0 C0]. destruct (aim_effective q c0 C0) as [cs [-> EF]].
  assert (E : effective (renv i k) (run_calls (renv i k) (calls_at (part_calls i pt) q)) v = Some (cores, links)) by (apply EF; eauto).
  assert (OM : forall b, te_app (renv i k) v = Some b -> In v (te_out (renv i k) b)).
  { intros b X. cbn [renv te_app te_out] in *. rewrite v_app in X. injection X as <-. exact OUT. }
  assert (IN : in_order (renv i k) (flat_map atoms_of (calls_at (part_calls i pt) q))).
  { destruct (xy_in q src) eqn:Q.
    - apply xy_in_spec in Q. apply in_order_machine. intros c C. apply calls_at_In in C. apply (call_machine q c src_ne C). exact Q.
    - assert (QN : ~ In q src) by (intros X; apply xy_in_spec in X; congruence).
      assert (CF : forall c, In c (calls_at (part_calls i pt) q) -> tc_machine c = false).
      { intros c C. apply calls_at_In in C. apply Bool.not_true_iff_false. intros X. apply QN. apply (call_machine q c src_ne C). exact X. }
      apply in_order_separate; [exact CF|]. intros c sv b c' v' C S -> C' S' X.
      pose proof (CF c C) as M. pose proof (CF c' C') as M'. apply calls_at_In in C, C'.
      apply part_calls_In in C, C'.
      destruct C as [[t1 [x1 [T1 [X1 [Q1 ->]]]]]|[ip [u [_ [_ [_ ->]]]]]]; [|discriminate].
      destruct C' as [[t2 [x2 [T2 [X2 [Q2 ->]]]]]|[ip [u [_ [_ [_ ->]]]]]]; [|discriminate].
      cbn [tc_srcs] in S, S'.
      destruct (po_sources i pt PO t1 x1 (App b) T1 X1 S) as [Y|[? [Y _]]]; [|discriminate]. injection Y as ->.
      destruct (UN t1 x1 t2 x2 v' T1 X1 S T2 X2 S' (eq_trans Q1 (eq_sym Q2))) as [u [U1 U2]].
      apply QN. unfold src, src_chips. apply set_of_In. rewrite <- Q1, <- U2. apply in_map. exact U1. }
  apply (pick_place pl cores links) in B. destruct B as [b [x [X PX]]].
  destruct (targets_only (renv i k) _ v (cores, links) b x env_fine IN OM E X) as [c [sv [C [S [CO PO']]]]].
  apply calls_at_In in C. apply part_calls_In in C.
  assert (SAME : forall u, chip_of i u = q -> pick_opt b (core_of (snd (ri_at i u))) (link_of (snd (ri_at i u))) = Some x -> ri_at i u = (q, pl)).
  { intros u U1 U2. unfold chip_of in U1. destruct (ri_at i u) as [q' pl']. cbn [fst snd] in *. subst q'. f_equal.
    destruct b; destruct pl, pl'; cbn [pick_opt core_of link_of] in *; congruence. }
  destruct C as [[target [y [T [Y [Q ->]]]]]|[ip [u [IP [U [Q ->]]]]]]; cbn [tc_srcs tc_core tc_link] in *.
  - exists (fst y). split; [|exact (SAME _ Q PO')]. left. exists target, y, sv. split; [exact T|]. split; [exact Y|]. split; [reflexivity|]. split; [exact S|].
    destruct sv as [b'|v']; cbn [concerns] in CO; [right; exists b'; split; [reflexivity | exact CO] | left; congruence].
  - exists u. split; [|exact (SAME _ Q PO')]. right. apply internal_of_In in IP. destruct IP as [IP1 IP2]. exists ip.
    destruct S as [<-|[]]. cbn [concerns] in CO. auto.
Qed.

(** No chip gets a packet twice. *)
Lemma hops_unique : forall p l q p' l', let go p l q := travels (ri_mach i) t' k (Some a) v (chip_of i v) p /\
    exists e, route_for t' k (Some a) v p = Some e /\ has_link (re_route e) l = true /\ works (ri_mach i) p (l, q) in
  go p l q -> q <> chip_of i v /\ (go p' l' q -> p' = p /\ l' = l).
Proof.
  intros p l q p' l' go. destruct v_tree as [T1 [T2 T3]]. destruct (pr_routed _ _ _ _ _ _ _ _ _ PR) as [F SO EI].
  assert (G : forall p l q, go p l q -> BfsProofs.child s p l q \/ BfsProofs.child r p l q).
  { intros p0 l0 q0 [V [e [E [B W]]]]. apply packet_chips in V. destruct (chip_route p0 V) as [e' [E' BIT]]. assert (e' = e) by congruence. subst e'.
    apply BIT in B.
    assert (DET : forall y, works (ri_mach i) p0 (l0, y) -> y = q0).
    { intros y [_ [_ [Y _]]]. destruct W as [_ [_ [W _]]]. cbn [fst snd] in *. congruence. }
    destruct B as [[y Y]|[[y Y]|[w [cores [links [_ [A L]]]]]]].
    - rewrite (DET y (proj1 (tr_edge _ _ _ T1 _ _ _ Y))) in Y. auto.
    - rewrite (DET y (proj1 (fo_edge _ _ _ F _ _ _ Y))) in Y. auto.
    - exfalso. destruct W as [W1 [W2 _]]. cbn [fst snd] in *. destruct L as [L|[n [_ L]]]; [|lia].
      destruct (aim_link _ _ _ _ _ A L) as [_ Z]. congruence. }
  assert (NO : forall p l q, BfsProofs.child r p l q -> known s q -> False).
  { intros p0 l0 q0 C K. apply (fo_top _ _ _ F p0 l0 q0); [|exact C]. apply SO; [exact (proj2 (fo_edge _ _ _ F _ _ _ C)) | exact (T3 q0 K)]. }
  intros H. apply G in H. split.
  - intros ->. destruct H as [H|H]; [exact (tr_top _ _ _ T1 _ _ H) | exact (NO _ _ _ H (tr_root _ _ _ T1))].
  - intros H'. apply G in H'. destruct H as [H|H]; destruct H' as [H'|H'].
    + destruct (tr_unique _ _ _ T1 _ _ _ _ _ H H'). auto.
    + destruct (NO _ _ _ H' (proj2 (tr_edge _ _ _ T1 _ _ _ H))).
    + destruct (NO _ _ _ H (proj2 (tr_edge _ _ _ T1 _ _ _ H'))).
    + destruct (fo_unique _ _ _ F _ _ _ _ _ H H'). auto.
Qed.

(** Where an entry may be left to default routing, the packets come straight
    through. *)
Lemma default_straight : forall w q e, (w = App a \/ w = Mac v) -> get_entry t' w k q = Some e -> re_default e = true ->
  (exists p l, (BfsProofs.child s p l q \/ BfsProofs.child r p l q) /\ re_route e = route_of [l] []) \/
  (q = chip_of i v /\ exists j, link_of (snd (ri_at i v)) = Some j /\ re_route e = route_of [(j + 3) mod 6] []).
Proof.
  intros w q e W E D. destruct (pr_default _ _ _ _ _ _ _ _ _ PR w k q e E D) as [X|[_ [[_ [p [l [X Y]]]]|[v' [cores [links [V [G C]]]]]]]].
  - exfalso. assert (F : get_entry t w k q = None); [|congruence]. apply FRESH. destruct W as [-> | ->]; [left; reflexivity|].
    right. exists v. split; [reflexivity | exact v_app].
  - left. exists p, l. auto.
  - apply gives_mac in G. destruct G as [-> _]. destruct W as [W|W]; [discriminate|]. injection W as ->.
    destruct C as [[p [l [X Y]]]|[-> X]]; [left; exists p, l; auto | right; auto].
Qed.
Lemma child_goes : forall p l q, (BfsProofs.child s p l q \/ BfsProofs.child r p l q) ->
  travels (ri_mach i) t' k (Some a) v (chip_of i v) p /\
  exists e, route_for t' k (Some a) v p = Some e /\ has_link (re_route e) l = true /\ works (ri_mach i) p (l, q).
Proof.
  intros p l q C. assert (V : visited p) by (destruct C as [C|C]; [left | right]; exact (child_known _ _ _ _ C)).
  split; [apply packet_chips; exact V|]. destruct (chip_route p V) as [e [E B]]. exists e. split; [exact E|]. split.
  - unfold has_link. apply B. destruct C as [C|C]; [left | right; left]; eauto.
  - destruct C as [C|C]; [exact (proj1 (tr_edge _ _ _ (proj1 v_tree) _ _ _ C))|].
    exact (proj1 (fo_edge _ _ _ (ro_forest _ _ _ _ (pr_routed _ _ _ _ _ _ _ _ _ PR)) _ _ _ C)).
Qed.
End Partition.

(** * All partitions *)
Definition belongs (i : rinput) (a : nat) (w : vtx) : Prop := w = App a \/ exists v, w = Mac v /\ ve_app (ri_venv i) v = Some a.
Definition same_at (t t' : rtable) (w : vtx) (k : nat) : Prop := forall q,
  (get_entry t' w k q <> None <-> get_entry t w k q <> None) /\ (forall b, has_bit t' w k q b <-> has_bit t w k q b).

Lemma belongs_one : forall i a b w, belongs i a w -> belongs i b w -> a = b.
Proof. intros i a b w [-> |[v [-> E]]] [X|[v' [X E']]]; congruence. Qed.
Lemma same_refl : forall t w k, same_at t t w k.
Proof. intros t w k q. split; [reflexivity | intros b; reflexivity]. Qed.
Lemma same_trans : forall t1 t2 t3 w k, same_at t1 t2 w k -> same_at t2 t3 w k -> same_at t1 t3 w k.
Proof.
  intros t1 t2 t3 w k A B q. destruct (A q) as [A1 A2], (B q) as [B1 B2]. split; [rewrite B1; exact A1|]. intros b. rewrite B2. apply A2.
Qed.

(** The sources that get entries for a partition: the application vertex, the
    vertices that send, and those that a target asks for. *)
Definition named (i : rinput) (pt : apart) (w : vtx) : Prop :=
  w = App (ap_pre pt) \/
  (exists v, w = Mac v /\ In v (ri_out i (ap_pre pt) (ap_id pt) ++ map in_pre (internal_of i (ap_pre pt) (ap_id pt)))) \/
  exists v target x, w = Mac v /\ In target (ap_posts pt) /\ In x (ri_in i target (ap_pre pt) (ap_id pt)) /\ In (Mac v) (snd x).
Lemma named_belongs : forall i pt w, input_ok i -> part_ok i pt -> named i pt w -> belongs i (ap_pre pt) w.
Proof.
  intros i pt w IO PO [-> |[[v [-> V]]|[v [target [x [-> [T [X V]]]]]]]]; [left; reflexivity | |].
  - right. exists v. split; [reflexivity|]. apply in_app_iff in V. destruct V as [V|V]; [exact (io_out i IO _ _ _ V)|].
    apply in_map_iff in V. destruct V as [ip [<- V]]. apply internal_of_In in V. apply (po_internal i pt PO); tauto.
  - right. destruct (po_sources i pt PO target x _ T X V) as [Y|Y]; [discriminate | exact Y].
Qed.
Lemma app_named : forall i pt t t' edges r ts self wanted q w cores links, part_ok i pt -> part_routed i pt t t' edges r ts self wanted ->
  gives (conv_app i (ap_pre pt) (ap_id pt) ts) q w cores links -> named i pt w.
Proof.
  intros i pt t t' edges r ts self wanted q w cores links PO PR G. apply (gives_app i pt t t' edges r ts self wanted PR) in G.
  destruct G as [[_ [-> _]]|[[st [D T]]|[_ [_ [v [-> [V _]]]]]]]; [left; reflexivity | | right; left; exists v; split; [reflexivity | apply in_app_iff; left; exact V]].
  destruct (chip_targets i pt t t' edges r ts self wanted PR q st D) as [[cs [_ [-> ->]]]|[_ [_ ->]]].
  - destruct (well_run (renv i (ap_id pt)) (calls_at (part_calls i pt) q)) as [_ _ O].
    destruct (O w) as [o [O1 O2]]; [intros Z; unfold targets_of in T; rewrite Z in T; discriminate|].
    apply atoms_In in O1. destruct O1 as [c [s [C1 [C2 ->]]]]. apply calls_at_In in C1. apply part_calls_In in C1.
    assert (B : s = App (ap_pre pt) \/ exists v, s = Mac v /\ named i pt (Mac v)).
    { destruct C1 as [[target [x [T1 [X1 [_ ->]]]]]|[ip [u [I1 [_ [_ ->]]]]]]; cbn [tc_srcs] in C2.
      - destruct (po_sources i pt PO target x s T1 X1 C2) as [Y|[v [-> _]]]; [left; exact Y|]. right. exists v. split; [reflexivity|].
        right. right. exists v, target, x. auto.
      - destruct C2 as [<-|[]]. right. exists (in_pre ip). split; [reflexivity|]. right. left. exists (in_pre ip). split; [reflexivity|].
        apply in_app_iff. right. apply in_map. exact I1. }
    destruct O2 as [[O2 _]|[b [v [O2 [-> O3]]]]]; cbn [a_src] in O2; subst s.
    + destruct B as [B|[v [-> B]]]; [left; exact B | exact B].
    + destruct B as [B|[v' [B _]]]; [|discriminate]. injection B as ->. right. left. exists v. split; [reflexivity|]. apply in_app_iff. left. exact O3.
  - destruct (edge_targets_spec (outgoing_mapping i (ap_pre pt) (ap_id pt))) as [_ [_ [E _]]].
    destruct (proj1 (E w)) as [x [X ->]]; [congruence|]. right. left. exists (fst x). split; [reflexivity|].
    apply in_flat_map in X. destruct X as [[p vs] [X1 X2]]. cbn [snd] in X2.
    destruct (mapping_spec i (ap_pre pt) (ap_id pt)) as [M _].
    destruct (M p vs x X1 X2) as [X3 _]. exact X3.
Qed.
Lemma mac_named : forall i pt t t' edges r ts self wanted v q w cores links, part_routed i pt t t' edges r ts self wanted ->
  In v (ri_out i (ap_pre pt) (ap_id pt) ++ map in_pre (internal_of i (ap_pre pt) (ap_id pt))) ->
  gives (conv_mac i (ap_id pt) ts self v) q w cores links -> named i pt w.
Proof.
  intros i pt t t' edges r ts self wanted v q w cores links PR V G. apply (gives_mac i pt t t' edges r ts self wanted PR) in G. destruct G as [-> _].
  right. left. eauto.
Qed.
(** The entries of a table that are not old are for sources of the partition. *)
Lemma partition_named : forall i pt t t', input_ok i -> part_ok i pt -> route_partition i t pt = Ok t' ->
  forall w k q, get_entry t' w k q <> None -> get_entry t w k q <> None \/
    (k = ap_id pt /\ named i pt w /\ ri_out i (ap_pre pt) (ap_id pt) ++ map in_pre (internal_of i (ap_pre pt) (ap_id pt)) <> []).
Proof.
  intros i pt t t' IO PO H w k q E.
  destruct (ri_out i (ap_pre pt) (ap_id pt) ++ map in_pre (internal_of i (ap_pre pt) (ap_id pt))) as [|v0 vs] eqn:NE.
  { left. destruct (mapping_spec i (ap_pre pt) (ap_id pt)) as [_ [_ M]]. unfold route_partition in H.
    destruct (outgoing_mapping i (ap_pre pt) (ap_id pt)) as [|[p ms] mp]; [injection H as ->; exact E|]. exfalso.
    destruct (proj1 (M p)) as [v [V _]]; [cbn [dmem dget]; unfold dmem; cbn [dget]; rewrite (proj2 (xy_eqb_eq p p) eq_refl); reflexivity|].
    rewrite NE in V. destruct V. }
  assert (NN : v0 :: vs <> []) by discriminate. rewrite <- NE in NN. rewrite <- NE. clear NE.
  destruct (partition_routed i pt t t' IO PO H) as [[_ [_ ->]]|[edges [r [ts [self [wanted PR]]]]]]; [left; exact E|].
  apply (pr_entry _ _ _ _ _ _ _ _ _ PR w k q) in E. destruct E as [X|[-> [[_ [cores [links G]]]|[v [cores [links [V [_ G]]]]]]]]; [left; exact X | |]; right; (split; [reflexivity|]).
  - split; [exact (app_named _ _ _ _ _ _ _ _ _ _ _ _ _ PO PR G) | exact NN].
  - split; [exact (mac_named _ _ _ _ _ _ _ _ _ v q w cores links PR V G) | exact NN].
Qed.

Lemma partition_frame : forall i pt t t', input_ok i -> part_ok i pt -> route_partition i t pt = Ok t' ->
  forall w k, ~ (belongs i (ap_pre pt) w /\ k = ap_id pt) -> same_at t t' w k /\
    forall q e, get_entry t' w k q = Some e -> re_default e = true -> get_entry t w k q = Some e.
Proof.
  intros i pt t t' IO PO H w k N.
  destruct (partition_routed i pt t t' IO PO H) as [[_ [_ ->]]|[edges [r [ts [self [wanted PR]]]]]]; [split; [apply same_refl | auto]|].
  assert (GA : forall q cores links, gives (conv_app i (ap_pre pt) (ap_id pt) ts) q w cores links -> belongs i (ap_pre pt) w).
  { intros q cores links G. apply (named_belongs i pt w IO PO). exact (app_named _ _ _ _ _ _ _ _ _ _ _ _ _ PO PR G). }
  assert (GM : forall v q cores links, In v (ri_out i (ap_pre pt) (ap_id pt) ++ map in_pre (internal_of i (ap_pre pt) (ap_id pt))) ->
     gives (conv_mac i (ap_id pt) ts self v) q w cores links -> belongs i (ap_pre pt) w).
  { intros v q cores links V G. apply (named_belongs i pt w IO PO). exact (mac_named _ _ _ _ _ _ _ _ _ v q w cores links PR V G). }
  split.
  - intros q. split.
    + rewrite (pr_entry _ _ _ _ _ _ _ _ _ PR w k q). split; [|auto].
      intros [X|[-> [[_ [cores [links G]]]|[v [cores [links [V [_ G]]]]]]]]; [exact X | |].
      * destruct N. split; [exact (GA q cores links G) | reflexivity].
      * destruct N. split; [exact (GM v q cores links V G) | reflexivity].
    + intros b. rewrite (pr_bits _ _ _ _ _ _ _ _ _ PR w k q b). split; [|auto].
      intros [X|[-> [[cores [links [_ [G _]]]]|[v [cores [links [V [_ [G _]]]]]]]]]; [exact X | |].
      * destruct N. split; [exact (GA q cores links G) | reflexivity].
      * destruct N. split; [exact (GM v q cores links V G) | reflexivity].
  - intros q e E D. destruct (pr_default _ _ _ _ _ _ _ _ _ PR w k q e E D) as [X|[-> [[[cores [links G]] _]|[v [cores [links [V [G _]]]]]]]]; [exact X | |].
    + destruct N. split; [exact (GA q cores links G) | reflexivity].
    + destruct N. split; [exact (GM v q cores links V G) | reflexivity].
Qed.

Lemma partitions_frame : forall i pts t t', input_ok i -> (forall pt, In pt pts -> part_ok i pt) -> foldM (route_partition i) t pts = Ok t' ->
  forall w k, (forall pt, In pt pts -> ~ (belongs i (ap_pre pt) w /\ k = ap_id pt)) -> same_at t t' w k /\
    forall q e, get_entry t' w k q = Some e -> re_default e = true -> get_entry t w k q = Some e.
Proof.
  intros i. induction pts as [|pt pts IH]; intros t t' IO PO H w k N; cbn [foldM] in H.
  - injection H as ->. split; [apply same_refl | auto].
  - apply bind_Ok_inv in H. destruct H as [t1 [H1 H2]].
    destruct (partition_frame i pt t t1 IO (PO pt (or_introl eq_refl)) H1 w k (N pt (or_introl eq_refl))) as [A1 A2].
    destruct (IH t1 t' IO (fun p X => PO p (or_intror X)) H2 w k (fun p X => N p (or_intror X))) as [B1 B2].
    split; [exact (same_trans t t1 t' w k A1 B1)|]. auto.
Qed.
Lemma partitions_named : forall i pts t t', input_ok i -> (forall pt, In pt pts -> part_ok i pt) -> foldM (route_partition i) t pts = Ok t' ->
  forall w k q, get_entry t' w k q <> None -> get_entry t w k q <> None \/ exists pt, In pt pts /\
    k = ap_id pt /\ named i pt w /\ ri_out i (ap_pre pt) (ap_id pt) ++ map in_pre (internal_of i (ap_pre pt) (ap_id pt)) <> [].
Proof.
  intros i. induction pts as [|pt pts IH]; intros t t' IO PO H w k q E; cbn [foldM] in H.
  - injection H as ->. left. exact E.
  - apply bind_Ok_inv in H. destruct H as [t1 [H1 H2]].
    destruct (IH t1 t' IO (fun p X => PO p (or_intror X)) H2 w k q E) as [X|[p [P X]]].
    + destruct (partition_named i pt t t1 IO (PO pt (or_introl eq_refl)) H1 w k q X) as [Y|Y]; [left; exact Y|]. right. exists pt. split; [left; reflexivity | exact Y].
    + right. exists p. split; [right; exact P | exact X].
Qed.

(** What happens to the packets depends on these entries. *)
Lemma route_for_same : forall t t' a v k q, same_at t t' (App a) k -> same_at t t' (Mac v) k ->
  forall e, route_for t k (Some a) v q = Some e ->
    exists e', route_for t' k (Some a) v q = Some e' /\ forall b, N.testbit (re_route e') (N.of_nat b) = N.testbit (re_route e) (N.of_nat b).
Proof.
  intros t t' a v k q SA SM e H. destruct (SA q) as [A1 A2], (SM q) as [M1 M2]. unfold route_for in *.
  assert (BIT : forall w e e', (forall b, has_bit t' w k q b <-> has_bit t w k q b) -> get_entry t w k q = Some e -> get_entry t' w k q = Some e' ->
     forall b, N.testbit (re_route e') (N.of_nat b) = N.testbit (re_route e) (N.of_nat b)).
  { intros w x x' B E E' b. apply eq_true_iff_eq. specialize (B b). unfold has_bit in B. split; intros T.
    - destruct (proj1 B) as [y [Y1 Y2]]; [eauto | congruence].
    - destruct (proj2 B) as [y [Y1 Y2]]; [eauto | congruence]. }
  destruct (get_entry t (Mac v) k q) as [x|] eqn:E.
  - injection H as ->. destruct (get_entry t' (Mac v) k q) as [e'|] eqn:E'; [|exfalso; apply (proj2 M1); congruence].
    exists e'. split; [reflexivity|]. exact (BIT (Mac v) e e' M2 E E').
  - destruct (get_entry t' (Mac v) k q) as [e'|] eqn:E'; [exfalso; apply (proj1 M1); congruence|].
    destruct (get_entry t' (App a) k q) as [e'|] eqn:E2; [|exfalso; apply (proj2 A1); congruence].
    exists e'. split; [reflexivity|]. exact (BIT (App a) e e' A2 H E2).
Qed.
Lemma same_sym : forall t t' w k, same_at t t' w k -> same_at t' t w k.
Proof. intros t t' w k S q. destruct (S q) as [A B]. split; [symmetry; exact A | intros b; symmetry; apply B]. Qed.
Lemma travels_same : forall m t t' a v k root, same_at t t' (App a) k -> same_at t t' (Mac v) k ->
  forall q, travels m t k (Some a) v root q -> travels m t' k (Some a) v root q.
Proof.
  intros m t t' a v k root SA SM q T. induction T as [|p e l q T IH E L W]; [constructor|].
  destruct (route_for_same t t' a v k p SA SM e E) as [e' [E' B]]. apply (tv_hop _ _ _ _ _ _ p e' l q IH E'); [|exact W].
  unfold has_link in *. rewrite B. exact L.
Qed.
Lemma delivered_same : forall m t t' a v k root q pl, same_at t t' (App a) k -> same_at t t' (Mac v) k ->
  (delivered m t k a v root q pl <-> delivered m t' k a v root q pl).
Proof.
  assert (G : forall m t t' a v k root q pl, same_at t t' (App a) k -> same_at t t' (Mac v) k ->
    delivered m t k a v root q pl -> delivered m t' k a v root q pl).
  { intros m t t' a v k root q pl SA SM [T [e [E B]]]. split; [exact (travels_same m t t' a v k root SA SM q T)|].
    destruct (route_for_same t t' a v k q SA SM e E) as [e' [E' X]]. exists e'. split; [exact E'|].
    destruct pl; [unfold has_proc in * | unfold has_link in *]; rewrite X; exact B. }
  intros m t t' a v k root q pl SA SM. split; [apply G; assumption|]. apply G; apply same_sym; assumption.
Qed.

(** The part of the table of one partition. *)
Lemma foldM_split : forall {A B} (f : B -> A -> res B) l1 l2 s, foldM f s (l1 ++ l2) = let* s' := foldM f s l1 in foldM f s' l2.
Proof.
  induction l1 as [|x l1 IH]; intros l2 s; [reflexivity|]. cbn [app foldM]. destruct (f s x); [apply IH | reflexivity].
Qed.
Lemma partitions_split : forall i pts t pt, input_ok i -> (forall pt, In pt pts -> part_ok i pt) ->
  NoDup (map (fun pt => (ap_pre pt, ap_id pt)) pts) -> foldM (route_partition i) [] pts = Ok t -> In pt pts ->
  exists t1 t2, route_partition i t1 pt = Ok t2 /\
    (forall w q, belongs i (ap_pre pt) w -> get_entry t1 w (ap_id pt) q = None) /\
    (forall w, belongs i (ap_pre pt) w -> same_at t2 t w (ap_id pt)) /\
    forall w q e, belongs i (ap_pre pt) w -> get_entry t w (ap_id pt) q = Some e -> re_default e = true -> get_entry t2 w (ap_id pt) q = Some e.
Proof.
  intros i pts t pt IO PO ND H I. apply in_split in I. destruct I as [l1 [l2 ->]].
  rewrite foldM_split in H. apply bind_Ok_inv in H. destruct H as [t1 [H1 H]]. cbn [foldM] in H. apply bind_Ok_inv in H. destruct H as [t2 [H2 H3]].
  rewrite map_app in ND. cbn [map] in ND. apply NoDup_remove in ND. destruct ND as [_ ND].
  assert (APART : forall p w, In p l1 \/ In p l2 -> belongs i (ap_pre pt) w -> ~ (belongs i (ap_pre p) w /\ ap_id pt = ap_id p)).
  { intros p w P B [B' E]. apply ND.
    replace (ap_pre pt, ap_id pt) with (ap_pre p, ap_id p) by (rewrite (belongs_one i _ _ w B B'), E; reflexivity).
    apply in_app_iff. destruct P as [P|P]; [left | right]; apply (in_map (fun pt => (ap_pre pt, ap_id pt))); exact P. }
  exists t1, t2. split; [exact H2|]. split.
  - intros w q B. assert (S : same_at [] t1 w (ap_id pt)).
    { apply (partitions_frame i l1 [] t1 IO (fun p X => PO p (proj2 (in_app_iff _ _ _) (or_introl X))) H1). intros p P. apply APART; auto. }
    destruct (S q) as [X _]. destruct (get_entry t1 w (ap_id pt) q) as [e|]; [|reflexivity]. exfalso. apply (proj1 X); [discriminate|]. reflexivity.
  - assert (PO2 : forall p, In p l2 -> part_ok i p) by (intros p P; apply PO; apply in_app_iff; right; right; exact P).
    assert (FR : forall w, belongs i (ap_pre pt) w -> _) by
      (intros w B; exact (partitions_frame i l2 t2 t IO PO2 H3 w (ap_id pt) (fun p P => APART p w (or_intror P) B))).
    split; [intros w B; exact (proj1 (FR w B)) | intros w q e B; exact (proj2 (FR w B) q e)].
Qed.

(** * The partitions that are routed *)
Lemma pair_in_spec : forall x l, pair_in x l = true <-> In x l.
Proof.
  intros [a k] l. unfold pair_in. rewrite existsb_exists. split.
  - intros [[a' k'] [I E]]. cbn [fst snd] in E. apply andb_prop in E. destruct E as [E1 E2]. apply Nat.eqb_eq in E1, E2. subst. exact I.
  - intros I. exists (a, k). split; [exact I|]. cbn [fst snd]. rewrite !Nat.eqb_refl. reflexivity.
Qed.
Definition pair_of (pt : apart) : nat * nat := (ap_pre pt, ap_id pt).
Lemma app_partitions_spec : forall i vs ps, NoDup (map pair_of ps) ->
  NoDup (map pair_of (app_partitions i vs ps)) /\ incl ps (app_partitions i vs ps) /\
  (forall v ip, In v vs -> In ip (ri_internal i v) -> exists pt, In pt (app_partitions i vs ps) /\ pair_of pt = (v, in_id ip)) /\
  (forall pt, In pt (app_partitions i vs ps) -> In pt ps \/
     (~ In (pair_of pt) (map pair_of ps) /\ exists v ip, In v vs /\ In ip (ri_internal i v) /\ pt = mkPart v (in_id ip) [])).
Proof.
  intros i vs ps ND. unfold app_partitions.
  set (inv := fun (done : list (nat * internal)) (st : list apart * list (nat * nat)) =>
    NoDup (map pair_of (fst st)) /\ incl ps (fst st) /\ (forall x, In x (snd st) <-> In x (map pair_of (fst st))) /\
    (forall v ip, In (v, ip) done -> In (v, in_id ip) (map pair_of (fst st))) /\
    (forall pt, In pt (fst st) -> In pt ps \/ (~ In (pair_of pt) (map pair_of ps) /\ exists v ip, In (v, ip) done /\ pt = mkPart v (in_id ip) []))).
  assert (ONE : forall done v st ip, inv done st -> inv (done ++ [(v, ip)]) (add_fake v st ip)).
  { intros done v [l s] ip [A [B [C [D E]]]]. unfold add_fake. cbn [fst snd] in *.
    destruct (pair_in (v, in_id ip) s) eqn:P.
    - apply pair_in_spec in P. split; [exact A|]. split; [exact B|]. split; [exact C|]. split.
      + intros v' ip' X. apply in_app_iff in X. destruct X as [X|[X|[]]]; [exact (D v' ip' X)|]. injection X as <- <-. apply C. exact P.
      + intros pt X. destruct (E pt X) as [Y|[Y [v' [ip' [Z1 Z2]]]]]; [left; exact Y|]. right. split; [exact Y|]. exists v', ip'. split; [apply in_app_iff; auto | exact Z2].
    - assert (PN : ~ In (v, in_id ip) s) by (intros X; apply pair_in_spec in X; congruence). unfold inv. cbn [fst snd].
      split; [|split; [|split; [|split]]].
      + rewrite map_app. cbn [map]. apply (Permutation_NoDup (Permutation_cons_append _ _)). constructor; [|exact A]. intros X. apply PN. apply C. exact X.
      + intros x X. apply in_app_iff. left. exact (B x X).
      + intros x. rewrite map_app, in_app_iff. cbn [map In]. rewrite (C x). unfold pair_of at 3. cbn [ap_pre ap_id]. tauto.
      + intros v' ip' X. rewrite map_app, in_app_iff. apply in_app_iff in X. destruct X as [X|[X|[]]]; [left; exact (D v' ip' X)|].
        injection X as <- <-. right. left. reflexivity.
      + intros pt X. apply in_app_iff in X. destruct X as [X|[<-|[]]].
        * destruct (E pt X) as [Y|[Y [v' [ip' [Z1 Z2]]]]]; [left; exact Y|]. right. split; [exact Y|]. exists v', ip'. split; [apply in_app_iff; auto | exact Z2].
        * right. split; [|exists v, ip; split; [apply in_app_iff; right; left; reflexivity | reflexivity]].
          intros X. apply PN. apply C. apply in_map_iff in X. destruct X as [q [X1 X2]]. apply in_map_iff. exists q. split; [exact X1 | exact (B q X2)]. }
  assert (MANY : forall v ips done st, inv done st -> inv (done ++ map (pair v) ips) (fold_left (add_fake v) ips st)).
  { intros v. induction ips as [|ip ips IH]; intros done st I; cbn [map fold_left]; [rewrite app_nil_r; exact I|].
    replace (done ++ (v, ip) :: map (pair v) ips) with ((done ++ [(v, ip)]) ++ map (pair v) ips) by (rewrite <- app_assoc; reflexivity).
    apply IH. apply ONE. exact I. }
  assert (ALL : forall l done st, inv done st ->
    inv (done ++ flat_map (fun v => map (pair v) (ri_internal i v)) l) (fold_left (fun st v => fold_left (add_fake v) (ri_internal i v) st) l st)).
  { induction l as [|v l IH]; intros done st I; cbn [flat_map fold_left]; [rewrite app_nil_r; exact I|].
    rewrite app_assoc. apply IH. apply MANY. exact I. }
  destruct (ALL vs [] (ps, map pair_of ps)) as [A [B [C [D E]]]].
  { split; [exact ND|]. split; [apply incl_refl|]. split; [reflexivity|]. split; [intros v ip []|]. intros pt X. left. exact X. }
  cbn [app] in *. fold pair_of in *.
  assert (IDX : forall v ip, In (v, ip) (flat_map (fun v => map (pair v) (ri_internal i v)) vs) <-> In v vs /\ In ip (ri_internal i v)).
  { intros v ip. rewrite in_flat_map. split.
    - intros [v' [V X]]. apply in_map_iff in X. destruct X as [ip' [X Y]]. injection X as -> ->. auto.
    - intros [V X]. exists v. split; [exact V|]. apply in_map. exact X. }
  split; [exact A|]. split; [exact B|]. split.
  - intros v ip V X. specialize (D v ip (proj2 (IDX v ip) (conj V X))). apply in_map_iff in D. destruct D as [pt [D1 D2]]. eauto.
  - intros pt X. destruct (E pt X) as [Y|[Y [v [ip [Z1 Z2]]]]]; [left; exact Y|]. right. split; [exact Y|]. apply IDX in Z1. exists v, ip. tauto.
Qed.

(** * The router *)
(** A partition that is routed: one of the graph, or one made for internal
    partitions of a vertex. *)
Definition routed_part (i : rinput) (vertices : list nat) (partitions : list apart) (pt : apart) : Prop :=
  In pt partitions \/
  (~ In (ap_pre pt, ap_id pt) (map (fun p => (ap_pre p, ap_id p)) partitions) /\
   exists v ip, In v vertices /\ In ip (ri_internal i v) /\ pt = mkPart v (in_id ip) []).
Record graph_ok (i : rinput) (vertices : list nat) (partitions : list apart) : Prop := mkGraphOk {
  go_input : input_ok i;
  go_distinct : NoDup (map (fun p => (ap_pre p, ap_id p)) partitions);
  go_parts : forall pt, routed_part i vertices partitions pt -> part_ok i pt }.

Lemma routed_part_In : forall i vs ps pt, NoDup (map pair_of ps) -> (In pt (app_partitions i vs ps) <-> routed_part i vs ps pt).
Proof.
  intros i vs ps pt ND. destruct (app_partitions_spec i vs ps ND) as [_ [A [B C]]]. split; [exact (C pt)|].
  intros [H|[N [v [ip [V [I ->]]]]]]; [exact (A pt H)|]. destruct (B v ip V I) as [pt' [X Y]].
  destruct (C pt' X) as [Z|[_ [v' [ip' [_ [_ Z]]]]]].
  - destruct N. cbn [ap_pre ap_id]. rewrite <- Y. apply (in_map pair_of). exact Z.
  - subst pt'. unfold pair_of in Y. cbn [ap_pre ap_id] in Y. injection Y as -> Y. rewrite <- Y. exact X.
Qed.

Lemma graph_part : forall i vs ps t pt, graph_ok i vs ps -> route_application_graph i vs ps = Ok t -> routed_part i vs ps pt ->
  exists t1 t2, route_partition i t1 pt = Ok t2 /\
    (forall w q, belongs i (ap_pre pt) w -> get_entry t1 w (ap_id pt) q = None) /\
    (forall w, belongs i (ap_pre pt) w -> same_at t2 t w (ap_id pt)) /\
    forall w q e, belongs i (ap_pre pt) w -> get_entry t w (ap_id pt) q = Some e -> re_default e = true -> get_entry t2 w (ap_id pt) q = Some e.
Proof.
  intros i vs ps t pt [IO ND PO] H P. unfold route_application_graph in H.
  apply (partitions_split i (app_partitions i vs ps) t pt IO); [| |exact H|apply (routed_part_In i vs ps pt ND); exact P].
  - intros pt' X. apply PO. apply (routed_part_In i vs ps pt' ND). exact X.
  - exact (proj1 (app_partitions_spec i vs ps ND)).
Qed.

Lemma router_delivers : forall i vs ps t pt v, graph_ok i vs ps -> route_application_graph i vs ps = Ok t -> routed_part i vs ps pt ->
  In v (ri_out i (ap_pre pt) (ap_id pt)) ->
  (forall w q pl, target_of i pt v w -> ri_at i w = (q, pl) -> delivered (ri_mach i) t (ap_id pt) (ap_pre pt) v (chip_of i v) q pl) /\
  (unmixed i pt -> forall q pl, off_chip (ri_mach i) q pl -> delivered (ri_mach i) t (ap_id pt) (ap_pre pt) v (chip_of i v) q pl ->
     exists w, target_of i pt v w /\ ri_at i w = (q, pl)).
Proof.
  intros i vs ps t pt v GO H RP V. destruct (graph_part i vs ps t pt GO H RP) as [t1 [t2 [R [F [S _]]]]].
  assert (IO := go_input _ _ _ GO). assert (PO := go_parts _ _ _ GO pt RP).
  assert (SA : same_at t2 t (App (ap_pre pt)) (ap_id pt)) by (apply S; left; reflexivity).
  assert (SM : same_at t2 t (Mac v) (ap_id pt)) by (apply S; right; exists v; split; [reflexivity | exact (io_out i IO _ _ _ V)]).
  destruct (partition_routed i pt t1 t2 IO PO R) as [[E _]|[edges [r [ts [self [wanted PR]]]]]]; [rewrite E in V; destruct V|].
  assert (SE : In v (ri_out i (ap_pre pt) (ap_id pt) ++ map in_pre (internal_of i (ap_pre pt) (ap_id pt)))) by (apply in_app_iff; auto).
  split.
  - intros w q pl T A. apply (delivered_same _ t2 t _ _ _ _ _ _ SA SM). eapply targets_delivered; eauto.
  - intros U q pl O D. apply (delivered_same _ t2 t _ _ _ _ _ _ SA SM) in D. eapply delivered_targets; eauto.
Qed.

Lemma router_internal : forall i vs ps t pt ip w q pl, graph_ok i vs ps -> route_application_graph i vs ps = Ok t -> routed_part i vs ps pt ->
  In ip (ri_internal i (ap_pre pt)) -> in_id ip = ap_id pt -> In w (in_posts ip) -> ri_at i w = (q, pl) ->
  delivered (ri_mach i) t (ap_id pt) (ap_pre pt) (in_pre ip) (chip_of i (in_pre ip)) q pl.
Proof.
  intros i vs ps t pt ip w q pl GO H RP I K W A. destruct (graph_part i vs ps t pt GO H RP) as [t1 [t2 [R [F [S _]]]]].
  assert (IO := go_input _ _ _ GO). assert (PO := go_parts _ _ _ GO pt RP).
  assert (SA : same_at t2 t (App (ap_pre pt)) (ap_id pt)) by (apply S; left; reflexivity).
  assert (SM : same_at t2 t (Mac (in_pre ip)) (ap_id pt)).
  { apply S. right. exists (in_pre ip). split; [reflexivity | exact (po_internal i pt PO ip I K)]. }
  assert (IT : In ip (internal_of i (ap_pre pt) (ap_id pt))) by (apply internal_of_In; auto).
  destruct (partition_routed i pt t1 t2 IO PO R) as [[_ [E _]]|[edges [r [ts [self [wanted PR]]]]]]; [rewrite E in IT; destruct IT|].
  apply (delivered_same _ t2 t _ _ _ _ _ _ SA SM).
  eapply internal_delivered; eauto. apply in_app_iff. right. apply in_map. exact IT.
Qed.

Lemma router_once : forall i vs ps t pt v, graph_ok i vs ps -> route_application_graph i vs ps = Ok t -> routed_part i vs ps pt ->
  In v (ri_out i (ap_pre pt) (ap_id pt)) ->
  let go p l q := travels (ri_mach i) t (ap_id pt) (Some (ap_pre pt)) v (chip_of i v) p /\
    exists e, route_for t (ap_id pt) (Some (ap_pre pt)) v p = Some e /\ has_link (re_route e) l = true /\ works (ri_mach i) p (l, q) in
  forall p l q p' l', go p l q -> q <> chip_of i v /\ (go p' l' q -> p' = p /\ l' = l).
Proof.
  intros i vs ps t pt v GO H RP V go p l q p' l'. destruct (graph_part i vs ps t pt GO H RP) as [t1 [t2 [R [F [S _]]]]].
  assert (IO := go_input _ _ _ GO). assert (PO := go_parts _ _ _ GO pt RP).
  assert (SA : same_at t t2 (App (ap_pre pt)) (ap_id pt)) by (apply same_sym; apply S; left; reflexivity).
  assert (SM : same_at t t2 (Mac v) (ap_id pt)) by (apply same_sym; apply S; right; exists v; split; [reflexivity | exact (io_out i IO _ _ _ V)]).
  destruct (partition_routed i pt t1 t2 IO PO R) as [[E _]|[edges [r [ts [self [wanted PR]]]]]]; [rewrite E in V; destruct V|].
  assert (SE : In v (ri_out i (ap_pre pt) (ap_id pt) ++ map in_pre (internal_of i (ap_pre pt) (ap_id pt)))) by (apply in_app_iff; auto).
  assert (T : forall p l q, go p l q -> travels (ri_mach i) t2 (ap_id pt) (Some (ap_pre pt)) v (chip_of i v) p /\
    exists e, route_for t2 (ap_id pt) (Some (ap_pre pt)) v p = Some e /\ has_link (re_route e) l = true /\ works (ri_mach i) p (l, q)).
  { intros p0 l0 q0 [X [e [Y [Z W]]]]. split; [exact (travels_same _ t t2 _ _ _ _ SA SM _ X)|].
    destruct (route_for_same t t2 _ _ _ _ SA SM e Y) as [e' [Y' B]]. exists e'. split; [exact Y'|]. split; [|exact W]. unfold has_link in *. rewrite B. exact Z. }
  intros G. apply T in G.
  assert (Q := hops_unique i pt t1 t2 edges r ts self wanted IO PO PR F v SE V p l q p' l'). cbv zeta in Q. destruct (Q G) as [Q1 Q2].
  split; [exact Q1|]. intros G'. apply Q2. apply T. exact G'.
Qed.

(** Every chip that a packet comes to has an entry for it; one that may be left to
    default routing sends the packet straight on. *)
Lemma router_entry : forall i vs ps t pt v, graph_ok i vs ps -> route_application_graph i vs ps = Ok t -> routed_part i vs ps pt ->
  In v (ri_out i (ap_pre pt) (ap_id pt)) ->
  let go p l q := travels (ri_mach i) t (ap_id pt) (Some (ap_pre pt)) v (chip_of i v) p /\
    exists e, route_for t (ap_id pt) (Some (ap_pre pt)) v p = Some e /\ has_link (re_route e) l = true /\ works (ri_mach i) p (l, q) in
  forall q, travels (ri_mach i) t (ap_id pt) (Some (ap_pre pt)) v (chip_of i v) q ->
    exists e, route_for t (ap_id pt) (Some (ap_pre pt)) v q = Some e /\
      (re_default e = true -> (exists p l, go p l q /\ re_route e = route_of [l] []) \/
         (q = chip_of i v /\ exists j, link_of (snd (ri_at i v)) = Some j /\ re_route e = route_of [(j + 3) mod 6] [])).
Proof.
  intros i vs ps t pt v GO H RP V go q T. destruct (graph_part i vs ps t pt GO H RP) as [t1 [t2 [R [F [S DF]]]]].
  assert (IO := go_input _ _ _ GO). assert (PO := go_parts _ _ _ GO pt RP).
  assert (BM : belongs i (ap_pre pt) (Mac v)) by (right; exists v; split; [reflexivity | exact (io_out i IO _ _ _ V)]).
  assert (BA : belongs i (ap_pre pt) (App (ap_pre pt))) by (left; reflexivity).
  pose proof (S _ BA) as SA. pose proof (S _ BM) as SM.
  destruct (partition_routed i pt t1 t2 IO PO R) as [[E _]|[edges [r [ts [self [wanted PR]]]]]]; [rewrite E in V; destruct V|].
  assert (SE : In v (ri_out i (ap_pre pt) (ap_id pt) ++ map in_pre (internal_of i (ap_pre pt) (ap_id pt)))) by (apply in_app_iff; auto).
  pose proof (travels_same _ t t2 _ _ _ _ (same_sym _ _ _ _ SA) (same_sym _ _ _ _ SM) _ T) as T2.
  apply (packet_chips i pt t1 t2 edges r ts self wanted IO PO PR F v SE V) in T2.
  destruct (chip_route i pt t1 t2 edges r ts self wanted IO PO PR F v SE V q T2) as [e2 [E2 _]].
  destruct (route_for_same t2 t _ _ _ _ SA SM e2 E2) as [e [E _]]. exists e. split; [exact E|]. intros D.
  assert (X : exists w, (w = App (ap_pre pt) \/ w = Mac v) /\ get_entry t w (ap_id pt) q = Some e).
  { unfold route_for in E. destruct (get_entry t (Mac v) (ap_id pt) q) eqn:EM; [exists (Mac v); split; [auto | congruence] | exists (App (ap_pre pt)); auto]. }
  destruct X as [w [W X]]. assert (X2 : get_entry t2 w (ap_id pt) q = Some e) by (apply DF; [destruct W as [-> | ->]; assumption | exact X | exact D]).
  destruct (default_straight i pt t1 t2 edges r ts self wanted IO PO PR F v SE w q e W X2 D) as [[p [l [C RE]]]|Y]; [|right; exact Y].
  left. exists p, l. split; [|exact RE]. destruct (child_goes i pt t1 t2 edges r ts self wanted IO PO PR F v SE V p l q C) as [G1 [e' [G2 [G3 G4]]]].
  split; [exact (travels_same _ t2 t _ _ _ _ SA SM _ G1)|]. destruct (route_for_same t2 t _ _ _ _ SA SM e' G2) as [e'' [Q1 Q2]].
  exists e''. split; [exact Q1|]. split; [|exact G4]. unfold has_link in *. rewrite Q2. exact G3.
Qed.
(** What has entries. *)
Lemma router_named : forall i vs ps t w k q, graph_ok i vs ps -> route_application_graph i vs ps = Ok t -> get_entry t w k q <> None ->
  exists pt, routed_part i vs ps pt /\ k = ap_id pt /\ named i pt w /\
    ri_out i (ap_pre pt) (ap_id pt) ++ map in_pre (internal_of i (ap_pre pt) (ap_id pt)) <> [].
Proof.
  intros i vs ps t w k q [IO ND PO] H E. unfold route_application_graph in H.
  destruct (partitions_named i (app_partitions i vs ps) [] t IO) with (w := w) (k := k) (q := q) as [X|[pt [X Y]]]; [| exact H | exact E | destruct (X eq_refl) |].
  - intros pt' X. apply PO. apply (routed_part_In i vs ps pt' ND). exact X.
  - exists pt. split; [apply (routed_part_In i vs ps pt ND); exact X | exact Y].
Qed.
