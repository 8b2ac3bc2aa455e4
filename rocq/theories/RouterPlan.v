(** What the application router plans for a partition: routes and targets. *)
From Coq Require Import List ZArith NArith Arith Bool Lia Permutation.
From Verif Require Import Base Dict TreeModel TreeProofs MachModel LdfModel LdfProofs PathModel PathProofs
  RPartModel RPartProofs BfsModel BfsProofs TargetsModel TargetsProofs ConvModel ConvProofs RouterModel RouterProofs RouterTables.
Import ListNotations.
Local Open Scope nat_scope.

(** * What is asked for *)
(** A place that is no chip: a core, or a link with a device behind it. *)
Definition off_chip (m : machine) (q : xy) (pl : place) : Prop :=
  match pl with OnCore _ => True | OnLink l => l < 6 /\ is_link m q l = false end.
(** A target of machine vertex [v] in a partition of its application vertex: an
    incoming vertex of an edge, one of whose sources is [v] or has [v] as an
    outgoing vertex, or a vertex of an internal partition of [v]. *)
Definition target_of (i : rinput) (pt : apart) (v w : nat) : Prop :=
  (exists target x src, In target (ap_posts pt) /\ In x (ri_in i target (ap_pre pt) (ap_id pt)) /\ fst x = w /\ In src (snd x) /\
     (src = Mac v \/ exists b, src = App b /\ In v (ri_out i b (ap_id pt)))) \/
  (exists ip, In ip (ri_internal i (ap_pre pt)) /\ in_id ip = ap_id pt /\ in_pre ip = v /\ In w (in_posts ip)).

(** The packet of [v] goes to the place on chip [q]. *)
Definition delivered (m : machine) (t : rtable) (k : nat) (a : nat) (v : nat) (root q : xy) (pl : place) : Prop :=
  travels m t k (Some a) v root q /\
  exists e, route_for t k (Some a) v q = Some e /\
    match pl with OnCore n => has_proc (re_route e) n = true | OnLink l => has_link (re_route e) l = true end.

(** * What is assumed *)
Record input_ok (i : rinput) : Prop := mkInputOk {
  io_env : ve_ok (ri_venv i);
  io_out : forall b k v, In v (ri_out i b k) -> ve_app (ri_venv i) v = Some b;
  io_places : forall v, off_chip (ri_mach i) (chip_of i v) (snd (ri_at i v));
  io_inside : forall v, inside (ri_mach i) (chip_of i v);
  io_vec : forall v w, let '(x, y, z) := ri_vec i (chip_of i v) (chip_of i w) in
    LdfProofs.place (ri_mach i) (fst (chip_of i v) + x - z, snd (chip_of i v) + y - z)%Z = chip_of i w;
  io_paths : forall v w l, let s := chip_of i v in
    repaired (ri_mach i) s (longest_dimension_first (ri_mach i) (ri_vec i s (chip_of i w)) s) = Ok l -> no_return s l;
  io_order : order_ok i }.
(** Paths from the vectors: they lead to the destination, and no chip inside a
    loop is visited again. *)
Lemma paths_from : forall i v, input_ok i -> paths_ok i (chip_of i v).
Proof.
  intros i v IO w l D. pose proof (direct_spec (ri_mach i) (ri_vec i (chip_of i v) (chip_of i w)) (chip_of i v)) as S.
  pose proof (io_vec i IO v w) as V. pose proof (io_paths i IO v w) as P. cbv zeta in P.
  destruct (ri_vec i (chip_of i v) (chip_of i w)) as [[x y] z].
  destruct (ldf_reaches (ri_mach i) x y z _ _ (io_inside i IO v) (io_inside i IO w) V) as [_ [L _]].
  destruct (repaired (ri_mach i) (chip_of i v) (longest_dimension_first (ri_mach i) (x, y, z) (chip_of i v))) as [l0|e]; [|congruence].
  destruct S as [_ [_ S]]. destruct (S (P l0 eq_refl)) as [l' [A [B [C _]]]].
  assert (l' = l) by congruence. subst l'. split; [exact B | congruence].
Qed.

Record part_ok (i : rinput) (pt : apart) : Prop := mkPartOk {
  po_chips : forall v, In v (ve_macs (ri_venv i) (ap_pre pt)) ->
    exists v', (In v' (ri_out i (ap_pre pt) (ap_id pt)) \/ exists ip, In ip (ri_internal i (ap_pre pt)) /\ in_id ip = ap_id pt /\ in_pre ip = v') /\
      chip_of i v' = chip_of i v;
  po_internal : forall ip, In ip (ri_internal i (ap_pre pt)) -> in_id ip = ap_id pt -> ve_app (ri_venv i) (in_pre ip) = Some (ap_pre pt);
  po_sources : forall target x src, In target (ap_posts pt) -> In x (ri_in i target (ap_pre pt) (ap_id pt)) -> In src (snd x) ->
    src = App (ap_pre pt) \/ exists w, src = Mac w /\ ve_app (ri_venv i) w = Some (ap_pre pt) }.
(** On chips without machine vertices of the source, the whole source and single
    machine vertices of it are not asked for together. *)
Definition unmixed (i : rinput) (pt : apart) : Prop := forall t1 x1 t2 x2 w,
  In t1 (ap_posts pt) -> In x1 (ri_in i t1 (ap_pre pt) (ap_id pt)) -> In (App (ap_pre pt)) (snd x1) ->
  In t2 (ap_posts pt) -> In x2 (ri_in i t2 (ap_pre pt) (ap_id pt)) -> In (Mac w) (snd x2) ->
  chip_of i (fst x1) = chip_of i (fst x2) ->
  exists v, In v (ve_macs (ri_venv i) (ap_pre pt)) /\ chip_of i v = chip_of i (fst x1).

Lemma internal_of_In : forall i a k ip, In ip (internal_of i a k) <-> In ip (ri_internal i a) /\ in_id ip = k.
Proof. intros. unfold internal_of. rewrite filter_In, Nat.eqb_eq. reflexivity. Qed.

(** * One partition *)
Definition src_chips (i : rinput) (pt : apart) : list xy := set_of (map (chip_of i) (ve_macs (ri_venv i) (ap_pre pt))).
Definition part_calls (i : rinput) (pt : apart) : list (xy * tcall) :=
  flat_map (edge_calls i (ap_pre pt) (ap_id pt) (outgoing_mapping i (ap_pre pt) (ap_id pt))) (ap_posts pt) ++
  flat_map (internal_calls i) (internal_of i (ap_pre pt) (ap_id pt)).

Lemma src_mapping : forall i pt, input_ok i -> part_ok i pt -> forall p,
  In p (src_chips i pt) <-> dmem xy_eqb (outgoing_mapping i (ap_pre pt) (ap_id pt)) p = true.
Proof.
  intros i pt IO PO p. destruct (mapping_spec i (ap_pre pt) (ap_id pt)) as [_ [_ M]]. rewrite (M p).
  unfold src_chips. rewrite set_of_In, in_map_iff. split.
  - intros [v [<- V]]. destruct (po_chips i pt PO v V) as [v' [A B]]. exists v'. split; [|exact B]. apply in_app_iff.
    destruct A as [A|[ip [A1 [A2 A3]]]]; [left; exact A | right]. apply in_map_iff. exists ip. split; [exact A3 | apply internal_of_In; auto].
  - intros [v [V E]]. exists v. split; [exact E|]. apply (io_env i IO). apply in_app_iff in V. destruct V as [V|V].
    + exact (io_out i IO _ _ _ V).
    + apply in_map_iff in V. destruct V as [ip [<- V]]. apply internal_of_In in V. apply (po_internal i pt PO); tauto.
Qed.

(** The calls: to whom, for whom. *)
Lemma part_calls_In : forall i pt q c, In (q, c) (part_calls i pt) <->
  (exists target x, In target (ap_posts pt) /\ In x (ri_in i target (ap_pre pt) (ap_id pt)) /\ chip_of i (fst x) = q /\
     c = mkTCall (if Nat.eqb (ap_pre pt) target then true else dmem xy_eqb (outgoing_mapping i (ap_pre pt) (ap_id pt)) q)
           (core_of (snd (ri_at i (fst x)))) (link_of (snd (ri_at i (fst x)))) (snd x)) \/
  (exists ip w, In ip (internal_of i (ap_pre pt) (ap_id pt)) /\ In w (in_posts ip) /\ chip_of i w = q /\
     c = mkTCall true (core_of (snd (ri_at i w))) (link_of (snd (ri_at i w))) [Mac (in_pre ip)]).
Proof.
  intros i pt q c. unfold part_calls. rewrite in_app_iff.
  split.
  - intros [H|H].
    + left. apply in_flat_map in H. destruct H as [target [T H]]. unfold edge_calls in H. apply in_map_iff in H. destruct H as [x [E X]].
      unfold call_at in E. injection E as E1 E2. exists target, x. subst q. auto.
    + right. apply in_flat_map in H. destruct H as [ip [T H]]. unfold internal_calls in H. rewrite map_map in H. apply in_map_iff in H.
      destruct H as [w [E W]]. unfold call_at in E. cbn [fst snd] in E. injection E as E1 E2. exists ip, w. auto.
  - intros [[target [x [T [X [<- ->]]]]]|[ip [w [T [W [<- ->]]]]]].
    + left. apply in_flat_map. exists target. split; [exact T|]. unfold edge_calls. apply in_map_iff. exists x. auto.
    + right. apply in_flat_map. exists ip. split; [exact T|]. unfold internal_calls. rewrite map_map. apply in_map_iff. exists w. auto.
Qed.

(** What is known about the routes and the targets of a partition. *)
Record part_plan (i : rinput) (pt : apart) (edges : list xy) (r : routes) (ts : list (xy * tstate)) (self : bool)
    (wanted : list xy) : Prop := mkPL {
  pl_routed : routed (ri_mach i) (src_chips i pt) edges r;
  pl_edges : incl edges wanted;
  pl_targets : forall q, dget xy_eqb ts q = match calls_at (part_calls i pt) q with
                                            | [] => if xy_in q edges then Some (edge_targets (outgoing_mapping i (ap_pre pt) (ap_id pt))) else None
                                            | cs => Some (run_calls (renv i (ap_id pt)) cs)
                                            end;
  pl_away : forall target x, In target (ap_posts pt) -> target <> ap_pre pt -> In x (ri_in i target (ap_pre pt) (ap_id pt)) -> known r (chip_of i (fst x));
  pl_home : In (ap_pre pt) (ap_posts pt) -> self = true /\ forall x, In x (ri_in i (ap_pre pt) (ap_pre pt) (ap_id pt)) -> In (chip_of i (fst x)) wanted;
  pl_inside : forall ip, In ip (internal_of i (ap_pre pt) (ap_id pt)) -> self = true /\ forall w, In w (in_posts ip) -> In (chip_of i w) wanted;
  pl_trees : forall p, In p (src_chips i pt) ->
    is_tree (ri_mach i) p (source_tree i (src_chips i pt) wanted p) /\
    (forall q, In q wanted -> known (source_tree i (src_chips i pt) wanted p) q) /\
    (forall q, known (source_tree i (src_chips i pt) wanted p) q -> In q (src_chips i pt)) }.
(** What is known about a partition that was routed. *)
Record part_routed (i : rinput) (pt : apart) (t t' : rtable) (edges : list xy) (r : routes) (ts : list (xy * tstate)) (self : bool)
    (wanted : list xy) : Prop := mkPR {
  pr_plan : part_plan i pt edges r ts self wanted;
  pr_exclusive : exclusive (ri_venv i) t -> exclusive (ri_venv i) t';
  pr_entry : forall w k q, get_entry t' w k q <> None <-> get_entry t w k q <> None \/
    (k = ap_id pt /\ ((known r q /\ exists cores links, gives (conv_app i (ap_pre pt) (ap_id pt) ts) q w cores links) \/
      exists v cores links, In v (ri_out i (ap_pre pt) (ap_id pt) ++ map in_pre (internal_of i (ap_pre pt) (ap_id pt))) /\
        known (source_tree i (src_chips i pt) wanted (chip_of i v)) q /\ gives (conv_mac i (ap_id pt) ts self v) q w cores links));
  pr_bits : forall w k q b, has_bit t' w k q b <-> has_bit t w k q b \/
    (k = ap_id pt /\ ((exists cores links, known r q /\ gives (conv_app i (ap_pre pt) (ap_id pt) ts) q w cores links /\
          ((exists x, BfsProofs.child r q b x) \/ In b links \/ exists n, In n cores /\ b = 6 + n)) \/
      exists v cores links, In v (ri_out i (ap_pre pt) (ap_id pt) ++ map in_pre (internal_of i (ap_pre pt) (ap_id pt))) /\
        known (source_tree i (src_chips i pt) wanted (chip_of i v)) q /\ gives (conv_mac i (ap_id pt) ts self v) q w cores links /\
          ((exists x, BfsProofs.child (source_tree i (src_chips i pt) wanted (chip_of i v)) q b x) \/ In b links \/ exists n, In n cores /\ b = 6 + n)));
  pr_default : forall w k q e, get_entry t' w k q = Some e -> re_default e = true -> get_entry t w k q = Some e \/
    (k = ap_id pt /\ (((exists cores links, gives (conv_app i (ap_pre pt) (ap_id pt) ts) q w cores links) /\
          exists p l, BfsProofs.child r p l q /\ re_route e = route_of [l] []) \/
      exists v cores links, In v (ri_out i (ap_pre pt) (ap_id pt) ++ map in_pre (internal_of i (ap_pre pt) (ap_id pt))) /\
        gives (conv_mac i (ap_id pt) ts self v) q w cores links /\
        comes_straight (source_tree i (src_chips i pt) wanted (chip_of i v)) (link_of (snd (ri_at i v))) (chip_of i v) q e)) }.
Definition pr_routed i pt t t' edges r ts self wanted (PR : part_routed i pt t t' edges r ts self wanted) := pl_routed _ _ _ _ _ _ _ (pr_plan _ _ _ _ _ _ _ _ _ PR).
Definition pr_edges i pt t t' edges r ts self wanted (PR : part_routed i pt t t' edges r ts self wanted) := pl_edges _ _ _ _ _ _ _ (pr_plan _ _ _ _ _ _ _ _ _ PR).
Definition pr_targets i pt t t' edges r ts self wanted (PR : part_routed i pt t t' edges r ts self wanted) := pl_targets _ _ _ _ _ _ _ (pr_plan _ _ _ _ _ _ _ _ _ PR).
Definition pr_away i pt t t' edges r ts self wanted (PR : part_routed i pt t t' edges r ts self wanted) := pl_away _ _ _ _ _ _ _ (pr_plan _ _ _ _ _ _ _ _ _ PR).
Definition pr_home i pt t t' edges r ts self wanted (PR : part_routed i pt t t' edges r ts self wanted) := pl_home _ _ _ _ _ _ _ (pr_plan _ _ _ _ _ _ _ _ _ PR).
Definition pr_inside i pt t t' edges r ts self wanted (PR : part_routed i pt t t' edges r ts self wanted) := pl_inside _ _ _ _ _ _ _ (pr_plan _ _ _ _ _ _ _ _ _ PR).
Definition pr_trees i pt t t' edges r ts self wanted (PR : part_routed i pt t t' edges r ts self wanted) := pl_trees _ _ _ _ _ _ _ (pr_plan _ _ _ _ _ _ _ _ _ PR).

Lemma forest_known : forall m roots r q, is_forest m roots r -> (known r q <-> exists p, roots p /\ descends r p q).
Proof.
  intros m roots r q F. split; [exact (fo_reach _ _ _ F q)|]. intros [p [R D]]. destruct D as [|q l x D C]; [exact (fo_roots _ _ _ F p R) | exact (proj2 (fo_edge _ _ _ F _ _ _ C))].
Qed.

(** The variables of a partition when the edges and the internal partitions are
    done. *)
Definition with_internal (i : rinput) (pt : apart) (s : pstate) : pstate :=
  match internal_of i (ap_pre pt) (ap_id pt) with
  | [] => s
  | ips => fold_left (add_internal i) ips (mkP (p_edges s) (p_routes s) (p_targets s) true (p_self_xys s))
  end.
Definition wanted_of (s : pstate) : list xy := if p_self s then p_edges s ++ p_self_xys s else p_edges s.
Record part_state (i : rinput) (pt : apart) (s : pstate) : Prop := mkPS {
  ps_routed : routed (ri_mach i) (src_chips i pt) (p_edges s) (p_routes s);
  ps_away : forall target x, In target (ap_posts pt) -> target <> ap_pre pt -> In x (ri_in i target (ap_pre pt) (ap_id pt)) ->
    known (p_routes s) (chip_of i (fst x));
  ps_targets : p_targets s = targets_after (renv i (ap_id pt)) [] (part_calls i pt);
  ps_self : p_self s = true <-> In (ap_pre pt) (ap_posts pt) \/ internal_of i (ap_pre pt) (ap_id pt) <> [];
  ps_xys : forall q, In q (p_self_xys s) <->
    (In (ap_pre pt) (ap_posts pt) /\ exists x, In x (ri_in i (ap_pre pt) (ap_pre pt) (ap_id pt)) /\ chip_of i (fst x) = q) \/
    exists ip v, In ip (internal_of i (ap_pre pt) (ap_id pt)) /\ In v (in_posts ip) /\ chip_of i v = q }.

Lemma state_made : forall i pt source ms mp' s, input_ok i -> part_ok i pt ->
  outgoing_mapping i (ap_pre pt) (ap_id pt) = (source, ms) :: mp' ->
  foldM (route_edge i (ap_pre pt) (ap_id pt) source (src_chips i pt) (outgoing_mapping i (ap_pre pt) (ap_id pt)))
    (mkP [] [] [] false []) (ap_posts pt) = Ok s ->
  part_state i pt (with_internal i pt s).
Proof.
  intros i pt source ms mp' s IO PO EM2 ES. pose proof (src_mapping i pt IO PO) as SM.
  set (a := ap_pre pt) in *. set (k := ap_id pt) in *. remember (outgoing_mapping i a k) as mp eqn:EM.
  assert (SS : In source (src_chips i pt)).
  { apply SM. apply (dmem_true _ xy_eqb_eq). rewrite EM2. left. reflexivity. }
  assert (PS : paths_ok i source).
  { pose proof SS as X. unfold src_chips in X. apply set_of_In, in_map_iff in X. destruct X as [v [<- _]]. exact (paths_from i v IO). }
  destruct (edges_spec i a k source (src_chips i pt) mp (ap_posts pt) (mkP [] [] [] false []) s PS (io_order i IO) SS SM) as [E1 [_ [E3 [E4 [E5 E6]]]]].
  { cbn [p_edges p_routes]. constructor; [apply forest_empty; intros p [] | intros q K; destruct K; reflexivity | intros q []]. }
  { exact ES. }
  cbn [p_targets p_self p_self_xys] in E4, E5, E6.
  destruct (internals_spec i k (internal_of i a k) (mkP (p_edges s) (p_routes s) (p_targets s) true (p_self_xys s))) as [I1 [I2 [I3 [I4 I5]]]].
  { intros ip X. apply internal_of_In in X. tauto. }
  cbn [p_edges p_routes p_targets p_self p_self_xys] in I1, I2, I3, I4, I5.
  assert (PC : part_calls i pt = flat_map (edge_calls i a k mp) (ap_posts pt) ++ flat_map (internal_calls i) (internal_of i a k)).
  { unfold part_calls. fold a. fold k. rewrite EM. reflexivity. }
  unfold with_internal. fold a k. destruct (internal_of i a k) as [|ip0 ips] eqn:EI.
  - constructor; fold a k; try rewrite EI.
    + exact E1.
    + exact E3.
    + rewrite PC, targets_after_app, <- E4. reflexivity.
    + rewrite E5. split; [intros [X|X]; [discriminate | auto] | intros [X|X]; [auto | congruence]].
    + intros q. rewrite (E6 q). cbn [In]. split; [intros [[]|X]; auto | intros [X|[ip [v [[] _]]]]; auto].
  - constructor; fold a k; try rewrite EI.
    + rewrite I1, I2. exact E1.
    + rewrite I2. exact E3.
    + rewrite PC, targets_after_app, <- E4. exact I3.
    + rewrite I4. split; [right; discriminate | auto].
    + intros q. rewrite (I5 q), (E6 q). cbn [In]. tauto.
Qed.

Lemma plan_made : forall i pt s ts, part_state i pt s ->
  (forall q, dget xy_eqb ts q = match dget xy_eqb (p_targets s) q with
                                | Some st => Some st
                                | None => if xy_in q (p_edges s) then Some (edge_targets (outgoing_mapping i (ap_pre pt) (ap_id pt))) else None
                                end) ->
  (forall p, In p (src_chips i pt) ->
    is_tree (ri_mach i) p (source_tree i (src_chips i pt) (wanted_of s) p) /\
    (forall q, In q (wanted_of s) -> known (source_tree i (src_chips i pt) (wanted_of s) p) q) /\
    (forall q, known (source_tree i (src_chips i pt) (wanted_of s) p) q -> In q (src_chips i pt))) ->
  part_plan i pt (p_edges s) (p_routes s) ts (p_self s) (wanted_of s).
Proof.
  intros i pt s ts [R A T S X] D TR.
  assert (WE : incl (p_edges s) (wanted_of s)).
  { unfold wanted_of. destruct (p_self s); [apply incl_appl | ]; apply incl_refl. }
  assert (WS : p_self s = true -> incl (p_self_xys s) (wanted_of s)).
  { intros Y. unfold wanted_of. rewrite Y. apply incl_appr. apply incl_refl. }
  constructor.
  - exact R.
  - exact WE.
  - intros q. rewrite (D q), T, targets_after_dget. destruct (calls_at (part_calls i pt) q); reflexivity.
  - exact A.
  - intros Y. assert (Z : p_self s = true) by (apply S; auto). split; [exact Z|]. intros x Hx. apply (WS Z). apply X. left. eauto.
  - intros ip Y. assert (Z : p_self s = true) by (apply S; right; intros Z; rewrite Z in Y; destruct Y). split; [exact Z|].
    intros w W. apply (WS Z). apply X. right. eauto.
  - exact TR.
Qed.

Lemma partition_routed : forall i pt t t', input_ok i -> part_ok i pt -> route_partition i t pt = Ok t' ->
  (ri_out i (ap_pre pt) (ap_id pt) = [] /\ internal_of i (ap_pre pt) (ap_id pt) = [] /\ t' = t) \/
  exists edges r ts self wanted, part_routed i pt t t' edges r ts self wanted.
Proof.
  intros i pt t t' IO PO H. unfold route_partition in H.
  pose proof (src_mapping i pt IO PO) as SM.
  destruct (mapping_spec i (ap_pre pt) (ap_id pt)) as [MP1 [MP2 MP3]].
  fold (src_chips i pt) in H. pose proof (state_made i pt) as SMD.
  set (a := ap_pre pt) in *. set (k := ap_id pt) in *. remember (outgoing_mapping i a k) as mp eqn:EM.
  set (vs := ri_out i a k ++ map in_pre (internal_of i a k)) in *.
  destruct mp as [|[source ms] mp'].
  { left. injection H as <-. assert (V : vs = []).
    { destruct vs as [|v vs']; [reflexivity|]. destruct (MP2 v (or_introl eq_refl)) as [l [[] _]]. }
    unfold vs in V. apply app_eq_nil in V. destruct V as [V1 V2]. split; [exact V1|]. split; [|reflexivity].
    destruct (internal_of i a k); [reflexivity | discriminate]. }
  right. remember ((source, ms) :: mp') as mp eqn:EM2.
  apply bind_Ok_inv in H. destruct H as [s [ES H]].
  specialize (SMD source ms mp' s IO PO EM2 ES). 
  assert (WI : with_internal i pt s = match internal_of i a k with [] => s | ips => fold_left (add_internal i) ips (mkP (p_edges s) (p_routes s) (p_targets s) true (p_self_xys s)) end) by reflexivity.
  rewrite <- WI in H. clear WI ES. generalize dependent (with_internal i pt s). clear s. intros s' H SMD.
  apply bind_Ok_inv in H. destruct H as [[ts t1] [TR H]]. fold (wanted_of s') in H.
  pose proof (ps_routed _ _ _ SMD) as E1.
  assert (OI : forall q, In q (ri_order i (p_edges s')) <-> In q (p_edges s')).
  { intros q. split; apply Permutation_in; [exact (io_order i IO _) | exact (Permutation_sym (io_order i IO _))]. }
  destruct (target_routes_fold i a k mp (fun p => In p (p_edges s')) (p_routes s') _ _ _ _ _ (ro_forest _ _ _ _ E1)
              (fun e X => proj1 (OI e) X) TR) as [T1 [T2 T3]].
  destruct (source_routes_fold i k (src_chips i pt) (wanted_of s') ts (p_self s') mp t1 t' H) as [R1 [R2 R3]].
  exists (p_edges s'), (p_routes s'), ts, (p_self s'), (wanted_of s'). constructor; [apply (plan_made i pt s' ts SMD)| | | |]; fold a; fold k.
  - intros q. rewrite (T1 q), <- EM. destruct (dget xy_eqb (p_targets s') q); [reflexivity|].
    destruct (xy_in q (ri_order i (p_edges s'))) eqn:Q1; destruct (xy_in q (p_edges s')) eqn:Q2; try reflexivity; exfalso.
    + apply xy_in_spec, OI, xy_in_spec in Q1. congruence.
    + apply xy_in_spec, OI, xy_in_spec in Q2. congruence.
  - intros p P. assert (P' : In p (map fst mp)) by (apply (dmem_true _ xy_eqb_eq); apply SM; exact P).
    destruct (R1 p P') as [A [B C]]. split; [exact A|]. split; [exact B|]. intros q Q. destruct (C q Q) as [->|X]; assumption.
  - intros X. apply R2; [exact (io_env i IO)|]. apply T2; [exact (io_env i IO) | exact X].
  - intros w k' q. rewrite (proj1 (R3 w k' q)), (proj1 (T3 w k' q)).
    assert (KF : known (p_routes s') q <-> exists e, In e (ri_order i (p_edges s')) /\ descends (p_routes s') e q).
    { rewrite (forest_known _ _ _ q (ro_forest _ _ _ _ E1)). split; intros [e [X Y]]; exists e; (split; [apply OI; exact X | exact Y]). }
    split.
    + intros [[X|[-> [e [cores [links [X [Y Z]]]]]]]|[-> [p [ws [x [cores [links [X [Y [Z G]]]]]]]]]].
      * left. exact X.
      * right. split; [reflexivity|]. left. split; [apply KF; eauto | eauto].
      * right. split; [reflexivity|]. right. destruct (MP1 p ws x X Y) as [V1 V2]. exists (fst x), cores, links. split; [exact V1|].
        unfold chip_of. rewrite V2. cbn [fst]. auto.
    + intros [X|[-> [[X [cores [links G]]]|[v [cores [links [X [Y G]]]]]]]].
      * left. left. exact X.
      * left. right. split; [reflexivity|]. apply KF in X. destruct X as [e [X1 X2]]. exists e, cores, links. auto.
      * right. split; [reflexivity|]. destruct (MP2 v X) as [ws [W1 W2]]. exists (chip_of i v), ws, (v, snd (ri_at i v)), cores, links. auto.
  - intros w k' q b. rewrite (proj2 (R3 w k' q) b), (proj2 (T3 w k' q) b).
    assert (KF : known (p_routes s') q <-> exists e, In e (ri_order i (p_edges s')) /\ descends (p_routes s') e q).
    { rewrite (forest_known _ _ _ q (ro_forest _ _ _ _ E1)). split; intros [e [X Y]]; exists e; (split; [apply OI; exact X | exact Y]). }
    split.
    + intros [[X|[-> [e [cores [links [X [Y Z]]]]]]]|[-> [p [ws [x [cores [links [X [Y [Z G]]]]]]]]]].
      * left. exact X.
      * right. split; [reflexivity|]. left. exists cores, links. split; [apply KF; eauto | exact Z].
      * right. split; [reflexivity|]. right. destruct (MP1 p ws x X Y) as [V1 V2]. exists (fst x), cores, links. split; [exact V1|].
        unfold chip_of. rewrite V2. cbn [fst]. auto.
    + intros [X|[-> [[cores [links [X G]]]|[v [cores [links [X [Y G]]]]]]]].
      * left. left. exact X.
      * left. right. split; [reflexivity|]. apply KF in X. destruct X as [e [X1 X2]]. exists e, cores, links. auto.
      * right. split; [reflexivity|]. destruct (MP2 v X) as [ws [W1 W2]]. exists (chip_of i v), ws, (v, snd (ri_at i v)), cores, links. auto.
  - intros w k' q e E D. destruct (source_routes_default _ _ _ _ _ _ _ _ _ H w k' q e E D) as [X|[-> [p [ws [x [cores [links [X1 [X2 [X3 X4]]]]]]]]]].
    + destruct (target_routes_default i a k mp (fun p => In p (p_edges s')) (p_routes s') _ _ _ _ _ (ro_forest _ _ _ _ E1)
              (fun e X => proj1 (OI e) X) TR w k' q e X D) as [Y|[-> Y]]; [left; exact Y|]. right. split; [reflexivity|]. left. exact Y.
    + right. split; [reflexivity|]. right. destruct (MP1 p ws x X1 X2) as [V1 V2]. exists (fst x), cores, links. split; [exact V1|]. split; [exact X3|].
      unfold chip_of. rewrite V2. exact X4.
Qed.

(** The targets that one chip has for a source. *)
Definition aim (ts : list (xy * tstate)) (q : xy) (w : vtx) (p : list nat * list nat) : Prop :=
  exists s, dget xy_eqb ts q = Some s /\ targets_of s w = Some p.

Section Plan.
Variables (i : rinput) (pt : apart) (edges : list xy) (r : routes) (ts : list (xy * tstate)) (self : bool) (wanted : list xy).
Hypothesis IO : input_ok i.
Hypothesis PO : part_ok i pt.
Hypothesis PL : part_plan i pt edges r ts self wanted.
Let a := ap_pre pt.
Let k := ap_id pt.
Let src := src_chips i pt.
Let tree_from (v : nat) := source_tree i src wanted (chip_of i v).

Lemma env_fine : env_ok (renv i k).
Proof. intros b v. exact (io_out i IO b k v). Qed.

Lemma wanted_src : src <> [] -> incl wanted src.
Proof.
  intros NE q Q. destruct src as [|p l] eqn:E; [congruence|]. rewrite <- E.
  destruct (pl_trees _ _ _ _ _ _ _ PL p) as [_ [A B]]; [fold src; rewrite E; left; reflexivity|]. apply B. apply A. exact Q.
Qed.
Lemma src_some : forall v, In v (ri_out i a k ++ map in_pre (internal_of i a k)) -> In (chip_of i v) src.
Proof.
  intros v V. apply (src_mapping i pt IO PO). apply (proj2 (proj2 (mapping_spec i a k))). eauto.
Qed.

(** The calls on a chip. *)
Lemma call_reached : forall q c, In (q, c) (part_calls i pt) -> known r q \/ (self = true /\ In q wanted).
Proof.
  intros q c H. apply part_calls_In in H. destruct H as [[target [x [T [X [<- _]]]]]|[ip [w [T [W [<- _]]]]]].
  - destruct (Nat.eq_dec target a) as [->|N].
    + right. destruct (pl_home _ _ _ _ _ _ _ PL T) as [A B]. auto.
    + left. exact (pl_away _ _ _ _ _ _ _ PL target x T N X).
  - right. destruct (pl_inside _ _ _ _ _ _ _ PL ip T) as [A B]. auto.
Qed.
Lemma call_machine : forall q c, src <> [] -> In (q, c) (part_calls i pt) -> (tc_machine c = true <-> In q src).
Proof.
  intros q c NE H. apply part_calls_In in H. destruct H as [[target [x [T [X [<- ->]]]]]|[ip [w [T [W [<- ->]]]]]]; cbn [tc_machine].
  - destruct (Nat.eqb (ap_pre pt) target) eqn:Q.
    + apply Nat.eqb_eq in Q. subst target. split; [|reflexivity]. intros _. apply (wanted_src NE).
      exact (proj2 (pl_home _ _ _ _ _ _ _ PL T) x X).
    + symmetry. apply (src_mapping i pt IO PO).
  - split; [|reflexivity]. intros _. apply (wanted_src NE). exact (proj2 (pl_inside _ _ _ _ _ _ _ PL ip T) w W).
Qed.
Lemma call_sources : forall q c s, In (q, c) (part_calls i pt) -> In s (tc_srcs c) ->
  s = App a \/ exists v, s = Mac v /\ ve_app (ri_venv i) v = Some a.
Proof.
  intros q c s H S. apply part_calls_In in H. destruct H as [[target [x [T [X [<- ->]]]]]|[ip [w [T [W [<- ->]]]]]]; cbn [tc_srcs] in S.
  - exact (po_sources i pt PO target x s T X S).
  - destruct S as [<-|[]]. right. exists (in_pre ip). split; [reflexivity|]. apply internal_of_In in T. apply (po_internal i pt PO); tauto.
Qed.

Lemma chip_targets : forall q s, dget xy_eqb ts q = Some s ->
  (exists cs, cs <> [] /\ cs = calls_at (part_calls i pt) q /\ s = run_calls (renv i k) cs) \/
  (In q edges /\ calls_at (part_calls i pt) q = [] /\ s = edge_targets (outgoing_mapping i a k)).
Proof.
  intros q s H. rewrite (pl_targets _ _ _ _ _ _ _ PL q) in H. destruct (calls_at (part_calls i pt) q) as [|c cs] eqn:E.
  - right. destruct (xy_in q edges) eqn:X; [|discriminate]. injection H as <-. apply xy_in_spec in X. auto.
  - left. injection H as <-. exists (c :: cs). split; [discriminate | auto].
Qed.
Lemma chip_valid : forall q s, dget xy_eqb ts q = Some s -> valid s /\ unique_keys s.
Proof.
  intros q s H. destruct (chip_targets q s H) as [[cs [_ [_ ->]]]|[_ [_ ->]]].
  - destruct (well_run (renv i k) cs) as [A B _]. auto.
  - destruct (edge_targets_spec (outgoing_mapping i a k)) as [A [B _]]. auto.
Qed.
Lemma aim_app : forall q b p, src <> [] -> aim ts q (App b) p -> b = a /\ ~ In q src.
Proof.
  intros q b p NE [s [D T]]. destruct (chip_targets q s D) as [[cs [_ [-> ->]]]|[_ [_ ->]]].
  - destruct (well_run (renv i k) (calls_at (part_calls i pt) q)) as [V _ O].
    destruct (O (App b)) as [o [O1 O2]].
    { intros Z. unfold targets_of in T. rewrite Z in T. discriminate. }
    apply atoms_In in O1. destruct O1 as [c [s [C1 [C2 ->]]]]. apply calls_at_In in C1.
    destruct O2 as [[O2 O3]|[x [y [_ [O2 _]]]]]; [|discriminate]. cbn [a_src a_machine] in O2, O3. subst s.
    split.
    + destruct (call_sources q c (App b) C1 C2) as [E|[v [E _]]]; [congruence | discriminate].
    + intros S. specialize (O3 eq_refl). apply (call_machine q c NE C1) in S. congruence.
  - exfalso. destruct (edge_targets_spec (outgoing_mapping i a k)) as [_ [_ [E _]]].
    destruct (proj1 (E (App b))) as [x [_ X]]; [congruence | discriminate].
Qed.
Lemma aim_apart : forall q v p p', In v (ri_out i a k) -> aim ts q (App a) p -> aim ts q (Mac v) p' -> False.
Proof.
  intros q v p p' V [s [D T]] [s' [D' T']]. assert (s' = s) by congruence. subst s'.
  destruct (chip_targets q s D) as [[cs [_ [-> ->]]]|[_ [_ ->]]].
  - rewrite run_calls_atoms in T, T'.
    pose proof (kept_run (renv i k) (flat_map atoms_of (calls_at (part_calls i pt) q)) env_fine) as [_ P _].
    set (st := fold_left (step (renv i k)) (flat_map atoms_of (calls_at (part_calls i pt) q)) t_empty) in *.
    assert (Z : dget vtx_eqb (t_dict st) (Mac v) = None).
    { apply (P a v); [|exact V]. intros Z. unfold targets_of in T. rewrite Z in T. discriminate. }
    unfold targets_of in T'. rewrite Z in T'. discriminate.
  - destruct (edge_targets_spec (outgoing_mapping i a k)) as [_ [_ [E _]]].
    destruct (proj1 (E (App a))) as [x [_ X]]; [congruence | discriminate].
Qed.
(** Targets that say something come from calls. *)
Lemma aim_call : forall q w cores links b, aim ts q w (cores, links) -> (In b links \/ exists n, In n cores /\ b = 6 + n) ->
  exists c, In (q, c) (part_calls i pt).
Proof.
  intros q w cores links b [s [D T]] B. destruct (chip_targets q s D) as [[cs [NE [E _]]]|[_ [_ ->]]].
  - destruct cs as [|c cs]; [congruence|]. exists c. apply calls_at_In. rewrite <- E. left. reflexivity.
  - exfalso. destruct (edge_targets_spec (outgoing_mapping i a k)) as [_ [_ [_ E]]]. specialize (E _ _ T). injection E as -> ->.
    destruct B as [[]|[n [[] _]]].
Qed.

(** What the conversions give, in these terms. *)
Lemma items_In : forall q s w p, dget xy_eqb ts q = Some s -> (In (w, p) (targets_by_source s) <-> aim ts q w p).
Proof.
  intros q s w p D. destruct (chip_valid q s D) as [V U].
  rewrite <- (dget_Some_iff _ vtx_eqb_eq _ _ _ (items_keys s U)), (items_dget s w V). unfold aim. split; [eauto|].
  intros [s' [D' T]]. congruence.
Qed.
Lemma gives_app : forall q w cores links, gives (conv_app i a k ts) q w cores links <->
  (dget xy_eqb ts q = None /\ w = App a /\ cores = [] /\ links = []) \/
  aim ts q w (cores, links) \/
  (dget xy_eqb ts q <> None /\ (forall b p, ~ aim ts q (App b) p) /\
   exists v, w = Mac v /\ In v (ri_out i a k) /\ (forall p, ~ aim ts q (Mac v) p) /\ cores = [] /\ links = []).
Proof.
  intros q w cores links. unfold gives. cbn [conv_app cv_targets cv_source cv_use_source cv_ensure cv_out]. rewrite conv_dget.
  destruct (dget xy_eqb ts q) as [s|] eqn:D; cbn [option_map].
  - split.
    + intros [G|[_ [G1 [b [v [E [G2 [G3 [G4 G5]]]]]]]]].
      * right. left. apply (items_In q s w _ D). exact G.
      * right. right. injection E as <-. split; [discriminate|]. split; [intros b p A; apply (G1 b p); apply (items_In q s _ _ D); exact A|].
        exists v. split; [exact G2|]. split; [exact G3|]. split; [|exact G5]. intros p A. apply (G4 p). apply (items_In q s _ _ D). exact A.
    + intros [[X _]|[G|[_ [G1 [v [G2 [G3 [G4 G5]]]]]]]]; [discriminate | left; apply (items_In q s w _ D); exact G|].
      right. split; [reflexivity|]. split; [intros b p A; apply (G1 b p); apply (items_In q s _ _ D); exact A|].
      exists a, v. split; [reflexivity|]. split; [exact G2|]. split; [exact G3|]. split; [|exact G5]. intros p A. apply (G4 p). apply (items_In q s _ _ D). exact A.
  - split; [left; auto|]. intros [[_ G]|[[s [X _]]|[X _]]]; [exact G | congruence | congruence].
Qed.
Lemma gives_mac : forall q v w cores links, gives (conv_mac i k ts self v) q w cores links <->
  w = Mac v /\ ((self = true /\ aim ts q (Mac v) (cores, links)) \/
                ((self = false \/ forall p, ~ aim ts q (Mac v) p) /\ cores = [] /\ links = [])).
Proof.
  intros q v w cores links. unfold gives. cbn [conv_mac cv_targets cv_source cv_use_source cv_ensure cv_out].
  pose proof chip_valid as CV. destruct self.
  - rewrite conv_dget. destruct (dget xy_eqb ts q) as [s|] eqn:D; cbn [option_map].
    + destruct (CV q s D) as [V U]. rewrite (items_dget s (Mac v) V).
      destruct (targets_of s (Mac v)) as [p|] eqn:T.
      * split.
        -- intros [-> ->]. split; [reflexivity|]. left. split; [reflexivity|]. exists s. auto.
        -- intros [-> [[_ [s' [X Y]]]|[[X|X] _]]]; [|discriminate|].
           ++ split; [reflexivity | congruence].
           ++ exfalso. apply (X p). exists s. auto.
      * split.
        -- intros [-> X]. split; [reflexivity|]. right. split; [|exact X]. right. intros p [s' [Y Z]]. congruence.
        -- intros [-> [[_ [s' [X Y]]]|[_ X]]]; [congruence | auto].
    + split.
      * intros [-> X]. split; [reflexivity|]. right. split; [|exact X]. right. intros p [s' [Y Z]]. congruence.
      * intros [-> [[_ [s' [X Y]]]|[_ X]]]; [congruence | auto].
  - cbn [dget]. split.
    + intros [-> X]. auto.
    + intros [-> [[X _]|[_ X]]]; [discriminate | auto].
Qed.

Lemma gives_mac_some : forall q v, exists cores links, gives (conv_mac i k ts self v) q (Mac v) cores links.
Proof.
  intros q v. destruct (dget xy_eqb ts q) as [s|] eqn:D; [destruct (targets_of s (Mac v)) as [[cores links]|] eqn:T|].
  - destruct (Bool.bool_dec self true) as [S|S].
    + exists cores, links. apply gives_mac. split; [reflexivity|]. left. split; [exact S|]. exists s. auto.
    + exists [], []. apply gives_mac. split; [reflexivity|]. right. split; [|auto]. left. apply Bool.not_true_iff_false. exact S.
  - exists [], []. apply gives_mac. split; [reflexivity|]. right. split; [|auto]. right. intros p [s' [X Y]]. congruence.
  - exists [], []. apply gives_mac. split; [reflexivity|]. right. split; [|auto]. right. intros p [s' [X Y]]. congruence.
Qed.
End Plan.
