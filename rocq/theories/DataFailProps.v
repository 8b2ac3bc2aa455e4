(** Property C208: a call on the shared data that raises. *)
From Coq Require Import String List Arith ZArith Bool.
From Verif Require Import Base Dict SdramModel GraphModel DataModel.
Import ListNotations.
Local Open Scope nat_scope.
Local Open Scope string_scope.

(** The calls of the view that say that mapping is required. *)
Definition view_add (c : dcall) : bool := match c with DViewVertex _ | DViewEdge _ _ => true | _ => false end.

(** C208: adding a vertex or an edge that is refused says that mapping is required,
    although nothing has changed. *)
Theorem C208_mapping_refuted : exists cls labels h v e name, let d := drun cls (data_new labels) h in
  d_mapping d = false /\
  (let r := dstep cls d (DViewVertex v) in
   snd r = RRaise AlreadyExists /\ d_graph (fst r) = d_graph d /\ d_mapping (fst r) = true) /\
  (let r := dstep cls d (DViewEdge e name) in
   snd r = RRaise InvalidParameter /\ d_graph (fst r) = d_graph d /\ d_mapping (fst r) = true).
Proof.
  exists (fun _ => "Vertex"), [(0, "pop")], [DSetup; DFlags true true; DViewVertex 0; DFlags false true], 0, (mkGEdge 0 0 1), "SPIKES".
  vm_compute. repeat split.
Qed.
Print Assumptions C208_mapping_refuted.

(** C208: a vertex of an earlier graph that is refused uses up a number of those for
    generated labels: the next vertex without a label gets another one. *)
Theorem C208_label_refuted : exists cls labels h v w, let d := drun cls (data_new labels) h in
  let r := dstep cls d (DViewVertex v) in
  snd r = RRaise ConfigurationException /\ iterate_vertices (fst r) = iterate_vertices d /\
  dget Nat.eqb (lab (d_graph (fst (dstep cls d (DViewVertex w))))) w = Some "Vertex_1" /\
  dget Nat.eqb (lab (d_graph (fst (dstep cls (fst r) (DViewVertex w))))) w = Some "Vertex_2".
Proof.
  exists (fun _ => "Vertex"), [(0, "pop"); (1, "pop")],
    [DSetup; DFlags true true; DViewVertex 0; DSetup; DViewVertex 1], 0, 2.
  vm_compute. repeat split.
Qed.
Print Assumptions C208_label_refuted.

Lemma vertex_refused : forall cls g v e, snd (add_vertex cls g v) = Err e -> let g' := fst (add_vertex cls g v) in
  lab g' = lab g /\ added g' = added g /\ by_label g' = by_label g /\ out g' = out g /\ n_parts g' = n_parts g.
Proof.
  intros cls g v e. unfold add_vertex, set_label. cbn [bump added].
  destruct (mem_nat v (added g)); destruct (dget Nat.eqb (lab g) v) as [[|a l]|]; cbn [fst snd];
    try (intros H; discriminate H); try (intros _; repeat split; reflexivity);
    destruct (dget String.eqb (by_label g) (String a l)) as [w|]; try destruct (Nat.eqb w v); cbn [fst snd];
    try (intros H; discriminate H); intros _; repeat split; reflexivity.
Qed.

Lemma edge_refused_same : forall g e name x, snd (add_edge g e name) = Err x -> fst (add_edge g e name) = g.
Proof.
  intros g e name x. unfold add_edge. destruct (negb (label_known g (g_pre e))); [reflexivity|].
  destruct (negb (label_known g (g_post e))); [reflexivity|]. unfold starting_at.
  destruct (dget Nat.eqb (out g) (g_pre e)) as [ps|].
  - destruct (find_part ps name) as [p|]; [destruct (has_edge p e)|]; cbn [fst snd]; intros H; try discriminate H; reflexivity.
  - cbn [find_part]. intros H; discriminate H.
Qed.

(** C208, what holds: a call that raises changes nothing that was set, no vertex, label,
    edge or partition, no machine vertex; and only the two calls of the view say that
    mapping is required, while the simulator is set up. *)
Theorem C208_unchanged_partial : forall cls d c, snd (dstep cls d c) <> RNone -> let d' := fst (dstep cls d c) in
  (lab (d_graph d') = lab (d_graph d) /\ added (d_graph d') = added (d_graph d) /\
   iterate_vertices d' = iterate_vertices d /\ (forall l, vertex_by_label (d_graph d') l = vertex_by_label (d_graph d) l) /\
   iterate_partitions d' = iterate_partitions d /\ get_n_partitions d' = get_n_partitions d /\ get_edges d' = get_edges d /\
   (forall v name, snd (partition_at (d_graph d') v name) = snd (partition_at (d_graph d) v name))) /\
  ((forall a, macs_of d' a = macs_of d a) /\ d_index d' = d_index d /\ (forall s, get_slot d' s = get_slot d s) /\
   get_plan d' = get_plan d /\ get_boards d' = get_boards d /\ get_chips d' = get_chips d /\ has_chips d' = has_chips d /\
   get_required d' = get_required d /\ d_all d' = d_all d /\ d_eth d' = d_eth d /\ d_valid d' = d_valid d) /\
  d_mapping d' = (d_mapping d || view_add c && d_valid d)%bool /\
  (view_add c = false -> (forall v, c <> DWriterVertex v) -> d' = d).
Proof.
  intros cls d c R d'. subst d'.
  assert (V : forall dd v, snd (on_graph dd (add_vertex cls (d_graph dd) v)) <> RNone -> exists e, snd (add_vertex cls (d_graph dd) v) = Err e).
  { intros dd v. unfold on_graph. destruct (snd (add_vertex cls (d_graph dd) v)) as [u|e]; cbn [snd]; intros H; [destruct (H eq_refl)|exists e; reflexivity]. }
  assert (E : forall dd e n, snd (on_graph dd (add_edge (d_graph dd) e n)) <> RNone -> fst (add_edge (d_graph dd) e n) = d_graph dd).
  { intros dd e n. unfold on_graph. destruct (snd (add_edge (d_graph dd) e n)) as [u|x] eqn:X; cbn [snd]; intros H; [destruct (H eq_refl)|].
    eapply edge_refused_same. exact X. }
  assert (S0 : (fst (dstep cls d c) = d /\ (view_add c && d_valid d)%bool = false) \/
    (exists v dd, dd = with_flags d (d_mapping d || view_add c)%bool (d_valid d) /\ fst (dstep cls d c) = with_graph dd (fst (add_vertex cls (d_graph d) v)) /\
       (exists e, snd (add_vertex cls (d_graph d) v) = Err e) /\ (c = DViewVertex v /\ d_valid d = true \/ c = DWriterVertex v)) \/
    (fst (dstep cls d c) = with_flags d true (d_valid d) /\ view_add c = true /\ d_valid d = true)).
  { destruct c as [| | | |s o|v|b c|v|v al|v|e n|v|e n|v|v l|a m|mp vl]; cbn [dstep view_add] in R |- *; try (cbn [snd] in R; destruct (R eq_refl)).
    - left. destruct o; cbn [set_slot snd] in R; [destruct (R eq_refl)|split; reflexivity].
    - left. unfold set_plan in *. destruct v as [|z|]; cbn [snd] in R; [destruct (R eq_refl)| |split; reflexivity].
      destruct (Z.ltb z 0); cbn [snd] in R; [split; reflexivity|destruct (R eq_refl)].
    - left. unfold set_required in *.
      destruct b as [|z|], c as [|z'|]; cbn [snd] in R; try (split; reflexivity); try (destruct (R eq_refl)).
      + destruct (Z.leb z' 0); [split; reflexivity|]. destruct (d_boards d), (d_chips d); cbn [snd] in R; try (split; reflexivity). destruct (R eq_refl).
      + destruct (Z.leb z 0); [split; reflexivity|]. destruct (d_boards d), (d_chips d); cbn [snd] in R; try (split; reflexivity). destruct (R eq_refl).
    - left. unfold set_in_graph in *. destruct v as [|z|]; try (split; reflexivity).
      destruct (Z.leb z 0); cbn [snd] in R; [split; reflexivity|destruct (R eq_refl)].
    - destruct (d_valid d) eqn:D; [|left; split; reflexivity]. right; left. exists v. eexists. split; [reflexivity|].
      rewrite orb_true_r. cbn zeta in R |- *. split; [reflexivity|]. split; [exact (V _ v R)|]. left. split; reflexivity.
    - destruct (d_valid d) eqn:D; [|left; split; reflexivity]. right; right. cbn zeta in R |- *.
      split; [|split; reflexivity]. unfold on_graph in *. cbn [fst]. rewrite (E _ e n R). destruct d; reflexivity.
    - destruct (d_mapping d) eqn:D; [|left; split; reflexivity]. right; left. exists v. eexists. split; [reflexivity|].
      split; [unfold on_graph; cbn [fst]; destruct d; cbn in D |- *; subst; reflexivity|]. split; [exact (V _ v R)|]. right. reflexivity.
    - left. destruct (d_mapping d) eqn:D; [|split; reflexivity]. split; [|reflexivity].
      unfold on_graph in *. cbn [fst]. rewrite (E _ e n R). destruct d; reflexivity.
    - left. split; [|reflexivity]. unfold on_graph, set_label in *. destruct (mem_nat v (added (d_graph d))); cbn [fst snd] in *;
        [destruct d; reflexivity|destruct (R eq_refl)]. }
  destruct S0 as [[-> M]|[[v [dd [-> [-> [[e X] C]]]]]|[-> [M D]]]].
  - rewrite M, orb_false_r. repeat split; reflexivity.
  - destruct (vertex_refused _ _ _ _ X) as [L [A [B [O N]]]].
    split; [|split; [repeat split; reflexivity|split]].
    + cbn [with_graph with_flags d_graph]. unfold iterate_vertices, vertices, vertex_by_label, iterate_partitions, partitions, get_n_partitions, get_edges, edges,
        partitions, partition_at, starting_at. cbn [with_graph with_flags d_graph]. rewrite L, A, B, O, N.
      repeat split; try reflexivity. intros w name. destruct (dget Nat.eqb (out (d_graph d)) w); reflexivity.
    + cbn [with_graph with_flags d_mapping]. destruct C as [[-> D]| ->]; cbn [view_add]; [rewrite D; destruct (d_mapping d); reflexivity|reflexivity].
    + intros F W. destruct C as [[-> D]| ->]; [discriminate F|]. destruct (W v eq_refl).
  - rewrite M, D, orb_true_r. split; [|split; [repeat split; reflexivity|split; [reflexivity|intros F; discriminate F]]].
    repeat split; reflexivity.
Qed.
Print Assumptions C208_unchanged_partial.

(** Refused calls after a use of the view: a known vertex, an edge to an unknown one, a
    wrong type, a negative number, a label of a vertex that was added. *)
Example C208_example :
  let cls := fun _ => "Vertex" in
  let d := drun cls (data_new [(0, "pop"); (1, "in")])
    [DSetup; DFlags true true; DViewVertex 0; DViewVertex 1; DViewEdge (mkGEdge 0 0 1) "SPIKES"; DSet STags (Obj 7); DFlags false true] in
  map (fun c => (snd (dstep cls d c), d_mapping (fst (dstep cls d c)), length (get_edges (fst (dstep cls d c)))))
    [DViewVertex 0; DViewEdge (mkGEdge 1 0 5) "SPIKES"; DViewEdge (mkGEdge 0 0 1) "SPIKES"; DWriterVertex 2; DSet STags Wrong;
     DPlan (PInt (-1)); DLabel 0 "x"] =
  [(RRaise AlreadyExists, true, 1); (RRaise InvalidParameter, true, 1); (RRaise AlreadyExists, true, 1);
   (RRaise ConfigurationException, false, 1); (RRaise TypeError, false, 1); (RRaise ConfigurationException, false, 1);
   (RRaise ConfigurationException, false, 1)].
Proof. vm_compute. reflexivity. Qed.
