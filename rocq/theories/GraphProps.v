(** Properties C44, C45, C62, C63, C64: the application graph. *)
From Coq Require Import String List Arith Bool Permutation.
From Verif Require Import Base Dict GraphModel GraphProofs LabelsProofs.
Import ListNotations.
Local Open Scope nat_scope.
Local Open Scope string_scope.

(** C44: if no label given by the user ends with a digit then, after any use of
    the graph, the vertices listed are exactly the ones that were passed to
    add_vertex, each once; each is found under its own label; and a further
    add_vertex is refused exactly for those. *)
Theorem C44_vertices_kept : forall cls labels cs,
  (forall v l, dget Nat.eqb labels v = Some l -> ends_with_digit l = false) ->
  (forall v l, In (SetLabel v l) cs -> ends_with_digit l = false) ->
  let g := run cls (graph_new labels) cs in
  (forall v, In v (vertices g) <-> In (AddVertex v) cs) /\
  NoDup (vertices g) /\
  (forall v, In v (vertices g) -> exists l, dget Nat.eqb (lab g) v = Some l /\ vertex_by_label g l = Ok v) /\
  n_vertices g = length (vertices g) /\
  (forall v, snd (add_vertex cls g v) = Err AlreadyExists <-> In (AddVertex v) cs) /\
  (forall v, snd (add_vertex cls g v) = Ok tt <-> ~ In (AddVertex v) cs).
Proof. exact vertices_unique. Qed.
Print Assumptions C44_vertices_kept.

Definition ex_labels : list (nat * string) := [(0, "pop"); (1, "pop"); (3, ""); (4, "pop_")].
Definition ex_calls : list gcall :=
  [AddVertex 0; AddVertex 1; AddVertex 2; AddVertex 3; SetLabel 4 "pop"; AddVertex 4; AddVertex 0; SetLabel 1 "x";
   AddEdge (mkGEdge 0 0 1) "a"; AddEdge (mkGEdge 1 0 2) "a"; AddEdge (mkGEdge 1 0 2) "a"; AddEdge (mkGEdge 2 0 9) "a";
   Starting 3; AddEdge (mkGEdge 1 0 2) "b"; AddEdge (mkGEdge 3 4 4) "a"].
Definition ex_graph : graph := run (fun _ => "Vertex") (graph_new ex_labels) ex_calls.
Example ex_vertices : by_label ex_graph = [("pop", 0); ("pop1", 1); ("Vertex_2", 2); ("Vertex_3", 3); ("pop4", 4)] /\
  forallb (fun vl => negb (ends_with_digit (snd vl))) ex_labels = true.
Proof. vm_compute. split; reflexivity. Qed.

(** C62: without the condition on labels a generated label can be one already in
    use, and the vertex that had it disappears from the graph. *)
Theorem C62_label_collision_refuted : exists labels cs,
  let g := run (fun _ => "Vertex") (graph_new labels) cs in
  cs = [AddVertex 0; AddVertex 1; AddVertex 2] /\
  map snd (map (fun v => (v, dget Nat.eqb labels v)) [0; 1; 2]) = [Some "a1"; Some "a"; Some "a"] /\
  vertices g = [2; 1] /\ n_vertices g = 2 /\
  map (fun v => dget Nat.eqb (lab g) v) [0; 1; 2] = [Some "a1"; Some "a"; Some "a1"].
Proof.
  exists [(0, "a1"); (1, "a"); (2, "a")], [AddVertex 0; AddVertex 1; AddVertex 2]. vm_compute. intuition reflexivity.
Qed.
Print Assumptions C62_label_collision_refuted.

(** C62, the part that holds: if every vertex added has a label of its own and
    the user gives no two of them the same one (they may end with digits) then
    the vertices are listed in the order in which they were first added, each
    keeps its label and is found by it, and adding one again is refused. *)
Theorem C62_distinct_partial : forall cls labels cs,
  (forall v, In (AddVertex v) cs -> exists l, dget Nat.eqb labels v = Some l /\ l <> "") ->
  (forall v w, In (AddVertex v) cs -> In (AddVertex w) cs -> dget Nat.eqb labels v = dget Nat.eqb labels w -> v = w) ->
  (forall v l, ~ In (SetLabel v l) cs) ->
  let g := run cls (graph_new labels) cs in
  vertices g = firsts [] cs /\ (forall v, In v (vertices g) <-> In (AddVertex v) cs) /\ NoDup (vertices g) /\
  n_vertices g = length (vertices g) /\
  (forall v, In (AddVertex v) cs -> dget Nat.eqb (lab g) v = dget Nat.eqb labels v /\
     exists l, dget Nat.eqb labels v = Some l /\ vertex_by_label g l = Ok v /\ snd (add_vertex cls g v) = Err AlreadyExists).
Proof. exact distinct_kept. Qed.
Print Assumptions C62_distinct_partial.

Example C62_distinct_example :
  let labels := [(0, "pop_1"); (1, "pop_2"); (2, "pop_11"); (3, "pop_1")] in
  let cs := [AddVertex 2; AddVertex 0; AddEdge (mkGEdge 0 0 2) "SPIKES"; AddVertex 2; AddVertex 1] in
  let g := run (fun _ => "Vertex") (graph_new labels) cs in
  forallb (fun v => match dget Nat.eqb labels v with Some l => negb (String.eqb l "") | None => false end) [0; 1; 2] = true /\
  vertices g = [2; 0; 1] /\ map (fun l => vertex_by_label g l) ["pop_1"; "pop_2"; "pop_11"] = [Ok 0; Ok 1; Ok 2] /\
  map (fun v => snd (add_vertex (fun _ => "Vertex") g v)) [0; 1; 2; 3] = [Err AlreadyExists; Err AlreadyExists; Err AlreadyExists; Ok tt].
Proof. vm_compute. repeat split. Qed.

(** C45: after any use of the graph, the partition of a pre-vertex and an
    identifier holds, in order and without repetition, exactly the edges that
    start at this vertex and were accepted under this identifier; it exists only
    if there are some; identifiers of the partitions of a vertex differ; the
    count of partitions is right; and listing the edges gives every accepted one. *)
Theorem C45_edges_partitioned : forall cls labels cs,
  let g := run cls (graph_new labels) cs in
  let acc := accepted cls (graph_new labels) cs in
  (forall v name,
     match snd (partition_at g v name) with
     | Some p => p_name p = name /\ p_edges p <> [] /\ NoDup (map g_id (p_edges p)) /\
         p_edges p = map fst (filter (fun en => Nat.eqb (g_pre (fst en)) v && String.eqb (snd en) name) acc)
     | None => forall e, In (e, name) acc -> g_pre e <> v
     end) /\
  (forall v, NoDup (map p_name (snd (starting_at g v)))) /\
  n_parts g = length (partitions g) /\
  Permutation (edges g) (map fst acc).
Proof. exact edges_partitioned. Qed.
Print Assumptions C45_edges_partitioned.

(** C45: an edge is accepted exactly if the labels of both its vertices are known
    and it is not in the partition yet; a refused edge changes no partition. *)
Theorem C45_accepted_iff : forall g e name,
  (snd (add_edge g e name) = Ok tt <->
   (exists l v, dget Nat.eqb (lab g) (g_pre e) = Some l /\ vertex_by_label g l = Ok v) /\
   (exists l v, dget Nat.eqb (lab g) (g_post e) = Some l /\ vertex_by_label g l = Ok v) /\
   forall p, snd (partition_at g (g_pre e) name) = Some p -> ~ In (g_id e) (map g_id (p_edges p))) /\
  (snd (add_edge g e name) <> Ok tt ->
     partitions (fst (add_edge g e name)) = partitions g /\ n_parts (fst (add_edge g e name)) = n_parts g).
Proof. exact add_edge_labels. Qed.
Print Assumptions C45_accepted_iff.

(** C45: the exceptions: an edge one of whose vertices has no label known to the
    graph is refused as an invalid parameter, and one that is in the partition
    already as existing; there is no third. *)
Lemma edge_refused : forall g e name,
  (snd (add_edge g e name) = Err InvalidParameter <->
   exists v, (v = g_pre e \/ v = g_post e) /\ forall l w, dget Nat.eqb (lab g) v = Some l -> vertex_by_label g l <> Ok w) /\
  (snd (add_edge g e name) = Err AlreadyExists ->
   exists p, snd (partition_at g (g_pre e) name) = Some p /\ In (g_id e) (map g_id (p_edges p))) /\
  (forall x, snd (add_edge g e name) = Err x -> x = InvalidParameter \/ x = AlreadyExists).
Proof.
  intros g e name.
  assert (N : forall v, label_known g v = false <-> forall l w, dget Nat.eqb (lab g) v = Some l -> vertex_by_label g l <> Ok w).
  { intros v. pose proof (label_known_iff g v) as K. split.
    - intros F l w L V. rewrite (proj2 K) in F; [discriminate|]. exists l, w. split; assumption.
    - intros F. destruct (label_known g v) eqn:E; [|reflexivity]. destruct (proj1 K eq_refl) as [l [w [L V]]].
      exfalso. exact (F l w L V). }
  unfold add_edge, partition_at. destruct (label_known g (g_pre e)) eqn:P; cbn [negb].
  2:{ cbn [snd]. split; [|split; [discriminate|intros x H; injection H as <-; left; reflexivity]].
      split; [|reflexivity]. intros _. exists (g_pre e). split; [left; reflexivity|]. apply N. exact P. }
  destruct (label_known g (g_post e)) eqn:Q; cbn [negb].
  2:{ cbn [snd]. split; [|split; [discriminate|intros x H; injection H as <-; left; reflexivity]].
      split; [|reflexivity]. intros _. exists (g_post e). split; [right; reflexivity|]. apply N. exact Q. }
  assert (Z : ~ exists v, (v = g_pre e \/ v = g_post e) /\ forall l w, dget Nat.eqb (lab g) v = Some l -> vertex_by_label g l <> Ok w).
  { intros [v [[-> | ->] F]]; apply N in F; congruence. }
  destruct (starting_at g (g_pre e)) as [g1 ps]. destruct (find_part ps name) as [p|] eqn:F; cbn [snd].
  - destruct (has_edge p e) eqn:H; cbn [snd].
    + split; [split; [discriminate|intros X; destruct (Z X)]|]. split; [|intros x X; injection X as <-; right; reflexivity].
      intros _. exists p. split; [reflexivity|]. unfold has_edge in H. apply existsb_exists in H. destruct H as [y [Y E]].
      apply Nat.eqb_eq in E. apply in_map_iff. exists y. split; [exact E|exact Y].
    + split; [split; [discriminate|intros X; destruct (Z X)]|]. split; discriminate.
  - split; [split; [discriminate|intros X; destruct (Z X)]|]. split; discriminate.
Qed.
Theorem C45_refused : forall g e name,
  (snd (add_edge g e name) = Err InvalidParameter <->
   exists v, (v = g_pre e \/ v = g_post e) /\ forall l w, dget Nat.eqb (lab g) v = Some l -> vertex_by_label g l <> Ok w) /\
  (snd (add_edge g e name) = Err AlreadyExists ->
   exists p, snd (partition_at g (g_pre e) name) = Some p /\ In (g_id e) (map g_id (p_edges p))) /\
  (forall x, snd (add_edge g e name) = Err x -> x = InvalidParameter \/ x = AlreadyExists).
Proof. exact edge_refused. Qed.
Print Assumptions C45_refused.

(** An edge to a vertex that is not in the graph, one that is there already, and
    the same edge under another identifier. *)
Example ex_refused : map (fun en => snd (add_edge ex_graph (fst en) (snd en)))
    [(mkGEdge 7 0 9, "a"); (mkGEdge 1 0 2, "a"); (mkGEdge 1 0 2, "c")] =
  [Err InvalidParameter; Err AlreadyExists; Ok tt].
Proof. vm_compute. reflexivity. Qed.

Example ex_edges : edges ex_graph = [mkGEdge 0 0 1; mkGEdge 1 0 2; mkGEdge 1 0 2; mkGEdge 3 4 4] /\
  n_parts ex_graph = 3 /\ map p_name (partitions ex_graph) = ["a"; "b"; "a"] /\
  accepted (fun _ => "Vertex") (graph_new ex_labels) ex_calls =
    [(mkGEdge 0 0 1, "a"); (mkGEdge 1 0 2, "a"); (mkGEdge 1 0 2, "b"); (mkGEdge 3 4 4, "a")].
Proof. vm_compute. intuition reflexivity. Qed.

(** C63: one edge can be put into two partitions, and is then listed twice. *)
Theorem C63_edge_in_two_partitions_refuted : exists e cs,
  let g := run (fun _ => "Vertex") (graph_new []) cs in
  (forall c, In c cs -> exists v, c = AddVertex v \/ exists n, c = AddEdge e n) /\
  edges g = [e; e] /\ map p_edges (partitions g) = [[e]; [e]].
Proof.
  exists (mkGEdge 0 0 1), [AddVertex 0; AddVertex 1; AddEdge (mkGEdge 0 0 1) "a"; AddEdge (mkGEdge 0 0 1) "b"].
  split; [|vm_compute; split; reflexivity].
  intros c [<-|[<-|[<-|[<-|[]]]]]; [exists 0 | exists 1 | exists 0 | exists 0]; eauto.
Qed.
Print Assumptions C63_edge_in_two_partitions_refuted.

(** C64: an edge of a vertex that was never added is accepted when its label is
    that of another vertex. *)
Theorem C64_unknown_vertex_accepted_refuted : exists labels cs e,
  let g := run (fun _ => "Vertex") (graph_new labels) cs in
  edges g = [e] /\ ~ In (g_pre e) (vertices g) /\ ~ In (AddVertex (g_pre e)) cs.
Proof.
  exists [(0, "pop"); (1, "pop")], [AddVertex 0; AddEdge (mkGEdge 0 1 0) "a"], (mkGEdge 0 1 0).
  split; [reflexivity|]. split; [vm_compute; intuition congruence | cbn; intuition congruence].
Qed.
Print Assumptions C64_unknown_vertex_accepted_refuted.
