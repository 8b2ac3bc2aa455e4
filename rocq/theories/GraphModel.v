(** Model of ApplicationGraph (pacman/model/graphs/application/application_graph.py)
    with the labels of vertices (pacman/model/graphs/abstract_vertex.py) and the
    edge partitions of the graph (application_edge_partition.py,
    abstract_single_source_partition.py, abstract_edge_partition.py).

    Vertices and edges are objects, here numbers; [cls v] is the class name of
    vertex v.  Only objects of the right type are passed.  A label is None or a
    string.  add_incoming_edge of the post-vertex does nothing by default and is
    left out. *)
From Coq Require Import String Ascii List Arith Bool DecimalString.
From Verif Require Import Base Dict.
Import ListNotations.
Local Open Scope nat_scope.

Record gedge := mkGEdge { g_id : nat; g_pre : nat; g_post : nat }.

Record part := mkPart { p_name : string; p_edges : list gedge }.

Record graph := mkGraph {
  lab : list (nat * string);              (* label of each vertex, missing = None *)
  added : list nat;                       (* vertices with _added_to_graph *)
  by_label : list (string * nat);         (* _vertex_by_label *)
  count : nat;                            (* _unlabelled_vertex_count *)
  out : list (nat * list part);           (* _outgoing_edge_partitions_by_pre_vertex *)
  n_parts : nat }.                        (* _n_outgoing_edge_partitions *)

(** __init__ (42-48). *)
Definition graph_new (labels : list (nat * string)) : graph := mkGraph labels [] [] 0 [] 0.

Definition mem_nat (v : nat) (l : list nat) : bool := existsb (Nat.eqb v) l.

(** str of a number, as used by _label_postfix (252-254). *)
Definition dec (n : nat) : string := NilEmpty.string_of_uint (Nat.to_uint n).

(** AbstractVertex.set_label (abstract_vertex.py 51-63). *)
Definition set_label (g : graph) (v : nat) (l : string) : graph * res unit :=
  if mem_nat v (added g) then (g, Err ConfigurationException)
  else (mkGraph (dset Nat.eqb (lab g) v l) (added g) (by_label g) (count g) (out g) (n_parts g), Ok tt).

Definition bump (g : graph) : graph :=
  mkGraph (lab g) (added g) (by_label g) (S (count g)) (out g) (n_parts g).

(** The end of add_vertex (72-73). *)
Definition register (g : graph) (v : nat) (l : string) : graph :=
  mkGraph (lab g) (v :: added g) (dset String.eqb (by_label g) l v) (count g) (out g) (n_parts g).

Section Graph.
Variable cls : nat -> string.

(** add_vertex (50-73). *)
Definition add_vertex (g : graph) (v : nat) : graph * res unit :=
  let relabel (base : string) :=
    let g1 := bump g in
    let l := (base ++ dec (count g1))%string in
    match set_label g1 v l with
    | (g2, Ok _) => (register g2 v l, Ok tt)
    | (g2, Err e) => (g2, Err e)
    end in
  match dget Nat.eqb (lab g) v with
  | None => relabel (cls v ++ "_")%string
  | Some EmptyString => relabel (cls v ++ "_")%string
  | Some l =>
      match dget String.eqb (by_label g) l with
      | Some v' => if Nat.eqb v' v then (g, Err AlreadyExists) else relabel l
      | None => (register g v l, Ok tt)
      end
  end.

(** vertices (75-82), n_vertices (93-100), vertex_by_label (84-91). *)
Definition vertices (g : graph) : list nat := map snd (by_label g).
Definition n_vertices (g : graph) : nat := length (by_label g).
Definition vertex_by_label (g : graph) (l : string) : res nat := dgetE String.eqb (by_label g) l.

(** get_outgoing_edge_partitions_starting_at_vertex (209-219); the defaultdict
    keeps an empty set for a vertex that is asked about. *)
Definition starting_at (g : graph) (v : nat) : graph * list part :=
  match dget Nat.eqb (out g) v with
  | Some ps => (g, ps)
  | None => (mkGraph (lab g) (added g) (by_label g) (count g) (out g ++ [(v, [])]) (n_parts g), [])
  end.

(** get_outgoing_edge_partition_starting_at_vertex (221-243). *)
Fixpoint find_part (ps : list part) (name : string) : option part :=
  match ps with
  | [] => None
  | p :: rest => if String.eqb (p_name p) name then Some p else find_part rest name
  end.
Definition partition_at (g : graph) (v : nat) (name : string) : graph * option part :=
  let (g1, ps) := starting_at g v in (g1, find_part ps name).

Definition label_known (g : graph) (v : nat) : bool :=
  match dget Nat.eqb (lab g) v with
  | Some l => dmem String.eqb (by_label g) l
  | None => false
  end.

Definition has_edge (p : part) (e : gedge) : bool := existsb (fun x => Nat.eqb (g_id x) (g_id e)) (p_edges p).

Definition upd_part (ps : list part) (name : string) (p : part) : list part :=
  map (fun q => if String.eqb (p_name q) name then p else q) ps.

(** add_edge (102-132) with _check_edge (134-158), _add_outgoing_edge_partition
    (174-187) and the add_edge methods of the partition
    (application_edge_partition.py 43-46, abstract_single_source_partition.py 46-51,
    abstract_edge_partition.py 55-71).  The pre-vertex of the partition is that of
    the edge. *)
Definition add_edge (g : graph) (e : gedge) (name : string) : graph * res unit :=
  if negb (label_known g (g_pre e)) then (g, Err InvalidParameter)
  else if negb (label_known g (g_post e)) then (g, Err InvalidParameter)
  else
    let (g1, ps) := starting_at g (g_pre e) in
    match find_part ps name with
    | None =>
        (mkGraph (lab g1) (added g1) (by_label g1) (count g1)
           (dset Nat.eqb (out g1) (g_pre e) (ps ++ [mkPart name [e]])) (S (n_parts g1)), Ok tt)
    | Some p =>
        if has_edge p e then (g1, Err AlreadyExists)
        else (mkGraph (lab g1) (added g1) (by_label g1) (count g1)
                (dset Nat.eqb (out g1) (g_pre e)
                   (upd_part ps name (mkPart (p_name p) (p_edges p ++ [e])))) (n_parts g1), Ok tt)
    end.

(** outgoing_edge_partitions (189-198) and edges (160-172). *)
Definition partitions (g : graph) : list part := concat (map snd (out g)).
Definition edges (g : graph) : list gedge := concat (map p_edges (partitions g)).

(** A use of the graph. *)
Inductive gcall :=
| AddVertex (v : nat)
| SetLabel (v : nat) (l : string)
| AddEdge (e : gedge) (name : string)
| Starting (v : nat).

Definition step (g : graph) (c : gcall) : graph * res unit :=
  match c with
  | AddVertex v => add_vertex g v
  | SetLabel v l => set_label g v l
  | AddEdge e n => add_edge g e n
  | Starting v => (fst (starting_at g v), Ok tt)
  end.

Fixpoint run (g : graph) (cs : list gcall) : graph :=
  match cs with
  | [] => g
  | c :: rest => run (fst (step g c)) rest
  end.

(** The edges added without an error, with their identifiers. *)
Fixpoint accepted (g : graph) (cs : list gcall) : list (gedge * string) :=
  match cs with
  | [] => []
  | c :: rest =>
      let r := step g c in
      match c, snd r with
      | AddEdge e n, Ok _ => (e, n) :: accepted (fst r) rest
      | _, _ => accepted (fst r) rest
      end
  end.
End Graph.
