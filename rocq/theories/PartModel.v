(** Model of the SDRAM edge partitions
    (pacman/model/graphs/machine/source_segmented_sdram_machine_partition.py,
    destination_segmented_sdram_machine_partition.py,
    constant_sdram_machine_partition.py) with their base classes
    abstract_edge_partition.py, abstract_single_source_partition.py and
    abstract_multiple_partition.py.

    Vertices are numbers.  An edge has an identity, its two vertices and its SDRAM
    size; all edges are SDRAMMachineEdge objects, so the type check of add_edge
    never fails.  The "sdram_base_address" attribute of the edges is kept in a
    dictionary of the partition.  Every method returns the new state together with
    its outcome, since some of them change state before they raise. *)
From Coq Require Import List ZArith Bool.
From Verif Require Import Base Dict.
Import ListNotations.
Local Open Scope Z_scope.

Record edge := mkEdge { e_id : nat; e_pre : nat; e_post : nat; e_size : Z }.
Definition edge_eqb (a b : edge) : bool := Nat.eqb (e_id a) (e_id b).
Definition edge_in (e : edge) (l : list edge) : bool := existsb (edge_eqb e) l.

(** total_sdram_requirements of both segmented partitions
    (source 44-48, destination 41-43). *)
Definition total_size (l : list edge) : Z := fold_left (fun a e => a + e_size e) l 0.

(** * SourceSegmentedSDRAMMachinePartition *)
Record src := mkSrc {
  s_edges : list edge;
  s_pre : list (nat * list edge);
  s_dest : list (nat * list edge);
  s_base : option Z;
  s_addr : list (nat * Z) }.

(** __init__ (source 33-42, multiple 38-53). *)
Definition src_new (pre_vertices : list nat) : res src :=
  let pre := fold_left (fun d v => dset Nat.eqb d v ([] : list edge)) pre_vertices [] in
  if Nat.eqb (length pre) (length pre_vertices)
  then Ok (mkSrc [] pre [] None [])
  else Err ConfigurationException.

(** add_edge (source 75-92, multiple 55-66, edge partition 55-71). *)
Definition src_add (s : src) (e : edge) : src * res unit :=
  if negb (match s_dest s with [] => true | _ => false end) && negb (dmem Nat.eqb (s_dest s) (e_post e))
  then (s, Err ConfigurationException)
  else
    match dget Nat.eqb (s_pre s) (e_pre e) with
    | None => (s, Err ConfigurationException)
    | Some (_ :: _) => (s, Err ConfigurationException)
    | Some [] =>
        if edge_in e (s_edges s) then (s, Err AlreadyExists)
        else
          let d := match dget Nat.eqb (s_dest s) (e_post e) with Some l => l | None => [] end in
          (mkSrc (s_edges s ++ [e])
                 (dset Nat.eqb (s_pre s) (e_pre e) [e])
                 (dset Nat.eqb (s_dest s) (e_post e) (d ++ [e]))
                 (s_base s) (s_addr s), Ok tt)
    end.

(** The loop of the sdram_base_address setter (source 69-73); "peek" gives an
    element of a set, here always the only one, and raises KeyError on an empty
    set. *)
Fixpoint src_assign (pre : list (nat * list edge)) (addr : list (nat * Z)) (a : Z)
  : res (list (nat * Z)) :=
  match pre with
  | [] => Ok addr
  | (_, e :: _) :: rest => src_assign rest (dset Nat.eqb addr (e_id e) a) (a + e_size e)
  | (_, []) :: _ => Err KeyError
  end.

(** sdram_base_address setter (source 60-73). *)
Definition src_set_base (s : src) (a : Z) : src * res unit :=
  if negb (Nat.eqb (length (s_pre s)) (length (s_edges s))) then (s, Err PartitionException)
  else
    match src_assign (s_pre s) (s_addr s) a with
    | Ok addr => (mkSrc (s_edges s) (s_pre s) (s_dest s) (Some a) addr, Ok tt)
    | Err x => (mkSrc (s_edges s) (s_pre s) (s_dest s) (Some a) (s_addr s), Err x)
    end.

(** get_sdram_base_address_for (source 103-114). *)
Definition src_base_for (s : src) (v : nat) : res Z :=
  match s_base s with
  | None => Err ValueError
  | Some b =>
      match dget Nat.eqb (s_pre s) v with
      | Some (e :: _) =>
          match dget Nat.eqb (s_addr s) (e_id e) with
          | Some a => Ok a
          | None => Err ValueError
          end
      | Some [] => Err KeyError
      | None => Ok b
      end
  end.

(** get_sdram_size_of_region_for (source 116-121). *)
Definition src_size_for (s : src) (v : nat) : res Z :=
  match dget Nat.eqb (s_pre s) v with
  | Some (e :: _) => Ok (e_size e)
  | Some [] => Err KeyError
  | None => Ok (total_size (s_edges s))
  end.

(** * DestinationSegmentedSDRAMMachinePartition *)
Record dst := mkDst {
  d_pre : nat;
  d_edges : list edge;
  d_base : option Z;
  d_addr : list (nat * Z) }.

Definition dst_new (pre : nat) : dst := mkDst pre [] None [].

(** add_edge (destination 63-76, single source 46-51, edge partition 55-71). *)
Definition dst_add (s : dst) (e : edge) : dst * res unit :=
  match d_base s with
  | Some _ => (s, Err ConfigurationException)
  | None =>
      if negb (Nat.eqb (d_pre s) (e_pre e)) then (s, Err ConfigurationException)
      else if edge_in e (d_edges s) then (s, Err AlreadyExists)
      else (mkDst (d_pre s) (d_edges s ++ [e]) (d_base s) (d_addr s), Ok tt)
  end.

(** The loop of the setter (destination 59-61). *)
Fixpoint dst_assign (l : list edge) (addr : list (nat * Z)) (a : Z) : list (nat * Z) :=
  match l with
  | [] => addr
  | e :: rest => dst_assign rest (dset Nat.eqb addr (e_id e) a) (a + e_size e)
  end.

(** sdram_base_address setter (destination 53-61). *)
Definition dst_set_base (s : dst) (a : Z) : dst * res unit :=
  match d_edges s with
  | [] => (s, Err PartitionException)
  | _ => (mkDst (d_pre s) (d_edges s) (Some a) (dst_assign (d_edges s) (d_addr s) a), Ok tt)
  end.

Fixpoint find_post (l : list edge) (v : nat) : option edge :=
  match l with
  | [] => None
  | e :: rest => if Nat.eqb (e_post e) v then Some e else find_post rest v
  end.

(** get_sdram_base_address_for (destination 78-86).  The address of an edge
    before the base is set is None; that case is a TypeError of the caller. *)
Definition dst_base_for (s : dst) (v : nat) : res Z :=
  match (if Nat.eqb (d_pre s) v then d_base s else None) with
  | Some b => Ok b
  | None =>
      match find_post (d_edges s) v with
      | Some e => match dget Nat.eqb (d_addr s) (e_id e) with Some a => Ok a | None => Err TypeError end
      | None => Err ValueError
      end
  end.

(** get_sdram_size_of_region_for (destination 88-95). *)
Definition dst_size_for (s : dst) (v : nat) : res Z :=
  if Nat.eqb (d_pre s) v then Ok (total_size (d_edges s))
  else match find_post (d_edges s) v with
       | Some e => Ok (e_size e)
       | None => Err ValueError
       end.

(** * ConstantSDRAMMachinePartition *)
Record con := mkCon {
  c_pre : nat;
  c_edges : list edge;
  c_size : option Z;
  c_base : option Z;
  c_addr : list (nat * Z) }.

Definition con_new (pre : nat) : con := mkCon pre [] None None [].

(** add_edge (constant 54-66, single source 46-51, edge partition 55-71): the
    size is recorded first, and the edge is added before its pre-vertex is
    checked. *)
Definition con_add (s : con) (e : edge) : con * res unit :=
  let go (s1 : con) :=
    match c_base s1 with
    | Some _ => (s1, Err ConfigurationException)
    | None =>
        if edge_in e (c_edges s1) then (s1, Err AlreadyExists)
        else
          let s2 := mkCon (c_pre s1) (c_edges s1 ++ [e]) (c_size s1) (c_base s1) (c_addr s1) in
          if Nat.eqb (e_pre e) (c_pre s1) then (s2, Ok tt) else (s2, Err ConfigurationException)
    end in
  match c_size s with
  | None => go (mkCon (c_pre s) (c_edges s) (Some (e_size e)) (c_base s) (c_addr s))
  | Some z => if z =? e_size e then go s else (s, Err InvalidParameter)
  end.

(** sdram_base_address setter (constant 84-90). *)
Definition con_set_base (s : con) (a : Z) : con * res unit :=
  match c_edges s with
  | [] => (s, Err PartitionException)
  | _ => (mkCon (c_pre s) (c_edges s) (c_size s) (Some a)
            (fold_left (fun d e => dset Nat.eqb d (e_id e) a) (c_edges s) (c_addr s)), Ok tt)
  end.

(** total_sdram_requirements (constant 71-75). *)
Definition con_total (s : con) : res Z :=
  match c_size s with Some z => Ok z | None => Err PartitionException end.

(** * Histories: calls in any order, going on after a call that raised. *)
Inductive call := Add (e : edge) | SetBase (a : Z).
Definition src_call (s : src) (c : call) : src :=
  fst (match c with Add e => src_add s e | SetBase a => src_set_base s a end).
Definition dst_call (s : dst) (c : call) : dst :=
  fst (match c with Add e => dst_add s e | SetBase a => dst_set_base s a end).
Definition con_call (s : con) (c : call) : con :=
  fst (match c with Add e => con_add s e | SetBase a => con_set_base s a end).
