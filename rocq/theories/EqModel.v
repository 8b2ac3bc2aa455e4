(** Model of equality and hashing of PACMAN's value classes: Slice and MDSlice
    (pacman/model/graphs/common/slice.py 176-190, mdslice.py 122-131),
    ChipAndCore (pacman/model/graphs/common/chip_and_core.py 75-84), Placement
    (pacman/model/placements/placement.py 114-124), BaseKeyAndMask
    (pacman/model/routing_info/base_key_and_mask.py 72-88), ReverseIPtagResource
    and IPtagResource (pacman/model/resources/reverse_iptag_resource.py 88-99,
    iptag_resource.py 121-137) and the two classes of routing tables
    (uncompressed_multicast_routing_table.py 119-129,
    compressed_multicast_routing_table.py 95-106), and of what Python does with
    them in "a == b", sets and dictionaries.

    Strings and vertices are numbers; a vertex is equal only to itself.  The hash
    of an integer, of a tuple and of an object's id are parameters. *)
From Coq Require Import List Arith NArith ZArith Bool.
From Verif Require Import Base RouteSpec SliceModel TablesModel TagsModel.
Import ListNotations.

(** An object: its identity and its contents. *)
Inductive value :=
| VSlice (s : slice)
| VChipCore (x y : Z) (p : option Z)
| VPlacement (v x y p : nat)
| VKeyMask (key mask : N)
| VReverse (r : revreq)
| VIPtag (r : ipreq)
| VUncompressed (t : table)
| VCompressed (t : table).
Record object := mkObject { o_id : nat; o_value : value }.

Definition opt_eqb {A} (eqb : A -> A -> bool) (a b : option A) : bool :=
  match a, b with Some x, Some y => eqb x y | None, None => true | _, _ => false end.
Fixpoint list_eqb {A} (eqb : A -> A -> bool) (a b : list A) : bool :=
  match a, b with
  | [], [] => true
  | x :: a', y :: b' => eqb x y && list_eqb eqb a' b'
  | _, _ => false
  end.

(** Slice.__eq__ (slice.py 176-186) called on any slice. *)
Definition slice_eq (a b : slice) : bool :=
  if negb (sl_lo a =? sl_lo b)%Z then false
  else if negb (list_eqb Z.eqb (sl_shape a) (sl_shape b)) then false
  else if negb (list_eqb Z.eqb (sl_start a) (sl_start b)) then false
  else (sl_n a =? sl_n b)%Z.

(** MDSlice.__eq__ (mdslice.py 122-127) called on an MDSlice [a]. *)
Definition mdslice_eq (a b : slice) : bool :=
  match sl_md a, sl_md b with
  | Some (_, _, sa), Some (_, _, sb) => slice_eq a b && list_eqb Z.eqb sa sb
  | _, _ => false
  end.

Section Equality.
  (** [MulticastRoutingEntry.__eq__] (spinn_machine). *)
  Variable entry_eq : entry -> entry -> bool.

  (** "a.__eq__(b)"; [None] when it raises AttributeError, as an IPtagResource
      does for an object without its attributes. *)
  Definition method_eq (a b : value) : option bool :=
    match a with
    | VSlice s =>
        match b with
        | VSlice t => Some (match sl_md s with Some _ => mdslice_eq s t | None => slice_eq s t end)
        | _ => Some false
        end
    | VChipCore x y p =>
        match b with
        | VChipCore x' y' p' => Some ((x =? x')%Z && (y =? y')%Z && opt_eqb Z.eqb p p')
        | _ => Some false
        end
    | VPlacement v x y p =>
        match b with
        | VPlacement v' x' y' p' =>
            Some (Nat.eqb x x' && Nat.eqb y y' && Nat.eqb p p' && Nat.eqb v v')
        | _ => Some false
        end
    | VKeyMask k m =>
        match b with
        | VKeyMask k' m' => Some (N.eqb k k' && N.eqb m m')
        | _ => Some false
        end
    | VReverse r =>
        match b with
        | VReverse r' =>
            Some (opt_eqb N.eqb (rq_port r) (rq_port r') && Nat.eqb (rq_sdp r) (rq_sdp r') &&
                  opt_eqb Nat.eqb (rq_tag r) (rq_tag r'))
        | _ => Some false
        end
    | VIPtag r =>
        match b with
        | VIPtag r' =>
            Some (Nat.eqb (iq_ip r) (iq_ip r') && opt_eqb N.eqb (iq_port r) (iq_port r') &&
                  Bool.eqb (iq_strip r) (iq_strip r') && opt_eqb Nat.eqb (iq_tag r) (iq_tag r') &&
                  Nat.eqb (iq_traffic r) (iq_traffic r'))
        | _ => None
        end
    | VUncompressed t =>
        match b with VUncompressed t' => Some (unc_eq entry_eq t t') | _ => Some false end
    | VCompressed t =>
        match b with VCompressed t' => Some (com_eq entry_eq t t') | _ => Some false end
    end.

  (** "a == b" (Python's data model): if the class of [b] is a subclass of that of
      [a] with its own [__eq__], as MDSlice is of Slice, then the method of [b] is
      called first, and no method here returns NotImplemented. *)
  Definition py_eq (a b : value) : option bool :=
    match a, b with
    | VSlice s, VSlice t =>
        match sl_md s, sl_md t with
        | None, Some _ => method_eq b a
        | _, _ => method_eq a b
        end
    | _, _ => method_eq a b
    end.

  (** The components of hashed tuples. *)
  Inductive item := IZ (z : Z) | INone | IBool (b : bool).
  Definition opt_item {A} (f : A -> Z) (o : option A) : item :=
    match o with Some a => IZ (f a) | None => INone end.

  Variable hash_int : Z -> Z.
  Variable hash_tuple : list item -> Z.
  (** [id] of an object as a hash. *)
  Variable hash_id : nat -> Z.

  (** "hash(o)". *)
  Definition hash (o : object) : Z :=
    match o_value o with
    | VSlice s => hash_int (sl_lo s)
    | VChipCore x y p => hash_tuple [IZ x; IZ y; opt_item (fun z => z) p]
    | VPlacement v x y p =>
        hash_tuple [IZ (Z.of_nat x); IZ (Z.of_nat y); IZ (Z.of_nat p); IZ (Z.of_nat v)]
    | VKeyMask k m => hash_int (Z.of_N (N.lxor k m))
    | VReverse r =>
        hash_tuple [opt_item Z.of_N (rq_port r); IZ (Z.of_nat (rq_sdp r)); opt_item Z.of_nat (rq_tag r)]
    | VIPtag r =>
        hash_tuple [IZ (Z.of_nat (iq_ip r)); opt_item Z.of_N (iq_port r); IBool (iq_strip r);
                    opt_item Z.of_nat (iq_tag r); IZ (Z.of_nat (iq_traffic r))]
    | VUncompressed _ | VCompressed _ => hash_id (o_id o)
    end.

  (** "o in s" for a set or dictionary [s] with these objects as elements or keys:
      an element of the same hash that is [o] or equal to it.  An exception of the
      comparison is passed on. *)
  Fixpoint set_mem (s : list object) (o : object) : option bool :=
    match s with
    | [] => Some false
    | e :: s' =>
        if (hash e =? hash o)%Z then
          if Nat.eqb (o_id e) (o_id o) then Some true
          else match py_eq (o_value e) (o_value o) with
               | Some true => Some true
               | Some false => set_mem s' o
               | None => None
               end
        else set_mem s' o
    end.

  (** "s.add(o)". *)
  Definition set_add (s : list object) (o : object) : option (list object) :=
    match set_mem s o with
    | Some true => Some s
    | Some false => Some (s ++ [o])
    | None => None
    end.

  Fixpoint set_of (s : list object) (os : list object) : option (list object) :=
    match os with
    | [] => Some s
    | o :: os' => match set_add s o with Some s' => set_of s' os' | None => None end
    end.
End Equality.
