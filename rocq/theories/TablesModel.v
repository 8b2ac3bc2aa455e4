(** Model of the routing table containers, of the compression driver and of the
    JSON form of routing tables.
    Sources:
    - pacman/model/routing_tables/uncompressed_multicast_routing_table.py
    - pacman/model/routing_tables/compressed_multicast_routing_table.py
    - pacman/model/routing_tables/multicast_routing_tables.py
    - pacman/operations/router_compressors/abstract_compressor.py 81-126 *)
From Coq Require Import String List Arith NArith ZArith Bool.
From Verif Require Import Base RouteSpec Json.
Import ListNotations.

(** A table: coordinates, entries in order, counter of defaultable entries. *)
Record table := mkTable { t_x : Z; t_y : Z; t_entries : list entry; t_ndef : nat }.

Definition empty_table (x y : Z) : table := mkTable x y [] 0.

Definition same_km (a b : entry) : bool :=
  (N.eqb (e_key a) (e_key b) && N.eqb (e_mask a) (e_mask b))%bool.

Section EntryEq.
  (** [MulticastRoutingEntry.__eq__] (spinn_machine). *)
  Variable entry_eq : entry -> entry -> bool.

  (** uncompressed_multicast_routing_table.py 71-93.  The dictionary from
      (key, mask) to entry is the list of entries in insertion order. *)
  Definition unc_add (t : table) (e : entry) : res table :=
    match find (same_km e) (t_entries t) with
    | Some old => if entry_eq old e then Ok t else Err AlreadyExists
    | None => Ok (mkTable (t_x t) (t_y t) (t_entries t ++ [e])
                    (if e_def e then S (t_ndef t) else t_ndef t))
    end.

  (** compressed_multicast_routing_table.py 61-69. *)
  Definition com_add (t : table) (e : entry) : table :=
    mkTable (t_x t) (t_y t) (t_entries t ++ [e]) (if e_def e then S (t_ndef t) else t_ndef t).

  (** uncompressed_multicast_routing_table.py 119-125 ([__eq__]): dictionaries
      are equal when they have the same size and each pair of one maps to an
      equal entry in the other. *)
  Definition dict_eq (a b : list entry) : bool :=
    (Nat.eqb (length a) (length b) &&
     forallb (fun e => match find (same_km e) b with
                       | Some e' => entry_eq e e' | None => false end) a)%bool.
  Definition unc_eq (a b : table) : bool :=
    if (negb (Z.eqb (t_x a) (t_x b)) && negb (Z.eqb (t_y a) (t_y b)))%bool then false
    else dict_eq (t_entries a) (t_entries b).

  (** compressed_multicast_routing_table.py 95-102 ([__eq__]); lists. *)
  Fixpoint list_eq (a b : list entry) : bool :=
    match a, b with
    | [], [] => true
    | x :: a', y :: b' => (entry_eq x y && list_eq a' b')%bool
    | _, _ => false
    end.
  Definition com_eq (a b : table) : bool :=
    if (negb (Z.eqb (t_x a) (t_x b)) && negb (Z.eqb (t_y a) (t_y b)))%bool then false
    else list_eq (t_entries a) (t_entries b).

  (** A history of additions to an uncompressed table; an addition that raises
      is reported to the caller, who may go on. *)
  Fixpoint unc_history (t : table) (es : list entry) : table * list (res unit) :=
    match es with
    | [] => (t, [])
    | e :: es' =>
        match unc_add t e with
        | Ok t' => let (t2, rs) := unc_history t' es' in (t2, Ok tt :: rs)
        | Err x => let (t2, rs) := unc_history t es' in (t2, Err x :: rs)
        end
    end.
End EntryEq.

(** multicast_routing_tables.py 59-75: [add_routing_table]. *)
Definition same_chip (a b : table) : bool :=
  (Z.eqb (t_x a) (t_x b) && Z.eqb (t_y a) (t_y b))%bool.
Definition add_table (ts : list table) (t : table) : res (list table) :=
  if existsb (same_chip t) ts then Err AlreadyExists else Ok (ts ++ [t]).

(** multicast_routing_tables.py 117-127: [get_routing_table_for_chip]. *)
Definition get_table (ts : list table) (x y : Z) : option table :=
  find (fun t => (Z.eqb (t_x t) x && Z.eqb (t_y t) y)%bool) ts.
(** multicast_routing_tables.py 86-115: the statistics. *)
Definition max_entries (ts : list table) : nat :=
  fold_left Nat.max (map (fun t => length (t_entries t)) ts) 0.
Definition total_entries (ts : list table) : nat :=
  fold_left Nat.add (map (fun t => length (t_entries t)) ts) 0.

(** abstract_compressor.py 81-126: [compress_tables].  [compress] is the
    subclass's [compress_table], [target] the number of entries available on a
    chip's router, [problems] the tables recorded in [_problems] (kept between
    calls on the same object). *)
Section Driver.
  Variable compress : table -> res (list entry).
  Variable target : Z -> Z -> nat.
  Variables as_needed ordered accept_overflow : bool.

  Fixpoint compress_loop (todo : list table) (done : list table) (problems : list (Z * Z * nat))
      : res (list table * list (Z * Z * nat)) :=
    match todo with
    | [] => Ok (done, problems)
    | t :: todo' =>
        if (as_needed && Nat.leb (length (t_entries t)) (target (t_x t) (t_y t)))%bool then
          let* done' := add_table done t in
          compress_loop todo' done' problems
        else
          let* es := compress t in
          let new := fold_left com_add es (empty_table (t_x t) (t_y t)) in
          let problems' :=
            if Nat.ltb (target (t_x t) (t_y t)) (length (t_entries new))
            then problems ++ [(t_x new, t_y new, length (t_entries new))] else problems in
          let* done' := add_table done new in
          compress_loop todo' done' problems'
    end.

  Definition compress_tables (ts : list table) (problems : list (Z * Z * nat))
      : res (list table) :=
    let* (done, ps) := compress_loop ts [] problems in
    match ps with
    | [] => Ok done
    | _ => if (ordered && negb accept_overflow)%bool then Err MinimisationFailed else Ok done
    end.
End Driver.

(** multicast_routing_tables.py 142-162: [to_json]. *)
Local Open Scope string_scope.
Definition entry_to_json (e : entry) : json :=
  JObj [ ("key", JInt (Z.of_N (e_key e))); ("mask", JInt (Z.of_N (e_mask e)));
         ("defaultable", JBool (e_def e)); ("spinnaker_route", JInt (Z.of_N (e_route e))) ].
Definition table_to_json (t : table) : json :=
  JObj [ ("x", JInt (t_x t)); ("y", JInt (t_y t));
         ("entries", JList (map entry_to_json (t_entries t))) ].
Definition tables_to_json (ts : list table) : json := JList (map table_to_json ts).

(** multicast_routing_tables.py 165-193: [from_json] on an already parsed value.
    The entry constructor rejects a key outside its mask (spinn_machine). *)
Definition entry_from_json (j : json) : res entry :=
  let* d := jget "defaultable" j in let* d := jbool d in
  let* r := jget "spinnaker_route" j in let* r := jint r in
  let* k := jget "key" j in let* k := jint k in
  let* m := jget "mask" j in let* m := jint m in
  if N.eqb (N.land (Z.to_N k) (Z.to_N m)) (Z.to_N k)
  then Ok (mkEntry (Z.to_N k) (Z.to_N m) (Z.to_N r) d) else Err InvalidParameter.

Section FromJson.
  Variable entry_eq : entry -> entry -> bool.
  Definition table_from_json (j : json) : res table :=
    let* x := jget "x" j in let* x := jint x in
    let* y := jget "y" j in let* y := jint y in
    let* es := jget "entries" j in let* es := jlist es in
    foldM (fun t je => let* e := entry_from_json je in unc_add entry_eq t e) (empty_table x y) es.
  (** The table is added to the collection before its entries are read; since
      the object is shared the result is the same unless an error is raised. *)
  Definition tables_from_json (j : json) : res (list table) :=
    let* js := jlist j in
    foldM (fun ts jt => let* t := table_from_json jt in add_table ts t) [] js.
End FromJson.
