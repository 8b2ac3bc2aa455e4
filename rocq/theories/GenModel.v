(** Model of the routing table generators:
    - pacman/model/routing_info/app_vertex_routing_info.py 58-109
    - pacman/operations/routing_table_generators/basic_routing_table_generator.py
    - pacman/operations/routing_table_generators/merged_routing_table_generator.py
    Vertices, partitions and routing information are those of AllocModel, tables
    those of TablesModel. *)
From Coq Require Import List Arith NArith ZArith Bool.
From Verif Require Import Base Dict RouteSpec AllocModel TablesModel.
Import ListNotations.
Local Open Scope N_scope.

(** A [RoutingEntry] as far as it is read here. *)
Record rent := mkRent { re_route : N; re_def : bool }.
(** A machine entry to merge: the routing entry, its key and its machine index. *)
Record ment := mkMent { me_rent : rent; me_key : N; me_index : N }.
(** The arguments of a [MulticastRoutingEntry]. *)
Record out := mkOut { o_key : N; o_mask : N; o_rent : rent }.

(** * app_vertex_routing_info.py *)
(** Line 107: [i & -i]. *)
Definition low_bit (i : N) : N := Z.to_N (Z.land (Z.of_N i) (- Z.of_N i)).
(** Lines 99-108: [__n_sequential_entries]; the logarithm is exact. *)
Definition n_sequential (i n : N) : N := if N.ltb 0 i then low_bit i else 2 ^ N.log2_up n.
(** Lines 96-97: [__group_mask]. *)
Definition group_mask (machine_mask n_bits_atoms n : N) : N := machine_mask - N.shiftl (n - 1) n_bits_atoms.

(** Lines 87-94: the inner loop; [rest] is [entries[i:]]. *)
Fixpoint break_down (fuel : nat) (mm b : N) (rest : list ment) : res (list out) :=
  match rest with
  | [] => Ok []
  | e :: _ =>
      match fuel with
      | O => Err OutOfFuel
      | S f =>
          let next := 2 ^ N.log2 (N.of_nat (length rest)) in
          let* outs := break_down f mm b (skipn (N.to_nat next) rest) in
          Ok (mkOut (me_key e) (group_mask mm b next) (me_rent e) :: outs)
      end
  end.

(** Lines 70-94: the outer loop. *)
Fixpoint merge_loop (fuel : nat) (mm b : N) (is_last : bool) (n : N) (rest : list ment) : res (list out) :=
  match rest with
  | [] => Ok []
  | e :: _ =>
      match fuel with
      | O => Err OutOfFuel
      | S f =>
          let next := n_sequential (me_index e) n in
          if (N.leb next (N.of_nat (length rest)) || is_last)%bool then
            let* outs := merge_loop f mm b is_last n (skipn (N.to_nat next) rest) in
            Ok (mkOut (me_key e) (group_mask mm b next) (me_rent e) :: outs)
          else break_down (length rest) mm b rest
      end
  end.

(** Lines 58-94: [merge_machine_entries]; [entries[-1]] of no entries raises. *)
Definition merge_machine_entries (mm b max_index : N) (entries : list ment) : res (list out) :=
  match rev entries with
  | [] => Err IndexError
  | l :: _ =>
      merge_loop (length entries) mm b (N.eqb (me_index l) max_index) (N.of_nat (length entries)) entries
  end.

(** * The generators *)
Notation source := (vertex * nat)%type (only parsing).
Definition source_eqb : source -> source -> bool := pair_eqb vertex_eqb Nat.eqb.
Definition km_eqb (a b : km) : bool := (N.eqb (km_key a) (km_key b) && N.eqb (km_mask a) (km_mask b))%bool.

(** routing_info.py 75-89: [get_info_from]. *)
Definition get_info (infos : list info) (v : vertex) (p : nat) : res info :=
  match find (same_info v p) infos with Some i => Ok i | None => Err KeyError end.

(** The dictionary [sources_by_key_mask]: basic 61-70, merged 65-76. *)
Definition note_source (seen : list (km * source)) (k : km) (s : source) : res (list (km * source)) :=
  match dget km_eqb seen k with
  | Some s' => if source_eqb s' s then Ok seen else Err KeyError
  | None => Ok (dset km_eqb seen k s)
  end.

Section Generators.
  (** [MulticastRoutingEntry.__eq__] (spinn_machine). *)
  Variable entry_eq : entry -> entry -> bool.
  Variable infos : list info.
  (** [MachineVertex.app_vertex]. *)
  Variable app_of : nat -> option nat.

  (** The constructor of [MulticastRoutingEntry] checks the key; then
      [add_multicast_routing_entry]. *)
  Definition add_out (t : table) (o : out) : res table :=
    if N.eqb (N.land (o_key o) (o_mask o)) (o_key o)
    then unc_add entry_eq t (mkEntry (o_key o) (o_mask o) (re_route (o_rent o)) (re_def (o_rent o)))
    else Err InvalidParameter.

  (** basic_routing_table_generator.py 56-75. *)
  Fixpoint basic_loop (items : list (source * rent)) (seen : list (km * source)) (t : table) : res table :=
    match items with
    | [] => Ok t
    | ((v, p), en) :: rest =>
        let* i := get_info infos v p in
        let* seen := note_source seen (i_km i) (v, p) in
        let* t := add_out t (mkOut (km_key (i_km i)) (km_mask (i_km i)) en) in
        basic_loop rest seen t
    end.
  Definition basic_table (x y : Z) (items : list (source * rent)) : res table :=
    basic_loop items [] (empty_table x y).

  (** merged_routing_table_generator.py 149-160: [__mask_has_holes]. *)
  Definition mask_has_holes (mask : N) : bool :=
    let inv := N.ldiff 0xFFFFFFFF mask + 1 in
    negb (N.eqb (N.land inv (inv - 1)) 0).

  Definition opt_eqb (a b : option nat) : bool :=
    match a, b with Some x, Some y => Nat.eqb x y | None, None => true | _, _ => false end.

  (** merged_routing_table_generator.py 98-110 with [__match] 125-146: the entries
      that join the group, and what is left. [app] is [vertex.app_vertex]. *)
  Fixpoint scan_group (mm : N) (app : option nat) (p : nat) (k : km) (index : N) (en : rent)
      (rest : list (source * rent)) : res (list ment * list (source * rent)) :=
    match rest with
    | [] => Ok ([], [])
    | ((v', p'), en') :: rest' =>
        if negb (N.eqb (km_mask k) mm) then Ok ([], rest)
        else match v' with
             | App _ => Ok ([], rest)
             | Mac m' =>
                 if negb (Nat.eqb p p') then Ok ([], rest)
                 else if mask_has_holes (km_mask k) then Ok ([], rest)
                 else
                   let* i' := get_info infos v' p' in
                   match i_extra i' with
                   | IApp _ _ _ => Err AssertionError
                   | IMac index' =>
                       if negb (N.eqb index' (index + 1)) then Ok ([], rest)
                       else if (opt_eqb (app_of m') app && N.eqb (re_route en) (re_route en'))%bool then
                         let* (g, lft) := scan_group mm app p (i_km i') index' en' rest' in
                         Ok (mkMent en' (km_key (i_km i')) index' :: g, lft)
                       else Ok ([], rest)
                   end
             end
    end.

  (** merged_routing_table_generator.py 163-173: [__merged_keys_and_masks]. *)
  Definition merged_keys_and_masks (mm b max_index mask : N) (entries : list ment) : res (list out) :=
    match entries with
    | [] => Ok []
    | [e] => Ok [mkOut (me_key e) mask (me_rent e)]
    | _ => merge_machine_entries mm b max_index entries
    end.

  (** merged_routing_table_generator.py 52-122: [__create_routing_table]. *)
  Fixpoint merged_loop (fuel : nat) (items : list (source * rent)) (seen : list (km * source)) (t : table) : res table :=
    match items with
    | [] => Ok t
    | ((v, p), en) :: rest =>
        match fuel with
        | O => Err OutOfFuel
        | S f =>
            let* i := get_info infos v p in
            let k := i_km i in
            let* seen := note_source seen k (v, p) in
            let single := mkOut (km_key k) (km_mask k) en in
            match v with
            | App _ => let* t := add_out t single in merged_loop f rest seen t
            | Mac m =>
                match i_extra i with
                | IApp _ _ _ => Err AssertionError
                | IMac index =>
                    match app_of m with
                    | None => let* t := add_out t single in merged_loop f rest seen t
                    | Some a =>
                        let* ai := get_info infos (App a) p in
                        match i_extra ai with
                        | IMac _ => Err AssertionError
                        | IApp mm b mx =>
                            let* (g, lft) := scan_group mm (Some a) p k index en rest in
                            let* outs := merged_keys_and_masks mm b mx (km_mask k) (mkMent en (km_key k) index :: g) in
                            let* t := foldM add_out t outs in
                            merged_loop f lft seen t
                        end
                    end
                end
            end
        end
    end.
  Definition merged_table (x y : Z) (items : list (source * rent)) : res table :=
    merged_loop (length items) items [] (empty_table x y).

  (** basic 25-44, merged 29-48: one table for each router of the table by
      partition, given in order. *)
  Definition generate (make : Z -> Z -> list (source * rent) -> res table)
      (routers : list ((Z * Z) * list (source * rent))) : res (list table) :=
    foldM (fun ts r => let* t := make (fst (fst r)) (snd (fst r)) (snd r) in add_table ts t) [] routers.
End Generators.
