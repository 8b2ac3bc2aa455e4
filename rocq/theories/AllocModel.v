(** Model of the zoned routing key allocator.
    Source: pacman/operations/routing_info_allocator_algorithms/
    zoned_routing_info_allocator.py, with pacman/model/routing_info/
    base_key_and_mask.py 30-43 and routing_info.py 37-51.
    Vertices and partition identifiers are numbers.  What the allocator asks of
    the graph objects is a record of functions; asking twice gives the same
    answer.  Logging and progress bars are left out. *)
From Coq Require Import List Arith NArith Bool.
From Verif Require Import Base Dict UtilModel.
Import ListNotations.
Local Open Scope N_scope.

(** An [AbstractVertex]: an application vertex or a machine vertex. *)
Inductive vertex := App (a : nat) | Mac (m : nat).
Definition vertex_eqb (x y : vertex) : bool :=
  match x, y with
  | App a, App b => Nat.eqb a b
  | Mac a, Mac b => Nat.eqb a b
  | _, _ => false
  end.

Record km := mkKM { km_key : N; km_mask : N }.

(** base_key_and_mask.py 30-43: the constructor. *)
Definition make_km (key mask : N) : res km :=
  if N.eqb (N.land key mask) key then Ok (mkKM key mask) else Err ConfigurationException.

Record graph_env := mkEnv {
  (** [pre.get_fixed_key_and_mask(identifier)] *)
  ae_app_fixed : nat -> nat -> option km;
  (** [pre.splitter.get_out_going_vertices(identifier)] *)
  ae_outgoing : nat -> nat -> list nat;
  (** [pre.get_machine_fixed_key_and_mask(vert, identifier)] *)
  ae_mac_fixed : nat -> nat -> nat -> option km;
  (** [m_vtx.get_n_keys_for_partition(identifier)] *)
  ae_n_keys : nat -> nat -> N;
  (** [x.vertex_slice.lo_atom] *)
  ae_lo_atom : nat -> N;
  (** [vertex.index] of a machine vertex *)
  ae_index : nat -> N;
  (** [len(vertex.machine_vertices)] of an application vertex *)
  ae_n_machine : nat -> N
}.

(** (application vertex, partition identifier). *)
Notation app_part := (nat * nat)%type (only parsing).
Definition ap_eqb : app_part -> app_part -> bool := pair_eqb Nat.eqb Nat.eqb.

(** [OrderedSet(...)] then [update(extra_allocations)], lines 139-142. *)
Definition ordered_set (l : list app_part) : list app_part :=
  fold_left (fun acc x => if existsb (ap_eqb x) acc then acc else acc ++ [x]) l [].

(** The dictionary [__fixed_partitions], keyed by (identifier, vertex). *)
Definition fixed_dict := list ((nat * vertex) * km).
Definition fk_eqb : nat * vertex -> nat * vertex -> bool := pair_eqb Nat.eqb vertex_eqb.

(** Lines 165-190: the loop over the outgoing machine vertices of one
    partition.  The state is the dictionary, the two flags and the Python
    variable [vert]. *)
Fixpoint find_fixed_inner (e : graph_env) (pre ident : nat) (app : option km)
    (verts : list nat) (fixed : fixed_dict) (is_fixed is_unfixed : bool) (vert : option nat)
    : res (fixed_dict * bool * option nat) :=
  match verts with
  | [] => Ok (fixed, is_fixed, vert)
  | v :: rest =>
      match ae_mac_fixed e pre v ident with
      | Some k =>
          if is_unfixed then Err RouteInfoAllocation
          else match app with
               | None => Err RouteInfoAllocation
               | Some a =>
                   if negb (N.eqb (N.land (km_key k) (km_mask a)) (km_key a))
                   then Err RouteInfoAllocation
                   else find_fixed_inner e pre ident app rest
                          (dset fk_eqb fixed (ident, Mac v) k) true is_unfixed (Some v)
               end
      | None =>
          if is_fixed then Err RouteInfoAllocation
          else find_fixed_inner e pre ident app rest fixed is_fixed true (Some v)
      end
  end.

(** Lines 153-204: [__find_fixed].  [vert] survives from one partition to the
    next, as Python's loop variable does. *)
Fixpoint find_fixed_loop (e : graph_env) (parts : list app_part)
    (fixed : fixed_dict) (all_fixed : bool) (vert : option nat) : res (fixed_dict * bool) :=
  match parts with
  | [] => Ok (fixed, all_fixed)
  | (pre, ident) :: rest =>
      let app := ae_app_fixed e pre ident in
      let outgoing := ae_outgoing e pre ident in
      let* (fixed, is_fixed, vert) :=
        find_fixed_inner e pre ident app outgoing fixed false false vert in
      match app with
      | None => find_fixed_loop e rest fixed false vert
      | Some a =>
          let* fixed :=
            if is_fixed then Ok fixed
            else if Nat.ltb 1 (length outgoing) then Err RouteInfoAllocation
            else match vert with
                 | None => Err UnboundLocal
                 | Some v => Ok (dset fk_eqb fixed (ident, Mac v) a)
                 end in
          find_fixed_loop e rest (dset fk_eqb fixed (ident, App pre) a) all_fixed vert
      end
  end.

Definition find_fixed (e : graph_env) (parts : list app_part) : res (fixed_dict * bool) :=
  find_fixed_loop e parts [] true None.

(** The zone sizes: [__n_bits_atoms], [__n_bits_machine],
    [__n_bits_atoms_and_mac] and the dictionary [__atom_bits_per_app_part]. *)
Record zones := mkZones {
  z_atoms : N; z_machine : N; z_atoms_mac : N;
  z_bits : list (app_part * N)
}.

(** Lines 206-242: [__calculate_zones]. *)
Definition max_keys (e : graph_env) (pre ident : nat) : N :=
  fold_left (fun acc m => N.max acc (ae_n_keys e m ident)) (ae_outgoing e pre ident) 0.

Definition zone_step (e : graph_env) (fixed : fixed_dict) (z : zones) (ap : app_part) : zones :=
  let (pre, ident) := ap in
  let mvs := ae_outgoing e pre ident in
  match mvs with
  | [] => z
  | _ =>
      let mk := max_keys e pre ident in
      if N.ltb 0 mk then
        let atom_bits := allocator_bits_needed mk in
        let z :=
          if negb (dmem fk_eqb fixed (ident, App pre)) then
            let machine_bits := allocator_bits_needed (N.of_nat (length mvs)) in
            mkZones (N.max (z_atoms z) atom_bits) (N.max (z_machine z) machine_bits)
                    (N.max (z_atoms_mac z) (machine_bits + atom_bits)) (z_bits z)
          else z in
        mkZones (z_atoms z) (z_machine z) (z_atoms_mac z)
                (dset ap_eqb (z_bits z) (pre, ident) atom_bits)
      else
        mkZones (z_atoms z) (z_machine z) (z_atoms_mac z)
                (dset ap_eqb (z_bits z) (pre, ident) 0)
  end.

Definition calculate_zones (e : graph_env) (fixed : fixed_dict) (parts : list app_part) : zones :=
  fold_left (zone_step e fixed) parts (mkZones 0 0 0 []).

(** Lines 281-313: [__set_fixed_used]; a Python set as a list without
    duplicates. *)
Definition key_range (k n : N) : list N := map (fun i => k + i) (nrange n).
Definition fixed_used_of (atoms_mac : N) (fixed : fixed_dict) : list N :=
  nodup N.eq_dec
    (flat_map
       (fun p =>
          let key := N.shiftr (km_key (snd p)) atoms_mac in
          let mask := N.lor (N.shiftr (km_mask (snd p)) atoms_mac)
                            (N.shiftl (N.shiftl 1 atoms_mac - 1) (32 - atoms_mac)) in
          flat_map (fun r => key_range (fst r) (snd r)) (get_key_ranges key mask))
       fixed).

(** Lines 244-279: [__check_zones]. *)
Definition check_zones (flexible : bool) (fixed : fixed_dict) (z : zones)
    : res (zones * list N) :=
  let n := N.of_nat (length (z_bits z)) in
  if N.ltb 32 (allocator_bits_needed n + z_atoms_mac z) then Err RouteInfoAllocation
  else
    let used := fixed_used_of (z_atoms_mac z) fixed in
    let app_part_bits := allocator_bits_needed (n + N.of_nat (length used)) in
    if N.ltb 32 (app_part_bits + z_atoms_mac z) then Err RouteInfoAllocation
    else if flexible then Ok (z, used)
    else if N.ltb 32 (app_part_bits + z_machine z + z_atoms z) then
      Ok (mkZones (32 - app_part_bits - z_machine z) (z_machine z) (32 - app_part_bits)
                  (z_bits z), used)
    else Ok (mkZones (z_atoms z) (z_machine z) (z_machine z + z_atoms z) (z_bits z), used).

(** Routing information: app_vertex_routing_info.py 40-56,
    machine_vertex_routing_info.py 37-48. *)
Inductive info_extra :=
| IMac (index : N)
| IApp (machine_mask n_bits_atoms max_machine_index : N).
Record info := mkInfo { i_vertex : vertex; i_part : nat; i_km : km; i_extra : info_extra }.

(** routing_info.py 37-51: [add_routing_info].  The nested dictionaries are one
    list in order of insertion. *)
Definition same_info (v : vertex) (p : nat) (i : info) : bool :=
  (vertex_eqb (i_vertex i) v && Nat.eqb (i_part i) p)%bool.
Definition add_info (infos : list info) (i : info) : res (list info) :=
  if existsb (same_info (i_vertex i) (i_part i)) infos then Err AlreadyExists
  else Ok (infos ++ [i]).

(** Lines 390-396: [__mask], on at most 32 bits (Python would go negative for a
    fixed partition asking for more than 2^32 keys). *)
Definition mask_of (bits : N) : N := 0xFFFFFFFF - (2 ^ bits - 1).

(** Lines 315-330: [__allocate_all_fixed]. *)
Definition allocate_all_fixed (e : graph_env) (z : zones) (fixed : fixed_dict) : res (list info) :=
  foldM (fun infos p =>
           match p with
           | ((ident, App a), k) =>
               let* nb := dgetE ap_eqb (z_bits z) (a, ident) in
               add_info infos (mkInfo (App a) ident k
                                 (IApp (mask_of nb) nb (ae_n_machine e a - 1)))
           | ((ident, Mac m), k) =>
               add_info infos (mkInfo (Mac m) ident k (IMac (ae_index e m)))
           end) [] fixed.

(** Stable sort by [lo_atom] (line 347). *)
Fixpoint insert_lo (e : graph_env) (m : nat) (l : list nat) : list nat :=
  match l with
  | [] => [m]
  | x :: l' => if N.leb (ae_lo_atom e m) (ae_lo_atom e x) then m :: l
               else x :: insert_lo e m l'
  end.
Definition sort_lo (e : graph_env) (l : list nat) : list nat := fold_right (insert_lo e) [] l.

(** Lines 337-339: [while app_part_index in self.__fixed_used]. *)
Fixpoint skip_used (fuel : nat) (used : list N) (idx : N) : res N :=
  match fuel with
  | O => Err OutOfFuel
  | S f => if existsb (N.eqb idx) used then skip_used f used (idx + 1) else Ok idx
  end.

(** Lines 348-358: field sizes for one partition.  [None] stands for a negative
    number of machine bits (shifting by it raises ValueError). *)
Definition field_sizes (flexible : bool) (z : zones) (bits : N) : N * option N :=
  let flex := if N.ltb (z_atoms_mac z) bits then None else Some (z_atoms_mac z - bits) in
  if flexible then (bits, flex)
  else if N.leb bits (z_atoms z) then (z_atoms z, Some (z_machine z))
  else (bits, flex).

(** Lines 360-373: the machine vertices of one partition. *)
Fixpoint alloc_machines (fixed : fixed_dict) (ident : nat) (idx nba : N) (nbm : option N)
    (mi : N) (mvs : list nat) (infos : list info) : res (list info) :=
  match mvs with
  | [] => Ok infos
  | m :: rest =>
      let* k :=
        match dget fk_eqb fixed (ident, Mac m) with
        | Some k => Ok k
        | None =>
            match nbm with
            | None => Err ValueError
            | Some nb =>
                make_km (N.shiftl (N.lor (N.shiftl idx nb) mi) nba) (mask_of nba)
            end
        end in
      let* infos := add_info infos (mkInfo (Mac m) ident k (IMac mi)) in
      alloc_machines fixed ident idx nba nbm (mi + 1) rest infos
  end.

(** Lines 332-388: [__allocate]. *)
Fixpoint allocate_loop (e : graph_env) (flexible : bool) (fixed : fixed_dict) (z : zones)
    (used : list N) (parts : list app_part) (idx : N) (infos : list info) : res (list info) :=
  match parts with
  | [] => Ok infos
  | (pre, ident) :: rest =>
      let* idx := skip_used (S (length used)) used idx in
      match ae_outgoing e pre ident with
      | [] => allocate_loop e flexible fixed z used rest idx infos
      | (_ :: _) as out =>
          let mvs := sort_lo e out in
          let* bits := dgetE ap_eqb (z_bits z) (pre, ident) in
          let (nba, nbm) := field_sizes flexible z bits in
          let* infos := alloc_machines fixed ident idx nba nbm 0 mvs infos in
          (** [n_bits_atoms + n_bits_machine]; when the latter is negative the
              sum is [__n_bits_atoms_and_mac]. *)
          let both := match nbm with Some nb => nba + nb | None => z_atoms_mac z end in
          let* k :=
            match dget fk_eqb fixed (ident, App pre) with
            | Some k => Ok k
            | None => make_km (N.shiftl idx both) (mask_of both)
            end in
          let* infos := add_info infos
            (mkInfo (App pre) ident k
               (IApp (mask_of nba) nba (N.of_nat (length mvs) - 1))) in
          allocate_loop e flexible fixed z used rest (idx + 1) infos
      end
  end.

(** Lines 126-151: [allocate] on a new allocator ([flexible_allocate] and
    [global_allocate], lines 399-425).  [parts] are the graph's partitions
    followed by the extra allocations. *)
Definition allocate (flexible : bool) (e : graph_env) (parts : list app_part) : res (list info) :=
  let vps := ordered_set parts in
  let* (fixed, all_fixed) := find_fixed e vps in
  let z := calculate_zones e fixed vps in
  let* (z, used) := check_zones flexible fixed z in
  if all_fixed then allocate_all_fixed e z fixed
  else allocate_loop e flexible fixed z used vps 0 [].
