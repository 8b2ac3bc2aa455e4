(** Model of the route validity checker and of the list of partitions it walks.
    Sources:
    - pacman/operations/multi_cast_router_check_functionality/valid_routes_checker.py
    - pacman/utilities/algorithm_utilities/routing_algorithm_utilities.py 27-62
    Left out: log messages, the texts of exceptions and the progress bar. *)
From Coq Require Import List Arith NArith ZArith Bool.
From Verif Require Import Base RouteSpec Dict TablesModel AllocModel GenModel TreeModel MachModel.
Import ListNotations.

(** A core: chip and processor ([PlacementTuple], 42-51). *)
Notation core := (xy * nat)%type (only parsing).
Definition core_eqb : core -> core -> bool := pair_eqb xy_eqb Nat.eqb.

(** [MulticastRoutingEntry.link_ids] and [processor_ids]: the set bits of the route. *)
Definition entry_links (e : entry) : list nat :=
  filter (fun l => N.testbit (e_route e) (N.of_nat l)) (seq 0 6).
Definition entry_procs (e : entry) : list nat :=
  filter (fun p => N.testbit (e_route e) (N.of_nat (6 + p)))
         (seq 0 (N.to_nat (N.size (e_route e)))).

(** Line 37: [range_masks]. *)
Definition full_mask : N := 4294967295.
Definition range_masks : list N := map (fun i => (full_mask - (2 ^ N.of_nat i - 1))%N) (seq 0 33).
Definition in_range_masks (m : N) : bool := existsb (N.eqb m) range_masks.

(** [e_key + (~entry.mask & FULL_MASK)]. *)
Definition entry_last_key (e : entry) : Z :=
  (Z.of_N (e_key e) + Z.land (Z.lnot (Z.of_N (e_mask e))) (Z.of_N full_mask))%Z.

(** Lines 384-428: [_locate_routing_entry]. *)
Fixpoint locate_loop (key : N) (n_atoms : nat) (found : option entry) (es : list entry) : res entry :=
  match es with
  | [] => match found with None => Err RoutingException | Some e => Ok e end
  | e :: rest =>
      if N.eqb (N.land (e_mask e) key) (e_key e) then
        let found' := match found with None => Some e | Some f => Some f end in
        if in_range_masks (e_mask e) then
          let last_atom := (Z.of_N key + Z.of_nat n_atoms - 1)%Z in
          if (entry_last_key e <? last_atom)%Z then Err RoutingException
          else locate_loop key n_atoms found' rest
        else locate_loop key n_atoms found' rest
      else if in_range_masks (e_mask e) then
        let last_atom := (Z.of_N key + Z.of_nat n_atoms)%Z in
        if (Z.min (entry_last_key e) last_atom - Z.max (Z.of_N (e_key e)) (Z.of_N key) + 1 >? 0)%Z
        then Err ConfigurationException
        else locate_loop key n_atoms found rest
      else locate_loop key n_atoms found rest
  end.
Definition locate_entry (t : table) (key : N) (n_atoms : nat) : res entry :=
  locate_loop key n_atoms None (t_entries t).

(** Lines 251-267: [_check_all_keys_hit_entry]. *)
Definition bad_keys (e : entry) (n_atoms : nat) (base : N) : list N :=
  filter (fun k => negb (N.eqb (N.land (e_mask e) k) (e_key e)))
         (map (fun i => (base + N.of_nat i)%N) (seq 0 n_atoms)).

(** What a trace has seen: visited routers, reached cores, routers that do not
    cover all keys. *)
Record trace_st := mkTrace {
  tr_visited : list xy;
  tr_reached : list core;
  tr_failed : list (xy * list N)
}.

Definition core_add (l : list core) (c : core) : list core :=
  if existsb (core_eqb c) l then l else l ++ [c].

(** Lines 365-381: [_is_dest]. *)
Definition is_dest (procs : list nat) (t : table) (st : trace_st) : trace_st :=
  mkTrace (tr_visited st)
    (fold_left (fun acc p => core_add acc ((t_x t, t_y t), p)) procs (tr_reached st))
    (tr_failed st).

Section Trace.
  (** [get_chip_at(x, y).router.get_link(id)]: the chip a link leads to. *)
  Variable link : xy -> nat -> option xy.
  Variable tables : list table.
  Variable key : N.
  Variable n_atoms : nat.

  (** Lines 271-362: [_recursive_trace_to_destinations] and
      [_check_visited_routers].  The fuel bounds the depth. *)
  Fixpoint trace (fuel : nat) (e : entry) (t : table) (c : xy) (st : trace_st) : res trace_st :=
    match fuel with
    | O => Err OutOfFuel
    | S fuel' =>
        match entry_links e, entry_procs e with
        | [], [] => Ok st
        | [], procs => Ok (is_dest procs t st)
        | links, procs =>
            let st0 := match procs with [] => st | _ => is_dest procs t st end in
            foldM (fun st l =>
              match link c l with
              | None => Ok st
              | Some c' =>
                  match get_table tables (fst c') (snd c') with
                  | None => Ok st
                  | Some t' =>
                      if existsb (xy_eqb c') (tr_visited st) then Err RoutingException
                      else
                        let visited := tr_visited st ++ [c'] in
                        let* e' := locate_entry t' key n_atoms in
                        let failed := match bad_keys e' n_atoms key with
                                      | [] => tr_failed st
                                      | bad => tr_failed st ++ [(c', bad)]
                                      end in
                        trace fuel' e' t' c' (mkTrace visited (tr_reached st) failed)
                  end
              end) st0 links
        end
    end.

  (** Lines 214-248: [_start_trace_via_routing_tables]. *)
  Definition start_trace (source : xy) : res trace_st :=
    match get_table tables (fst source) (snd source) with
    | None => Ok (mkTrace [] [] [])
    | Some t =>
        let* e := locate_entry t key n_atoms in
        trace (S (length tables)) e t source (mkTrace [source] [] [])
    end.

  (** Lines 130-211: [_search_route]. *)
  Definition search_route (source : xy) (dests : list core) : res unit :=
    let* st := start_trace source in
    let '(located, missed) :=
      fold_left (fun '(located, missed) d =>
                   if existsb (core_eqb d) located
                   then (filter (fun c => negb (core_eqb d c)) located, missed)
                   else (located, missed ++ [d])) dests (tr_reached st, []) in
    match missed, located, tr_failed st with
    | [], [], [] => Ok tt
    | _, _, _ => Err RoutingException
    end.
End Trace.

(** * All the partitions *)

(** An ApplicationEdgePartition: source vertex, identifier, targets of its edges. *)
Record vpart := mkVPart { vp_source : nat; vp_id : nat; vp_targets : list nat }.

(** What the checker asks of the graph, the splitters and the placements. *)
Record valid_env := mkVEnv {
  (** [PacmanDataView.iterate_partitions()] *)
  ve_parts : list vpart;
  (** the application vertices that have a splitter *)
  ve_vertices : list nat;
  (** [target.splitter.get_source_specific_in_coming_vertices(source, id)] *)
  ve_incoming : nat -> nat -> nat -> list (nat * list vertex);
  (** [source.splitter.get_out_going_vertices(id)] *)
  ve_outgoing : nat -> nat -> list nat;
  (** [source.splitter.get_internal_multicast_partitions()]: source, identifier, targets *)
  ve_internal : nat -> list (nat * nat * list nat);
  (** [PacmanDataView.get_placement_of_vertex] *)
  ve_place : nat -> res (xy * nat);
  (** [isinstance(m_vertex, AbstractVirtual)] *)
  ve_virtual : nat -> bool;
  (** [m_vertex.vertex_slice.n_atoms] *)
  ve_n_atoms : nat -> nat
}.

Section Validate.
  Variable env : valid_env.

  (** routing_algorithm_utilities.py 27-62: [get_app_partitions]. *)
  Definition get_app_partitions : list vpart :=
    fst (fold_left (fun acc v =>
           fold_left (fun '(parts, sources) '(_, ident, _) =>
              if existsb (pair_eqb Nat.eqb Nat.eqb (v, ident)) sources then (parts, sources)
              else (parts ++ [mkVPart v ident []], sources ++ [(v, ident)]))
             (ve_internal env v) acc)
         (ve_vertices env)
         (ve_parts env, map (fun p => (vp_source p, vp_id p)) (ve_parts env))).

  Notation dests := (list (nat * list (xy * nat))) (only parsing).

  (** [destinations[s].add(...)] on a defaultdict of OrderedSet. *)
  Definition dest_add (d : dests) (s : nat) (c : core) : dests :=
    dset Nat.eqb d s (core_add (match dget Nat.eqb d s with Some l => l | None => [] end) c).

  (** Lines 84-101: the destinations over the edges. *)
  Definition edge_dests (p : vpart) : res dests :=
    foldM (fun (d : dests) target =>
      foldM (fun (d : dests) '(tgt, srcs) =>
        let* place := ve_place env tgt in
        Ok (fold_left (fun (d : dests) src =>
              match src with
              | App a => fold_left (fun d s => dest_add d s place) (ve_outgoing env a (vp_id p)) d
              | Mac m => dest_add d m place
              end) srcs d))
        d (ve_incoming env target (vp_source p) (vp_id p))) [] (vp_targets p).

  Definition nat_add (l : list nat) (x : nat) : list nat :=
    if existsb (Nat.eqb x) l then l else l ++ [x].

  (** Lines 103-113: the sources, and the destinations over internal partitions. *)
  Definition internal_dests (p : vpart) (d : dests) : res (list nat * dests) :=
    foldM (fun '(out, d) '(pre, ident, posts) =>
      if Nat.eqb ident (vp_id p) then
        let* d' := foldM (fun d post =>
                     let* place := ve_place env post in Ok (dest_add d pre place)) d posts in
        Ok (nat_add out pre, d')
      else Ok (out, d))
      (fold_left nat_add (ve_outgoing env (vp_source p) (vp_id p)) [], d)
      (ve_internal env (vp_source p)).

  (** Lines 61-127: [validate_routes]. *)
  Definition validate_part (link : xy -> nat -> option xy) (tables : list table) (infos : list info)
      (p : vpart) : res unit :=
    let* d := edge_dests p in
    let* (out, d) := internal_dests p d in
    foldM (fun _ m =>
      if ve_virtual env m then Ok tt
      else
        let* (chip, _) := ve_place env m in
        let* i := get_info infos (Mac m) (vp_id p) in
        search_route link tables (km_key (i_km i)) (ve_n_atoms env m) chip
          (match dget Nat.eqb d m with Some l => l | None => [] end)) tt out.

  Definition validate_routes (link : xy -> nat -> option xy) (tables : list table) (infos : list info)
    : res unit :=
    foldM (fun _ p => validate_part link tables infos p) tt get_app_partitions.
End Validate.
