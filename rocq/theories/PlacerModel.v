(** Model of the placer (pacman/operations/placer_algorithms/application_placer.py).

    Vertices are numbers; a chip is a record with its coordinates, in place of the
    Chip object.  The Placements object is that of [PlacementsModel], and the SDRAM
    costs are those of [SdramModel]: constant, variable, shared and multi-region
    costs, added up with "+" and counted with [get_total_sdram].  Sets of chips are
    lists.  The order in which Python iterates over a set of cores is a parameter.  The error report
    (_place_error) and the drawings are left out; a failing call returns the
    exception only. *)
From Coq Require Import List Arith ZArith Bool.
From Verif Require Import Base Dict PlacementsModel SdramModel.
Import ListNotations.
Local Open Scope nat_scope.

(** spinn_machine.Chip: coordinates, placable_processors_ids, sdram, nearest
    Ethernet chip and the destinations of "router.links". *)
Record chip := mkChip {
  c_xy : xy;
  c_procs : list nat;
  c_sdram : Z;
  c_eth : xy;
  c_links : list xy }.

(** The machine: width, height and get_chip_at. *)
Record machine := mkMachine {
  m_width : nat;
  m_height : nat;
  m_chip : xy -> option chip }.

(** A fixed location: x, y and perhaps p (chip_and_core.py). *)
Definition loc := (nat * nat * option nat)%type.

(** What the placer reads: the machine, the version's limits and the monitors
    (lines 110-122) with the planned number of timesteps ([None] when the run has no
    end; the SDRAM of the monitors is already counted for it), and of each machine vertex whether it is virtual, its own fixed
    location and that of its application vertex, and its sdram_required. *)
Record penv := mkPenv {
  pe_machine : machine;
  pe_steps : option Z;
  pe_chip_sdram : Z;
  pe_monitor_sdram : Z;
  pe_chip_cores : Z;
  pe_scamp_cores : Z;
  pe_monitor_cores : Z;
  pe_virtual : nat -> bool;
  pe_own_loc : nat -> option loc;
  pe_app_loc : nat -> option loc;
  pe_sdram : nat -> sdram;
  pe_set_order : list nat -> list nat }.

(** An application vertex: its fixed location, machine vertices and the result of
    get_same_chip_groups of its splitter. *)
Record appv := mkApp {
  a_loc : option loc;
  a_vertices : list nat;
  a_groups : list (list nat * sdram) }.

(** MachineVertex.get_fixed_location (machine_vertex.py 160-172). *)
Definition get_fixed (e : penv) (v : nat) : option loc :=
  match pe_own_loc e v with Some l => Some l | None => pe_app_loc e v end.

(** ApplicationVertex.has_fixed_location (application_vertex.py 444-458). *)
Definition has_fixed (e : penv) (a : appv) : bool :=
  match a_loc a with
  | Some _ => true
  | None => existsb (fun v => match get_fixed e v with Some _ => true | None => false end) (a_vertices a)
  end.

(** Lines 110-122: __max_sdram, __max_cores and __cap_sdram. *)
Definition max_sdram (e : penv) : Z := pe_chip_sdram e - pe_monitor_sdram e.
Definition max_cores (e : penv) : Z := pe_chip_cores e - pe_scamp_cores e - pe_monitor_cores e.
Definition cap_sdram (e : penv) : Z := max_sdram e - max_sdram e / max_cores e.

(** The attributes of the placer (lines 59-101). *)
Record st := mkSt {
  s_pls : placements;
  s_chips : list chip;
  s_full : list chip;
  s_prep : list chip;
  s_rest : list chip;
  s_tried : list chip;
  s_cur : option chip;
  s_free : list nat;
  s_used : sdram;
  s_eth : xy;
  s_same : list chip;
  s_other : list chip }.

Definition same_chip (a b : chip) : bool := xy_eqb (c_xy a) (c_xy b).
Definition chip_mem (c : chip) (l : list chip) : bool := existsb (same_chip c) l.
(** "set.add" and "dict[c] = c". *)
Definition chip_add (c : chip) (l : list chip) : list chip :=
  if chip_mem c l then l else l ++ [c].

(** Setting attributes. *)
Definition set_pls (s : st) p := mkSt p (s_chips s) (s_full s) (s_prep s) (s_rest s) (s_tried s)
  (s_cur s) (s_free s) (s_used s) (s_eth s) (s_same s) (s_other s).
Definition set_full (s : st) f := mkSt (s_pls s) (s_chips s) f (s_prep s) (s_rest s) (s_tried s)
  (s_cur s) (s_free s) (s_used s) (s_eth s) (s_same s) (s_other s).
Definition set_prep (s : st) p := mkSt (s_pls s) (s_chips s) (s_full s) p (s_rest s) (s_tried s)
  (s_cur s) (s_free s) (s_used s) (s_eth s) (s_same s) (s_other s).
Definition set_starts (s : st) ch r t := mkSt (s_pls s) ch (s_full s) (s_prep s) r t
  (s_cur s) (s_free s) (s_used s) (s_eth s) (s_same s) (s_other s).
Definition set_current (s : st) c f u := mkSt (s_pls s) (s_chips s) (s_full s) (s_prep s) (s_rest s)
  (s_tried s) c f u (s_eth s) (s_same s) (s_other s).
Definition set_neighbours (s : st) e sm o := mkSt (s_pls s) (s_chips s) (s_full s) (s_prep s) (s_rest s)
  (s_tried s) (s_cur s) (s_free s) (s_used s) e sm o.

(** Lines 438-448: _chip_order. *)
Definition chip_order (m : machine) : list chip :=
  flat_map (fun x => flat_map (fun y =>
    match m_chip m (x, y) with Some c => [c] | None => [] end) (seq 0 (m_height m)))
    (seq 0 (m_width m)).

(** Lines 103-139: __init__; -1 of the Ethernet coordinates is replaced by 0, it is
    set before it is read. *)
Definition init_placer (e : penv) (p : placements) : res st :=
  if Z.eqb (max_cores e) 0 then Err ZeroDivision
  else Ok (mkSt p (chip_order (pe_machine e)) [] [] [] [] None [] (Const 0) (0, 0) [] []).

(** placements_on_chip. *)
Definition on_chip (p : placements) (c : xy) : placements * list placement :=
  let '(p', d) := touch c p in (p', map snd d).

Definition is_placed (p : placements) (v : nat) : bool := dmem Nat.eqb (ps_verts p) v.

(** Lines 257-279: _filter_vertices. *)
Definition filter_vertices (e : penv) (p : placements) (vs : list nat) : res (list nat) :=
  let to_place := filter (fun v => negb (is_placed p v)) vs in
  if negb (Nat.eqb (length to_place) (length vs)) && Nat.ltb 0 (length to_place)
  then Err NotImplemented
  else Ok (filter (fun v => negb (pe_virtual e v)) to_place).

(** Lines 671-686: _add_neighbours. *)
Definition add_neighbour (e : penv) (s : st) (d : xy) : res st :=
  match m_chip (pe_machine e) d with
  | None => Err KeyError
  | Some t =>
      if chip_mem t (s_full s) || chip_mem t (s_prep s) then Ok s
      else if xy_eqb (c_eth t) (s_eth s)
      then Ok (set_neighbours s (s_eth s) (chip_add t (s_same s)) (s_other s))
      else Ok (set_neighbours s (s_eth s) (s_same s) (chip_add t (s_other s)))
  end.
Definition add_neighbours (e : penv) (s : st) (c : chip) : res st :=
  foldM (add_neighbour e) s (c_links c).

(** Lines 517-560: _check_could_fit. *)
Definition check_could_fit (e : penv) (n : nat) (q : sdram) : res unit :=
  let* plan := total (pe_steps e) q in
  if Z.leb plan (max_sdram e) && Z.leb (Z.of_nat n) (max_cores e) then Ok tt
  else Err TooBig.

(** "cores_free.remove(p)". *)
Fixpoint remove_core (p : nat) (l : list nat) : res (list nat) :=
  match l with
  | [] => Err ValueError
  | q :: r => if Nat.eqb q p then Ok r else let* r' := remove_core p r in Ok (q :: r')
  end.

Definition take_core (e : penv) (acc : list nat * sdram) (pl : placement) : res (list nat * sdram) :=
  let* f := remove_core (pl_p pl) (fst acc) in
  let* u := add (snd acc) (pe_sdram e (pl_v pl)) in
  Ok (f, u).

(** Lines 450-515: _space_on_chip. *)
Definition space_on_chip (e : penv) (s0 : st) (c : chip) (n : nat) (q : sdram) : res (st * bool) :=
  let '(p', pls) := on_chip (s_pls s0) (c_xy c) in
  let s := set_pls s0 p' in
  if Nat.eqb (length pls) (length (c_procs c))
  then Ok (set_full s (chip_add c (s_full s)), false)
  else
    let* (free, used) := foldM (take_core e) (c_procs c, Const 0) pls in
    let* plan := total (pe_steps e) used in
    if Z.ltb (cap_sdram e) plan
    then Ok (set_full s (chip_add c (s_full s)), false)
    else
      let s := set_prep s (chip_add c (s_prep s)) in
      let* both := add used q in
      let* plan := total (pe_steps e) both in
      if Nat.ltb (length free) n || Z.ltb (c_sdram c) plan
      then let* _ := check_could_fit e n q in Ok (s, false)
      else
        let* s := add_neighbours e (set_current s (Some c) free both) c in
        Ok (s, true).

(** Lines 594-618: _pop_start_chip; [None] when there are no more chips. *)
Fixpoint pop_until (full : list chip) (l : list chip) : option (chip * list chip) :=
  match l with
  | [] => None
  | c :: r => if chip_mem c full then pop_until full r else Some (c, r)
  end.
Definition pop_start (s : st) : res (st * chip) :=
  match pop_until (s_full s) (s_rest s) with
  | Some (c, r) => Ok (set_starts s (s_chips s) r (s_tried s), c)
  | None =>
      match pop_until (s_full s) (s_chips s) with
      | Some (c, r) => Ok (set_starts s r [] (s_tried s), c)
      | None => Err NoSpace
      end
  end.

(** Lines 562-592: _get_next_start. *)
Fixpoint start_loop (fuel : nat) (e : penv) (s : st) (n : nat) (q : sdram) : res (st * chip) :=
  match fuel with
  | O => Err OutOfFuel
  | S k =>
      let* (s, c) := pop_start s in
      let s := set_starts s (s_chips s) (s_rest s) (s_tried s ++ [c]) in
      let s := set_neighbours s (c_eth c) (s_same s) (s_other s) in
      let* (s, ok) := space_on_chip e s c n q in
      if ok then Ok (s, c) else start_loop k e s n q
  end.
Definition get_next_start (e : penv) (s : st) (n : nat) (q : sdram) : res (st * chip) :=
  start_loop (S (length (s_rest s) + length (s_chips s))) e
    (set_neighbours s (s_eth s) [] []) n q.

(** Lines 688-715: _pop_neighbour. *)
Definition pop_neighbour (s : st) : st * option chip :=
  match s_same s with
  | c :: r => (set_neighbours s (s_eth s) r (s_other s), Some c)
  | [] =>
      match s_other s with
      | c :: r =>
          (set_neighbours s (c_eth c)
             (filter (fun d => xy_eqb (c_eth d) (c_eth c)) r)
             (filter (fun d => negb (xy_eqb (c_eth d) (c_eth c))) r), Some c)
      | [] => (s, None)
      end
  end.

(** Lines 620-641: _get_next_neighbour. *)
Fixpoint neighbour_loop (fuel : nat) (e : penv) (s : st) (n : nat) (q : sdram)
  : res (st * option chip) :=
  match fuel with
  | O => Err OutOfFuel
  | S k =>
      match pop_neighbour s with
      | (s, None) => Ok (s, None)
      | (s, Some c) =>
          let* (s, ok) := space_on_chip e s c n q in
          if ok then Ok (s, Some c) else neighbour_loop k e s n q
      end
  end.
Definition get_next_neighbour (e : penv) (s : st) (n : nat) (q : sdram) : res (st * option chip) :=
  neighbour_loop (S (length (s_same s) + length (s_other s))) e s n q.

(** Lines 643-669: _get_next_chip_with_space. *)
Definition next_chip (e : penv) (s : st) (n : nat) (q : sdram) : res (st * option chip) :=
  match s_cur s with
  | None => let* (s, c) := get_next_start e s n q in Ok (s, Some c)
  | Some c =>
      let* both := add q (s_used s) in
      let* plan := total (pe_steps e) both in
      if Nat.leb n (length (s_free s)) && Z.leb plan (c_sdram c)
      then Ok (set_current s (Some c) (s_free s) both, Some c)
      else get_next_neighbour e s n q
  end.

(** Lines 250-254: a core for each vertex; pop(0) of an empty list is an
    IndexError. *)
Fixpoint take_cores (c : chip) (free : list nat) (vs : list nat) : res (list nat * list placement) :=
  match vs with
  | [] => Ok (free, [])
  | v :: r =>
      match free with
      | [] => Err IndexError
      | p :: free' =>
          let* (f, l) := take_cores c free' r in
          Ok (f, mkPl v (fst (c_xy c)) (snd (c_xy c)) p :: l)
      end
  end.

(** Lines 236-255: the loop of _prepare_placements. *)
Fixpoint prepare_loop (e : penv) (s : st) (made : list placement) (gs : list (list nat * sdram))
  : res (st * option (list placement)) :=
  match gs with
  | [] => Ok (s, Some made)
  | (vs, q) :: rest =>
      let* todo := filter_vertices e (s_pls s) vs in
      match todo with
      | [] => prepare_loop e s made rest
      | _ =>
          let* (s, c) := next_chip e s (length todo) q in
          match c with
          | None => Ok (s, None)
          | Some c =>
              let* (free, l) := take_cores c (s_free s) vs in
              prepare_loop e (set_current s (s_cur s) free (s_used s)) (made ++ l) rest
          end
      end
  end.

(** Lines 209-255: _prepare_placements. *)
Definition prepare (e : penv) (s : st) (gs : list (list nat * sdram)) : res (st * option (list placement)) :=
  prepare_loop e (set_current (set_prep s []) None (s_free s) (s_used s)) [] gs.

(** Lines 200-204: prepare with one start after the other. *)
Fixpoint place_loop (fuel : nat) (e : penv) (s : st) (gs : list (list nat * sdram))
  : res (st * list placement) :=
  match fuel with
  | O => Err OutOfFuel
  | S k =>
      let* (s, r) := prepare e s gs in
      match r with
      | Some l => Ok (s, l)
      | None => place_loop k e s gs
      end
  end.

Definition lift_add (r : placements * res unit) : res placements :=
  match r with (p, Ok _) => Ok p | (_, Err e) => Err e end.

(** Lines 179-207: _place_vertex. *)
Definition place_vertex (e : penv) (s : st) (a : appv) : res st :=
  match a_groups a with
  | [] => Ok s
  | gs =>
      let s := set_starts s (s_chips s) (s_rest s ++ s_tried s) [] in
      let* (s, l) := place_loop (S (length (s_rest s) + length (s_chips s))) e s gs in
      let* p := lift_add (add_placements (s_pls s) l) in
      Ok (set_pls s p)
  end.

(** "p not in iterator": the iterator is run up to p, or to its end. *)
Fixpoint it_find (p : nat) (l : list nat) : option (list nat) :=
  match l with
  | [] => None
  | q :: r => if Nat.eqb q p then Some r else it_find p r
  end.

(** Lines 413-427: the vertices with a fixed processor. *)
Definition fixed_core (e : penv) (x y : nat) (acc : placements * list nat) (v : nat)
  : res (placements * list nat) :=
  let '(p, it) := acc in
  match get_fixed e v with
  | Some (_, _, Some q) =>
      match it_find q it with
      | None => Err ConfigurationException
      | Some it' => let* p' := lift_add (add_placement p (mkPl v x y q)) in Ok (p', it')
      end
  | _ => Ok acc
  end.

(** Lines 428-436: the others. *)
Definition free_core (e : penv) (x y : nat) (acc : placements * list nat) (v : nat)
  : res (placements * list nat) :=
  let '(p, it) := acc in
  match get_fixed e v with
  | Some (_, _, Some q) => Ok acc
  | _ =>
      match it with
      | [] => Err ConfigurationException
      | q :: it' => let* p' := lift_add (add_placement p (mkPl v x y q)) in Ok (p', it')
      end
  end.

(** Lines 386-436: _do_fixed_location. *)
Fixpoint first_fixed (e : penv) (vs : list nat) : option loc :=
  match vs with
  | [] => None
  | v :: r => match get_fixed e v with Some l => Some l | None => first_fixed e r end
  end.
Definition do_fixed (e : penv) (p : placements) (vs : list nat) : res placements :=
  match first_fixed e vs with
  | None => Err NotImplemented
  | Some (x, y, _) =>
      match m_chip (pe_machine e) (x, y) with
      | None => Err ConfigurationException
      | Some c =>
          let '(p, pls) := on_chip p (x, y) in
          let cores := pe_set_order e
            (filter (fun q => negb (existsb (Nat.eqb q) (map pl_p pls))) (c_procs c)) in
          let* (p, it) := foldM (fixed_core e x y) (p, cores) vs in
          let* (p, _) := foldM (free_core e x y) (p, it) vs in
          Ok p
      end
  end.

(** Lines 370-384: _place_fixed_vertex. *)
Definition fixed_group (e : penv) (p : placements) (g : list nat * sdram) : res placements :=
  let* vs := filter_vertices e p (fst g) in do_fixed e p vs.
Definition place_fixed (e : penv) (s : st) (a : appv) : res st :=
  match a_groups a with
  | [] => Err NotImplemented
  | gs => let* p := foldM (fixed_group e) (s_pls s) gs in Ok (set_pls s p)
  end.

(** Lines 141-177: do_placements, and 37-50: place_application_graph. *)
Definition fixed_step (e : penv) (s : st) (a : appv) : res st :=
  if has_fixed e a then place_fixed e s a else Ok s.
Definition place_graph (e : penv) (system : placements) (apps : list appv) : res placements :=
  let* s := init_placer e system in
  let* s := foldM (fixed_step e) s apps in
  let* s := foldM (place_vertex e) s apps in
  Ok (s_pls s).
