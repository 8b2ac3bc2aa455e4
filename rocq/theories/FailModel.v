(** What a failing call of the placer leaves behind: the Placements object that
    place_application_graph is given (application_placer.py 37-50 hands it to the
    placer, which adds to it), and the report written for a PacmanPlaceException
    (_place_error, 281-368).
    The functions of PlacerModel return the exception only; here the ones that add
    placements are written with the state that they leave when they raise.  The
    entries for chips that a lookup makes in the defaultdict (C57) are left out for a
    search that fails. *)
From Coq Require Import List Arith ZArith Bool.
From Verif Require Import Base Dict PlacementsModel SdramModel PlacerModel.
Import ListNotations.
Local Open Scope nat_scope.

(** A loop in which a step may raise, with the state at that moment. *)
Fixpoint foldE {S A} (f : S -> A -> S * option exn) (s : S) (l : list A) : S * option exn :=
  match l with
  | [] => (s, None)
  | a :: r => match f s a with
              | (s', None) => foldE f s' r
              | (s', Some x) => (s', Some x)
              end
  end.
Definition raised (r : res unit) : option exn := match r with Ok _ => None | Err x => Some x end.

(** Lines 413-427 and 428-436. *)
Definition fixed_coreE (e : penv) (x y : nat) (acc : placements * list nat) (v : nat)
  : (placements * list nat) * option exn :=
  let '(p, it) := acc in
  match get_fixed e v with
  | Some (_, _, Some q) =>
      match it_find q it with
      | None => ((p, []), Some ConfigurationException)
      | Some it' => let '(p', r) := add_placement p (mkPl v x y q) in ((p', it'), raised r)
      end
  | _ => (acc, None)
  end.
Definition free_coreE (e : penv) (x y : nat) (acc : placements * list nat) (v : nat)
  : (placements * list nat) * option exn :=
  let '(p, it) := acc in
  match get_fixed e v with
  | Some (_, _, Some q) => (acc, None)
  | _ =>
      match it with
      | [] => (acc, Some ConfigurationException)
      | q :: it' => let '(p', r) := add_placement p (mkPl v x y q) in ((p', it'), raised r)
      end
  end.

(** Lines 386-436: _do_fixed_location. *)
Definition do_fixedE (e : penv) (p : placements) (vs : list nat) : placements * option exn :=
  match first_fixed e vs with
  | None => (p, Some NotImplemented)
  | Some (x, y, _) =>
      match m_chip (pe_machine e) (x, y) with
      | None => (p, Some ConfigurationException)
      | Some c =>
          let '(p, pls) := on_chip p (x, y) in
          let cores := pe_set_order e
            (filter (fun q => negb (existsb (Nat.eqb q) (map pl_p pls))) (c_procs c)) in
          match foldE (fixed_coreE e x y) (p, cores) vs with
          | (acc, None) => let '(acc', r) := foldE (free_coreE e x y) acc vs in (fst acc', r)
          | (acc, Some x) => (fst acc, Some x)
          end
      end
  end.

(** Lines 370-384: _place_fixed_vertex, and 165-168. *)
Definition fixed_groupE (e : penv) (p : placements) (g : list nat * sdram) : placements * option exn :=
  match filter_vertices e p (fst g) with
  | Ok vs => do_fixedE e p vs
  | Err x => (p, Some x)
  end.
Definition fixed_stepE (e : penv) (s : st) (a : appv) : st * option exn :=
  if has_fixed e a then
    match a_groups a with
    | [] => (s, Some NotImplemented)
    | gs => let '(p, r) := foldE (fixed_groupE e) (s_pls s) gs in (set_pls s p, r)
    end
  else (s, None).

(** Lines 179-207: _place_vertex; the search adds nothing. *)
Definition place_vertexE (e : penv) (s : st) (a : appv) : st * option exn :=
  match a_groups a with
  | [] => (s, None)
  | gs =>
      let s := set_starts s (s_chips s) (s_rest s ++ s_tried s) [] in
      match place_loop (S (length (s_rest s) + length (s_chips s))) e s gs with
      | Err x => (s, Some x)
      | Ok (s', l) => let '(p, r) := add_placements (s_pls s') l in (set_pls s' p, raised r)
      end
  end.

(** Lines 37-50 and 141-177: the object given, after the call, and what the call
    returns: that object. *)
Definition place_call (e : penv) (system : placements) (apps : list appv) : placements * res placements :=
  match init_placer e system with
  | Err x => (system, Err x)
  | Ok s =>
      match foldE (fixed_stepE e) s apps with
      | (s, Some x) => (s_pls s, Err x)
      | (s, None) =>
          match foldE (place_vertexE e) s apps with
          | (s, Some x) => (s_pls s, Err x)
          | (s, None) => (s_pls s, Ok (s_pls s))
          end
      end
  end.

(** * The report *)
(** Lines 292-309: is the application vertex placed, as far as the first vertices of its
    groups tell.  [vertices[0]] of an empty group is an IndexError. *)
Fixpoint seems_placed (e : penv) (p : placements) (gs : list (list nat * sdram)) : res bool :=
  match gs with
  | [] => Ok true
  | ([], _) :: _ => Err IndexError
  | (v :: _, _) :: rest =>
      if pe_virtual e v then Ok true
      else if is_placed p v then seems_placed e p rest
      else Ok false
  end.
Fixpoint unplaceable (e : penv) (p : placements) (apps : list appv) : res (list appv) :=
  match apps with
  | [] => Ok []
  | a :: rest =>
      let* b := seems_placed e p (a_groups a) in
      let* l := unplaceable e p rest in
      Ok (if b then l else a :: l)
  end.

(** Lines 288-307, the same loop: [vertex_count] and [n_vertices].  [found] is
    found_placed_cores; the length of the first group not placed is counted if an
    earlier one is placed. *)
Fixpoint half_placed (e : penv) (p : placements) (gs : list (list nat * sdram)) (found : bool) : res (option nat) :=
  match gs with
  | [] => Ok None
  | ([], _) :: _ => Err IndexError
  | ((v :: _) as vs, _) :: rest =>
      if pe_virtual e v then Ok None
      else if is_placed p v then half_placed e p rest true
      else Ok (if found then Some (length vs) else None)
  end.
Fixpoint half_counts (e : penv) (p : placements) (apps : list appv) (acc : nat * nat) : res (nat * nat) :=
  match apps with
  | [] => Ok acc
  | a :: rest =>
      let* o := half_placed e p (a_groups a) false in
      half_counts e p rest
        (match o with Some n => (fst acc + n, length (a_groups a)) | None => acc end)
  end.

(** Lines 319-330: the chips with the placements that are not of the system. *)
Definition listed (p system : placements) : list (xy * list placement) :=
  filter (fun x => match snd x with [] => false | _ => true end)
    (map (fun x => (fst x, filter (fun pl => negb (is_placed system (pl_v pl))) (map snd (snd x)))) (ps_chips p)).
(** Lines 350-358: the chips of the machine without other placements than those of the
    system, and the number of cores given as free. *)
Definition n_on (p : placements) (c : xy) : nat :=
  match dget xy_eqb (ps_chips p) c with Some d => length d | None => 0 end.
Definition unused (e : penv) (p system : placements) : list (xy * Z) :=
  flat_map (fun c =>
    if Z.eqb (Z.of_nat (n_on p (c_xy c)) - Z.of_nat (n_on system (c_xy c))) 0
    then [(c_xy c, (Z.of_nat (length (c_procs c)) - Z.of_nat (n_on system (c_xy c)))%Z)] else [])
    (chip_order (pe_machine e)).
(** Lines 314-318: how many application vertices are not placed, and the two counts. *)
Record report := mkReport { rp_not_placed : list appv; rp_counts : nat * nat; rp_listed : list (xy * list placement); rp_unused : list (xy * Z) }.
Definition place_report (e : penv) (p system : placements) (apps : list appv) : res report :=
  let* l := unplaceable e p apps in
  let* n := half_counts e p apps (0, 0) in
  Ok (mkReport l n (listed p system) (unused e p system)).
(** Lines 171-172: for a PacmanPlaceException; the placements of the placer are the
    object that the caller gave as system placements. *)
Definition error_report (e : penv) (system : placements) (apps : list appv) : option (res report) :=
  match place_call e system apps with
  | (p, Err NoSpace) => Some (place_report e p p apps)
  | _ => None
  end.
