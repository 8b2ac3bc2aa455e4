(** Model of the placements container (pacman/model/placements/placements.py and
    placement.py).  Vertices are numbers; a [vertex_type] argument is a test on
    vertices.  "_placements" is a defaultdict: looking up a chip that is not
    there adds it with an empty dict. *)
From Coq Require Import List Arith Bool.
From Verif Require Import Base Dict.
Import ListNotations.

(** Placement (placement.py 20-52). *)
Record placement := mkPl { pl_v : nat; pl_x : nat; pl_y : nat; pl_p : nat }.

Definition xy := (nat * nat)%type.
Definition xy_eqb : xy -> xy -> bool := pair_eqb Nat.eqb Nat.eqb.

(** Placements (placements.py 28-55): "_placements" and "_machine_vertices". *)
Record placements := mkPls {
  ps_chips : list (xy * list (nat * placement));
  ps_verts : list (nat * placement) }.

Definition empty_placements : placements := mkPls [] [].

(** "self._placements[xy]" on the defaultdict. *)
Definition touch (xy0 : xy) (s : placements) : placements * list (nat * placement) :=
  match dget xy_eqb (ps_chips s) xy0 with
  | Some d => (s, d)
  | None => (mkPls (dset xy_eqb (ps_chips s) xy0 []) (ps_verts s), [])
  end.

(** add_placement (placements.py 73-91). *)
Definition add_placement (s : placements) (pl : placement) : placements * res unit :=
  let xy0 := (pl_x pl, pl_y pl) in
  let occupied :=
    match dget xy_eqb (ps_chips s) xy0 with
    | Some d => dmem Nat.eqb d (pl_p pl)
    | None => false
    end in
  if occupied then (s, Err ProcessorOccupied)
  else if dmem Nat.eqb (ps_verts s) (pl_v pl) then (s, Err AlreadyPlaced)
  else
    let '(s1, d) := touch xy0 s in
    (mkPls (dset xy_eqb (ps_chips s1) xy0 (dset Nat.eqb d (pl_p pl) pl))
           (dset Nat.eqb (ps_verts s1) (pl_v pl) pl), Ok tt).

(** add_placements (placements.py 64-71): stops at the first exception. *)
Fixpoint add_placements (s : placements) (l : list placement) : placements * res unit :=
  match l with
  | [] => (s, Ok tt)
  | pl :: t =>
      match add_placement s pl with
      | (s', Ok _) => add_placements s' t
      | (s', Err e) => (s', Err e)
      end
  end.

(** The calls a user can make. *)
Inductive call :=
| AddPlacement (pl : placement)
| AddPlacements (l : list placement)
| NPlacements
| OnProcessor (x y p : nat)
| IsPlaced (v : nat)
| OfVertex (v : nat)
| IsOccupied (x y p : nat)
| OnChip (c : xy)
| OnChipOfType (c : xy) (ty : nat -> bool)
| OfType (ty : nat -> bool)
| NOnChip (c : xy)
| AllPlacements
| Chips.

Inductive answer :=
| ANone
| ABool (b : bool)
| ANum (n : nat)
| APlacement (pl : placement)
| APlacements (l : list placement)
| AChips (l : list xy)
| ARaise (e : exn).

Definition of_unit (r : res unit) : answer :=
  match r with Ok _ => ANone | Err e => ARaise e end.

(** The methods of Placements (placements.py 57-212).  A generator
    (iterate_placements_by_...) is run to its end. *)
Definition step (s : placements) (c : call) : placements * answer :=
  match c with
  | AddPlacement pl => let '(s', r) := add_placement s pl in (s', of_unit r)
  | AddPlacements l => let '(s', r) := add_placements s l in (s', of_unit r)
  | NPlacements => (s, ANum (length (ps_verts s)))
  | OnProcessor x y p =>
      let '(s', d) := touch (x, y) s in
      (s', match dget Nat.eqb d p with
           | Some pl => APlacement pl
           | None => ARaise ProcessorNotOccupied
           end)
  | IsPlaced v => (s, ABool (dmem Nat.eqb (ps_verts s) v))
  | OfVertex v =>
      (s, match dget Nat.eqb (ps_verts s) v with
          | Some pl => APlacement pl
          | None => ARaise NotPlaced
          end)
  | IsOccupied x y p =>
      (s, ABool (match dget xy_eqb (ps_chips s) (x, y) with
                 | Some d => dmem Nat.eqb d p
                 | None => false
                 end))
  | OnChip c => let '(s', d) := touch c s in (s', APlacements (map snd d))
  | OnChipOfType c ty =>
      let '(s', d) := touch c s in
      (s', APlacements (filter (fun pl => ty (pl_v pl)) (map snd d)))
  | OfType ty => (s, APlacements (filter (fun pl => ty (pl_v pl)) (map snd (ps_verts s))))
  | NOnChip c =>
      (s, ANum (match dget xy_eqb (ps_chips s) c with
                | Some d => length d
                | None => 0
                end))
  | AllPlacements => (s, APlacements (map snd (ps_verts s)))
  | Chips => (s, AChips (map fst (ps_chips s)))
  end.

Fixpoint run (s : placements) (cs : list call) : placements * list answer :=
  match cs with
  | [] => (s, [])
  | c :: t =>
      let '(s1, a) := step s c in
      let '(s2, l) := run s1 t in
      (s2, a :: l)
  end.
