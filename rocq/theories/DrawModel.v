(** The picture of the placements: draw_placements.py 42-78, up to the calls of the
    drawing library.
    A colour is given by what it stands for: [None] for "unused" (line 63, which is also
    the one of a vertex without application vertex, 66), [Some a] for the random colour
    of application vertex [a] (64-65; that two random colours may be equal is left out).
    [app] is "placement.vertex.app_vertex".  placements_on_chip (74) makes an empty entry
    in the defaultdict (C57) for a chip on which only the system placements have
    something; that is left out. *)
From Coq Require Import List Arith Bool.
From Verif Require Import Base Dict PlacementsModel PlacerModel FailModel.
Import ListNotations.

(** Lines 74-78: the first placement on the chip that is not of the system. *)
Definition on_chip_first (p system : placements) (c : xy) : option placement :=
  match dget xy_eqb (ps_chips p) c with
  | Some d => find (fun pl => negb (is_placed system (pl_v pl))) (map snd d)
  | None => None
  end.
(** Lines 67-78: a chip may be left without a colour. *)
Definition board_colours (app : nat -> option nat) (chips : list xy) (p system : placements) : list (xy * option nat) :=
  flat_map (fun c =>
    if Nat.eqb (n_on p c) (n_on system c) then [(c, None)]
    else match on_chip_first p system c with
         | Some pl => [(c, app (pl_v pl))]
         | None => []
         end) chips.
(** application_placer.py 49-50 and 172-175: what is drawn when the placement succeeds,
    from the placements of the placer and those given by the caller, which are the same
    object by then. *)
Definition drawn (e : penv) (app : nat -> option nat) (chips : list xy) (system : placements) (apps : list appv)
  : option (list (xy * option nat)) :=
  match place_call e system apps with
  | (after, Ok p) => Some (board_colours app chips p after)
  | _ => None
  end.
