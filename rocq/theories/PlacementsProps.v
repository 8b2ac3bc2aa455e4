(** Property C24: Placements is a one-to-one map. *)
From Coq Require Import List Arith Bool.
From Verif Require Import Base Dict PlacementsModel PlacementsProofs.
Import ListNotations.

(** In every history of calls every answer is the one given by the plain list of
    accepted placements ([spec_run]): an add is accepted exactly when its
    processor and its vertex are new, a rejected add changes nothing, lookups
    find the accepted placement.  The list of chips is the list of chips
    mentioned so far, in placements or lookups. *)
Theorem C24_history : forall calls,
  snd (run empty_placements calls) = snd (spec_run ([], []) calls).
Proof. exact run_is_spec. Qed.
Print Assumptions C24_history.

(** After any history vertices and processors correspond one to one. *)
Theorem C24_one_to_one : forall calls pls,
  let s := fst (run empty_placements calls) in
  snd (step s AllPlacements) = APlacements pls ->
  NoDup (map pl_v pls) /\ NoDup (map (fun pl => (pl_x pl, pl_y pl, pl_p pl)) pls) /\
  (forall pl, In pl pls -> snd (step s (OfVertex (pl_v pl))) = APlacement pl /\
     snd (step s (OnProcessor (pl_x pl) (pl_y pl) (pl_p pl))) = APlacement pl) /\
  (forall v pl, snd (step s (OfVertex v)) = APlacement pl -> In pl pls /\ pl_v pl = v) /\
  (forall x y p pl, snd (step s (OnProcessor x y p)) = APlacement pl ->
     In pl pls /\ (pl_x pl, pl_y pl, pl_p pl) = (x, y, p)).
Proof. exact run_one_to_one. Qed.
Print Assumptions C24_one_to_one.

Theorem C24_rejected_add : forall s pl e,
  snd (add_placement s pl) = Err e -> fst (add_placement s pl) = s.
Proof. exact rejected_add. Qed.
Print Assumptions C24_rejected_add.

Example C24_example :
  snd (run empty_placements
    [AddPlacement (mkPl 1 0 0 1); AddPlacement (mkPl 2 0 0 1); AddPlacement (mkPl 1 0 0 2);
     AddPlacements [mkPl 2 0 0 2; mkPl 3 1 0 1]; OnProcessor 0 0 2; OfVertex 3; NOnChip (0, 0);
     IsOccupied 2 2 2; OnChip (0, 0)]) =
  [ANone; ARaise ProcessorOccupied; ARaise AlreadyPlaced; ANone; APlacement (mkPl 2 0 0 2);
   APlacement (mkPl 3 1 0 1); ANum 2; ABool false; APlacements [mkPl 1 0 0 1; mkPl 2 0 0 2]].
Proof. reflexivity. Qed.

(** C57: a query changes the answer of no later call, except
    chips_with_placements. *)
Theorem C57_queries_invisible_partial : forall calls q c,
  is_query q = true -> is_chips c = false ->
  snd (step (fst (run empty_placements (calls ++ [q]))) c) =
  snd (step (fst (run empty_placements calls)) c).
Proof. exact query_invisible. Qed.
Print Assumptions C57_queries_invisible_partial.

Example C57_example :
  is_query (OnChip (3, 4)) = true /\ is_chips (NOnChip (0, 0)) = false /\
  snd (step (fst (run empty_placements ([AddPlacement (mkPl 1 0 0 1)] ++ [OnChip (3, 4)])))
            (NOnChip (0, 0))) = ANum 1.
Proof. repeat split; reflexivity. Qed.

(** A lookup by chip makes chips_with_placements report a chip without
    placements. *)
Theorem C57_query_adds_chip_refuted : exists c calls,
  snd (step (fst (run empty_placements calls)) Chips) = AChips [] /\
  snd (step (fst (run empty_placements (calls ++ [OnChip c]))) Chips) = AChips [c] /\
  snd (step (fst (run empty_placements (calls ++ [OnChip c]))) (NOnChip c)) = ANum 0.
Proof. exists (3, 4), []. repeat split; reflexivity. Qed.
Print Assumptions C57_query_adds_chip_refuted.
