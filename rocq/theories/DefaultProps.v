(** Property C07: removal of default-routable entries. *)
From Coq Require Import List Arith NArith Bool Lia.
From Verif Require Import Base RouteSpec KeyMask PairSort DefaultModel DefaultProofs.
Import ListNotations.
Local Open Scope N_scope.

(** Only defaultable entries disappear, the rest keeps its order, each key keeps
    its first match or - only if that first match was defaultable - matches
    nothing any more.  Overlapping tables are allowed when aliases are checked;
    skipping the check is safe on orthogonal tables. *)
Theorem C07_remove_default_safe :
  forall table target check out,
    Forall entry_ok table -> (check = true \/ orthogonal table) ->
    remove_default_routes table target check = Ok out ->
    dropped (fun e => e_def e = true) table out /\
    forall k, match first_match table k with
              | None => first_match out k = None
              | Some e => first_match out k = Some e \/
                          (e_def e = true /\ first_match out k = None)
              end.
Proof. exact remove_default_safe. Qed.
Print Assumptions C07_remove_default_safe.

(** With alias checking (including the shortcut that skips it) the result is
    exactly: non-defaultable entries, and defaultable ones that share a key with
    a later entry. *)
Theorem C07_remove_default_exact :
  forall table out,
    Forall entry_ok table -> remove_default_routes table None true = Ok out ->
    default_reduction table out.
Proof. exact remove_default_exact. Qed.
Print Assumptions C07_remove_default_exact.

(** A positive target only decides between the same table and an error. *)
Theorem C07_remove_default_target :
  forall table n check,
    exists out, remove_default_routes table None check = Ok out /\
      remove_default_routes table (Some (S n)) check =
        (if Nat.leb (length out) (S n) then Ok out else Err MinimisationFailed).
Proof. exact remove_default_total. Qed.
Print Assumptions C07_remove_default_target.

Definition C07_table : list entry :=
  [ mkEntry 8 15 4 true; mkEntry 0 12 1 true; mkEntry 2 15 2 false; mkEntry 4 12 1 true ].
Example C07_example :
  Forall entry_ok C07_table /\
  remove_default_routes C07_table None true =
    Ok [ mkEntry 0 12 1 true; mkEntry 2 15 2 false ] /\
  remove_default_routes C07_table (Some 1%nat) true = Err MinimisationFailed.
Proof. split; [repeat constructor|]. split; vm_compute; reflexivity. Qed.

(** A target length of zero is not enforced. *)
Theorem C93_zero_target_refuted :
  exists table out,
    remove_default_routes table (Some 0%nat) true = Ok out /\ (length out > 0)%nat.
Proof.
  exists [mkEntry 1 15 2 false], [mkEntry 1 15 2 false]. split; [vm_compute; reflexivity|].
  simpl; lia.
Qed.
Print Assumptions C93_zero_target_refuted.
