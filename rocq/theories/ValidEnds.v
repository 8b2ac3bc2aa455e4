(** Validation of the routes ends, also for tables in which packets go round. *)
From Coq Require Import List NArith ZArith Arith Bool Lia.
From Verif Require Import Base Ends Dict RouteSpec AllocModel TablesModel GenModel GenEnds ValidModel ValidProofs.
Import ListNotations.
Local Open Scope nat_scope.

Lemma search_ends : forall link tables key n src dests, ends (search_route link tables key n src dests).
Proof. intros. intro H. apply search_err in H. destruct H; discriminate. Qed.
Lemma validate_ends : forall env link tables infos, (forall m, ends (ve_place env m)) ->
  ends (validate_routes env link tables infos).
Proof.
  intros env link tables infos P. apply ends_foldM. intros _ p _. unfold validate_part.
  apply ends_bind; [|intros d _; apply ends_bind].
  - apply ends_foldM. intros d t _. apply ends_foldM. intros d' [tgt srcs] _.
    apply ends_bind; [apply P|discriminate].
  - apply ends_foldM. intros [out d'] [[pre ident] posts] _. apply ends_match; [|discriminate].
    apply ends_bind; [|discriminate]. apply ends_foldM. intros. apply ends_bind; [apply P|discriminate].
  - intros [out d'] _. apply ends_foldM. intros _ m _. apply ends_match; [discriminate|].
    apply ends_bind; [apply P|]. intros [chip c] _. apply ends_bind; [apply get_info_ends|].
    intros. apply search_ends.
Qed.
