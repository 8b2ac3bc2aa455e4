(** The generators of routing tables end. *)
From Coq Require Import List NArith ZArith Arith Bool Lia.
From Verif Require Import Base Ends Dict RouteSpec KeyMask AllocModel TablesModel GenModel GenProofs.
Import ListNotations.
Local Open Scope nat_scope.

Lemma skipn_shorter : forall {A} n (x : A) l, 1 <= n -> length (skipn n (x :: l)) <= length l.
Proof. intros A n x l H. rewrite skipn_length. cbn [length]. lia. Qed.

Lemma break_down_ends : forall fuel mm b rest, length rest <= fuel -> ends (break_down fuel mm b rest).
Proof.
  induction fuel as [|f IH]; intros mm b [|e rest] L; try discriminate; [cbn [length] in L; lia|].
  cbn [break_down]. apply ends_bind; [|discriminate]. apply IH. cbn [length] in L.
  match goal with |- length (skipn ?n _) <= _ => assert (X : 1 <= n) end.
  { pose proof (N.pow_nonzero 2 (N.log2 (N.of_nat (length (e :: rest))))). lia. }
  pose proof (skipn_shorter _ e rest X). lia.
Qed.

Lemma low_bit_pos : forall i, (0 < i)%N -> (0 < low_bit i)%N.
Proof.
  intros i H. destruct (low_bit_spec i H) as [l [-> _]]. pose proof (N.pow_nonzero 2 l). lia.
Qed.
Lemma n_sequential_pos : forall i n, (0 < n_sequential i n)%N.
Proof.
  intros i n. unfold n_sequential. destruct (N.ltb_spec 0 i); [apply low_bit_pos; auto|].
  pose proof (N.pow_nonzero 2 (N.log2_up n)). lia.
Qed.

Lemma merge_loop_ends : forall fuel mm b l n rest, length rest <= fuel -> ends (merge_loop fuel mm b l n rest).
Proof.
  induction fuel as [|f IH]; intros mm b l n [|e rest] L; try discriminate; [cbn [length] in L; lia|].
  cbn [merge_loop]. apply ends_match; [|apply break_down_ends; auto].
  apply ends_bind; [|discriminate]. apply IH. cbn [length] in L.
  pose proof (n_sequential_pos (me_index e) n).
  match goal with |- length (skipn ?n _) <= _ => assert (X : 1 <= n) by lia end.
  pose proof (skipn_shorter _ e rest X). lia.
Qed.

Section Generators.
Variable entry_eq : entry -> entry -> bool.
Variable infos : list info.
Variable app_of : nat -> option nat.

Lemma get_info_ends : forall v p, ends (get_info infos v p).
Proof. intros. unfold get_info. destruct (find _ _); discriminate. Qed.
Lemma note_source_ends : forall seen k s, ends (note_source seen k s).
Proof. intros. unfold note_source. destruct (dget km_eqb seen k); [|discriminate]. destruct (source_eqb _ _); discriminate. Qed.
Lemma add_out_ends : forall t o, ends (add_out entry_eq t o).
Proof.
  intros. unfold add_out, unc_add. apply ends_match; [|discriminate].
  match goal with |- ends (match ?x with _ => _ end) => destruct x end; [|discriminate].
  destruct (entry_eq _ _); discriminate.
Qed.
Lemma basic_loop_ends : forall items seen t, ends (basic_loop entry_eq infos items seen t).
Proof.
  induction items as [|[[v p] en] items IH]; intros; cbn [basic_loop]; [discriminate|].
  apply ends_bind; [apply get_info_ends|]. intros i _. apply ends_bind; [apply note_source_ends|]. intros s _.
  apply ends_bind; [apply add_out_ends|]. intros. apply IH.
Qed.
Lemma scan_group_ends : forall mm app p rest k index en, ends (scan_group infos app_of mm app p k index en rest).
Proof.
  intros mm app p rest. induction rest as [|[[v' p'] en'] rest IH]; intros; cbn [scan_group]; [discriminate|].
  apply ends_match; [discriminate|]. destruct v'; [discriminate|].
  repeat (apply ends_match; [discriminate|]). apply ends_bind; [apply get_info_ends|]. intros i _.
  destruct (i_extra i); [|discriminate]. apply ends_match; [discriminate|]. apply ends_match; [|discriminate].
  apply ends_bind; [apply IH|]. intros [g lft] _. discriminate.
Qed.
Lemma scan_group_left : forall mm app p rest k index en g lft,
  scan_group infos app_of mm app p k index en rest = Ok (g, lft) -> length lft <= length rest.
Proof.
  intros mm app p rest. induction rest as [|[[v' p'] en'] rest IH]; intros k index en g lft H; cbn [scan_group] in H.
  - injection H as <- <-. auto.
  - destruct (negb (N.eqb (km_mask k) mm)); [injection H as <- <-; auto|].
    destruct v' as [a|m']; [injection H as <- <-; auto|].
    destruct (negb (Nat.eqb p p')); [injection H as <- <-; auto|].
    destruct (mask_has_holes (km_mask k)); [injection H as <- <-; auto|].
    apply bind_Ok_inv in H. destruct H as [i [_ H]]. destruct (i_extra i); [|discriminate].
    destruct (negb _); [injection H as <- <-; auto|].
    destruct (_ && _)%bool; [|injection H as <- <-; auto].
    apply bind_Ok_inv in H. destruct H as [[g' l'] [H1 H]]. injection H as <- <-. apply IH in H1. cbn [length]. lia.
Qed.
Lemma merged_loop_ends : forall fuel items seen t, length items <= fuel ->
  ends (merged_loop entry_eq infos app_of fuel items seen t).
Proof.
  induction fuel as [|f IH]; intros [|[[v p] en] items] seen t L; try discriminate; cbn [length] in L; [lia|].
  cbn [merged_loop]. apply ends_bind; [apply get_info_ends|]. intros i _.
  apply ends_bind; [apply note_source_ends|]. intros s _.
  assert (ONE : forall o, ends (let* t0 := add_out entry_eq t o in merged_loop entry_eq infos app_of f items s t0)).
  { intros o. apply ends_bind; [apply add_out_ends|]. intros. apply IH. lia. }
  destruct v as [a|m]; [apply ONE|]. destruct (i_extra i) as [index|? ? ?]; [|discriminate].
  destruct (app_of m) as [a|]; [|apply ONE].
  apply ends_bind; [apply get_info_ends|]. intros ai _. destruct (i_extra ai) as [?|mm b mx]; [discriminate|].
  apply ends_bind; [apply scan_group_ends|]. intros [g lft] G. apply scan_group_left in G.
  apply ends_bind.
  { unfold merged_keys_and_masks, merge_machine_entries. destruct g as [|e1 g]; [discriminate|].
    destruct (rev _); [discriminate|]. apply merge_loop_ends. auto. }
  intros outs _. apply ends_bind; [apply ends_foldM; intros; apply add_out_ends|].
  intros. apply IH. lia.
Qed.
Lemma generate_ends : forall make routers, (forall x y l, ends (make x y l)) -> ends (generate make routers).
Proof.
  intros make routers H. apply ends_foldM. intros ts [[x y] l] _. apply ends_bind; [apply H|]. intros t _.
  unfold add_table. match goal with |- ends (if ?b then _ else _) => destruct b end; discriminate.
Qed.
Lemma basic_ends : forall routers, ends (generate (basic_table entry_eq infos) routers).
Proof. intros. apply generate_ends. intros. apply basic_loop_ends. Qed.
Lemma merged_ends : forall routers, ends (generate (merged_table entry_eq infos app_of) routers).
Proof. intros. apply generate_ends. intros. apply merged_loop_ends. auto. Qed.
End Generators.
