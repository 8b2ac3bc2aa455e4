(** The pair compressor ends. *)
From Coq Require Import List NArith ZArith Arith Bool Lia.
From Verif Require Import Base Ends RouteSpec KeyMask PairModel.
Import ListNotations.
Local Open Scope nat_scope.

Lemma aget_ends : forall {A} (l : list A) i, ends (aget l i).
Proof. intros. unfold aget. destruct (nth_error l i); discriminate. Qed.
Lemma aset_ends : forall {A} (l : list A) i x, ends (aset l i x).
Proof.
  intros. unfold aset. apply ends_match; discriminate.
Qed.
Lemma swap_ends : forall {A} (l : list A) i j, ends (swap l i j).
Proof.
  intros. unfold swap. apply ends_bind; [apply aget_ends|]. intros. apply ends_bind; [apply aget_ends|]. intros.
  apply ends_bind; [apply aset_ends|]. intros. apply aset_ends.
Qed.
Lemma find_route_ends : forall routes route n i, ends (find_route routes route i n).
Proof.
  intros routes route n. induction n as [|n IH]; intros; cbn [find_route]; [discriminate|].
  apply ends_bind; [apply aget_ends|]. intros r _. apply ends_match; [discriminate|apply IH].
Qed.
Lemma update_ends : forall h e, ends (update_frequency h e).
Proof.
  intros. unfold update_frequency. apply ends_bind; [apply find_route_ends|]. intros [i|] _.
  - apply ends_bind; [apply aget_ends|]. intros. apply ends_bind; [apply aset_ends|discriminate].
  - apply ends_bind; [apply aset_ends|]. intros. apply ends_bind; [apply aset_ends|discriminate].
Qed.
Lemma compare_ends : forall h a b, ends (compare_routes h a b).
Proof.
  intros. unfold compare_routes. apply ends_match; [discriminate|]. generalize (h_count h) 0.
  intros n. induction n as [|n IH]; intros i; cbn [compare_loop]; [discriminate|].
  apply ends_bind; [apply aget_ends|]. intros r _. repeat (apply ends_match; [discriminate|]). apply IH.
Qed.
Lemma sortM_ends : forall {A} (cmp : A -> A -> res Z), (forall a b, ends (cmp a b)) ->
  forall l acc, ends (sortM_acc cmp acc l).
Proof.
  intros A cmp H l. induction l as [|x l IH]; intros acc; cbn [sortM_acc]; [discriminate|].
  apply ends_bind; [|intros; apply IH]. clear IH. induction acc as [|y acc IH]; cbn [insertM]; [discriminate|].
  apply ends_bind; [apply H|]. intros. apply ends_match; [discriminate|].
  apply ends_bind; [apply IH|discriminate].
Qed.

Lemma partition_table_ends : forall fuel h arr pivot low check high, S high - check < fuel -> low < check ->
  ends (partition_table fuel h arr pivot low check high).
Proof.
  induction fuel as [|f IH]; intros h arr pivot low check high L O; [lia|]. cbn [partition_table].
  destruct (Nat.leb_spec check high); [|discriminate].
  apply ends_bind; [apply aget_ends|]. intros e _. apply ends_bind; [apply compare_ends|]. intros c _.
  apply ends_match; [|apply ends_match].
  - apply ends_bind; [apply swap_ends|]. intros. apply IH; lia.
  - apply ends_bind; [apply swap_ends|]. intros. apply IH; lia.
  - apply IH; lia.
Qed.
Lemma partition_table_at : forall fuel h arr pivot low check high arr' l r,
  partition_table fuel h arr pivot low check high = Ok (arr', l, r) -> low < check -> check <= S high ->
  l < r /\ low < r /\ r <= S high.
Proof.
  induction fuel as [|f IH]; intros h arr pivot low check high arr' l r H O C; cbn [partition_table] in H; [discriminate|].
  destruct (Nat.leb_spec check high) as [Q|Q]; [|injection H as <- <- <-; lia].
  apply bind_Ok_inv in H. destruct H as [e [_ H]]. apply bind_Ok_inv in H. destruct H as [c [_ H]].
  destruct (Z.ltb c 0).
  { apply bind_Ok_inv in H. destruct H as [a [_ H]]. apply IH in H; lia. }
  destruct (Z.gtb c 0).
  { apply bind_Ok_inv in H. destruct H as [a [_ H]]. apply IH in H; lia. }
  apply IH in H; lia.
Qed.
Lemma quicksort_table_ends : forall fuel h arr low high, high - low < fuel ->
  ends (quicksort_table fuel h arr low high).
Proof.
  induction fuel as [|f IH]; intros h arr low high L; [lia|]. cbn [quicksort_table].
  destruct (Nat.ltb_spec low high) as [Q|Q]; [|discriminate].
  apply ends_bind; [apply aget_ends|]. intros p _.
  apply ends_bind; [apply partition_table_ends; lia|]. intros [[arr1 lft] rgt] H.
  apply partition_table_at in H; [|lia..].
  apply ends_bind; [apply IH; lia|]. intros. apply IH; lia.
Qed.

Lemma swap_routes_ends : forall h i j, ends (swap_routes h i j).
Proof.
  intros. unfold swap_routes. apply ends_bind; [apply swap_ends|]. intros. apply ends_bind; [apply swap_ends|discriminate].
Qed.
Lemma partition_routes_ends : forall fuel h pivot low check high, S high - check < fuel -> low < check ->
  ends (partition_routes fuel h pivot low check high).
Proof.
  induction fuel as [|f IH]; intros h pivot low check high L O; [lia|]. cbn [partition_routes].
  destruct (Nat.leb_spec check high); [|discriminate].
  apply ends_bind; [apply aget_ends|]. intros e _.
  apply ends_match; [|apply ends_match].
  - apply ends_bind; [apply swap_routes_ends|]. intros. apply IH; lia.
  - apply ends_bind; [apply swap_routes_ends|]. intros. apply IH; lia.
  - apply IH; lia.
Qed.
Lemma partition_routes_at : forall fuel h pivot low check high h' l r,
  partition_routes fuel h pivot low check high = Ok (h', l, r) -> low < check -> check <= S high ->
  l < r /\ low < r /\ r <= S high.
Proof.
  induction fuel as [|f IH]; intros h pivot low check high h' l r H O C; cbn [partition_routes] in H; [discriminate|].
  destruct (Nat.leb_spec check high) as [Q|Q]; [|injection H as <- <- <-; lia].
  apply bind_Ok_inv in H. destruct H as [e [_ H]].
  destruct (pivot <? e).
  { apply bind_Ok_inv in H. destruct H as [a [_ H]]. apply IH in H; lia. }
  destruct (e <? pivot).
  { apply bind_Ok_inv in H. destruct H as [a [_ H]]. apply IH in H; lia. }
  apply IH in H; lia.
Qed.
Lemma quicksort_routes_ends : forall fuel h low high, high - low < fuel -> ends (quicksort_routes fuel h low high).
Proof.
  induction fuel as [|f IH]; intros h low high L; [lia|]. cbn [quicksort_routes].
  destruct (Nat.ltb_spec low high) as [Q|Q]; [|discriminate].
  apply ends_bind; [apply aget_ends|]. intros p _.
  apply ends_bind; [apply partition_routes_ends; lia|]. intros [[h1 lft] rgt] H.
  apply partition_routes_at in H; [|lia..].
  apply ends_bind; [apply IH; lia|]. intros. apply IH; lia.
Qed.

Lemma no_intersect_ends : forall arr n lo k m, ends (no_intersect arr lo n k m).
Proof.
  intros arr n. induction n as [|n IH]; intros; cbn [no_intersect]; [discriminate|].
  apply ends_bind; [apply aget_ends|]. intros e _. apply ends_match; [discriminate|apply IH].
Qed.
Lemma find_merge_ends : forall o prev rem arr l i, ends (find_merge o prev rem arr l i).
Proof.
  intros. unfold find_merge. apply ends_bind; [apply aget_ends|]. intros a _.
  apply ends_bind; [apply aget_ends|]. intros b _.
  apply ends_bind; [apply ends_match; [discriminate|apply no_intersect_ends]|]. intros ok _.
  apply ends_match; [|discriminate]. apply ends_bind; [apply no_intersect_ends|]. intros ok2 _.
  apply ends_match; [|discriminate]. apply ends_bind; [apply aset_ends|discriminate].
Qed.
Lemma scan_merge_ends : forall o prev rem arr l n i, ends (scan_merge o prev rem arr l i n).
Proof.
  intros o prev rem arr l n. induction n as [|n IH]; intros; cbn [scan_merge]; [discriminate|].
  apply ends_bind; [apply find_merge_ends|]. intros [a|] _; [discriminate|apply IH].
Qed.
Lemma by_route_ends : forall fuel o prev rem arr w l r, r - l < fuel -> ends (compress_by_route fuel o prev rem arr w l r).
Proof.
  induction fuel as [|f IH]; intros o prev rem arr w l r L; [lia|]. cbn [compress_by_route].
  destruct (Nat.ltb_spec l r) as [Q|Q].
  - apply ends_bind; [apply scan_merge_ends|]. intros [[a i]|] _.
    + apply ends_bind; [apply aget_ends|]. intros x _. apply ends_bind; [apply aset_ends|]. intros. apply IH; lia.
    + apply ends_bind; [apply aget_ends|]. intros x _. apply ends_bind; [apply aset_ends|]. intros. apply IH; lia.
  - apply ends_match; [|discriminate]. apply ends_bind; [apply aget_ends|]. intros x _.
    apply ends_bind; [apply aset_ends|discriminate].
Qed.
Lemma find_right_ends : forall fuel arr l r, length arr - r < fuel -> ends (find_right fuel arr l r).
Proof.
  induction fuel as [|f IH]; intros arr l r L; [lia|]. cbn [find_right].
  destruct (Nat.ltb_spec (S r) (length arr)); [|discriminate].
  apply ends_bind; [apply aget_ends|]. intros a _. apply ends_bind; [apply aget_ends|]. intros b _.
  apply ends_match; [|discriminate]. apply IH. lia.
Qed.
Lemma find_right_le : forall fuel arr l r x, find_right fuel arr l r = Ok x -> r <= x.
Proof.
  induction fuel as [|f IH]; intros arr l r x H; cbn [find_right] in H; [discriminate|].
  destruct (S r <? length arr); [|injection H as <-; auto].
  apply bind_Ok_inv in H. destruct H as [a [_ H]]. apply bind_Ok_inv in H. destruct H as [b [_ H]].
  destruct (N.eqb _ _); [apply IH in H; lia|injection H as <-; auto].
Qed.
Lemma aset_len : forall {A} (l : list A) i x l', aset l i x = Ok l' -> length l' = length l.
Proof. intros A l i x l' H. unfold aset in H. destruct (i <? length l); [|discriminate]. injection H as <-. apply upd_length. Qed.
Lemma scan_merge_len : forall o prev rem arr l n i a j, scan_merge o prev rem arr l i n = Ok (Some (a, j)) ->
  length a = length arr.
Proof.
  intros o prev rem arr l n. induction n as [|n IH]; intros i a j H; cbn [scan_merge] in H; [discriminate|].
  apply bind_Ok_inv in H. destruct H as [m [H1 H]]. destruct m as [a'|]; [|eapply IH; eauto].
  injection H as <- <-. unfold find_merge in H1.
  apply bind_Ok_inv in H1. destruct H1 as [x [_ H1]]. apply bind_Ok_inv in H1. destruct H1 as [y [_ H1]].
  apply bind_Ok_inv in H1. destruct H1 as [ok [_ H1]]. destruct ok; [|discriminate].
  apply bind_Ok_inv in H1. destruct H1 as [ok [_ H1]]. destruct ok; [|discriminate].
  apply bind_Ok_inv in H1. destruct H1 as [b [S1 H1]]. injection H1 as <-. eapply aset_len; eauto.
Qed.
Lemma by_route_len : forall fuel o prev rem arr w l r arr' w',
  compress_by_route fuel o prev rem arr w l r = Ok (arr', w') -> length arr' = length arr.
Proof.
  induction fuel as [|f IH]; intros o prev rem arr w l r arr' w' H; cbn [compress_by_route] in H; [discriminate|].
  destruct (l <? r).
  - apply bind_Ok_inv in H. destruct H as [[[a i]|] [H1 H]].
    + apply scan_merge_len in H1. apply bind_Ok_inv in H. destruct H as [x [_ H]].
      apply bind_Ok_inv in H. destruct H as [b [H2 H]]. apply aset_len in H2. apply IH in H. congruence.
    + apply bind_Ok_inv in H. destruct H as [x [_ H]].
      apply bind_Ok_inv in H. destruct H as [b [H2 H]]. apply aset_len in H2. apply IH in H. congruence.
  - destruct (l =? r); [|injection H as <- <-; auto]. apply bind_Ok_inv in H. destruct H as [x [_ H]].
    apply bind_Ok_inv in H. destruct H as [b [H2 H]]. injection H as <- <-. eapply aset_len; eauto.
Qed.
Lemma compress_loop_ends : forall fuel o arr w l, length arr - l < fuel -> ends (compress_loop fuel o arr w l).
Proof.
  induction fuel as [|f IH]; intros o arr w l L; [lia|]. cbn [compress_loop].
  destruct (Nat.ltb_spec l (length arr)); [|discriminate].
  apply ends_bind; [apply find_right_ends; lia|]. intros r R. apply find_right_le in R.
  apply ends_bind; [apply by_route_ends; lia|]. intros [a w'] B. apply by_route_len in B.
  apply IH. lia.
Qed.

Lemma pair_compress_ends : forall ordered c_sort n table, ends (compress_table ordered c_sort n table).
Proof.
  intros. unfold compress_table. apply ends_bind; [apply ends_foldM; intros; apply update_ends|]. intros h _.
  apply ends_bind.
  - unfold sort_entries. apply ends_match.
    + apply ends_bind; [apply quicksort_routes_ends; lia|]. intros. apply quicksort_table_ends. lia.
    + apply ends_bind.
      * unfold sort_hist. apply ends_bind; [apply sortM_ends; discriminate|]. intros [|x l] _; discriminate.
      * intros h' _. apply sortM_ends. intros. apply compare_ends.
  - intros arr _. apply ends_bind; [apply compress_loop_ends; lia|]. intros [a w] _. discriminate.
Qed.
