(** Compressing once more: a table in which no two entries can be merged is only
    reordered by the pair compressor in unordered mode. *)
From Coq Require Import List Arith NArith ZArith Bool Lia Permutation Sorted.
From Verif Require Import Base RouteSpec KeyMask PairModel PairProofs PairSort PairFull.
Import ListNotations.

Section Again.
  Context (arr : list entry).

  (** Whatever two entries of one route at different places are merged to also
      matches a key of an entry of another route. *)
  Definition locked : Prop := forall i j a b, i < j ->
    nth_error arr i = Some a -> nth_error arr j = Some b -> e_route a = e_route b ->
    exists d k, In d arr /\ e_route d <> e_route a /\ entry_matches k d /\ entry_matches k (merged a b).

  Lemma no_intersect_false : forall n lo k m j d, nth_error arr j = Some d -> lo <= j < lo + n ->
    lo + n <= length arr -> intersect (e_key d) (e_mask d) k m = true ->
    no_intersect arr lo n k m = Ok false.
  Proof.
    induction n as [|n IH]; intros lo k m j d Hd Hj Hl Hi; [lia|]. simpl.
    destruct (nth_error arr lo) as [e|] eqn:E; [|apply nth_error_None in E; lia].
    unfold aget. rewrite E. cbn [bind].
    destruct (intersect (e_key e) (e_mask e) k m) eqn:F; [reflexivity|].
    destruct (Nat.eq_dec j lo) as [->|Hne].
    - rewrite E in Hd. injection Hd as <-. congruence.
    - apply (IH (S lo) k m j d); auto; lia.
  Qed.

  Lemma no_intersect_bool : forall n lo k m, lo + n <= length arr -> exists b, no_intersect arr lo n k m = Ok b.
  Proof.
    induction n as [|n IH]; intros lo k m Hl; simpl; [eauto|].
    destruct (nth_error arr lo) as [e|] eqn:E; [|apply nth_error_None in E; lia].
    unfold aget. rewrite E. cbn [bind]. destruct (intersect _ _ _ _); [eauto|]. apply IH. lia.
  Qed.

  Lemma find_merge_locked : forall prev rem i j a b,
    locked -> i < j -> nth_error arr i = Some a -> nth_error arr j = Some b -> e_route a = e_route b ->
    prev <= rem -> rem <= length arr ->
    (forall x d, nth_error arr x = Some d -> e_route d <> e_route a -> x < prev \/ rem <= x) ->
    find_merge false prev rem arr i j = Ok None.
  Proof.
    intros prev rem i j a b HL Hij Ha Hb E Hp Hr Out. unfold find_merge, aget. rewrite Ha, Hb. cbn [bind].
    destruct (HL i j a b Hij Ha Hb E) as (d & k & Hd & Hne & Md & Mm).
    apply In_nth_error in Hd. destruct Hd as (x & Hx).
    assert (Hlx : x < length arr) by (apply nth_error_Some; congruence).
    assert (HI : intersect (e_key d) (e_mask d) (merge_key (e_key a) (e_mask a) (e_key b) (e_mask b))
                  (merge_mask (e_key a) (e_mask a) (e_key b) (e_mask b)) = true).
    { change (intersect (e_key d) (e_mask d) (e_key (merged a b)) (e_mask (merged a b)) = true).
      destruct (intersect _ _ _ _) eqn:F; [reflexivity|].
      apply entry_intersect_false in F. exfalso. exact (F k (conj Md Mm)). }
    destruct (Out x d Hx Hne) as [Hlt|Hge].
    - rewrite (no_intersect_false prev 0 _ _ x d Hx ltac:(lia) ltac:(lia) HI). reflexivity.
    - destruct (no_intersect_bool prev 0 (merge_key (e_key a) (e_mask a) (e_key b) (e_mask b))
                  (merge_mask (e_key a) (e_mask a) (e_key b) (e_mask b)) ltac:(lia)) as (b1 & ->).
      cbn [bind]. destruct b1; [|reflexivity].
      rewrite (no_intersect_false (length arr - rem) rem _ _ x d Hx ltac:(lia) ltac:(lia) HI). reflexivity.
  Qed.

  Lemma scan_locked : forall n prev rem i j a,
    locked -> i < j -> nth_error arr i = Some a -> j + n <= rem ->
    prev <= rem -> rem <= length arr ->
    (forall x d, nth_error arr x = Some d -> i < x < rem -> e_route d = e_route a) ->
    (forall x d, nth_error arr x = Some d -> e_route d <> e_route a -> x < prev \/ rem <= x) ->
    scan_merge false prev rem arr i j n = Ok None.
  Proof.
    induction n as [|n IH]; intros prev rem i j a HL Hij Ha Hn Hp Hr Same Out; simpl; [reflexivity|].
    destruct (nth_error arr j) as [b|] eqn:Eb; [|apply nth_error_None in Eb; lia].
    rewrite (find_merge_locked prev rem i j a b); auto.
    - cbn [bind]. apply (IH prev rem i (S j) a); auto; lia.
    - symmetry. apply (Same j b Eb). lia.
  Qed.

  Lemma upd_same : forall {A} (l : list A) i x, nth_error l i = Some x -> upd l i x = l.
  Proof.
    induction l as [|y l IH]; intros [|i] x H; simpl in *; try discriminate; [congruence|].
    now rewrite IH.
  Qed.

  Lemma put_same : forall i x, nth_error arr i = Some x -> aset arr i x = Ok arr.
  Proof.
    intros i x H. rewrite aset_lt; [now rewrite upd_same|]. apply nth_error_Some. congruence.
  Qed.

  Lemma by_route_locked : forall fuel prev rem left r,
    locked -> left < rem -> rem <= length arr -> prev <= left -> rem - left <= fuel ->
    (forall x d, nth_error arr x = Some d -> (prev <= x < rem <-> e_route d = r)) ->
    compress_by_route fuel false prev rem arr left left (rem - 1) = Ok (arr, rem).
  Proof.
    induction fuel as [|fuel IH]; intros prev rem left r HL Hlt Hr Hp Hf Run; [lia|].
    simpl. destruct (nth_error arr left) as [a|] eqn:Ea; [|apply nth_error_None in Ea; lia].
    assert (Ra : e_route a = r) by (apply (Run left a Ea); lia).
    destruct (Nat.ltb_spec left (rem - 1)).
    - rewrite (scan_locked (rem - 1 - left) prev rem left (S left) a); auto; try lia.
      + cbn [bind]. unfold aget. rewrite Ea. cbn [bind]. rewrite (put_same _ _ Ea). cbn [bind].
        apply (IH prev rem (S left) r); auto; lia.
      + intros x d Hx Hb. rewrite Ra. apply (Run x d Hx). lia.
      + intros x d Hx Hne. rewrite Ra in Hne. destruct (Nat.lt_ge_cases x prev); [auto|].
        destruct (Nat.lt_ge_cases x rem); [|auto]. exfalso. apply Hne. apply (Run x d Hx). lia.
    - destruct (Nat.eqb_spec left (rem - 1)); [|lia]. unfold aget. rewrite Ea. cbn [bind]. rewrite (put_same _ _ Ea). cbn [bind].
      f_equal. f_equal. lia.
  Qed.

  Lemma find_right_run : forall fuel left right a, nth_error arr left = Some a -> left <= right < length arr ->
    length arr - right <= fuel ->
    (forall x d, nth_error arr x = Some d -> left <= x <= right -> e_route d = e_route a) ->
    exists rgt, find_right fuel arr left right = Ok rgt /\ right <= rgt < length arr /\
      (forall x d, nth_error arr x = Some d -> left <= x <= rgt -> e_route d = e_route a) /\
      (forall d, nth_error arr (S rgt) = Some d -> e_route d <> e_route a).
  Proof.
    induction fuel as [|fuel IH]; intros left right a Ha Hr Hf Run; [lia|]. cbn [find_right].
    destruct (Nat.ltb_spec (S right) (length arr)).
    - destruct (nth_error arr (S right)) as [b|] eqn:Eb; [|apply nth_error_None in Eb; lia].
      unfold aget. rewrite Ha, Eb. cbn [bind].
      destruct (N.eqb_spec (e_route b) (e_route a)).
      + destruct (IH left (S right) a Ha ltac:(lia) ltac:(lia)) as (rgt & E & B1 & B2 & B3).
        * intros x d Hx Hb. destruct (Nat.eq_dec x (S right)) as [->|]; [congruence|].
          apply (Run x d Hx). lia.
        * exists rgt. split; [assumption|]. split; [lia|]. now split.
      + exists right. split; [reflexivity|]. split; [lia|]. split; [assumption|]. intros d Hd. rewrite Eb in Hd. now injection Hd as <-.
    - exists right. split; [reflexivity|]. split; [lia|]. split; [assumption|]. intros d Hd.
      assert (S right < length arr) by (apply nth_error_Some; congruence). lia.
  Qed.

  Definition together : Prop := forall i j k a b c, i <= j <= k ->
    nth_error arr i = Some a -> nth_error arr j = Some b -> nth_error arr k = Some c ->
    e_route a = e_route c -> e_route b = e_route a.

  Lemma loop_locked : forall fuel left, locked -> together -> left <= length arr -> length arr - left < fuel ->
    (forall i j a b, i < left <= j -> nth_error arr i = Some a -> nth_error arr j = Some b -> e_route a <> e_route b) ->
    compress_loop fuel false arr left left = Ok (arr, length arr).
  Proof.
    induction fuel as [|fuel IH]; intros left HL HT Hle Hf Sep; [lia|]. cbn [compress_loop].
    destruct (Nat.ltb_spec left (length arr)).
    - destruct (nth_error arr left) as [a|] eqn:Ea; [|apply nth_error_None in Ea; lia].
      destruct (find_right_run (S (length arr)) left left a Ea ltac:(lia) ltac:(lia)) as (rgt & E & B1 & B2 & B3).
      { intros x d Hx Hb. assert (x = left) by lia. subst. congruence. }
      rewrite E. cbn [bind].
      replace rgt with (S rgt - 1) at 3 by lia.
      assert (After : forall x d, nth_error arr x = Some d -> rgt < x -> e_route d <> e_route a).
      { intros x d Hx Hb Er. destruct (nth_error arr (S rgt)) as [c|] eqn:Ec.
        - apply (B3 c eq_refl). apply (HT left (S rgt) x a c d); auto; lia.
        - apply nth_error_None in Ec. assert (x < length arr) by (apply nth_error_Some; congruence). lia. }
      rewrite (by_route_locked _ left (S rgt) left (e_route a)); auto; try lia.
      + cbn [bind]. apply IH; auto; try lia.
        intros i j x y Hij Hx Hy. destruct (Nat.lt_ge_cases i left).
        * apply (Sep i j x y); auto; lia.
        * rewrite (B2 i x Hx ltac:(lia)). intros Er. apply (After j y Hy ltac:(lia)). now symmetry.
      + intros x d Hx. split.
        * intros Hb. apply (B2 x d Hx). lia.
        * intros Er. destruct (Nat.lt_ge_cases x left).
          -- exfalso. apply (Sep x left d a); auto; lia.
          -- split; [assumption|]. destruct (Nat.lt_ge_cases rgt x); [|lia]. exfalso. now apply (After x d Hx).
    - f_equal. f_equal. lia.
  Qed.
End Again.

(** * From any order to the sorted one *)

Lemma fop_perm : forall {A} (R : A -> A -> Prop), (forall a b, R a b -> R b a) ->
  forall l l', Permutation l l' -> ForallOrdPairs R l -> ForallOrdPairs R l'.
Proof.
  intros A R Sym l l' P. induction P; intros H.
  - assumption.
  - inversion H; subst. constructor; [|auto]. eapply Permutation_Forall; eauto.
  - inversion H; subst. inversion H3; subst. inversion H2; subst.
    constructor; [constructor; [now apply Sym|assumption]|]. constructor; assumption.
  - auto.
Qed.

Lemma fop_nth : forall {A} (R : A -> A -> Prop) l, ForallOrdPairs R l ->
  forall i j a b, i < j -> nth_error l i = Some a -> nth_error l j = Some b -> R a b.
Proof.
  intros A R l H. induction H as [|x l Hx Hl IH]; intros [|i] [|j] a b Hij Ha Hb; simpl in *; try lia; try discriminate.
  - injection Ha as <-. rewrite Forall_forall in Hx. apply Hx. eapply nth_error_In; eauto.
  - apply (IH i j); auto. lia.
Qed.

Lemma sorted_nth : forall {A} (R : A -> A -> Prop) l, StronglySorted R l ->
  forall i j a b, i < j -> nth_error l i = Some a -> nth_error l j = Some b -> R a b.
Proof.
  intros A R l H. induction H as [|x l Hl IH Hx]; intros [|i] [|j] a b Hij Ha Hb; simpl in *; try lia; try discriminate.
  - injection Ha as <-. rewrite Forall_forall in Hx. apply Hx. eapply nth_error_In; eauto.
  - apply (IH i j); auto. lia.
Qed.

Lemma merged_sym : forall a b k, entry_matches k (merged a b) -> entry_matches k (merged b a).
Proof.
  intros a b k. unfold entry_matches, key_matches, merged. cbn [e_key e_mask].
  unfold merge_key, merge_mask.
  rewrite (N.lor_comm (e_key b)), (N.land_comm (e_key b)), (N.land_comm (e_mask b)). auto.
Qed.

(** Two entries of one route that cannot be merged because of an entry of [t]. *)
Definition stuck_in (t : list entry) (a b : entry) : Prop :=
  e_route a = e_route b ->
  exists d k, In d t /\ e_route d <> e_route a /\ entry_matches k d /\ entry_matches k (merged a b).

Lemma stuck_sym : forall t a b, stuck_in t a b -> stuck_in t b a.
Proof.
  intros t a b H E. destruct (H (eq_sym E)) as (d & k & Hd & Hne & Md & Mm).
  exists d, k. rewrite E. repeat split; auto. now apply merged_sym.
Qed.

Lemma compress_stuck : forall c_sort n t out,
  ForallOrdPairs (stuck_in t) t -> compress_table false c_sort n t = Ok out -> Permutation t out.
Proof.
  intros c_sort n t out HF H. unfold compress_table in H.
  apply bind_Ok_inv in H. destruct H as (h & Eh & H).
  destruct (Nat.eq_dec n 0) as [->|Hn].
  { destruct t as [|e t].
    - simpl in Eh. injection Eh as <-. destruct c_sort; vm_compute in H; [|discriminate].
      injection H as <-. constructor.
    - simpl in Eh. discriminate. }
  apply (histogram_full n t [] _ h (hist_full_init n)) in Eh. simpl app in Eh.
  destruct (sort_entries_full c_sort n t h Eh ltac:(lia)) as (us & arr & Ea & Pa & Hus & Su & Sa).
  rewrite Ea in H. cbn [bind] in H.
  assert (Hr : forall a, In a arr -> In (e_route a) us).
  { intros a Ha. apply Hus. apply in_map. eapply Permutation_in; [symmetry; exact Pa|assumption]. }
  assert (HL : locked arr).
  { intros i j a b Hij Ha Hb E.
    destruct (fop_nth _ _ (fop_perm _ (stuck_sym t) _ _ Pa HF) i j a b Hij Ha Hb E) as (d & k & Hd & Q).
    exists d, k. split; [eapply Permutation_in; eauto|assumption]. }
  assert (HT : together arr).
  { intros i j k a b c Hijk Ha Hb Hc E.
    destruct (Nat.eq_dec i j) as [->|]; [congruence|]. destruct (Nat.eq_dec j k) as [->|]; [congruence|].
    pose proof (sorted_nth _ _ Sa i j a b ltac:(lia) Ha Hb) as Q1.
    pose proof (sorted_nth _ _ Sa j k b c ltac:(lia) Hb Hc) as Q2. cbv beta in Q1, Q2. rewrite <- E in Q2.
    apply (pos_inj us); [apply Hr; eapply nth_error_In; eauto..|]. lia. }
  rewrite (loop_locked arr (S (length arr)) 0) in H; auto; try lia.
  cbn [bind] in H. rewrite firstn_all in H. congruence.
Qed.

Lemma pair_stuck : forall c_sort n t out, Forall entry_ok t ->
  compress_table false c_sort n t = Ok out -> ForallOrdPairs (stuck_in out) out.
Proof.
  intros c_sort n t out Hok H.
  destruct (compress_table_full _ _ _ _ _ Hok H) as (us & _ & _ & Oko & So & HF & _).
  refine (fop_impl _ _ _ _ HF). intros a b _ _ Q E.
  destruct (Q E) as (d & k & Hd & Hne & _ & Md & Mm). exists d, k. auto.
Qed.

Lemma routes_fit : forall ordered c_sort n t out, compress_table ordered c_sort n t = Ok out ->
  length (nodup N.eq_dec (map e_route t)) <= n.
Proof.
  intros ordered c_sort n t out H. destruct (Nat.le_gt_cases (length (nodup N.eq_dec (map e_route t))) n) as [|G]; [assumption|].
  rewrite compress_table_too_many_routes in H by assumption. discriminate.
Qed.

Lemma pair_consistent : forall c_sort n t out, Forall entry_ok t -> route_consistent t ->
  compress_table false c_sort n t = Ok out -> Forall entry_ok out /\ route_consistent out.
Proof.
  intros c_sort n t out Hok RC E. split.
  - destruct (compress_table_full _ _ _ _ _ Hok E) as (us & _ & _ & Oko & _). exact Oko.
  - destruct t as [|e t].
    + destruct (compress_table_full _ _ _ _ _ Hok E) as (us & Hus & _ & _ & _ & _ & Hr).
      intros a b k Ha. exfalso. exact (proj1 (Hus _) (Hr a Ha)).
    + pose proof (routes_fit _ _ _ _ _ E) as Hge.
      assert (0 < n).
      { destruct n; [|lia]. exfalso.
        assert (In (e_route e) (nodup N.eq_dec (map e_route (e :: t)))) by (apply nodup_In; now left).
        destruct (nodup N.eq_dec (map e_route (e :: t))); [contradiction|simpl in Hge; lia]. }
      destruct (compress_table_spec false c_sort n (e :: t) Hok RC H Hge) as (out2 & E' & _ & _ & _ & R & _).
      rewrite E in E'. injection E' as <-. now apply R.
Qed.

Lemma nothing_to_merge : forall c_sort n t out, Forall entry_ok t ->
  (forall l1 a l2 b l3 K M, t = l1 ++ a :: l2 ++ b :: l3 -> e_route a = e_route b ->
     (forall k, entry_matches k a \/ entry_matches k b -> N.land k M = K) ->
     exists d k, In d t /\ e_route d <> e_route a /\ entry_matches k d /\ N.land k M = K) ->
  compress_table false c_sort n t = Ok out -> Permutation t out.
Proof.
  intros c_sort n t out Hok H. apply compress_stuck.
  assert (G : forall l0 l, t = l0 ++ l -> ForallOrdPairs (stuck_in t) l).
  { intros l0 l. revert l0. induction l as [|a l IH]; intros l0 Et; constructor.
    - apply Forall_forall. intros b Hb E. apply in_split in Hb. destruct Hb as (l2 & l3 & ->).
      rewrite Forall_forall in Hok.
      assert (Oa : entry_ok a) by (apply Hok; rewrite Et, in_app_iff; simpl; auto).
      assert (Ob : entry_ok b) by (apply Hok; rewrite Et, in_app_iff; simpl; rewrite in_app_iff; simpl; auto).
      destruct (H l0 a l2 b l3 (e_key (merged a b)) (e_mask (merged a b)) Et E) as (d & k & Hd & Hne & Md & Mk).
      + intros k [M|M]; [apply merge_covers_l|apply merge_covers_r]; auto.
      + exists d, k. auto.
    - apply (IH (l0 ++ [a])). rewrite Et, <- app_assoc. reflexivity. }
  exact (G [] t eq_refl).
Qed.

Lemma pair_again : forall c_sort c_sort' n t out,
  Forall entry_ok t -> route_consistent t -> 0 < n -> compress_table false c_sort n t = Ok out ->
  exists out', compress_table false c_sort' n out = Ok out' /\ Permutation out out'.
Proof.
  intros c_sort c_sort' n t out Hok RC Hn E.
  destruct (pair_consistent _ _ _ _ Hok RC E) as [Oko RCo].
  destruct (pair_total_and_shrinks false c_sort' n out Oko RCo Hn) as (out' & E' & _).
  - pose proof (routes_fit _ _ _ _ _ E) as Hf.
    destruct (pair_total_and_shrinks false c_sort n t Hok RC Hn Hf) as (out1 & E1 & _ & _ & Hr).
    rewrite E in E1. injection E1 as <-.
    eapply Nat.le_trans; [|exact Hf]. apply NoDup_incl_length; [apply NoDup_nodup|].
    intros r Hr0. apply nodup_In in Hr0. apply nodup_In. apply in_map_iff in Hr0.
    destruct Hr0 as (o & <- & Ho). now apply Hr.
  - exists out'. split; [assumption|]. eapply compress_stuck; [|exact E'].
    exact (pair_stuck _ _ _ _ Hok E).
Qed.

(** The first compression unordered, the second in any mode. *)
Lemma pair_twice : forall ordered c_sort c_sort' n n' t out out',
  Forall entry_ok t -> route_consistent t ->
  compress_table false c_sort n t = Ok out -> compress_table ordered c_sort' n' out = Ok out' ->
  forall e k, In e t -> entry_matches k e -> routes_to out' k (e_route e).
Proof.
  intros ordered c_sort c_sort' n n' t out out' Hok RC E E' e k He M.
  destruct (pair_consistent _ _ _ _ Hok RC E) as [Oko RCo].
  destruct (pair_preserves_consistent _ _ _ _ _ Hok RC E e k He M) as (o & Fo & <-).
  apply first_match_Some in Fo. destruct Fo as [Ho Mo].
  exact (pair_preserves_consistent _ _ _ _ _ Oko RCo E' o k Ho Mo).
Qed.
