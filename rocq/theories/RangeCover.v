(** Ordered covering after the range compressor: the entries of a range compressed
    table overlap only so that the order by generality keeps which comes first. *)
From Coq Require Import List Arith NArith ZArith Bool Lia Sorted Permutation.
From Verif Require Import Base RouteSpec KeyMask DefaultModel DefaultProofs OrderedModel OrderedProofs OrderedMax
  OrderedAgain RangeModel RangeProofs CheckedRange.
Import ListNotations.

(** * Sorting by generality *)

Lemma insert_first_other : forall x m k, ~ entry_matches k x ->
  first_match (insert_entry x m) k = first_match m k.
Proof.
  intros x m k H. assert (E : entry_matchesb k x = false).
  { destruct (entry_matchesb k x) eqn:E; [|reflexivity]. apply entry_matchesb_iff in E. contradiction. }
  induction m as [|y m IH]; cbn [insert_entry]; [cbn [first_match]; now rewrite E|].
  destruct (Z.leb (entry_generality x) (entry_generality y)); cbn [first_match]; rewrite ?E; [reflexivity|].
  now rewrite IH.
Qed.

Lemma insert_first_this : forall x m k, entry_matches k x ->
  (forall y, In y m -> entry_matches k y -> gle x y) -> first_match (insert_entry x m) k = Some x.
Proof.
  intros x m k H G. pose proof (proj2 (entry_matchesb_iff k x) H) as E.
  induction m as [|y m IH]; cbn [insert_entry]; [cbn [first_match]; now rewrite E|].
  destruct (Z.leb_spec (entry_generality x) (entry_generality y)) as [L|L]; cbn [first_match]; [now rewrite E|].
  destruct (entry_matchesb k y) eqn:Y.
  - apply entry_matchesb_iff in Y. specialize (G y (or_introl eq_refl) Y). unfold gle in G. lia.
  - apply IH. intros z Hz. apply G. now right.
Qed.

Lemma sort_first : forall l k,
  ForallOrdPairs (fun a b => entry_matches k a -> entry_matches k b -> gle a b) l ->
  first_match (sort_entries l) k = first_match l k.
Proof.
  intros l k H. induction H as [|x l F H IH]; [reflexivity|].
  change (sort_entries (x :: l)) with (insert_entry x (sort_entries l)). cbn [first_match].
  destruct (entry_matchesb k x) eqn:E.
  - apply entry_matchesb_iff in E. apply insert_first_this; [exact E|].
    intros y Hy My. rewrite Forall_forall in F. apply F; auto.
    apply (Permutation_in _ (sort_perm l)). exact Hy.
  - rewrite insert_first_other; [exact IH|]. intros M. apply entry_matchesb_iff in M. congruence.
Qed.

(** Ordered covering of any table whose order by generality is as good as its own. *)
Lemma covering_sorts : forall table target nr out al,
  Forall entry_ok table -> NoDup (map km table) ->
  ordered_covering table target [] nr = Ok (out, al) ->
  Forall entry_ok out /\
  forall k o, first_match (sort_entries table) k = Some o ->
    exists e, first_match out k = Some e /\ e_route e = e_route o /\ (e_def e = true -> e_def o = true).
Proof.
  intros table target nr out al F N E. pose proof (sort_perm table) as P.
  assert (E' : ordered_covering (sort_entries table) target [] nr = Ok (out, al)).
  { unfold ordered_covering in *. rewrite (sort_of_sorted _ (sort_sorted table)). exact E. }
  destruct (covering_keeps (sort_entries table) target nr out al) as (_ & _ & A & B); auto.
  - rewrite Forall_forall in *. intros x Hx. apply F. eapply Permutation_in; eauto.
  - apply sort_sorted.
  - eapply Permutation_NoDup; [|exact N]. apply Permutation_map, Permutation_sym, P.
Qed.

(** * Blocks *)

Definition block_of (s : nat) : N := N.shiftl (N.ones (N.of_nat (32 - s))) (N.of_nat s).

Lemma block_of_mask : forall e, block_mask e -> exists s, (s <= 32)%nat /\ e_mask e = block_of s.
Proof.
  intros e (s & Hs & E). exists s. split; [exact Hs|]. unfold block_of.
  rewrite N.shiftl_mul_pow2, N.ones_equiv, N.pred_sub.
  apply N2Z.inj. rewrite E, N2Z.inj_mul, N2Z.inj_sub.
  2:{ pose proof (N.pow_nonzero 2 (N.of_nat (32 - s))). lia. }
  rewrite !N2Z.inj_pow, !nat_N_Z. change (Z.of_N 2) with 2%Z. change (Z.of_N 1) with 1%Z.
  rewrite Z.mul_sub_distr_r, <- Z.pow_add_r by lia.
  replace (Z.of_nat (32 - s) + Z.of_nat s)%Z with 32%Z by lia. lia.
Qed.

Lemma block_of_bit : forall s i, (s <= 32)%nat ->
  N.testbit (block_of s) i = (N.leb (N.of_nat s) i && N.ltb i 32)%bool.
Proof.
  intros s i H. unfold block_of. destruct (N.leb_spec (N.of_nat s) i) as [L|L].
  - rewrite N.shiftl_spec_high' by exact L. cbn [andb].
    destruct (N.ltb_spec i 32) as [K|K].
    + apply N.ones_spec_low. lia.
    + apply N.ones_spec_high. lia.
  - rewrite N.shiftl_spec_low by exact L. reflexivity.
Qed.

Lemma block_inside : forall s s' k k' a b, (s <= s')%nat -> (s' <= 32)%nat ->
  e_mask b = block_of s -> e_mask a = block_of s' ->
  entry_matches k a -> entry_matches k b -> entry_matches k' b -> entry_matches k' a.
Proof.
  intros s s' k k' a b L L' Eb Ea Ma Mb Mb'. unfold entry_matches, key_matches in *.
  rewrite <- Ma. rewrite <- Mb in Mb'. apply N.bits_inj. intro i.
  pose proof (f_equal (fun z => N.testbit z i) Mb') as H. cbn beta in H.
  rewrite !N.land_spec in *. rewrite Ea, Eb in *. rewrite !block_of_bit in * by lia.
  destruct (N.leb_spec (N.of_nat s') i) as [A|A]; cbn [andb] in *; [|now rewrite !andb_false_r].
  destruct (N.leb_spec (N.of_nat s) i) as [B|B]; [|lia]. cbn [andb] in H. exact H.
Qed.

Lemma block_generality : forall s s' a b, (s <= s')%nat -> (s' <= 32)%nat -> entry_ok a -> entry_ok b ->
  e_mask a = block_of s -> e_mask b = block_of s' -> gle a b.
Proof.
  intros s s' a b L L' Oa Ob Ea Eb. unfold gle, entry_generality.
  rewrite !gen_free by assumption. rewrite !free_count, Ea, Eb. apply inj_le. apply count_bits_mono.
  intros i _ H. rewrite block_of_bit in * by lia. apply negb_true_iff in H. apply negb_true_iff.
  destruct (N.leb_spec (N.of_nat s') i) as [A|A]; [|reflexivity].
  destruct (N.leb_spec (N.of_nat s) i) as [B|B]; [exact H|lia].
Qed.

Lemma klt_generality : forall a b k, entry32 a -> entry32 b -> block_mask a -> block_mask b ->
  klt a b -> entry_matches k a -> entry_matches k b -> gle a b.
Proof.
  intros a b k A32 B32 Ba Bb (k' & Hk' & Mb' & Lt) Ma Mb.
  destruct (block_of_mask a Ba) as (sa & La & Ea). destruct (block_of_mask b Bb) as (sb & Lb & Eb).
  destruct (Nat.le_gt_cases sb sa) as [L|L].
  - pose proof (block_inside sb sa k k' a b L La Eb Ea Ma Mb Mb') as M. specialize (Lt k' Hk' M). lia.
  - apply (block_generality sa sb); auto; try lia; [apply A32 | apply B32].
Qed.

(** * What the range compressor writes *)

Section WithTable.
  Variable es : list entry.
  Hypothesis E32 : Forall entry32 es.
  Hypothesis V : valid es.

  Lemma merge_range_blocks : forall fuel first last out,
    (0 <= first <= last)%Z -> (last < zlen es)%Z -> Forall block_mask es ->
    merge_range fuel es first last = Ok out -> Forall block_mask out.
  Proof.
    induction fuel as [|fuel IH]; intros first last out H1 H2 B Hm; [discriminate|].
    destruct (Z.eq_dec first last) as [->|Hne].
    - cbn [merge_range] in Hm. rewrite Z.eqb_refl in Hm.
      destruct (zget_nth es last) as (e & He & Hz); [lia|].
      rewrite Hz in Hm. cbn [bind] in Hm. injection Hm as <-. constructor; [|constructor].
      rewrite Forall_forall in B. apply B. eapply nth_error_In; eauto.
    - destruct (merge_range_step_all es E32 V first last) as (j & last' & e & He & S1 & S2 & S2b & S3 & S4 & S5 & S6 & S7);
        try lia.
      assert (Pr : (first <= last')%Z).
      { destruct (Z.leb_spec first last') as [L|L]; [exact L|exfalso].
        assert (El : (last' + 1)%Z = first) by lia.
        eapply (merge_range_stuck es first last); [lia|lia| |exact Hm].
        intros f. eexists. rewrite S7. destruct (Z.eqb_spec last last'); [lia|]. rewrite El. reflexivity. }
      rewrite S7 in Hm. clear S7.
      set (p := Z.pow 2 (Z.of_nat j)) in *.
      assert (Hp : (0 < p <= 2 ^ 32)%Z).
      { split; [apply Z.pow_pos_nonneg; lia | apply Z.pow_le_mono_r; lia]. }
      set (b := block_entry (Kf es first / p * p) j (e_route e)) in *.
      assert (Bb : block_mask b).
      { exists j. split; [exact S1|]. unfold b, block_entry. cbn [e_mask]. fold p. rewrite Z2N.id; lia. }
      destruct (Z.eqb_spec last last') as [El|Hnl].
      + injection Hm as <-. constructor; [exact Bb|constructor].
      + destruct (bind_Ok_inv _ _ _ Hm) as (more & Hmore & Eo). injection Eo as <-.
        constructor; [exact Bb|]. apply (IH (last' + 1)%Z last more); auto; lia.
  Qed.

  Lemma ranges_blocks : forall fuel todo pre first route out, Forall block_mask es ->
    es = pre ++ todo ->
    (0 <= first <= zlen pre)%Z ->
    (first = zlen pre -> exists e t, todo = e :: t /\ e_route e = route) ->
    ranges fuel es todo (zlen pre) first route = Ok out -> Forall block_mask out.
  Proof.
    induction todo as [|x todo IH]; intros pre first route out B Ees Hf Hfe Hm.
    - simpl in Hm. rewrite app_nil_r in Ees. subst pre.
      assert (first <> zlen es) by (intros C; destruct (Hfe C) as (e & t & D & _); discriminate).
      apply (merge_range_blocks fuel first (zlen es - 1)%Z out); auto; lia.
    - cbn [ranges] in Hm.
      assert (Ees2 : es = (pre ++ [x]) ++ todo) by (rewrite <- app_assoc; exact Ees).
      assert (Lp : zlen (pre ++ [x]) = (zlen pre + 1)%Z) by (rewrite app_length; simpl; lia).
      assert (Ln : zlen es = (zlen pre + 1 + zlen todo)%Z).
      { rewrite Ees, app_length. simpl. lia. }
      destruct (N.eqb_spec (e_route x) route) as [Ex|Nx].
      + rewrite <- Lp in Hm. apply (IH (pre ++ [x]) first route out); auto; lia.
      + assert (first <> zlen pre).
        { intros C. destruct (Hfe C) as (e & t & D & R). injection D as <- <-. contradiction. }
        destruct (bind_Ok_inv _ _ _ Hm) as (a & Ha & Hm2).
        destruct (bind_Ok_inv _ _ _ Hm2) as (b & Hb & Eo). injection Eo as <-.
        rewrite <- Lp in Hb. apply Forall_app. split.
        * apply (merge_range_blocks fuel first (zlen pre - 1)%Z a); auto; lia.
        * destruct todo as [|y todo].
          -- apply (IH (pre ++ [x]) (zlen pre) (e_route x) b); auto; lia.
          -- apply (IH (pre ++ [x]) (zlen pre) (e_route x) b); auto; lia.
  Qed.
End WithTable.

Lemma fop_impl : forall {A} (R S : A -> A -> Prop) l,
  (forall a b, In a l -> In b l -> R a b -> S a b) -> ForallOrdPairs R l -> ForallOrdPairs S l.
Proof.
  intros A R S l H F. induction F as [|x l F1 F2 IH]; constructor.
  - rewrite Forall_forall in *. intros y Hy. apply H; [now left|now right|auto].
  - apply IH. intros a b Ha Hb. apply H; now right.
Qed.

Lemma range_order : forall fuel as_far target table out,
  Forall entry32 table -> orthogonal table -> Forall block_mask table ->
  range_compress fuel as_far target table = Ok out ->
  forall k, ForallOrdPairs (fun a b => entry_matches k a -> entry_matches k b -> gle a b) out.
Proof.
  intros fuel as_far target table out E32 O B H k.
  assert (Same : ForallOrdPairs (fun a b => entry_matches k a -> entry_matches k b -> gle a b) table).
  { apply fop_impl with (R := disjoint_entries); [|exact O].
    intros a b _ _ D Ma Mb. exfalso. apply (D k). auto. }
  unfold range_compress in H.
  destruct (negb as_far && Nat.ltb (length table) target)%bool; [injection H as <-; exact Same|].
  destruct (validate_total (sort_by_key table)) as (v & Ev & Hv). rewrite Ev in H. cbn [bind] in H.
  destruct v; [|injection H as <-; exact Same]. clear Same Ev.
  assert (V : valid (sort_by_key table)) by (now apply Hv). clear Hv.
  pose proof (sort_by_key_perm table) as P.
  assert (E32s : Forall entry32 (sort_by_key table)).
  { rewrite Forall_forall in *. intros x Hx. apply E32. eapply Permutation_in; eauto. }
  assert (Bs : Forall block_mask (sort_by_key table)).
  { rewrite Forall_forall in *. intros x Hx. apply B. eapply Permutation_in; eauto. }
  set (es := sort_by_key table) in *. clearbody es.
  destruct es as [|e0 es0] eqn:Ees; [discriminate|]. rewrite <- Ees in *.
  destruct (ranges_seq es E32s V fuel es [] 0 (e_route e0) out) as (C1 & _ & C3); auto.
  - simpl. lia.
  - intros _. exists e0, es0. auto.
  - assert (Bo : Forall block_mask out).
    { apply (ranges_blocks es E32s V fuel es [] 0%Z (e_route e0)); auto; [simpl; lia|].
      intros _. exists e0, es0. auto. }
    rewrite Forall_forall in Bo. eapply fop_impl; [|exact C1].
    intros a b Ha Hb K Ma Mb. apply (klt_generality a b k); auto; now apply C3.
Qed.

Lemma range_then_cover : forall fuel as_far target table mid target' out,
  Forall entry32 table -> orthogonal table -> Forall block_mask table ->
  range_compress fuel as_far target table = Ok mid ->
  oc_compress_table mid target' = Ok out ->
  forall o k, In o table -> (k < 2 ^ 32)%N -> entry_matches k o ->
    (exists e, first_match out k = Some e /\ e_route e = e_route o /\ (e_def e = true -> e_def o = true)) \/
    (first_match out k = None /\ e_def o = true).
Proof.
  intros fuel as_far target table mid target' out E32 O B R C o k Ho Hk M.
  destruct (range_preserves fuel as_far target table mid E32 O R o k Ho Hk M) as (m & Fm & Rm).
  destruct (range_seq fuel as_far target table mid E32 O R) as (M32 & N & D).
  pose proof (range_order fuel as_far target table mid E32 O B R k) as Ord.
  assert (OKm : Forall entry_ok mid).
  { rewrite Forall_forall in *. intros x Hx. apply M32. exact Hx. }
  assert (Dm : e_def m = true -> e_def o = true).
  { intros T. destruct (first_match_index _ _ _ Fm) as (i & Hi & Mm & _).
    destruct (D m (nth_error_In _ _ Hi)) as [I|F]; [|congruence].
    rewrite <- T. f_equal. eapply orthogonal_unique; eauto. }
  unfold oc_compress_table in C. apply bind_Ok_inv in C. destruct C as [[t a] [E1 E2]]. cbn [fst] in E2.
  destruct (covering_sorts mid target' true t a OKm N E1) as (OKt & Kp).
  destruct (Kp k m) as (e & Fe & Re & De); [rewrite sort_first; [exact Fm|exact Ord]|].
  destruct (remove_default_safe t target' true out OKt (or_introl eq_refl) E2) as [_ S].
  specialize (S k). rewrite Fe in S. destruct S as [S|[S1 S2]].
  - left. exists e. split; [exact S|]. split; [congruence|auto].
  - right. auto.
Qed.
