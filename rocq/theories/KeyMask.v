(** Bit-level facts about key/mask pairs. *)
From Coq Require Import List NArith ZArith Bool Lia.
From Verif Require Import Base RouteSpec.
Import ListNotations.
Local Open Scope N_scope.

(** Models /repo/pacman/operations/router_compressors/pair_compressor.py
    469-494 (_PairCompressor.intersect) and the identical
    ordered_covering_router_compressor/utils.py 26-50 (intersect). *)
Definition intersect (key_a mask_a key_b mask_b : N) : bool :=
  N.eqb (N.land key_a mask_b) (N.land key_b mask_a).

(** Models pair_compressor.py 496-519 (_PairCompressor.merge).  Python computes
    [all_selected & (any_ones ^ ~all_ones)] with arbitrary precision two's
    complement; on non-negative operands that is [ldiff] (proved below,
    [merge_mask_python]). *)
Definition merge_mask (k1 m1 k2 m2 : N) : N :=
  let any_ones := N.lor k1 k2 in
  let all_ones := N.land k1 k2 in
  let all_selected := N.land m1 m2 in
  N.ldiff all_selected (N.lxor any_ones all_ones).

Definition merge_key (k1 m1 k2 m2 : N) : N :=
  N.land (N.land k1 k2) (merge_mask k1 m1 k2 m2).

(** The Python expression, literally, over the integers. *)
Definition merge_mask_py (k1 m1 k2 m2 : Z) : Z :=
  let any_ones := Z.lor k1 k2 in
  let all_ones := Z.land k1 k2 in
  let all_selected := Z.land m1 m2 in
  let any_zeros := Z.lnot all_ones in
  let new_xs := Z.lxor any_ones any_zeros in
  Z.land all_selected new_xs.

Lemma Z_of_N_land a b : Z.of_N (N.land a b) = Z.land (Z.of_N a) (Z.of_N b).
Proof.
  apply Z.bits_inj'. intros n Hn. rewrite Z.land_spec.
  rewrite <- (Z2N.id n) by assumption. rewrite !Z.testbit_of_N, N.land_spec.
  reflexivity.
Qed.

Lemma Z_of_N_lor a b : Z.of_N (N.lor a b) = Z.lor (Z.of_N a) (Z.of_N b).
Proof.
  apply Z.bits_inj'. intros n Hn. rewrite Z.lor_spec.
  rewrite <- (Z2N.id n) by assumption. rewrite !Z.testbit_of_N, N.lor_spec.
  reflexivity.
Qed.

Lemma merge_mask_python k1 m1 k2 m2 :
  Z.of_N (merge_mask k1 m1 k2 m2)
  = merge_mask_py (Z.of_N k1) (Z.of_N m1) (Z.of_N k2) (Z.of_N m2).
Proof.
  apply Z.bits_inj'. intros n Hn. unfold merge_mask, merge_mask_py.
  rewrite !Z.land_spec, !Z.lxor_spec, Z.lor_spec, Z.lnot_spec by assumption.
  rewrite !Z.land_spec. rewrite <- (Z2N.id n) by assumption.
  rewrite !Z.testbit_of_N, N.ldiff_spec, N.lxor_spec, N.lor_spec, !N.land_spec.
  destruct (N.testbit k1 _), (N.testbit k2 _), (N.testbit m1 _), (N.testbit m2 _);
    reflexivity.
Qed.

Ltac nbits :=
  apply N.bits_inj; let i := fresh "i" in intro i;
  repeat first [ rewrite N.land_spec | rewrite N.lor_spec | rewrite N.ldiff_spec
               | rewrite N.lxor_spec ].

(** Bitwise reading of a match. *)
Lemma land_eq_bits k m key :
  N.land k m = key <->
  (forall i, (N.testbit k i && N.testbit m i)%bool = N.testbit key i).
Proof.
  split.
  - intros <- i. now rewrite N.land_spec.
  - intros H. apply N.bits_inj. intro i. rewrite N.land_spec. apply H.
Qed.

Lemma intersect_sym ka ma kb mb : intersect ka ma kb mb = intersect kb mb ka ma.
Proof. unfold intersect. apply N.eqb_sym. Qed.

Lemma intersect_iff ka ma kb mb :
  N.land ka ma = ka -> N.land kb mb = kb ->
  (intersect ka ma kb mb = true <->
   exists k, key_matches k ka ma /\ key_matches k kb mb).
Proof.
  intros Ha Hb. unfold intersect, key_matches. rewrite N.eqb_eq.
  rewrite land_eq_bits in Ha, Hb. split.
  - intros H. exists (N.lor ka kb).
    split; apply land_eq_bits; intro i; rewrite N.lor_spec;
      specialize (Ha i); specialize (Hb i);
      assert (Hi : N.testbit (N.land ka mb) i = N.testbit (N.land kb ma) i) by congruence;
      rewrite !N.land_spec in Hi;
      destruct (N.testbit ka i), (N.testbit kb i), (N.testbit ma i), (N.testbit mb i);
      simpl in *; congruence.
  - intros (k & H1 & H2). rewrite land_eq_bits in H1, H2. nbits.
    specialize (H1 i). specialize (H2 i). rewrite <- H1, <- H2.
    destruct (N.testbit k i), (N.testbit ma i), (N.testbit mb i); reflexivity.
Qed.

(** The witness can be chosen as small as the keys. *)
Lemma lor_lt_pow2 a b n : a < 2 ^ n -> b < 2 ^ n -> N.lor a b < 2 ^ n.
Proof.
  intros Ha Hb.
  destruct (N.eq_dec (N.lor a b) 0) as [->|Hne]; [lia|].
  apply N.log2_lt_pow2; [lia|].
  rewrite N.log2_lor.
  assert (0 < 2 ^ n) by lia.
  assert (Hn : n <> 0 \/ n = 0) by lia. destruct Hn as [Hn| ->].
  - destruct (N.eq_dec a 0) as [->|Ha0]; destruct (N.eq_dec b 0) as [->|Hb0];
      repeat match goal with
             | H : ?x < 2 ^ n, H0 : ?x <> 0 |- _ =>
                 apply N.log2_lt_pow2 in H; [|lia]
             end; simpl; try lia.
  - simpl in *. assert (a = 0) by lia. assert (b = 0) by lia. subst.
    simpl in *. lia.
Qed.

Lemma intersect_witness_bounded ka ma kb mb n :
  N.land ka ma = ka -> N.land kb mb = kb -> ka < 2 ^ n -> kb < 2 ^ n ->
  intersect ka ma kb mb = true ->
  exists k, k < 2 ^ n /\ key_matches k ka ma /\ key_matches k kb mb.
Proof.
  intros Ha Hb La Lb H. exists (N.lor ka kb).
  split; [now apply lor_lt_pow2|].
  unfold intersect in H. rewrite N.eqb_eq in H. unfold key_matches.
  rewrite land_eq_bits in Ha, Hb.
  split; apply land_eq_bits; intro i; rewrite N.lor_spec;
      specialize (Ha i); specialize (Hb i);
      assert (Hi : N.testbit (N.land ka mb) i = N.testbit (N.land kb ma) i) by congruence;
      rewrite !N.land_spec in Hi;
      destruct (N.testbit ka i), (N.testbit kb i), (N.testbit ma i), (N.testbit mb i);
      simpl in *; congruence.
Qed.

Lemma merge_key_ok k1 m1 k2 m2 :
  N.land (merge_key k1 m1 k2 m2) (merge_mask k1 m1 k2 m2) = merge_key k1 m1 k2 m2.
Proof.
  unfold merge_key. rewrite <- N.land_assoc, N.land_diag. reflexivity.
Qed.

Lemma merge_covers_l k1 m1 k2 m2 k :
  N.land k2 m2 = k2 ->
  key_matches k k1 m1 -> key_matches k (merge_key k1 m1 k2 m2) (merge_mask k1 m1 k2 m2).
Proof.
  unfold key_matches, merge_key, merge_mask. intros W H.
  rewrite land_eq_bits in H, W. nbits.
  specialize (H i). specialize (W i).
  rewrite <- H.
  destruct (N.testbit k i), (N.testbit m1 i), (N.testbit k2 i), (N.testbit m2 i);
    simpl in *; congruence.
Qed.

Lemma merge_key_comm k1 m1 k2 m2 : merge_key k1 m1 k2 m2 = merge_key k2 m2 k1 m1.
Proof.
  unfold merge_key, merge_mask.
  rewrite (N.lor_comm k1 k2), (N.land_comm k1 k2), (N.land_comm m1 m2). reflexivity.
Qed.

Lemma merge_mask_comm k1 m1 k2 m2 : merge_mask k1 m1 k2 m2 = merge_mask k2 m2 k1 m1.
Proof.
  unfold merge_mask.
  rewrite (N.lor_comm k1 k2), (N.land_comm k1 k2), (N.land_comm m1 m2). reflexivity.
Qed.

Lemma merge_covers_r k1 m1 k2 m2 k :
  N.land k1 m1 = k1 ->
  key_matches k k2 m2 -> key_matches k (merge_key k1 m1 k2 m2) (merge_mask k1 m1 k2 m2).
Proof.
  intros. rewrite merge_key_comm, merge_mask_comm. now apply merge_covers_l.
Qed.

(** The merged mask keeps exactly the bits selected by both masks on which both
    keys agree: no smaller entry covers both. *)
Lemma merge_mask_bit k1 m1 k2 m2 i :
  N.testbit (merge_mask k1 m1 k2 m2) i = true <->
  N.testbit m1 i = true /\ N.testbit m2 i = true /\ N.testbit k1 i = N.testbit k2 i.
Proof.
  unfold merge_mask. rewrite N.ldiff_spec, N.lxor_spec, N.lor_spec, !N.land_spec.
  destruct (N.testbit k1 i), (N.testbit k2 i), (N.testbit m1 i), (N.testbit m2 i);
    simpl; intuition congruence.
Qed.

(** Minimality: any well-formed entry that covers both inputs covers the merge. *)
Lemma merge_minimal k1 m1 k2 m2 K M :
  N.land k1 m1 = k1 -> N.land k2 m2 = k2 ->
  (forall k, key_matches k k1 m1 -> key_matches k K M) ->
  (forall k, key_matches k k2 m2 -> key_matches k K M) ->
  forall k, key_matches k (merge_key k1 m1 k2 m2) (merge_mask k1 m1 k2 m2) ->
    key_matches k K M.
Proof.
  intros W1 W2 H1 H2 k Hk.
  assert (A1 : key_matches k1 K M) by (apply H1; exact W1).
  assert (A2 : key_matches k2 K M) by (apply H2; exact W2).
  assert (B1 : forall i, N.testbit M i = true -> N.testbit m1 i = true).
  { intros i Hi. destruct (N.testbit m1 i) eqn:E; [reflexivity|exfalso].
    assert (P : key_matches (N.lxor k1 (2 ^ i)) k1 m1).
    { unfold key_matches. apply land_eq_bits. intro j.
      rewrite N.lxor_spec, N.pow2_bits_eqb.
      rewrite land_eq_bits in W1. specialize (W1 j).
      destruct (N.eqb_spec i j) as [->|].
      - rewrite E in *. rewrite <- W1. now rewrite !andb_false_r.
      - rewrite xorb_false_r. exact W1. }
    apply H1 in P. unfold key_matches in P, A1.
    rewrite <- A1 in P. assert (Q : N.testbit (N.land (N.lxor k1 (2 ^ i)) M) i
      = N.testbit (N.land k1 M) i) by congruence.
    rewrite !N.land_spec, N.lxor_spec, N.pow2_bits_true, Hi in Q.
    destruct (N.testbit k1 i); discriminate. }
  assert (B2 : forall i, N.testbit M i = true -> N.testbit m2 i = true).
  { intros i Hi. destruct (N.testbit m2 i) eqn:E; [reflexivity|exfalso].
    assert (P : key_matches (N.lxor k2 (2 ^ i)) k2 m2).
    { unfold key_matches. apply land_eq_bits. intro j.
      rewrite N.lxor_spec, N.pow2_bits_eqb.
      rewrite land_eq_bits in W2. specialize (W2 j).
      destruct (N.eqb_spec i j) as [->|].
      - rewrite E in *. rewrite <- W2. now rewrite !andb_false_r.
      - rewrite xorb_false_r. exact W2. }
    apply H2 in P. unfold key_matches in P, A2.
    rewrite <- A2 in P. assert (Q : N.testbit (N.land (N.lxor k2 (2 ^ i)) M) i
      = N.testbit (N.land k2 M) i) by congruence.
    rewrite !N.land_spec, N.lxor_spec, N.pow2_bits_true, Hi in Q.
    destruct (N.testbit k2 i); discriminate. }
  unfold key_matches in *. rewrite land_eq_bits in *. intro i.
  specialize (A1 i). specialize (A2 i). specialize (B1 i). specialize (B2 i).
  specialize (Hk i). specialize (W1 i). specialize (W2 i).
  unfold merge_key, merge_mask in Hk.
  rewrite !N.land_spec, !N.ldiff_spec, N.lxor_spec, N.lor_spec, !N.land_spec in Hk.
  destruct (N.testbit M i) eqn:EM.
  - rewrite B1, B2 in * by reflexivity.
    destruct (N.testbit k i), (N.testbit k1 i), (N.testbit k2 i), (N.testbit K i);
      simpl in *; congruence.
  - rewrite andb_false_r in *. exact A1.
Qed.

(** ** Boolean/Prop links for entries *)

Lemma entry_matchesb_iff k e : entry_matchesb k e = true <-> entry_matches k e.
Proof. unfold entry_matchesb, entry_matches, key_matches. apply N.eqb_eq. Qed.

Definition entry_intersect (a b : entry) : bool :=
  intersect (e_key a) (e_mask a) (e_key b) (e_mask b).

Lemma entry_intersect_false a b :
  entry_intersect a b = false -> disjoint_entries a b.
Proof.
  unfold entry_intersect, intersect, disjoint_entries, entry_matches, key_matches.
  rewrite N.eqb_neq. intros H k [H1 H2]. apply H. rewrite <- H1, <- H2.
  rewrite <- !N.land_assoc. f_equal. apply N.land_comm.
Qed.

Lemma entry_intersect_false_iff a b :
  entry_ok a -> entry_ok b ->
  (entry_intersect a b = false <-> disjoint_entries a b).
Proof.
  intros Ha Hb. split; [apply entry_intersect_false|].
  intros D. destruct (entry_intersect a b) eqn:E; [|reflexivity].
  apply intersect_iff in E; [|assumption..]. destruct E as (k & H1 & H2).
  exfalso. now apply (D k).
Qed.

Lemma disjoint_entries_sym a b : disjoint_entries a b -> disjoint_entries b a.
Proof. intros H k [H1 H2]. now apply (H k). Qed.

(** ** first_match lemmas *)

Lemma first_match_app t1 t2 k :
  first_match (t1 ++ t2) k =
  match first_match t1 k with Some e => Some e | None => first_match t2 k end.
Proof.
  induction t1 as [|e t1 IH]; simpl; [reflexivity|].
  destruct (entry_matchesb k e); auto.
Qed.

Lemma first_match_Some t k e :
  first_match t k = Some e -> In e t /\ entry_matches k e.
Proof.
  induction t as [|a t IH]; simpl; [discriminate|].
  destruct (entry_matchesb k a) eqn:E.
  - intros [= ->]. apply entry_matchesb_iff in E. auto.
  - intros H. apply IH in H. tauto.
Qed.

Lemma first_match_None t k :
  first_match t k = None <-> (forall e, In e t -> ~ entry_matches k e).
Proof.
  induction t as [|a t IH]; simpl.
  - split; [intros _ e []|reflexivity].
  - destruct (entry_matchesb k a) eqn:E.
    + split; [discriminate|]. intros H. exfalso. apply (H a); auto.
      now apply entry_matchesb_iff.
    + rewrite IH. split.
      * intros H e [<-|He]; auto. intro C. apply entry_matchesb_iff in C. congruence.
      * intros H e He. apply H. auto.
Qed.

Lemma first_match_exists t k e :
  In e t -> entry_matches k e -> exists e', first_match t k = Some e'.
Proof.
  intros Hin Hm. destruct (first_match t k) eqn:E; eauto.
  rewrite first_match_None in E. exfalso. now apply (E e).
Qed.

(** In an orthogonal table the match is unique. *)
Lemma orthogonal_unique t k a b :
  orthogonal t -> In a t -> In b t -> entry_matches k a -> entry_matches k b -> a = b.
Proof.
  intros O Ha Hb Ma Mb.
  destruct (ForallOrdPairs_In O a b Ha Hb) as [E|[D|D]]; auto;
    exfalso; apply (D k); auto.
Qed.

Lemma orthogonal_route_consistent t : orthogonal t -> route_consistent t.
Proof.
  intros O a b k Ha Hb Ma Mb. now rewrite (orthogonal_unique t k a b).
Qed.
