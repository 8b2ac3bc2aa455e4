(** The checker accepts what the compressors return. *)
From Coq Require Import List Arith NArith ZArith Bool Lia Permutation Sorted.
From Verif Require Import Base RouteSpec KeyMask CheckerModel CheckerProofs RangeModel RangeProofs CheckedRange.
From Verif Require DefaultModel DefaultProofs OrderedModel OrderedProofs.
From Verif Require PairModel PairProofs PairSort PairFull.
Import ListNotations.
Local Open Scope N_scope.

Lemma e32_ok t : Forall e32 t -> Forall entry_ok t.
Proof. intros H. rewrite Forall_forall in *. intros e He. apply (H e He). Qed.

(** An entry that has all keys of a 32-bit entry is one. *)
Lemma cover_e32 a b : entry_ok a -> e32 b -> (forall k, entry_matches k b -> entry_matches k a) -> e32 a.
Proof.
  intros Oa (Ob & Kb & Mb) C.
  assert (Sub : forall i, N.testbit (e_mask a) i = true -> N.testbit (e_mask b) i = true).
  { intros i Ha. destruct (N.testbit (e_mask b) i) eqn:Hb; [reflexivity|exfalso].
    assert (M1 : entry_matches (e_key b) a) by (apply C; exact Ob).
    assert (M2 : entry_matches (N.lxor (e_key b) (2 ^ i)) a).
    { apply C. unfold entry_matches, key_matches. apply N.bits_inj. intros j.
      rewrite N.land_spec, N.lxor_spec.
      assert (Z : N.testbit (N.land (e_key b) (e_mask b)) j = N.testbit (e_key b) j) by (now rewrite Ob).
      rewrite N.land_spec in Z. destruct (N.eq_dec i j) as [->|Ne].
      - rewrite Hb in *. rewrite andb_false_r in *. exact Z.
      - rewrite N.pow2_bits_false by assumption. rewrite xorb_false_r. exact Z. }
    unfold entry_matches, key_matches in M1, M2.
    assert (Z1 : N.testbit (N.land (e_key b) (e_mask a)) i = N.testbit (e_key a) i) by (now rewrite M1).
    assert (Z2 : N.testbit (N.land (N.lxor (e_key b) (2 ^ i)) (e_mask a)) i = N.testbit (e_key a) i) by (now rewrite M2).
    rewrite N.land_spec, Ha, andb_true_r in Z1.
    rewrite N.land_spec, Ha, andb_true_r, N.lxor_spec, N.pow2_bits_true in Z2.
    rewrite <- Z1 in Z2. destruct (N.testbit (e_key b) i); discriminate. }
  assert (Ma : e_mask a = N.land (e_mask a) (N.ones 32)).
  { apply N.bits_inj. intros i. rewrite N.land_spec.
    destruct (N.testbit (e_mask a) i) eqn:Ha; [|reflexivity].
    destruct (N.ltb_spec i 32); [now rewrite N.ones_spec_low|exfalso].
    apply Sub in Ha. rewrite N.bits_above_log2 in Ha; [discriminate|].
    destruct (N.eq_dec (e_mask b) 0) as [E|]; [rewrite E in *; rewrite N.bits_0 in Ha; discriminate|].
    apply N.log2_lt_pow2 in Mb; lia. }
  assert (La : e_mask a < 2 ^ 32).
  { rewrite Ma, N.land_ones. apply N.mod_lt. discriminate. }
  split; [exact Oa|]. split; [|exact La].
  unfold entry_ok in Oa.
  assert (Ka : e_key a = N.land (e_key a) (N.ones 32)).
  { rewrite <- Oa at 2. rewrite <- N.land_assoc, <- Ma. now rewrite Oa. }
  rewrite Ka, N.land_ones. apply N.mod_lt. discriminate.
Qed.

(** * Ordered covering *)
Lemma dropped_nodup {A B} (f : A -> B) P l l' : DefaultProofs.dropped P l l' ->
  NoDup (map f l) -> NoDup (map f l') /\ incl l' l.
Proof.
  induction 1 as [|x l l' D IH|x l l' Px D IH]; intros ND.
  - split; [constructor|intros x []].
  - inversion ND as [|? ? N1 N2]; subst. destruct (IH N2) as [I1 I2]. split.
    + cbn [map]. constructor; [|exact I1]. intros I. apply N1. apply in_map_iff in I.
      destruct I as (y & E & Hy). rewrite <- E. apply in_map. now apply I2.
    + intros y [<-|Hy]; [now left|right; now apply I2].
  - inversion ND as [|? ? N1 N2]; subst. destruct (IH N2) as [I1 I2]. split; [exact I1|].
    intros y Hy. right. now apply I2.
Qed.

Lemma covering_checked entry_eq table target out :
  Forall e32 table -> orthogonal table ->
  OrderedModel.oc_compress_table table target = Ok out ->
  compare_tables entry_eq table out = Ok tt.
Proof.
  intros E O H. pose proof (e32_ok table E) as F.
  destruct table as [|x table]; [reflexivity|].
  unfold OrderedModel.oc_compress_table in H.
  apply bind_Ok_inv in H. destruct H as [[t' a'] [E1 E2]]. cbn [fst] in E2.
  assert (Hne : x :: table <> []) by discriminate.
  destruct (OrderedProofs.ordered_covering_spec (x :: table) target true F O (or_introl Hne))
    as [t2 [a2 [I [_ [_ [_ E']]]]]].
  rewrite E' in E1. cbn [negb andb] in E1. injection E1 as -> ->.
  pose proof (OrderedProofs.oi_ok _ _ _ I) as F'.
  pose proof (OrderedProofs.oi_nodup _ _ _ I) as ND.
  destruct (DefaultProofs.remove_default_safe t' target true out F' (or_introl eq_refl) E2) as [Dr S].
  destruct (dropped_nodup _ _ _ _ Dr ND) as [ND' Inc].
  assert (E32' : Forall e32 out).
  { apply Forall_forall. intros e He. apply Inc in He. rewrite Forall_forall in F'.
    destruct (OrderedProofs.oi_alias _ _ _ I e He) as ((p & Hp) & _).
    destruct (OrderedProofs.oi_orig _ _ _ I e p He Hp) as (o & Ho & _ & _).
    assert (W : e_mask e < 2 ^ 32).
    { apply (OrderedProofs.oi_width _ _ _ I); [|exact He]. intros o' Ho'.
      rewrite Forall_forall in E. apply (E o' Ho'). }
    pose proof (F' e He) as Oe. split; [exact Oe|]. split; [|exact W].
    unfold entry_ok in Oe. rewrite <- Oe.
    eapply N.le_lt_trans; [|exact W].
    apply N.ldiff_le. apply N.bits_inj. intros i. rewrite N.ldiff_spec, N.land_spec, N.bits_0.
    destruct (N.testbit (e_key e) i), (N.testbit (e_mask e) i); reflexivity. }
  apply checker_complete; auto.
  intros o k Ho Hk Mk.
  destruct (OrderedProofs.oc_preserves (x :: table) target true t' a' F O) with (o := o) (k := k)
    as [e [H1 [H2 H3]]]; auto.
  specialize (S k). rewrite H1 in S. destruct S as [S|[S1 S2]].
  - left. exists e. auto.
  - right. auto.
Qed.

(** * Ranges *)
Lemma range_checked entry_eq fuel as_far target table out :
  Forall e32 table -> orthogonal table ->
  range_compress fuel as_far target table = Ok out ->
  compare_tables entry_eq table out = Ok tt.
Proof.
  intros E O H.
  destruct (range_seq fuel as_far target table out E O H) as (E32' & ND & Df).
  apply checker_complete; auto.
  intros o k Ho Hk Mk.
  destruct (range_preserves fuel as_far target table out E O H o k Ho Hk Mk) as (c & Fc & Rc).
  left. exists c. split; [exact Fc|]. split; [exact Rc|]. intros Dc.
  apply first_match_Some in Fc. destruct Fc as [Ic Mc].
  destruct (Df c Ic) as [It|Dn]; [|congruence].
  assert (c = o) by (eapply orthogonal_unique; eauto). now subst.
Qed.

(** * Pairs *)
Lemma fop_perm {A} (R : A -> A -> Prop) : (forall a b, R a b -> R b a) ->
  forall l l', Permutation l l' -> ForallOrdPairs R l -> ForallOrdPairs R l'.
Proof.
  intros Sy l l' P. induction P as [|x l l' P IH|x y l|l l' l'' P1 IH1 P2 IH2]; intros F.
  - exact F.
  - inversion F as [|? ? F1 F2]; subst. constructor; [|now apply IH]. eapply Permutation_Forall; eauto.
  - inversion F as [|? ? F1 F2]; subst. inversion F2 as [|? ? F3 F4]; subst.
    inversion F1 as [|? ? F5 F6]; subst. constructor; [constructor; auto|]. constructor; auto.
  - auto.
Qed.

Lemma pair_held ordered c_sort n t out :
  Forall entry_ok t -> orthogonal t -> PairModel.compress_table ordered c_sort n t = Ok out ->
  Forall entry_ok out /\ NoDup (map (fun e => (e_key e, e_mask e)) out) /\
  (forall o, In o out -> exists e, In e t /\ forall k, entry_matches k e -> entry_matches k o) /\
  (forall e, In e t -> PairFull.held out e).
Proof.
  intros Hok Orth H. unfold PairModel.compress_table in H.
  apply bind_Ok_inv in H. destruct H as (h & Eh & H).
  destruct (Nat.eq_dec n 0) as [->|Hn].
  { destruct t as [|e t].
    - simpl in Eh. injection Eh as <-. destruct c_sort; vm_compute in H; [|discriminate].
      injection H as <-. split; [constructor|]. split; [constructor|]. split; intros o [].
    - simpl in Eh. discriminate. }
  apply (PairFull.histogram_full n t [] _ h (PairFull.hist_full_init n)) in Eh. simpl app in Eh.
  destruct (PairFull.sort_entries_full c_sort n t h Eh ltac:(lia)) as (us & arr & Ea & Pa & Hus & Su & Sa).
  rewrite Ea in H. cbn [bind] in H.
  assert (Hr : forall a, In a arr -> In (e_route a) us).
  { intros a Ha. apply Hus. apply in_map. eapply Permutation_in; [symmetry; exact Pa|assumption]. }
  destruct (PairFull.loop_held (PairFull.pos us) (S (length arr)) ordered [] [] arr [])
    as (arr' & w & E & R1 & R2 & R3 & R4).
  - lia.
  - constructor.
  - eapply Permutation_Forall; eauto.
  - exact Sa.
  - simpl. intros a b Ha Hb. apply PairFull.pos_inj; auto.
  - eapply fop_perm; [|exact Pa|exact Orth]. intros a b D k [A B]. apply (D k). auto.
  - intros o d k [].
  - constructor.
  - intros o [].
  - intros e [].
  - cbn [app length] in E, R3, R4. rewrite E in H. cbn [bind] in H. injection H as <-.
    split; [exact R1|]. split; [exact R2|]. split.
    + intros o Ho. destruct (R3 o Ho) as (e & He & C). exists e. split; [|exact C].
      eapply Permutation_in; [symmetry; exact Pa|exact He].
    + intros e He. apply R4. eapply Permutation_in; [exact Pa|exact He].
Qed.

Lemma pair_checked entry_eq ordered c_sort n t out :
  (forall a b, entry_eq a b = true -> e_key a = e_key b /\ e_mask a = e_mask b) ->
  Forall e32 t -> orthogonal t -> PairModel.compress_table ordered c_sort n t = Ok out ->
  compare_tables entry_eq t out = Ok tt.
Proof.
  intros Heq E O H. destruct (pair_held ordered c_sort n t out (e32_ok t E) O H) as (Ok1 & ND & Cov & Hld).
  apply checker_held; auto.
  apply Forall_forall. intros o Ho. destruct (Cov o Ho) as (e & He & C).
  rewrite Forall_forall in Ok1, E. exact (cover_e32 o e (Ok1 o Ho) (E e He) C).
Qed.
