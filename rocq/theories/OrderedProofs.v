(** Proofs about the ordered covering compressor. *)
From Coq Require Import List Arith NArith ZArith Bool Lia Sorted Permutation.
From Verif Require Import Base RouteSpec KeyMask DefaultModel DefaultProofs OrderedModel.
Import ListNotations.

(** ** Generality and the insertion index *)

Lemma count_bits_le : forall f n, (count_bits f n <= n)%nat.
Proof. induction n; cbn [count_bits]; auto. destruct (f (N.of_nat n)); lia. Qed.

Lemma count_bits_mono : forall f g n,
  (forall i, (i < N.of_nat n)%N -> f i = true -> g i = true) ->
  (count_bits f n <= count_bits g n)%nat.
Proof.
  intros f g n. induction n as [|n IH]; intro H; cbn [count_bits]; auto.
  assert (count_bits f n <= count_bits g n)%nat by (apply IH; intros; apply H; auto; lia).
  specialize (H (N.of_nat n) ltac:(lia)).
  destruct (f (N.of_nat n)); [rewrite H by auto|]; destruct (g (N.of_nat n)); lia.
Qed.

Lemma count_bits_pos : forall f n, (0 < count_bits f n)%nat ->
  exists i, (i < N.of_nat n)%N /\ f i = true.
Proof.
  intros f n. induction n as [|n IH]; cbn [count_bits]; intro H; [lia|].
  destruct (f (N.of_nat n)) eqn:E.
  - exists (N.of_nat n). split; auto. lia.
  - destruct IH as [i [Hi Hf]]; [lia|]. exists i. split; auto. lia.
Qed.

Global Opaque count_bits.

Definition gle (a b : entry) : Prop := (entry_generality a <= entry_generality b)%Z.
Definition gsorted (t : list entry) : Prop := StronglySorted gle t.

Lemma gsorted_nth : forall t i j a b, gsorted t -> nth_error t i = Some a ->
  nth_error t j = Some b -> (i <= j)%nat -> gle a b.
Proof.
  intros t. induction t as [|x t IH]; intros i j a b S Ha Hb H.
  - destruct i; discriminate.
  - inversion S; subst. destruct i as [|i].
    + cbn in Ha. inversion Ha; subst. destruct j as [|j]; cbn in Hb.
      * inversion Hb; subst. unfold gle. lia.
      * rewrite Forall_forall in H3. apply H3. eapply nth_error_In; eauto.
    + destruct j as [|j]; [lia|]. cbn in *. eapply IH; eauto. lia.
Qed.

Lemma div2_lt : forall n, (0 < n)%nat -> (Nat.div n 2 < n)%nat.
Proof. intros. apply Nat.div_lt; lia. Qed.

Lemma binary_search_spec : forall t g fuel bottom top,
  gsorted t -> (bottom < top)%nat -> (top <= length t)%nat -> (top - bottom <= fuel)%nat ->
  (bottom = 0%nat \/ exists e, nth_error t bottom = Some e /\ (entry_generality e < g)%Z) ->
  exists p, binary_search fuel t g bottom top (bottom + Nat.div (top - bottom) 2) = Ok p /\
    (p < length t)%nat /\
    (forall j e, (j < p)%nat -> nth_error t j = Some e -> (entry_generality e <= g)%Z).
Proof.
  intros t g fuel. induction fuel as [|f IH]; intros bottom top S Hbt Htl HF HB; [lia|].
  remember (bottom + Nat.div (top - bottom) 2)%nat as pos eqn:EP.
  assert (Hpos : (bottom <= pos < top)%nat).
  { subst pos. pose proof (div2_lt (top - bottom) ltac:(lia)). lia. }
  cbn [binary_search].
  destruct (aget_lt t pos ltac:(lia)) as [e He]. rewrite He. cbn [bind].
  apply aget_Ok_iff in He.
  destruct (Z.eqb_spec (entry_generality e) g) as [Eg|Eg]; cbn [negb andb].
  - exists pos. split; auto. split; [lia|]. intros j x Hj Hx.
    pose proof (gsorted_nth t j pos x e S Hx He ltac:(lia)). unfold gle in H. lia.
  - destruct (Nat.ltb_spec bottom pos) as [Lb|Lb]; cbn [andb].
    + destruct (Nat.ltb_spec pos top) as [Lt|Lt]; [|lia].
      destruct (Z.ltb_spec (entry_generality e) g) as [Lg|Lg].
      * apply IH; auto; try lia. right. exists e. auto.
      * apply IH; auto; lia.
    + exists pos. split; auto. split; [lia|]. intros j x Hj Hx.
      destruct HB as [->|[y [Hy Ly]]]; [lia|].
      pose proof (gsorted_nth t j bottom x y S Hx Hy ltac:(lia)). unfold gle in H. lia.
Qed.

Lemma linear_search_spec : forall t g pos, exists n, linear_search t g pos = (pos + n)%nat /\
  (n <= length t)%nat /\
  (forall j e, (j < n)%nat -> nth_error t j = Some e -> (entry_generality e <= g)%Z) /\
  (forall e, nth_error t n = Some e -> (g < entry_generality e)%Z).
Proof.
  intros t g. induction t as [|x t IH]; intro pos; cbn [linear_search].
  - exists 0%nat. split; [lia|]. split; auto. split; [intros; lia|]. intros e H; discriminate.
  - destruct (Z.leb_spec (entry_generality x) g) as [L|L].
    + destruct (IH (S pos)) as [n [E [Hn [H1 H2]]]]. exists (S n). split; [lia|].
      split; [cbn; lia|]. split; auto.
      intros [|j] e Hj He; cbn in He.
      * inversion He; subst; auto.
      * eapply H1; eauto. lia.
    + exists 0%nat. split; [lia|]. split; [cbn; lia|]. split; [intros; lia|].
      intros e He. cbn in He. inversion He; subst. auto.
Qed.

Lemma nth_error_skipn' : forall {A} (l : list A) k q, nth_error (skipn k l) q = nth_error l (k + q).
Proof. intros A l. induction l; intros [|k] q; cbn; auto. destruct q; auto. Qed.

Lemma insertion_spec : forall t G, t <> [] -> gsorted t ->
  exists r, insertion_index t G = Ok r /\ (r <= length t)%nat /\
    (forall j e, (j < r)%nat -> nth_error t j = Some e -> (entry_generality e < G)%Z) /\
    (forall j e, (r <= j)%nat -> nth_error t j = Some e -> (G <= entry_generality e)%Z).
Proof.
  intros t G Ht S. unfold insertion_index.
  assert (L : (0 < length t)%nat) by (destruct t; [congruence|cbn; lia]).
  destruct (binary_search_spec t (G - 1)%Z (Datatypes.S (length t)) 0 (length t) S)
    as [p [E [Hp H]]]; try lia.
  rewrite Nat.sub_0_r, Nat.add_0_l in E. rewrite E. cbn [bind].
  destruct (linear_search_spec (skipn p t) (G - 1)%Z p) as [n [En [Hn [H1 H2]]]].
  rewrite skipn_length in Hn.
  exists (p + n)%nat. rewrite En. split; auto. split; [lia|]. split.
  - intros j e Hj He. destruct (Nat.lt_ge_cases j p) as [Lj|Lj].
    + specialize (H j e Lj He). lia.
    + specialize (H1 (j - p)%nat e ltac:(lia)). rewrite nth_error_skipn' in H1.
      replace (p + (j - p))%nat with j in H1 by lia. specialize (H1 He). lia.
  - intros j e Hj He.
    destruct (nth_error t (p + n)) as [y|] eqn:Ey.
    + specialize (H2 y). rewrite nth_error_skipn' in H2. specialize (H2 Ey).
      pose proof (gsorted_nth t (p + n) j y e S Ey He ltac:(lia)). unfold gle in H0. lia.
    + apply nth_error_None in Ey.
      assert (j < length t)%nat by (apply nth_error_Some; congruence). lia.
Qed.

(** ** Building a merge *)

Definition picked (t : list entry) (s : list nat) (e : entry) : Prop :=
  exists i, In i s /\ nth_error t i = Some e.
Definition in_range (t : list entry) (s : list nat) : Prop :=
  forall i, In i s -> (i < length t)%nat.

Lemma FULL_bit : forall b, N.testbit FULL_MASK b = N.ltb b 32.
Proof.
  intro b. change FULL_MASK with (N.ones 32).
  destruct (N.ltb_spec b 32); [apply N.ones_spec_low|apply N.ones_spec_high]; auto.
Qed.

Lemma merge_fold : forall t s a0 b0 c0 d0, in_range t s ->
  exists a b c d, foldM (merge_step t) (a0, b0, c0, d0) s = Ok (a, b, c, d) /\
    (forall x, N.testbit a x = true <-> N.testbit a0 x = true \/ exists e, picked t s e /\ N.testbit (e_key e) x = true) /\
    (forall x, N.testbit b x = true <-> N.testbit b0 x = true /\ forall e, picked t s e -> N.testbit (e_key e) x = true) /\
    (forall x, N.testbit c x = true <-> N.testbit c0 x = true /\ forall e, picked t s e -> N.testbit (e_mask e) x = true) /\
    (d = true <-> d0 = true /\ forall e, picked t s e -> e_def e = true).
Proof.
  intros t s. induction s as [|i s IH]; intros a0 b0 c0 d0 HR.
  - exists a0, b0, c0, d0. cbn [foldM]. split; auto.
    assert (N0 : forall e, ~ picked t [] e) by (intros e [i [[] _]]).
    split; [|split; [|split]].
    + intro x. split; auto. intros [H|[e [H _]]]; auto. destruct (N0 _ H).
    + intro x. split; [|tauto]. intro; split; auto. intros e H0. destruct (N0 _ H0).
    + intro x. split; [|tauto]. intro; split; auto. intros e H0. destruct (N0 _ H0).
    + split; [|tauto]. intro; split; auto. intros e H0. destruct (N0 _ H0).
  - cbn [foldM]. unfold merge_step at 1.
    destruct (aget_lt t i) as [e He]; [apply HR; left; auto|]. rewrite He. cbn [bind].
    apply aget_Ok_iff in He.
    destruct (IH (N.lor a0 (e_key e)) (N.land b0 (e_key e)) (N.land c0 (e_mask e)) (d0 && e_def e)%bool)
      as [a [b [c [d [E [Ha [Hb [Hc Hd]]]]]]]].
    { intros j Hj. apply HR. right; auto. }
    assert (PK : forall x, picked t (i :: s) x <-> x = e \/ picked t s x).
    { intro x. split.
      - intros [j [[<-|Hj] Hx]]; [left; congruence|right; exists j; auto].
      - intros [->|[j [Hj Hx]]]; [exists i|exists j]; split; auto; [left|right]; auto. }
    exists a, b, c, d. split; auto. split; [|split; [|split]].
    + intro x. rewrite Ha, N.lor_spec, orb_true_iff. split.
      * intros [[H|H]|[y [Hy H]]]; auto; right; [exists e|exists y]; rewrite PK; auto.
      * intros [H|[y [Hy H]]]; auto. apply PK in Hy. destruct Hy as [->|Hy]; auto.
        right. exists y. auto.
    + intro x. rewrite Hb, N.land_spec, andb_true_iff. split.
      * intros [[H H0] H1]. split; auto. intros y Hy. apply PK in Hy. destruct Hy as [->|Hy]; auto.
      * intros [H H1]. split; [split; auto; apply H1; apply PK; auto|].
        intros y Hy. apply H1. apply PK; auto.
    + intro x. rewrite Hc, N.land_spec, andb_true_iff. split.
      * intros [[H H0] H1]. split; auto. intros y Hy. apply PK in Hy. destruct Hy as [->|Hy]; auto.
      * intros [H H1]. split; [split; auto; apply H1; apply PK; auto|].
        intros y Hy. apply H1. apply PK; auto.
    + rewrite Hd, andb_true_iff. split.
      * intros [[H H0] H1]. split; auto. intros y Hy. apply PK in Hy. destruct Hy as [->|Hy]; auto.
      * intros [H H1]. split; [split; auto; apply H1; apply PK; auto|].
        intros y Hy. apply H1. apply PK; auto.
Qed.

(** What is known about a merge built from the table. *)
Record merge_of (t : list entry) (m : merge) : Prop := {
  mo_range : in_range t (mg_entries m);
  mo_key : N.land (mg_key m) (mg_mask m) = mg_key m;
  mo_bit : mg_entries m <> [] -> forall b, N.testbit (mg_mask m) b = true <->
     (b < 32)%N /\ (forall e, picked t (mg_entries m) e -> N.testbit (e_mask e) b = true) /\
     (forall e e', picked t (mg_entries m) e -> picked t (mg_entries m) e' ->
         N.testbit (e_key e) b = N.testbit (e_key e') b);
  mo_cover : forall e k, picked t (mg_entries m) e -> entry_matches k e ->
     key_matches k (mg_key m) (mg_mask m);
  mo_def : mg_def m = true <-> forall e, picked t (mg_entries m) e -> e_def e = true;
  mo_ins : (mg_ins m <= length t)%nat;
  mo_below : forall j e, (j < mg_ins m)%nat -> nth_error t j = Some e ->
     (entry_generality e < get_generality (mg_key m) (mg_mask m))%Z;
  mo_above : forall j e, (mg_ins m <= j)%nat -> nth_error t j = Some e ->
     (get_generality (mg_key m) (mg_mask m) <= entry_generality e)%Z
}.

Lemma picked_exists : forall t s, in_range t s -> s <> [] -> exists e, picked t s e.
Proof.
  intros t [|i s] HR Hne; [congruence|].
  destruct (aget_lt t i) as [e He]; [apply HR; left; auto|].
  apply aget_Ok_iff in He. exists e, i. split; auto. left; auto.
Qed.

Lemma make_merge_spec : forall t s, t <> [] -> gsorted t -> in_range t s ->
  exists m, make_merge t s = Ok m /\ mg_entries m = s /\ merge_of t m.
Proof.
  intros t s Ht S HR. unfold make_merge.
  destruct (merge_fold t s 0%N FULL_MASK FULL_MASK true HR)
    as [any [all [sel [d [E [Ha [Hb [Hc Hd]]]]]]]].
  rewrite E. cbn [bind].
  remember (N.land sel (N.lxor any (N.lnot all 32))) as mask eqn:Em.
  remember (N.land all mask) as key eqn:Ek.
  destruct (insertion_spec t (get_generality key mask) Ht S) as [r [Er [Hr [H1 H2]]]].
  rewrite Er. cbn [bind].
  eexists; split; [reflexivity|]. cbn [mg_entries]. split; auto.
  assert (MB : forall b, N.testbit mask b = true -> (b < 32)%N /\
      (forall e, picked t s e -> N.testbit (e_mask e) b = true) /\
      N.testbit any b = N.testbit all b).
  { intros b Hbit. rewrite Em, N.land_spec, andb_true_iff in Hbit. destruct Hbit as [B1 B2].
    apply Hc in B1. destruct B1 as [B1 B3]. rewrite FULL_bit in B1.
    apply N.ltb_lt in B1. split; auto. split; auto.
    rewrite N.lxor_spec, N.lnot_spec_low in B2 by auto.
    destruct (N.testbit any b), (N.testbit all b); auto; discriminate. }
  constructor; cbn [mg_entries mg_key mg_mask mg_def mg_ins]; auto.
  - rewrite Ek. rewrite <- N.land_assoc, N.land_diag. reflexivity.
  - intros Hne b. split.
    + intro Hbit. destruct (MB b Hbit) as [B1 [B2 B3]]. split; auto. split; auto.
      intros e e' He He'.
      assert (A : N.testbit any b = true <-> exists x, picked t s x /\ N.testbit (e_key x) b = true).
      { rewrite Ha, N.bits_0. split; [intros [D|D]; [discriminate|auto]|auto]. }
      destruct (N.testbit all b) eqn:Eall.
      * apply Hb in Eall. destruct Eall as [_ EA]. rewrite !EA by auto. reflexivity.
      * assert (NA : forall x, picked t s x -> N.testbit (e_key x) b = false).
        { intros x Hx. destruct (N.testbit (e_key x) b) eqn:Ex; auto.
          assert (N.testbit any b = true) by (apply A; exists x; auto). congruence. }
        rewrite !NA by auto. reflexivity.
    + intros [B1 [B2 B3]]. rewrite Em, N.land_spec, andb_true_iff. split.
      * apply Hc. rewrite FULL_bit. split; [apply N.ltb_lt; auto|auto].
      * rewrite N.lxor_spec, N.lnot_spec_low by auto.
        destruct (picked_exists t s HR Hne) as [e He].
        destruct (N.testbit (e_key e) b) eqn:Ee.
        -- assert (N.testbit any b = true) by (apply Ha; right; exists e; auto).
           assert (N.testbit all b = true).
           { apply Hb. rewrite FULL_bit. split; [apply N.ltb_lt; auto|].
             intros x Hx. rewrite (B3 x e); auto. }
           rewrite H, H0. reflexivity.
        -- assert (N.testbit any b = false).
           { destruct (N.testbit any b) eqn:EA; auto. apply Ha in EA.
             rewrite N.bits_0 in EA. destruct EA as [D|[x [Hx D]]]; [discriminate|].
             rewrite (B3 x e) in D by auto. congruence. }
           assert (N.testbit all b = false).
           { destruct (N.testbit all b) eqn:EA; auto. apply Hb in EA.
             destruct EA as [_ EA]. rewrite (EA e) in Ee by auto. discriminate. }
           rewrite H, H0. reflexivity.
  - intros e k He HM. unfold entry_matches, key_matches in *.
    apply N.bits_inj. intro b. rewrite N.land_spec. rewrite Ek, N.land_spec.
    destruct (N.testbit mask b) eqn:Eb; [|rewrite !andb_false_r; auto].
    rewrite !andb_true_r. destruct (MB b Eb) as [B1 [B2 B3]].
    assert (T : N.testbit k b = N.testbit (e_key e) b).
    { rewrite <- HM, N.land_spec, B2, andb_true_r by auto. reflexivity. }
    rewrite T. destruct (N.testbit (e_key e) b) eqn:Ee.
    + assert (N.testbit any b = true) by (apply Ha; right; exists e; auto). congruence.
    + destruct (N.testbit all b) eqn:EA; auto. apply Hb in EA. destruct EA as [_ EA].
      rewrite (EA e) in Ee by auto. discriminate.
  - rewrite Hd. split; [intros [_ H]; auto|auto].
Qed.

(** Fewer entries: a less general merge, placed no lower. *)
Lemma merge_of_mono : forall t m m', merge_of t m -> merge_of t m' ->
  incl (mg_entries m') (mg_entries m) -> mg_entries m' <> [] ->
  (get_generality (mg_key m') (mg_mask m') <= get_generality (mg_key m) (mg_mask m))%Z.
Proof.
  intros t m m' M M' HI Hne.
  assert (Hne' : mg_entries m <> []).
  { destruct (mg_entries m') as [|i s]; [congruence|]. intro E.
    specialize (HI i (or_introl eq_refl)). rewrite E in HI. destruct HI. }
  unfold get_generality. apply Nat2Z.inj_le. apply count_bits_mono.
  intros i Hi H. apply andb_true_iff in H. destruct H as [H1 H2].
  rewrite negb_true_iff in *.
  assert (PI : forall e, picked t (mg_entries m') e -> picked t (mg_entries m) e).
  { intros e [j [Hj He]]. exists j. auto. }
  assert (MZ : N.testbit (mg_mask m) i = false).
  { destruct (N.testbit (mg_mask m) i) eqn:E; auto.
    apply (mo_bit t m M Hne') in E. destruct E as [E1 [E2 E3]].
    assert (N.testbit (mg_mask m') i = true).
    { apply (mo_bit t m' M' Hne). split; auto. }
    congruence. }
  assert (KZ : N.testbit (mg_key m) i = false).
  { rewrite <- (mo_key t m M), N.land_spec, MZ, andb_false_r. reflexivity. }
  rewrite KZ, MZ. reflexivity.
Qed.

Lemma merge_of_ins_mono : forall t m m', merge_of t m -> merge_of t m' ->
  incl (mg_entries m') (mg_entries m) -> mg_entries m' <> [] ->
  (mg_ins m' <= mg_ins m)%nat.
Proof.
  intros t m m' M M' HI Hne. pose proof (merge_of_mono t m m' M M' HI Hne) as G.
  destruct (Nat.le_gt_cases (mg_ins m') (mg_ins m)) as [|L]; auto.
  pose proof (mo_ins t m' M') as I.
  destruct (aget_lt t (mg_ins m) ltac:(lia)) as [e He]. apply aget_Ok_iff in He.
  pose proof (mo_below t m' M' _ _ L He).
  pose proof (mo_above t m M _ _ (le_n _) He). lia.
Qed.

(** ** The down-check *)

Lemma stringency_step_inv : forall mm st p,
  (fst st <= 33)%nat ->
  (forall b v, In (b, v) (snd st) -> (b < 32)%N /\ N.testbit mm b = false) ->
  (fst st <= 32 -> fst st <> 0 -> snd st <> [])%nat ->
  let st' := stringency_step mm st p in
  (fst st' <= 32)%nat /\
  (forall b v, In (b, v) (snd st') -> (b < 32)%N /\ N.testbit mm b = false) /\
  (fst st' <> 0%nat -> snd st' <> []).
Proof.
  intros mm [ms bv] p H1 H2 H3. cbn [fst snd] in *. unfold stringency_step.
  remember (count_bits (is_settable mm (snd p)) 32) as n eqn:En.
  pose proof (count_bits_le (is_settable mm (snd p)) 32) as LE. rewrite <- En in LE.
  assert (NEW : forall b v, In (b, v) (map (fun b => (b, negb (N.testbit (fst p) b)))
      (filter (is_settable mm (snd p)) bits32)) -> (b < 32)%N /\ N.testbit mm b = false).
  { intros b v Hin. apply in_map_iff in Hin. destruct Hin as [x [Ex Hx]].
    inversion Ex; subst. apply filter_In in Hx. destruct Hx as [Hx Hs].
    unfold is_settable in Hs. apply andb_true_iff in Hs. destruct Hs as [_ Hs].
    rewrite negb_true_iff in Hs. split; auto.
    unfold bits32 in Hx. apply in_map_iff in Hx. destruct Hx as [y [<- Hy]].
    apply in_seq in Hy. lia. }
  assert (NNE : n <> 0%nat -> map (fun b => (b, negb (N.testbit (fst p) b)))
      (filter (is_settable mm (snd p)) bits32) <> []).
  { intros Hn E. destruct (count_bits_pos (is_settable mm (snd p)) 32) as [i [Hi Hf]]; [lia|].
    assert (In i (filter (is_settable mm (snd p)) bits32)).
    { apply filter_In. split; auto. unfold bits32. apply in_map_iff. exists (N.to_nat i).
      split; [lia|]. apply in_seq. lia. }
    apply map_eq_nil in E. rewrite E in H. destruct H. }
  clear En.
  destruct (Nat.leb_spec n ms) as [L|L]; cbn [fst snd].
  - destruct (Nat.ltb_spec n ms) as [L'|L']; cbn [fst snd].
    + split; [lia|]. split; [exact NEW|exact NNE].
    + assert (n = ms) by lia. subst ms. split; [lia|]. split.
      * intros b v Hin. apply in_app_or in Hin. destruct Hin as [Hin|Hin]; eauto.
      * intros Hn E. apply app_eq_nil in E. destruct E as [_ E]. exact (NNE Hn E).
  - split; [lia|]. split; auto. intros. apply H3; auto. lia.
Qed.

Lemma stringency_spec : forall mm covered,
  let st := stringency mm covered in
  (covered = [] -> fst st = 33%nat) /\
  (covered <> [] -> (fst st <= 32)%nat /\ (fst st <> 0%nat -> snd st <> [])) /\
  (forall b v, In (b, v) (snd st) -> (b < 32)%N /\ N.testbit mm b = false).
Proof.
  intros mm covered. unfold stringency.
  assert (G : forall cs st, (fst st <= 33)%nat ->
    (forall b v, In (b, v) (snd st) -> (b < 32)%N /\ N.testbit mm b = false) ->
    (fst st <= 32 -> fst st <> 0 -> snd st <> [])%nat ->
    let st' := fold_left (stringency_step mm) cs st in
    (fst st' <= 33)%nat /\ (cs <> [] \/ fst st <= 32 -> fst st' <= 32)%nat /\
    (forall b v, In (b, v) (snd st') -> (b < 32)%N /\ N.testbit mm b = false) /\
    (fst st' <= 32 -> fst st' <> 0 -> snd st' <> [])%nat).
  { induction cs as [|c cs IH]; intros st H1 H2 H3; cbn [fold_left].
    - split; auto. split; [intros [H|H]; [congruence|auto]|]. split; auto.
    - pose proof (stringency_step_inv mm st c H1 H2 H3) as [A [B C]].
      remember (stringency_step mm st c) as st1 eqn:E1. clear E1.
      specialize (IH st1 ltac:(lia) B (fun _ => C)). cbv zeta in IH.
      destruct IH as [I1 [I2 [I3 I4]]]. split; auto. }
  specialize (G covered (33%nat, []) (le_n _)).
  assert (G1 : forall b v, In (b, v) (snd (33%nat, @nil (N * bool))) -> (b < 32)%N /\ N.testbit mm b = false)
    by (intros b v []).
  specialize (G G1 ltac:(cbn; lia)). cbv zeta in G. destruct G as [G2 [G3 [G4 G5]]].
  split; [|split]; auto.
  intros ->. reflexivity.
Qed.

Lemma sorted_options_In : forall bv o, In o (sorted_options bv) -> In o bv.
Proof.
  intros bv o H. unfold sorted_options in H. apply filter_In in H. destruct H as [_ H].
  apply existsb_exists in H. destruct H as [x [Hx E]].
  unfold bv_eqb in E. apply andb_true_iff in E. destruct E as [E1 E2].
  apply N.eqb_eq in E1. apply eqb_prop in E2. destruct o, x; cbn in *; subst. auto.
Qed.

Lemma sorted_options_ne : forall bv, bv <> [] -> (forall b v, In (b, v) bv -> (b < 32)%N) ->
  sorted_options bv <> [].
Proof.
  intros [|[b v] bv] Hne HB; [congruence|]. intro E.
  assert (H : In (b, v) (sorted_options ((b, v) :: bv))).
  { unfold sorted_options. apply filter_In. split.
    - apply in_flat_map. exists b. split.
      + rewrite <- in_rev. unfold bits32. apply in_map_iff. exists (N.to_nat b).
        specialize (HB b v (or_introl eq_refl)). split; [lia|]. apply in_seq. lia.
      + destruct v; cbn; auto.
    - apply existsb_exists. exists (b, v). split; [left; auto|].
      unfold bv_eqb. cbn [fst snd]. rewrite N.eqb_refl, eqb_reflx. reflexivity. }
  rewrite E in H. destruct H.
Qed.

Lemma working_remove_spec : forall t bit val s, in_range t s ->
  exists w, working_remove t bit val s = Ok w /\ incl w s /\
    (forall i e, In i s -> nth_error t i = Some e ->
       (N.testbit (e_mask e) bit = false \/ N.testbit (e_key e) bit = negb val) -> In i w).
Proof.
  intros t bit val s. induction s as [|i s IH]; intro HR; cbn [working_remove].
  - exists []. split; auto. split; [intros x []|]. intros i e [].
  - destruct (aget_lt t i) as [e He]; [apply HR; left; auto|]. rewrite He. cbn [bind].
    apply aget_Ok_iff in He.
    destruct IH as [w [Ew [HI HW]]]; [intros j Hj; apply HR; right; auto|].
    rewrite Ew. cbn [bind].
    destruct (negb (N.testbit (e_mask e) bit) || Bool.eqb (N.testbit (e_key e) bit) (negb val))%bool eqn:EC.
    + exists (i :: w). split; auto. split.
      * intros x [<-|Hx]; [left; auto|right; auto].
      * intros j x [<-|Hj] Hx HC; [left; auto|right; eauto].
    + exists w. split; auto. split; [intros x Hx; right; auto|].
      intros j x [<-|Hj] Hx HC; [|eauto].
      assert (x = e) by congruence. subst. apply orb_false_iff in EC.
      destruct EC as [C1 C2]. rewrite negb_false_iff in C1.
      destruct HC as [HC|HC]; [congruence|]. rewrite HC, eqb_reflx in C2. discriminate.
Qed.

Lemma set_minus_incl : forall a b, incl (set_minus a b) a.
Proof. intros a b i H. apply filter_In in H. tauto. Qed.

Lemma set_minus_length : forall a b, (length (set_minus a b) <= length a)%nat.
Proof.
  intros a b. unfold set_minus. induction a; cbn [filter]; auto.
  destruct (negb (existsb (Nat.eqb a) b)); cbn [length]; lia.
Qed.

Lemma set_minus_shrinks : forall a b i, In i a -> In i b -> (length (set_minus a b) < length a)%nat.
Proof.
  intros a b i. unfold set_minus. induction a as [|x a IH]; intros Ha Hb; [destruct Ha|].
  cbn [filter]. destruct Ha as [->|Ha].
  - assert (E : existsb (Nat.eqb i) b = true).
    { apply existsb_exists. exists i. split; auto. apply Nat.eqb_refl. }
    rewrite E. cbn [negb length]. pose proof (set_minus_length a b). unfold set_minus in H. lia.
  - specialize (IH Ha Hb). destruct (negb (existsb (Nat.eqb x) b)); cbn [length]; lia.
Qed.

Lemma set_minus_sorted : forall a b, StronglySorted lt a -> StronglySorted lt (set_minus a b).
Proof.
  intros a b H. unfold set_minus. induction H; cbn [filter]; [constructor|].
  destruct (negb (existsb (Nat.eqb a) b)); auto. constructor; auto.
  rewrite Forall_forall in *. intros x Hx. apply filter_In in Hx. apply H0. tauto.
Qed.

(** A merge derived from another by removing entries. *)
Definition derived (t : list entry) (s : list nat) (m : merge) : Prop :=
  merge_of t m /\ incl (mg_entries m) s /\ StronglySorted lt (mg_entries m).

Lemma option_step_spec : forall t st o, t <> [] -> gsorted t ->
  derived t (mg_entries (snd st)) (snd st) ->
  exists rm m', option_step t st o = Ok (rm, m') /\
    derived t (mg_entries (snd st)) m' /\
    (length (mg_entries m') <= length (mg_entries (snd st)))%nat /\
    (fst st = [] -> (exists i e, In i (mg_entries (snd st)) /\ nth_error t i = Some e /\
        (N.testbit (e_mask e) (fst o) = false \/ N.testbit (e_key e) (fst o) = negb (snd o))) ->
      (length (mg_entries m') < length (mg_entries (snd st)))%nat).
Proof.
  intros t [remove m] o Ht S [M [_ SS]]. cbn [fst snd] in *. unfold option_step.
  destruct (working_remove_spec t (fst o) (snd o) (mg_entries m) (mo_range t m M)) as [w [Ew [HI HW]]].
  rewrite Ew. cbn [bind].
  remember (if (Nat.eqb (length remove) 0 || Nat.ltb (length w) (length remove))%bool
            then w else remove) as rm eqn:Erm.
  destruct (make_merge_spec t (set_minus (mg_entries m) rm) Ht S) as [m' [Em [Ee M']]].
  { intros i Hi. apply (mo_range t m M). eapply set_minus_incl; eauto. }
  rewrite Em. cbn [bind]. exists rm, m'. split; auto. rewrite Ee. split; [|split].
  - split; auto. rewrite Ee. split; [apply set_minus_incl|apply set_minus_sorted; auto].
  - apply set_minus_length.
  - intros -> [i [e [Hi [He HC]]]]. cbn in Erm. subst rm.
    apply set_minus_shrinks with i; auto. eauto.
Qed.

Lemma option_fold_spec : forall t os st, t <> [] -> gsorted t ->
  derived t (mg_entries (snd st)) (snd st) ->
  exists st', foldM (option_step t) st os = Ok st' /\
    derived t (mg_entries (snd st)) (snd st') /\
    (length (mg_entries (snd st')) <= length (mg_entries (snd st)))%nat.
Proof.
  intros t os. induction os as [|o os IH]; intros st Ht S D.
  - exists st. cbn [foldM]. auto.
  - destruct (option_step_spec t st o Ht S D) as [rm [m' [E [D' [L _]]]]].
    cbn [foldM]. rewrite E. cbn [bind].
    assert (D2 : derived t (mg_entries (snd (rm, m'))) (snd (rm, m'))).
    { cbn [snd]. destruct D' as [A [B C]]. split; auto. split; [apply incl_refl|auto]. }
    destruct (IH (rm, m') Ht S D2) as [st' [E' [D3 L']]].
    exists st'. split; auto. cbn [snd] in *. split; [|lia].
    destruct D3 as [A [B C]]. destruct D' as [A' [B' C']].
    split; auto. split; auto. intros i Hi. auto.
Qed.

Lemma option_fold_shrinks : forall t m os, t <> [] -> gsorted t ->
  derived t (mg_entries m) m -> mg_entries m <> [] -> os <> [] ->
  (forall b v, In (b, v) os -> (b < 32)%N /\ N.testbit (mg_mask m) b = false) ->
  exists st', foldM (option_step t) ([], m) os = Ok st' /\
    derived t (mg_entries m) (snd st') /\
    (length (mg_entries (snd st')) < length (mg_entries m))%nat.
Proof.
  intros t m [|[b v] os] Ht S D Hne Hos HB; [congruence|].
  destruct (option_step_spec t ([], m) (b, v) Ht S D) as [rm [m' [E [D' [L LL]]]]].
  cbn [fst snd] in *.
  assert (SM : (length (mg_entries m') < length (mg_entries m))%nat).
  { apply LL; auto. destruct D as [M _].
    destruct (HB b v (or_introl eq_refl)) as [Hb Hz].
    destruct (picked_exists t (mg_entries m) (mo_range t m M) Hne) as [e0 P0].
    (* if no entry qualifies, the bit is fixed *)
    destruct (existsb (fun i => match nth_error t i with
        | Some e => (negb (N.testbit (e_mask e) b) || Bool.eqb (N.testbit (e_key e) b) (negb v))%bool
        | None => false end) (mg_entries m)) eqn:EX.
    - apply existsb_exists in EX. destruct EX as [i [Hi HX]].
      destruct (nth_error t i) as [e|] eqn:Ei; [|discriminate].
      exists i, e. split; auto. split; auto. apply orb_true_iff in HX.
      rewrite negb_true_iff in HX. destruct HX as [HX|HX]; [left; auto|right].
      apply eqb_prop in HX. auto.
    - exfalso.
      assert (AL : forall e, picked t (mg_entries m) e ->
         N.testbit (e_mask e) b = true /\ N.testbit (e_key e) b = v).
      { intros e [i [Hi Hei]].
        destruct (negb (N.testbit (e_mask e) b) || Bool.eqb (N.testbit (e_key e) b) (negb v))%bool eqn:EC.
        - assert (existsb (fun i => match nth_error t i with
            | Some e => (negb (N.testbit (e_mask e) b) || Bool.eqb (N.testbit (e_key e) b) (negb v))%bool
            | None => false end) (mg_entries m) = true).
          { apply existsb_exists. exists i. split; auto. rewrite Hei. auto. }
          congruence.
        - apply orb_false_iff in EC. destruct EC as [C1 C2]. rewrite negb_false_iff in C1.
          split; auto. destruct (N.testbit (e_key e) b), v; auto; discriminate. }
      assert (N.testbit (mg_mask m) b = true).
      { apply (mo_bit t m M Hne). split; auto. split.
        - intros e He. apply AL; auto.
        - intros e e' He He'. destruct (AL e He), (AL e' He'). congruence. }
      congruence. }
  cbn [foldM]. rewrite E. cbn [bind].
  assert (D2 : derived t (mg_entries (snd (rm, m'))) (snd (rm, m'))).
  { cbn [snd]. destruct D' as [A [B C]]. split; auto. split; [apply incl_refl|auto]. }
  destruct (option_fold_spec t os (rm, m') Ht S D2) as [st' [E' [D3 L']]].
  exists st'. split; auto. cbn [snd] in *. split; [|lia].
  destruct D3 as [A [B C]]. destruct D' as [A' [B' C']].
  split; auto. split; auto. intros i Hi. auto.
Qed.

Definition empty_merge (m : merge) : Prop := mg_entries m = [].

Lemma goodness_empty : forall m, empty_merge m -> goodness m = (-1)%Z.
Proof. intros m H. unfold goodness. rewrite H. reflexivity. Qed.

Lemma make_empty : forall t, t <> [] -> gsorted t ->
  exists m, make_merge t [] = Ok m /\ empty_merge m.
Proof.
  intros t Ht S. destruct (make_merge_spec t [] Ht S) as [m [E [H _]]]; [intros i []|].
  exists m. auto.
Qed.

Lemma downcheck_spec : forall fuel t a m g, t <> [] -> gsorted t -> (0 <= g)%Z ->
  derived t (mg_entries m) m -> (length (mg_entries m) < fuel)%nat ->
  exists m', refine_downcheck fuel t a m g = Ok m' /\
    (empty_merge m' \/
     (derived t (mg_entries m) m' /\ (g < goodness m')%Z /\ get_covered t a m' = [])).
Proof.
  induction fuel as [|f IH]; intros t a m g Ht S Hg D HF; [lia|].
  cbn [refine_downcheck].
  destruct (Z.ltb_spec g (goodness m)) as [L|L].
  - assert (Hne : mg_entries m <> []).
    { intro E. rewrite goodness_empty in L by exact E. lia. }
    pose proof (stringency_spec (mg_mask m) (get_covered t a m)) as SP. cbv zeta in SP.
    destruct (stringency (mg_mask m) (get_covered t a m)) as [ms bv].
    cbn [fst snd] in SP. destruct SP as [S1 [S2 S3]].
    destruct (Nat.eqb_spec ms 33) as [E33|E33].
    + exists m. split; auto. right. split; auto. split; auto.
      destruct (get_covered t a m) as [|c cs]; auto.
      destruct S2 as [S2 _]; [discriminate|]. lia.
    + destruct (Nat.eqb_spec ms 0) as [E0|E0].
      * destruct (make_empty t Ht S) as [z [Ez Hz]]. exists z. auto.
      * assert (HC : get_covered t a m <> []).
        { intro E. apply S1 in E. lia. }
        destruct (S2 HC) as [_ HBV]. specialize (HBV E0).
        assert (HSO : sorted_options bv <> []).
        { apply sorted_options_ne; auto. intros b v Hin. apply S3 in Hin. tauto. }
        destruct (option_fold_shrinks t m (sorted_options bv) Ht S D Hne HSO) as [st' [E [D' L']]].
        { intros b v Hin. apply sorted_options_In in Hin. eauto. }
        rewrite E. cbn [bind].
        assert (D2 : derived t (mg_entries (snd st')) (snd st')).
        { destruct D' as [A [B C]]. split; auto. split; [apply incl_refl|auto]. }
        destruct (IH t a (snd st') g Ht S Hg D2 ltac:(lia)) as [m' [E' HM]].
        exists m'. split; auto. destruct HM as [HM|[DM HM]]; auto. right. split; auto.
        destruct DM as [A [B C]]. destruct D' as [A' [B' C']].
        split; auto. split; auto. intros i Hi. auto.
  - destruct (make_empty t Ht S) as [z [Ez Hz]]. exists z. auto.
Qed.

(** ** The up-check *)

Definition up_ok_at (t : list entry) (ins i : nat) : Prop :=
  forall e j x, nth_error t i = Some e -> nth_error t j = Some x ->
    (i < j)%nat -> (j < ins)%nat -> intersect (e_key e) (e_mask e) (e_key x) (e_mask x) = false.

Lemma slice_nth : forall {A} (l : list A) a b j x, (a <= j < b)%nat -> nth_error l j = Some x ->
  In x (slice l a b).
Proof.
  intros A l a b j x Hj Hx. unfold slice.
  assert (E : nth_error (skipn a l) (j - a) = Some x).
  { rewrite nth_error_skipn'. replace (a + (j - a))%nat with j by lia. auto. }
  remember (skipn a l) as l' eqn:El. clear El Hx.
  assert (L : (j - a < b - a)%nat) by lia. remember (j - a)%nat as q. remember (b - a)%nat as n.
  clear -E L. revert n q L E. induction l' as [|y l' IH]; intros [|n] [|q] L E; cbn in *; try discriminate; try lia.
  - inversion E; auto.
  - right. eapply IH; [|eauto]. lia.
Qed.

Lemma upcheck_loop_spec : forall t is m g changed, t <> [] -> gsorted t -> (0 <= g)%Z ->
  derived t (mg_entries m) m -> (forall i, In i is -> (i < length t)%nat) ->
  (forall i, In i (mg_entries m) -> In i is \/ up_ok_at t (mg_ins m) i) ->
  (g < goodness m)%Z ->
  exists m' ch, upcheck_loop t is m g changed = Ok (m', ch) /\
    (empty_merge m' \/
     (derived t (mg_entries m) m' /\ (g < goodness m')%Z /\
      (forall i, In i (mg_entries m') -> up_ok_at t (mg_ins m') i) /\
      (ch = false -> m' = m /\ changed = false))).
Proof.
  intros t is. induction is as [|i is IH]; intros m g changed Ht S Hg D HR HU HG.
  - cbn [upcheck_loop]. exists m, changed. split; auto. right. split; auto. split; auto. split; auto.
    intros i Hi. destruct (HU i Hi) as [[]|H]; auto.
  - cbn [upcheck_loop].
    destruct (aget_lt t i) as [e He]; [apply HR; left; auto|]. rewrite He. cbn [bind].
    apply aget_Ok_iff in He.
    destruct (existsb (fun o => intersect (e_key e) (e_mask e) (e_key o) (e_mask o))
                (slice t (i + 1) (mg_ins m))) eqn:EX.
    + pose proof D as [M [_ SS]].
      destruct (make_merge_spec t (set_minus (mg_entries m) [i]) Ht S) as [m' [Em [Ee M']]].
      { intros j Hj. apply (mo_range t m M). eapply set_minus_incl; eauto. }
      rewrite Em. cbn [bind].
      destruct (Z.leb_spec (goodness m') g) as [L|L].
      * destruct (make_empty t Ht S) as [z [Ez Hz]]. rewrite Ez. cbn [bind].
        exists z, true. auto.
      * assert (Hne : mg_entries m' <> []).
        { intro E. rewrite goodness_empty in L by exact E. lia. }
        assert (HI : incl (mg_entries m') (mg_entries m)) by (rewrite Ee; apply set_minus_incl).
        pose proof (merge_of_ins_mono t m m' M M' HI Hne) as IM.
        destruct (IH m' g true Ht S Hg) as [m'' [ch [E' HM]]]; auto.
        { split; auto. split; [apply incl_refl|]. rewrite Ee. apply set_minus_sorted; auto. }
        { intros j Hj. apply HR. right; auto. }
        { intros j Hj. rewrite Ee in Hj. pose proof Hj as Hj'. apply filter_In in Hj.
          destruct Hj as [Hj Hn].
          destruct (HU j Hj) as [[Hij|Hin]|Hup].
          - exfalso. subst j. cbn [existsb] in Hn. rewrite Nat.eqb_refl in Hn. discriminate.
          - left; auto.
          - right. intros e1 j1 x1 A1 A2 A3 A4. eapply Hup; eauto. lia. }
        exists m'', ch. split; auto.
        destruct HM as [HM|[DM [GM [UM CM]]]]; auto. right. split; [|split; [|split]]; auto.
        { destruct DM as [A [B C]]. split; auto. split; auto. intros j Hj. auto. }
        { intro Hch. destruct (CM Hch) as [_ X]. discriminate. }
    + apply IH; auto.
      { intros j Hj. apply HR. right; auto. }
      intros j Hj. destruct (HU j Hj) as [[<-|Hin]|Hup]; auto.
      right. intros e1 j1 x1 A1 A2 A3 A4. assert (e1 = e) by congruence. subst e1.
      destruct (intersect (e_key e) (e_mask e) (e_key x1) (e_mask x1)) eqn:EI; auto.
      assert (existsb (fun o => intersect (e_key e) (e_mask e) (e_key o) (e_mask o))
                (slice t (i + 1) (mg_ins m)) = true).
      { apply existsb_exists. exists x1. split; auto. apply slice_nth with j1; auto. lia. }
      congruence.
Qed.

(** ** Refinement *)

(** A merge that is safe to apply. *)
Definition valid_merge (t : list entry) (a : aliases) (m : merge) : Prop :=
  merge_of t m /\ StronglySorted lt (mg_entries m) /\
  (forall i, In i (mg_entries m) -> up_ok_at t (mg_ins m) i) /\
  get_covered t a m = [].

Lemma sorted_length_range : forall s n, StronglySorted lt s -> (forall i, In i s -> (i < n)%nat) ->
  (length s <= n)%nat.
Proof.
  intros s n S H. rewrite <- (seq_length n 0). apply NoDup_incl_length.
  - clear H. induction S; constructor; auto. intro HI. rewrite Forall_forall in H.
    specialize (H _ HI). lia.
  - intros i Hi. apply in_seq. specialize (H i Hi). lia.
Qed.

Lemma refine_merge_spec : forall t a m g, t <> [] -> gsorted t -> (0 <= g)%Z ->
  derived t (mg_entries m) m ->
  exists m', refine_merge t a m g = Ok m' /\
    (empty_merge m' \/
     (valid_merge t a m' /\ incl (mg_entries m') (mg_entries m) /\ (g < goodness m')%Z)).
Proof.
  intros t a m g Ht S Hg D. unfold refine_merge.
  assert (FU : forall m', derived t (mg_entries m) m' -> (length (mg_entries m') < 2 + length t)%nat).
  { intros m' [M' [_ SS']]. pose proof (sorted_length_range _ _ SS' (mo_range t m' M')). lia. }
  destruct (downcheck_spec (2 + length t) t a m g Ht S Hg D (FU m D)) as [m1 [E1 H1]].
  rewrite E1. cbn [bind].
  destruct H1 as [H1|[D1 [G1 C1]]].
  { rewrite goodness_empty by auto. destruct (Z.ltb_spec g (-1)); [lia|]. exists m1. auto. }
  destruct (Z.ltb_spec g (goodness m1)) as [L1|L1]; [|lia].
  assert (D1' : derived t (mg_entries m1) m1).
  { destruct D1 as [A [B C]]. split; auto. split; [apply incl_refl|auto]. }
  unfold refine_upcheck.
  destruct (upcheck_loop_spec t (rev (mg_entries m1)) m1 g false Ht S Hg D1') as [m2 [ch [E2 H2]]]; auto.
  { intros i Hi. apply in_rev in Hi. destruct D1 as [A _]. apply (mo_range t m1 A); auto. }
  { intros i Hi. left. apply in_rev. rewrite rev_involutive. auto. }
  rewrite E2. cbn [bind].
  destruct H2 as [H2|[D2 [G2 [U2 CH2]]]].
  { rewrite (goodness_empty m2) by auto.
    destruct (Z.ltb_spec g (-1)); [lia|]. rewrite andb_false_r. exists m2. auto. }
  destruct (Z.ltb_spec g (goodness m2)) as [L2|L2]; [|lia].
  assert (I2 : incl (mg_entries m2) (mg_entries m)).
  { destruct D2 as [_ [B _]]. destruct D1 as [_ [B' _]]. intros i Hi. auto. }
  destruct ch; cbn [andb].
  - assert (D2' : derived t (mg_entries m2) m2).
    { destruct D2 as [A [B C]]. split; auto. split; [apply incl_refl|auto]. }
    destruct (downcheck_spec (2 + length t) t a m2 g Ht S Hg D2') as [m3 [E3 H3]].
    { apply FU. destruct D2 as [A [B C]]. split; auto. }
    rewrite E3. exists m3. split; auto. destruct H3 as [H3|[D3 [G3 C3]]]; auto. right.
    destruct D3 as [A3 [B3 C3']]. destruct D2 as [A2 [B2 C2]].
    assert (Hne : mg_entries m3 <> []).
    { intro E. rewrite goodness_empty in G3 by exact E. lia. }
    pose proof (merge_of_ins_mono t m2 m3 A2 A3 B3 Hne) as IM.
    split; [|split; auto].
    + split; auto. split; auto. split; auto.
      intros i Hi e j x X1 X2 X3 X4. eapply (U2 i); eauto. lia.
    + intros i Hi. auto.
  - destruct (CH2 eq_refl) as [-> _]. exists m1. split; auto. right. split; [|split; auto].
    destruct D1 as [A [B C]]. split; auto.
Qed.

(** ** Candidate merges *)

Lemma same_route_from_spec : forall r t j, StronglySorted lt (same_route_from r j t) /\
  forall i, In i (same_route_from r j t) ->
    (j <= i)%nat /\ exists e, nth_error t (i - j) = Some e /\ e_route e = r.
Proof.
  intros r t. induction t as [|x t IH]; intro j; cbn [same_route_from].
  - split; [constructor|]. intros i [].
  - destruct (IH (S j)) as [SS HI].
    assert (HS : forall i, In i (same_route_from r (S j) t) ->
      (j <= i)%nat /\ exists e, nth_error (x :: t) (i - j) = Some e /\ e_route e = r).
    { intros i Hi. destruct (HI i Hi) as [L [e [He Hr]]]. split; [lia|]. exists e. split; auto.
      replace (i - j)%nat with (S (i - S j)) by lia. auto. }
    destruct (N.eqb_spec r (e_route x)) as [E|E].
    + split.
      * constructor; auto. apply Forall_forall. intros i Hi. apply HI in Hi. lia.
      * intros i [<-|Hi]; [|auto]. split; auto. exists x. rewrite Nat.sub_diag. auto.
    + split; auto.
Qed.

Definition one_route (t : list entry) (s : list nat) : Prop :=
  exists r, forall e, picked t s e -> e_route e = r.

Lemma all_merges_spec : forall rest t0 considered s,
  In s (all_merges considered (length t0) rest) ->
  StronglySorted lt s /\ in_range (t0 ++ rest) s /\ one_route (t0 ++ rest) s.
Proof.
  induction rest as [|x rest IH]; intros t0 considered s Hs; [destruct Hs|].
  cbn [all_merges] in Hs.
  assert (NEXT : forall c s', In s' (all_merges c (S (length t0)) rest) ->
    StronglySorted lt s' /\ in_range (t0 ++ x :: rest) s' /\ one_route (t0 ++ x :: rest) s').
  { intros c s' Hs'. specialize (IH (t0 ++ [x]) c s').
    rewrite app_length in IH. cbn [length] in IH. rewrite Nat.add_1_r in IH.
    rewrite <- app_assoc in IH. cbn [app] in IH. apply IH. auto. }
  destruct (existsb (Nat.eqb (length t0)) considered); [eauto|].
  assert (ME : StronglySorted lt (length t0 :: same_route_from (e_route x) (S (length t0)) rest) /\
     in_range (t0 ++ x :: rest) (length t0 :: same_route_from (e_route x) (S (length t0)) rest) /\
     one_route (t0 ++ x :: rest) (length t0 :: same_route_from (e_route x) (S (length t0)) rest)).
  { destruct (same_route_from_spec (e_route x) rest (S (length t0))) as [SS HI].
    assert (AT : forall i, In i (length t0 :: same_route_from (e_route x) (S (length t0)) rest) ->
      exists e, nth_error (t0 ++ x :: rest) i = Some e /\ e_route e = e_route x).
    { intros i [<-|Hi].
      - exists x. split; auto. rewrite nth_error_app2, Nat.sub_diag by lia. reflexivity.
      - destruct (HI i Hi) as [L [e [He Hr]]]. exists e. split; auto.
        rewrite nth_error_app2 by lia.
        replace (i - length t0)%nat with (S (i - S (length t0))) by lia. auto. }
    split; [|split].
    - constructor; auto. apply Forall_forall. intros i Hi. apply HI in Hi. lia.
    - intros i Hi. destruct (AT i Hi) as [e [He _]]. apply nth_error_Some. congruence.
    - exists (e_route x). intros e [i [Hi He]]. destruct (AT i Hi) as [e' [He' Hr]]. congruence. }
  destruct (Nat.ltb 1 (length (length t0 :: same_route_from (e_route x) (S (length t0)) rest)));
    [destruct Hs as [<-|Hs]|]; eauto.
Qed.

Lemma one_route_incl : forall t s s', one_route t s -> incl s' s -> one_route t s'.
Proof. intros t s s' [r H] HI. exists r. intros e [i [Hi He]]. apply H. exists i. auto. Qed.

Lemma best_merge_spec : forall t a, t <> [] -> gsorted t ->
  exists m, get_best_merge t a = Ok m /\
    (empty_merge m \/ (valid_merge t a m /\ one_route t (mg_entries m) /\ (0 < goodness m)%Z)).
Proof.
  intros t a Ht S. unfold get_best_merge.
  destruct (make_empty t Ht S) as [z [Ez Hz]]. rewrite Ez. cbn [bind].
  assert (G : forall ss st, (forall s, In s ss -> StronglySorted lt s /\ in_range t s /\ one_route t s) ->
    (0 <= snd st)%Z ->
    (empty_merge (fst st) \/ (valid_merge t a (fst st) /\ one_route t (mg_entries (fst st)) /\ (0 < goodness (fst st))%Z)) ->
    exists st', foldM (best_step t a) st ss = Ok st' /\
      (empty_merge (fst st') \/ (valid_merge t a (fst st') /\ one_route t (mg_entries (fst st')) /\ (0 < goodness (fst st'))%Z))).
  { induction ss as [|s ss IH]; intros [best bg] HS Hbg HV.
    - exists (best, bg). cbn [foldM]. auto.
    - cbn [foldM]. destruct (HS s (or_introl eq_refl)) as [SS [RR OR]].
      assert (HS' : forall s, In s ss -> StronglySorted lt s /\ in_range t s /\ one_route t s)
        by (intros; apply HS; right; auto).
      unfold best_step at 1. cbn [fst snd] in *.
      destruct (make_merge_spec t s Ht S RR) as [m [Em [Ee M]]]. rewrite Em. cbn [bind].
      destruct (Z.leb_spec (goodness m) bg) as [L|L]; cbn [bind].
      + apply IH; auto.
      + destruct (refine_merge_spec t a m bg Ht S Hbg) as [m' [E' H']].
        { split; auto. split; [apply incl_refl|]. rewrite Ee. auto. }
        rewrite E'. cbn [bind].
        destruct (Z.ltb_spec bg (goodness m')) as [L'|L']; cbn [bind]; [|apply IH; auto].
        apply IH; auto.
        * cbn [snd]. lia.
        * cbn [fst]. destruct H' as [H'|[V [I G']]]; auto. right. split; auto. split; [|lia].
          apply one_route_incl with s; auto. rewrite Ee in I. auto. }
  destruct (G (all_merges [] 0 t) (z, 0%Z)) as [st' [E H]].
  - intros s Hs. apply (all_merges_spec t [] [] s). auto.
  - cbn. lia.
  - left. auto.
  - rewrite E. cbn [bind]. exists (fst st'). auto.
Qed.

(** ** Applying a merge *)

(** The entries whose index, counted from [i], is not in [s]. *)
Fixpoint del (s : list nat) (i : nat) (t : list entry) : list entry :=
  match t with
  | [] => []
  | e :: t' => if negb (existsb (Nat.eqb i) s) then e :: del s (S i) t' else del s (S i) t'
  end.

Lemma existsb_nat_In : forall i s, existsb (Nat.eqb i) s = true <-> In i s.
Proof.
  intros. rewrite existsb_exists. split.
  - intros [x [Hx E]]. apply Nat.eqb_eq in E. subst; auto.
  - intro. exists i. split; auto. apply Nat.eqb_refl.
Qed.

Lemma del_In : forall s t i e, In e (del s i t) <->
  exists j, nth_error t j = Some e /\ ~ In (i + j)%nat s.
Proof.
  intros s t. induction t as [|x t IH]; intros i e; cbn [del].
  - split; [intros []|]. intros [j [H _]]. destruct j; discriminate.
  - assert (R : (exists j, nth_error (x :: t) j = Some e /\ ~ In (i + j)%nat s) <->
      (x = e /\ ~ In i s) \/ exists j, nth_error t j = Some e /\ ~ In (S i + j)%nat s).
    { split.
      - intros [[|j] [H1 H2]]; cbn in H1.
        + left. rewrite Nat.add_0_r in H2. inversion H1; auto.
        + right. exists j. split; auto. intro. apply H2. replace (i + S j)%nat with (S i + j)%nat by lia. auto.
      - intros [[-> H]|[j [H1 H2]]].
        + exists 0%nat. rewrite Nat.add_0_r. auto.
        + exists (S j). split; auto. intro. apply H2. replace (S i + j)%nat with (i + S j)%nat by lia. auto. }
    rewrite R. destruct (existsb (Nat.eqb i) s) eqn:E; cbn [negb].
    + rewrite IH. apply existsb_nat_In in E. split; auto. intros [[_ H]|H]; [contradiction|auto].
    + assert (~ In i s) by (rewrite <- existsb_nat_In; congruence).
      cbn [In]. rewrite IH. split; [intros [->|H0]; auto|intros [[-> _]|H0]; auto].
Qed.

Lemma del_length : forall s t i, StronglySorted lt s ->
  (forall x, In x s -> (i <= x < i + length t)%nat) ->
  (length (del s i t) + length s = length t)%nat.
Proof.
  intros s t. revert s. induction t as [|e t IH]; intros s i SS HR; cbn [del length].
  - destruct s as [|x s]; auto. specialize (HR x (or_introl eq_refl)). cbn in HR. lia.
  - destruct s as [|x s].
    + cbn [existsb negb length]. specialize (IH [] (S i) SS). cbn [length] in IH.
      rewrite Nat.add_0_r in *. rewrite IH; auto. intros y [].
    + inversion SS; subst. rewrite Forall_forall in H2.
      destruct (Nat.eq_dec x i) as [->|Hne].
      * cbn [existsb]. rewrite Nat.eqb_refl. cbn [orb negb].
        assert (ED : del (i :: s) (S i) t = del s (S i) t).
        { assert (G : forall t' j, (i < j)%nat -> del (i :: s) j t' = del s j t').
          { clear. induction t' as [|e t' IH]; intros j L; cbn [del]; auto.
            cbn [existsb]. destruct (Nat.eqb_spec j i); [lia|]. cbn [orb].
            rewrite IH by lia. reflexivity. }
          apply G. lia. }
        rewrite ED. cbn [length]. specialize (IH s (S i) H1). rewrite <- IH; [lia|].
        intros y Hy. pose proof (H2 y Hy). specialize (HR y (or_intror Hy)). cbn in HR. lia.
      * assert (NI : existsb (Nat.eqb i) (x :: s) = false).
        { destruct (existsb (Nat.eqb i) (x :: s)) eqn:E; auto. apply existsb_nat_In in E.
          pose proof (HR x (or_introl eq_refl)). destruct E as [->|E]; [lia|].
          specialize (H2 i E). lia. }
        rewrite NI. cbn [negb length]. specialize (IH (x :: s) (S i) SS). cbn [length] in IH.
        rewrite <- IH; [lia|]. intros y Hy.
        pose proof (HR y Hy). cbn [length] in H.
        assert (y <> i).
        { intro; subst. assert (existsb (Nat.eqb i) (x :: s) = true) by (apply existsb_nat_In; auto).
          congruence. }
        lia.
Qed.

Lemma del_app : forall s a b i, del s i (a ++ b) = del s i a ++ del s (i + length a) b.
Proof.
  intros s a b. induction a as [|x a IH]; intro i; cbn [app del length].
  - rewrite Nat.add_0_r. reflexivity.
  - rewrite IH. replace (S i + length a)%nat with (i + S (length a))%nat by lia.
    destruct (negb (existsb (Nat.eqb i) s)); reflexivity.
Qed.

Lemma del_sorted : forall s t i, gsorted t -> gsorted (del s i t).
Proof.
  intros s t i H. revert i. induction H; intro i; cbn [del]; [constructor|].
  destruct (negb (existsb (Nat.eqb i) s)); [|apply IHStronglySorted].
  constructor; [apply IHStronglySorted|]. rewrite Forall_forall in *.
  intros x Hx. apply H0. apply del_In in Hx. destruct Hx as [j [Hj _]]. eapply nth_error_In; eauto.
Qed.

Lemma apply_loop_table : forall m ne t i a o, (i <= mg_ins m)%nat ->
  fst (fst (apply_loop m ne i t a o)) =
    if Nat.ltb (mg_ins m - i) (length t)
    then del (mg_entries m) i (firstn (mg_ins m - i) t) ++ ne ::
         del (mg_entries m) (mg_ins m) (skipn (mg_ins m - i) t)
    else del (mg_entries m) i t.
Proof.
  intros m ne t.
  assert (PAST : forall t i a o, (mg_ins m < i)%nat ->
    fst (fst (apply_loop m ne i t a o)) = del (mg_entries m) i t).
  { induction t0 as [|e t0 IH]; intros i a o L; cbn [apply_loop del]; auto.
    destruct (Nat.eqb_spec i (mg_ins m)); [lia|].
    destruct (negb (existsb (Nat.eqb i) (mg_entries m))).
    - specialize (IH (S i) a o ltac:(lia)).
      destruct (apply_loop m ne (S i) t0 a o) as [[nt a'] o']. cbn [fst] in *. cbn [app]. congruence.
    - specialize (IH (S i) (alias_del a (km e)) (o ++ alias_get a (km e)) ltac:(lia)).
      destruct (apply_loop m ne (S i) t0 (alias_del a (km e)) (o ++ alias_get a (km e))) as [[nt a'] o'].
      cbn [fst] in *. cbn [app]. congruence. }
  induction t as [|e t IH]; intros i a o L; cbn [apply_loop].
  - cbn [length fst del]. destruct (Nat.ltb_spec (mg_ins m - i) 0); [lia|]. reflexivity.
  - destruct (Nat.eqb_spec i (mg_ins m)) as [E|E].
    + rewrite E, Nat.sub_diag. cbn [length firstn skipn].
      destruct (Nat.ltb_spec 0 (S (length t))); [|lia]. cbn [del app].
      destruct (negb (existsb (Nat.eqb (mg_ins m)) (mg_entries m))).
      * specialize (PAST t (S (mg_ins m)) a o ltac:(lia)).
        destruct (apply_loop m ne (S (mg_ins m)) t a o) as [[nt a'] o']. cbn [fst] in *. congruence.
      * specialize (PAST t (S (mg_ins m)) (alias_del a (km e)) (o ++ alias_get a (km e)) ltac:(lia)).
        destruct (apply_loop m ne (S (mg_ins m)) t (alias_del a (km e)) (o ++ alias_get a (km e))) as [[nt a'] o'].
        cbn [fst] in *. congruence.
    + replace (mg_ins m - i)%nat with (S (mg_ins m - S i)) by lia.
      cbn [firstn skipn length del app].
      change (Nat.ltb (S (mg_ins m - S i)) (S (length t))) with (Nat.ltb (mg_ins m - S i) (length t)).
      destruct (negb (existsb (Nat.eqb i) (mg_entries m))).
      * specialize (IH (S i) a o ltac:(lia)).
        destruct (apply_loop m ne (S i) t a o) as [[nt a'] o']. cbn [fst] in *. rewrite IH.
        destruct (Nat.ltb (mg_ins m - S i) (length t)); reflexivity.
      * specialize (IH (S i) (alias_del a (km e)) (o ++ alias_get a (km e)) ltac:(lia)).
        destruct (apply_loop m ne (S i) t (alias_del a (km e)) (o ++ alias_get a (km e))) as [[nt a'] o'].
        cbn [fst] in *. rewrite IH.
        destruct (Nat.ltb (mg_ins m - S i) (length t)); reflexivity.
Qed.

Lemma km_eqb_eq : forall a b, km_eqb a b = true <-> a = b.
Proof.
  intros [a1 a2] [b1 b2]. unfold km_eqb. cbn [fst snd].
  rewrite andb_true_iff, !N.eqb_eq. split; [intros [-> ->]; auto|inversion 1; auto].
Qed.

Lemma alias_get_del_neq : forall a k k', k <> k' -> alias_get (alias_del a k) k' = alias_get a k'.
Proof.
  intros a k k' H. unfold alias_del. induction a as [|[x v] a IH]; cbn [filter alias_get fst]; auto.
  destruct (km_eqb k x) eqn:E1; cbn [negb].
  - apply km_eqb_eq in E1. subst x.
    destruct (km_eqb k' k) eqn:E2; [apply km_eqb_eq in E2; congruence|auto].
  - cbn [alias_get]. destruct (km_eqb k' x); auto.
Qed.

Lemma apply_loop_aliases : forall m ne t i a o, NoDup (map km t) ->
  let r := apply_loop m ne i t a o in
  (forall k, (forall j e, nth_error t j = Some e -> In (i + j)%nat (mg_entries m) -> km e <> k) ->
     alias_get (snd (fst r)) k = alias_get a k) /\
  (forall p, In p (snd r) <-> In p o \/ exists j e, nth_error t j = Some e /\
      In (i + j)%nat (mg_entries m) /\ In p (alias_get a (km e))).
Proof.
  intros m ne t. induction t as [|x t IH]; intros i a o ND; cbn [apply_loop].
  - cbn [fst snd]. split; auto. intro p. split; auto. intros [H|[j [e [H _]]]]; auto. destruct j; discriminate.
  - cbn [map] in ND. inversion ND; subst.
    assert (SH : forall j, (S i + j)%nat = (i + S j)%nat) by (intros; lia).
    destruct (existsb (Nat.eqb i) (mg_entries m)) eqn:EX; cbn [negb].
    + apply existsb_nat_In in EX.
      specialize (IH (S i) (alias_del a (km x)) (o ++ alias_get a (km x)) H2). cbv zeta in IH.
      destruct (apply_loop m ne (S i) t (alias_del a (km x)) (o ++ alias_get a (km x))) as [[nt a'] o'].
      cbn [fst snd] in *. destruct IH as [I1 I2]. split.
      * intros k Hk. rewrite I1.
        -- apply alias_get_del_neq. apply (Hk 0%nat x); auto. rewrite Nat.add_0_r; auto.
        -- intros j e Hj Hin. apply (Hk (S j) e); auto. rewrite <- SH. auto.
      * intro p. rewrite I2, in_app_iff. split.
        -- intros [[H|H]|[j [e [Hj [Hin Hp]]]]]; auto.
           ++ right. exists 0%nat, x. rewrite Nat.add_0_r. auto.
           ++ right. exists (S j), e. rewrite <- SH. split; auto. split; auto.
              rewrite alias_get_del_neq in Hp; auto. intro E. apply H1. rewrite E.
              apply in_map. eapply nth_error_In; eauto.
        -- intros [H|[[|j] [e [Hj [Hin Hp]]]]]; auto.
           ++ cbn in Hj. inversion Hj; subst. auto.
           ++ right. exists j, e. rewrite SH. split; auto. split; auto.
              rewrite alias_get_del_neq; auto. intro E. apply H1. rewrite E.
              apply in_map. eapply nth_error_In; eauto.
    + assert (EX' : ~ In i (mg_entries m)) by (rewrite <- existsb_nat_In; congruence).
      specialize (IH (S i) a o H2). cbv zeta in IH.
      destruct (apply_loop m ne (S i) t a o) as [[nt a'] o'].
      cbn [fst snd] in *. destruct IH as [I1 I2]. split.
      * intros k Hk. apply I1. intros j e Hj Hin. apply (Hk (S j) e); auto. rewrite <- SH. auto.
      * intro p. rewrite I2. split.
        -- intros [H|[j [e [Hj [Hin Hp]]]]]; auto. right. exists (S j), e. rewrite <- SH. auto.
        -- intros [H|[[|j] [e [Hj [Hin Hp]]]]]; auto.
           ++ rewrite Nat.add_0_r in Hin. contradiction.
           ++ right. exists j, e. rewrite SH. auto.
Qed.

(** The whole of [apply]. *)
Lemma apply_merge_spec : forall t a m, merge_of t m -> one_route t (mg_entries m) ->
  mg_entries m <> [] -> NoDup (map km t) ->
  exists ne a', apply_merge t a m =
      Ok (del (mg_entries m) 0 (firstn (mg_ins m) t) ++ ne ::
          del (mg_entries m) (mg_ins m) (skipn (mg_ins m) t), a') /\
    e_key ne = mg_key m /\ e_mask ne = mg_mask m /\ e_def ne = mg_def m /\
    (forall e, picked t (mg_entries m) e -> e_route ne = e_route e) /\
    (forall k, k <> (mg_key m, mg_mask m) ->
       (forall e, picked t (mg_entries m) e -> km e <> k) -> alias_get a' k = alias_get a k) /\
    (forall p, In p (alias_get a' (mg_key m, mg_mask m)) <->
       exists e, picked t (mg_entries m) e /\ In p (alias_get a (km e))).
Proof.
  intros t a m M [r OR] Hne ND. unfold apply_merge.
  destruct (mg_entries m) as [|i s] eqn:ES; [congruence|].
  rewrite <- ES in *.
  destruct (aget_lt t i) as [e He].
  { apply (mo_range t m M). rewrite ES. left; auto. }
  rewrite He. cbn [bind]. apply aget_Ok_iff in He.
  remember (mkEntry (mg_key m) (mg_mask m) (e_route e) (mg_def m)) as ne eqn:Ene.
  pose proof (apply_loop_table m ne t 0 a [] ltac:(lia)) as TB.
  pose proof (apply_loop_aliases m ne t 0 a [] ND) as AL. cbv zeta in AL.
  destruct (apply_loop m ne 0 t a []) as [[nt a'] ours]. cbn [fst snd] in *.
  rewrite Nat.sub_0_r in TB. destruct AL as [AL1 AL2].
  exists ne, (alias_set a' (mg_key m, mg_mask m) ours).
  assert (PI : picked t (mg_entries m) e).
  { exists i. split; auto. rewrite ES. left; auto. }
  split; [|split; [|split; [|split; [|split; [|split]]]]].
  - f_equal. f_equal. destruct (Nat.eqb_spec (mg_ins m) (length t)) as [EL|EL].
    + rewrite EL in TB. destruct (Nat.ltb_spec (length t) (length t)) as [L|L]; [lia|].
      rewrite TB, EL, firstn_all, skipn_all. cbn [del]. reflexivity.
    + pose proof (mo_ins t m M). destruct (Nat.ltb_spec (mg_ins m) (length t)) as [L|L]; [|lia]. auto.
  - subst; auto.
  - subst; auto.
  - subst; auto.
  - intros x Hx. subst ne. cbn [e_route]. rewrite !OR by auto. reflexivity.
  - intros k Hk Hp. unfold alias_set. cbn [alias_get].
    destruct (km_eqb k (mg_key m, mg_mask m)) eqn:E; [apply km_eqb_eq in E; congruence|].
    rewrite alias_get_del_neq by congruence. apply AL1.
    intros j x Hj Hin. apply Hp. exists j. auto.
  - intro p. unfold alias_set. cbn [alias_get].
    destruct (km_eqb (mg_key m, mg_mask m) (mg_key m, mg_mask m)) eqn:E.
    + rewrite AL2. split.
      * intros [[]|[j [x [Hj [Hin Hp]]]]]. exists x. split; auto. exists j. auto.
      * intros [x [[j [Hin Hj]] Hp]]. right. exists j, x. auto.
    + assert (km_eqb (mg_key m, mg_mask m) (mg_key m, mg_mask m) = true) by (apply km_eqb_eq; auto).
      congruence.
Qed.

(** ** The invariant of the main loop *)

Definition routed_as (t : list entry) (a : aliases) (o : entry) : Prop :=
  exists e, In e t /\ e_route e = e_route o /\ (e_def e = true -> e_def o = true) /\
    In (km o) (alias_get a (km e)) /\
    forall k, entry_matches k o -> first_match t k = Some e.

Record oc_inv (orig t : list entry) (a : aliases) : Prop := {
  oi_sorted : gsorted t;
  oi_nodup : NoDup (map km t);
  oi_ok : Forall entry_ok t;
  oi_alias : forall e, In e t ->
     (exists p, In p (alias_get a (km e))) /\
     (forall p, In p (alias_get a (km e)) ->
        exists k, key_matches k (fst p) (snd p) /\ entry_matches k e);
  oi_routed : forall o, In o orig -> routed_as t a o;
  oi_orig : forall e p, In e t -> In p (alias_get a (km e)) ->
     exists o, In o orig /\ km o = p /\ e_route o = e_route e;
  oi_width : (forall o, In o orig -> (e_mask o < 2 ^ 32)%N) ->
     forall e, In e t -> (e_mask e < 2 ^ 32)%N
}.

Lemma first_match_index : forall t k e, first_match t k = Some e ->
  exists i, nth_error t i = Some e /\ entry_matches k e /\
    forall j x, (j < i)%nat -> nth_error t j = Some x -> ~ entry_matches k x.
Proof.
  intros t k. induction t as [|x t IH]; intros e H; cbn [first_match] in H; [discriminate|].
  destruct (entry_matchesb k x) eqn:E.
  - inversion H; subst. exists 0%nat. split; auto. split; [apply entry_matchesb_iff; auto|]. intros; lia.
  - destruct (IH e H) as [i [Hi [HM HB]]]. exists (S i). split; auto. split; auto.
    intros [|j] y Hj Hy; cbn in Hy.
    + inversion Hy; subst. rewrite <- entry_matchesb_iff. congruence.
    + eapply HB; eauto. lia.
Qed.

Lemma first_match_split : forall a e b k, (forall x, In x a -> ~ entry_matches k x) ->
  entry_matches k e -> first_match (a ++ e :: b) k = Some e.
Proof.
  intros a e b k HA HE. rewrite first_match_app.
  rewrite (proj2 (first_match_None a k)) by auto. cbn [first_match].
  rewrite (proj2 (entry_matchesb_iff k e)); auto.
Qed.

Lemma first_match_del : forall s t off i e k, nth_error t i = Some e -> entry_matches k e ->
  (forall j x, (j < i)%nat -> nth_error t j = Some x -> ~ entry_matches k x) ->
  ~ In (off + i)%nat s -> first_match (del s off t) k = Some e.
Proof.
  intros s t. induction t as [|x t IH]; intros off i e k Hi HM HB HN; [destruct i; discriminate|].
  destruct i as [|i]; cbn in Hi.
  - inversion Hi; subst. cbn [del]. rewrite Nat.add_0_r in HN.
    destruct (existsb (Nat.eqb off) s) eqn:E; [apply existsb_nat_In in E; contradiction|].
    cbn [negb first_match]. rewrite (proj2 (entry_matchesb_iff k e)); auto.
  - assert (R : first_match (del s (S off) t) k = Some e).
    { apply IH with i; auto.
      - intros j y Hj Hy. apply (HB (S j) y); auto. lia.
      - intro. apply HN. replace (off + S i)%nat with (S off + i)%nat by lia. auto. }
    cbn [del]. destruct (negb (existsb (Nat.eqb off) s)); auto.
    cbn [first_match]. destruct (entry_matchesb k x) eqn:E; auto.
    exfalso. apply (HB 0%nat x); auto; [lia|]. apply entry_matchesb_iff; auto.
Qed.

Lemma nth_error_firstn' : forall {A} (l : list A) n j, (j < n)%nat ->
  nth_error (firstn n l) j = nth_error l j.
Proof.
  intros A l. induction l as [|x l IH]; intros [|n] [|j] H; cbn; auto; try lia. apply IH. lia.
Qed.

Lemma nth_error_firstn_Some : forall {A} (l : list A) n j x, nth_error (firstn n l) j = Some x ->
  (j < n)%nat /\ nth_error l j = Some x.
Proof.
  intros A l. induction l as [|y l IH]; intros [|n] [|j] x H; cbn in *; try discriminate.
  - split; auto. lia.
  - apply IH in H. destruct H. split; auto. lia.
Qed.

(** Nothing below the insertion point is touched by the merged entry. *)
Lemma not_covered : forall t a m j e p k, get_covered t a m = [] -> (mg_ins m <= j)%nat ->
  N.land (mg_key m) (mg_mask m) = mg_key m ->
  nth_error t j = Some e -> In p (alias_get a (km e)) ->
  key_matches k (fst p) (snd p) -> ~ key_matches k (mg_key m) (mg_mask m).
Proof.
  intros t a m j e p k HC Hj HK He Hp H1 H2.
  assert (HI : intersect (mg_key m) (mg_mask m) (fst p) (snd p) = true).
  { unfold intersect. apply N.eqb_eq. unfold key_matches in *. rewrite <- H1, <- H2.
    rewrite <- !N.land_assoc. f_equal. apply N.land_comm. }
  assert (In p (get_covered t a m)).
  { unfold get_covered. apply in_flat_map. exists e. split.
    - assert (E : nth_error (skipn (mg_ins m) t) (j - mg_ins m) = Some e).
      { rewrite nth_error_skipn'. replace (mg_ins m + (j - mg_ins m))%nat with j by lia. auto. }
      eapply nth_error_In; eauto.
    - apply filter_In. auto. }
  rewrite HC in H. destruct H.
Qed.

Lemma word32_bits : forall n, (forall b, N.testbit n b = true -> (b < 32)%N) -> (n < 2 ^ 32)%N.
Proof.
  intros n H. destruct (N.eq_dec n 0) as [->|Hn]; [reflexivity|].
  apply N.log2_lt_pow2; [lia|]. apply H. apply N.bit_log2. auto.
Qed.

Lemma apply_preserves : forall orig t a m, oc_inv orig t a -> valid_merge t a m ->
  one_route t (mg_entries m) -> mg_entries m <> [] ->
  exists t' a', apply_merge t a m = Ok (t', a') /\ oc_inv orig t' a' /\
    (length t' + length (mg_entries m) = length t + 1)%nat.
Proof.
  intros orig t a m [IS IN IO IA IR IG IW] [M [SS [UP DOWN]]] OR Hne.
  destruct (apply_merge_spec t a m M OR Hne IN) as [ne [a' [E [EK [EM [ED [ER [A1 A2]]]]]]]].
  set (t1 := del (mg_entries m) 0 (firstn (mg_ins m) t)) in *.
  set (t2 := del (mg_entries m) (mg_ins m) (skipn (mg_ins m) t)) in *.
  exists (t1 ++ ne :: t2), a'. split; auto.
  assert (KN : km ne = (mg_key m, mg_mask m)) by (unfold km; congruence).
  assert (T1 : forall x, In x t1 -> exists j, (j < mg_ins m)%nat /\ nth_error t j = Some x /\ ~ In j (mg_entries m)).
  { intros x Hx. apply del_In in Hx. destruct Hx as [j [Hj Hn]].
    apply nth_error_firstn_Some in Hj. destruct Hj. exists j. auto. }
  assert (T2 : forall x, In x t2 -> exists j, (mg_ins m <= j)%nat /\ nth_error t j = Some x /\ ~ In j (mg_entries m)).
  { intros x Hx. apply del_In in Hx. destruct Hx as [j [Hj Hn]].
    rewrite nth_error_skipn' in Hj. exists (mg_ins m + j)%nat. split; [lia|]. auto. }
  assert (TT : forall x, In x (t1 ++ t2) -> exists j, nth_error t j = Some x /\ ~ In j (mg_entries m)).
  { intros x Hx. apply in_app_or in Hx. destruct Hx as [Hx|Hx];
      [apply T1 in Hx|apply T2 in Hx]; destruct Hx as [j [_ [H1 H2]]]; exists j; auto. }
  assert (EKM : forall k, entry_matches k ne <-> key_matches k (mg_key m) (mg_mask m)).
  { intros k. unfold entry_matches. rewrite EK, EM. reflexivity. }
  assert (UNIQ : forall i j x y, nth_error t i = Some x -> nth_error t j = Some y -> km x = km y -> i = j).
  { intros i j x y Hi Hj HE. rewrite NoDup_nth_error in IN. apply IN.
    - rewrite map_length. apply nth_error_Some. congruence.
    - rewrite !nth_error_map, Hi, Hj. cbn. congruence. }
  assert (NEQ : forall x, In x (t1 ++ t2) -> km x <> km ne).
  { intros x Hx HE. apply in_app_or in Hx. destruct Hx as [Hx|Hx].
    - apply T1 in Hx. destruct Hx as [j [Hj [Hn _]]].
      pose proof (mo_below t m M j x Hj Hn) as G. unfold entry_generality in G.
      unfold km in HE. inversion HE as [[HE1 HE2]]. rewrite HE1, HE2, EK, EM in G. lia.
    - apply T2 in Hx. destruct Hx as [j [Hj [Hn _]]].
      destruct (IA x (nth_error_In _ _ Hn)) as [[p Hp] HK].
      destruct (HK p Hp) as [k [K1 K2]].
      apply (not_covered t a m j x p k DOWN Hj (mo_key t m M) Hn Hp K1).
      unfold entry_matches in K2. unfold km in HE. inversion HE as [[HE1 HE2]].
      rewrite HE1, HE2, EK, EM in K2. auto. }
  assert (KEEP : forall x, In x (t1 ++ t2) -> alias_get a' (km x) = alias_get a (km x)).
  { intros x Hx. apply A1.
    - rewrite <- KN. apply NEQ. auto.
    - intros e [i [Hi He]] HE. apply TT in Hx. destruct Hx as [j [Hj Hn]].
      apply Hn. rewrite <- (UNIQ i j e x He Hj HE). auto. }
  assert (SPLIT : del (mg_entries m) 0 t = t1 ++ t2).
  { rewrite <- (firstn_skipn (mg_ins m) t) at 1. rewrite del_app, firstn_length.
    pose proof (mo_ins t m M). replace (0 + Nat.min (mg_ins m) (length t))%nat with (mg_ins m) by lia.
    reflexivity. }
  split.
  - constructor.
    + (* sorted *)
      pose proof (del_sorted (mg_entries m) t 0 IS) as DS. rewrite SPLIT in DS.
      assert (B1 : forall x, In x t1 -> gle x ne).
      { intros x Hx. apply T1 in Hx. destruct Hx as [j [Hj [Hn _]]].
        pose proof (mo_below t m M j x Hj Hn). unfold gle, entry_generality in *.
        rewrite EK, EM. lia. }
      assert (B2 : forall x, In x t2 -> gle ne x).
      { intros x Hx. apply T2 in Hx. destruct Hx as [j [Hj [Hn _]]].
        pose proof (mo_above t m M j x Hj Hn). unfold gle, entry_generality in *.
        rewrite EK, EM. lia. }
      clear -DS B1 B2. clearbody t1 t2. unfold gsorted in *. induction t1 as [|x l IH]; cbn [app] in *.
      * constructor; auto. apply Forall_forall. auto.
      * inversion DS; subst. constructor.
        -- apply IH; auto. intros y Hy. apply B1. right; auto.
        -- rewrite Forall_forall in *. intros y Hy. apply in_app_or in Hy.
           destruct Hy as [Hy|[<-|Hy]].
           ++ apply H2. apply in_or_app; auto.
           ++ apply B1. left; auto.
           ++ apply H2. apply in_or_app; auto.
    + (* distinct pairs *)
      rewrite map_app. cbn [map].
      assert (ND : NoDup (map km (t1 ++ t2))).
      { rewrite <- SPLIT. clear -IN. generalize 0%nat. induction t as [|x l IH]; intro i; cbn [del map].
        - constructor.
        - cbn [map] in IN. inversion IN; subst.
          destruct (negb (existsb (Nat.eqb i) (mg_entries m))); auto.
          cbn [map]. constructor; auto. intro HI. apply H1. apply in_map_iff in HI.
          destruct HI as [y [Hy HI]]. rewrite <- Hy. apply in_map. apply del_In in HI.
          destruct HI as [j [Hj _]]. eapply nth_error_In; eauto. }
      rewrite map_app in ND. apply NoDup_Add with (a := km ne) (l := map km t1 ++ map km t2).
      * apply Add_app.
      * split; auto. rewrite <- map_app. intro HI. apply in_map_iff in HI.
        destruct HI as [y [Hy HI]]. apply (NEQ y HI Hy).
    + apply Forall_app. rewrite Forall_forall in IO. split.
      * apply Forall_forall. intros x Hx. apply T1 in Hx. destruct Hx as [j [_ [Hn _]]].
        apply IO. eapply nth_error_In; eauto.
      * constructor.
        -- unfold entry_ok. rewrite EK, EM. apply (mo_key t m M).
        -- apply Forall_forall. intros x Hx. apply T2 in Hx. destruct Hx as [j [_ [Hn _]]].
           apply IO. eapply nth_error_In; eauto.
    + intros e He. assert (HE : e = ne \/ In e (t1 ++ t2)).
      { apply in_app_or in He. destruct He as [He|[<-|He]]; auto; right; apply in_or_app; auto. }
      destruct HE as [->|HE].
      * rewrite KN. destruct (picked_exists t (mg_entries m) (mo_range t m M) Hne) as [e0 P0].
        assert (IN0 : forall e, picked t (mg_entries m) e -> In e t).
        { intros e [i [_ H]]. eapply nth_error_In; eauto. }
        split.
        -- destruct (IA e0 (IN0 _ P0)) as [[p Hp] _]. exists p. apply A2. exists e0. auto.
        -- intros p Hp. apply A2 in Hp. destruct Hp as [e1 [P1 Hp]].
           destruct (IA e1 (IN0 _ P1)) as [_ HK]. destruct (HK p Hp) as [k [K1 K2]].
           exists k. split; auto. apply EKM. apply (mo_cover t m M e1); auto.
      * rewrite (KEEP e HE). apply IA. apply TT in HE. destruct HE as [j [Hj _]].
        eapply nth_error_In; eauto.
    + intros o Ho. destruct (IR o Ho) as [e [He [HR1 [HR2 [HR3 HR4]]]]].
      apply In_nth_error in He. destruct He as [i Hi].
      assert (FI : forall k, entry_matches k o -> entry_matches k e /\
         forall j x, (j < i)%nat -> nth_error t j = Some x -> ~ entry_matches k x).
      { intros k Hk. destruct (first_match_index t k e (HR4 k Hk)) as [i' [Hi' [H1 H2]]].
        assert (i' = i) by (eapply UNIQ; eauto). subst. auto. }
      destruct (in_dec Nat.eq_dec i (mg_entries m)) as [Hin|Hout].
      * (* merged *)
        assert (P : picked t (mg_entries m) e) by (exists i; auto).
        exists ne. split; [apply in_or_app; right; left; auto|].
        split; [rewrite (ER e P); auto|]. split.
        { intro HD. apply HR2. rewrite ED in HD. apply (proj1 (mo_def t m M) HD e P). }
        split; [rewrite KN; apply A2; exists e; auto|].
        intros k Hk. destruct (FI k Hk) as [F1 F2]. apply first_match_split.
        -- intros x Hx. apply T1 in Hx. destruct Hx as [j [Hj [Hn Hnin]]].
           destruct (Nat.lt_trichotomy j i) as [L|[L|L]].
           ++ eapply F2; eauto.
           ++ subst. contradiction.
           ++ intro HM. pose proof (UP i Hin e j x Hi Hn L Hj) as HI.
              unfold intersect in HI. apply N.eqb_neq in HI. apply HI.
              unfold entry_matches, key_matches in F1, HM. rewrite <- F1, <- HM.
              rewrite <- !N.land_assoc. f_equal. apply N.land_comm.
        -- apply EKM. apply (mo_cover t m M e); auto.
      * assert (HE : In e (t1 ++ t2)).
        { rewrite <- SPLIT. apply del_In. exists i. rewrite Nat.add_0_l. auto. }
        exists e. split.
        { apply in_app_or in HE. apply in_or_app. destruct HE; [left|right; right]; auto. }
        split; auto. split; auto. split; [rewrite (KEEP e HE); auto|].
        intros k Hk. destruct (FI k Hk) as [F1 F2].
        destruct (Nat.lt_ge_cases i (mg_ins m)) as [L|L].
        -- rewrite first_match_app. unfold t1.
           rewrite (first_match_del (mg_entries m) (firstn (mg_ins m) t) 0 i e k); auto.
           ++ rewrite nth_error_firstn' by auto. auto.
           ++ intros j x Hj Hx. apply nth_error_firstn_Some in Hx. destruct Hx as [_ Hx]. eapply F2; eauto.
        -- rewrite first_match_app.
           rewrite (proj2 (first_match_None t1 k)).
           ++ cbn [first_match]. destruct (entry_matchesb k ne) eqn:EN.
              ** exfalso. apply entry_matchesb_iff in EN. apply EKM in EN.
                 apply (not_covered t a m i e (km o) k DOWN L (mo_key t m M) Hi HR3); auto.
              ** unfold t2. apply first_match_del with (i - mg_ins m)%nat; auto.
                 --- rewrite nth_error_skipn'. replace (mg_ins m + (i - mg_ins m))%nat with i by lia. auto.
                 --- intros j x Hj Hx. rewrite nth_error_skipn' in Hx. eapply F2; [|eauto]. lia.
                 --- replace (mg_ins m + (i - mg_ins m))%nat with i by lia. auto.
           ++ intros x Hx. apply T1 in Hx. destruct Hx as [j [Hj [Hn _]]]. eapply F2; [|eauto]. lia.
    + intros e p He Hp. assert (HE : e = ne \/ In e (t1 ++ t2)).
      { apply in_app_or in He. destruct He as [He|[<-|He]]; auto; right; apply in_or_app; auto. }
      destruct HE as [->|HE].
      * rewrite KN in Hp. apply A2 in Hp. destruct Hp as [e1 [P1 Hp]].
        destruct P1 as [i [Hi He1]].
        destruct (IG e1 p (nth_error_In _ _ He1) Hp) as [o [O1 [O2 O3]]].
        exists o. split; auto. split; auto. rewrite O3. symmetry. apply ER. exists i. auto.
      * rewrite (KEEP e HE) in Hp. apply IG; auto. apply TT in HE. destruct HE as [j [Hj _]].
        eapply nth_error_In; eauto.
    + intros W e He. apply in_app_or in He. destruct He as [He|[<-|He]].
      * apply T1 in He. destruct He as [j [_ [Hn _]]]. apply IW; auto. eapply nth_error_In; eauto.
      * rewrite EM. apply word32_bits. intros b Hb. apply (mo_bit t m M Hne) in Hb. tauto.
      * apply T2 in He. destruct He as [j [_ [Hn _]]]. apply IW; auto. eapply nth_error_In; eauto.
  - pose proof (del_length (mg_entries m) t 0 SS) as DL. rewrite SPLIT in DL.
    rewrite app_length in *. cbn [length] in *.
    assert (length t1 + length t2 + length (mg_entries m) = length t)%nat; [|lia].
    apply DL. intros x Hx. pose proof (mo_range t m M x Hx). lia.
Qed.

(** ** The main loop *)

Lemma oc_loop_spec : forall fuel orig t a target, oc_inv orig t a -> (t <> [] \/ target <> None) ->
  (length t < fuel)%nat ->
  exists t' a', oc_loop fuel t a target = Ok (t', a') /\ oc_inv orig t' a' /\
    (length t' <= length t)%nat /\
    (want_more target t' = true -> exists m, get_best_merge t' a' = Ok m /\ empty_merge m) /\
    (t <> [] -> t' <> []).
Proof.
  induction fuel as [|f IH]; intros orig t a target I Ht HF; [lia|].
  cbn [oc_loop]. destruct (want_more target t) eqn:W.
  - assert (Hne : t <> []).
    { destruct Ht as [Ht|Ht]; auto. destruct target as [n|]; [|congruence].
      unfold want_more in W. apply Nat.ltb_lt in W. intro; subst; cbn in W; lia. }
    destruct (best_merge_spec t a Hne (oi_sorted _ _ _ I)) as [m [E H]]. rewrite E. cbn [bind].
    destruct H as [H|[V [OR G]]].
    + rewrite goodness_empty by auto. cbn [Z.leb Z.compare]. exists t, a.
      split; auto. split; auto. split; auto. split; auto. intros _. exists m. auto.
    + destruct (Z.leb_spec (goodness m) 0) as [L|L]; [lia|].
      assert (Hm : mg_entries m <> []).
      { intro X. rewrite goodness_empty in G by exact X. lia. }
      destruct (apply_preserves orig t a m I V OR Hm) as [t' [a' [E' [I' LN]]]].
      rewrite E'. cbn [bind fst snd].
      unfold goodness in G.
      assert (length t' < length t)%nat by lia.
      assert (LM : (length (mg_entries m) <= length t)%nat).
      { destruct V as [M [SS _]]. apply sorted_length_range; auto. apply (mo_range t m M). }
      assert (T' : t' <> []) by (intro X; rewrite X in LN; cbn in LN; lia).
      destruct (IH orig t' a' target I' (or_introl T') ltac:(lia)) as [t2 [a2 [E2 [I2 [L2 [B2 N2]]]]]].
      exists t2, a2. split; auto. split; auto. split; [lia|]. split; auto.
  - exists t, a. split; auto. split; auto. split; auto. split; auto. congruence.
Qed.

(** ** Sorting *)

Lemma insert_perm : forall e l, Permutation (insert_entry e l) (e :: l).
Proof.
  intros e l. induction l as [|x l IH]; cbn [insert_entry]; auto.
  destruct (Z.leb (entry_generality e) (entry_generality x)); auto.
  rewrite IH. apply perm_swap.
Qed.

Lemma insert_sorted : forall e l, gsorted l -> gsorted (insert_entry e l).
Proof.
  intros e l H. unfold gsorted in *. induction H; cbn [insert_entry].
  - constructor; constructor.
  - destruct (Z.leb_spec (entry_generality e) (entry_generality a)) as [L|L].
    + constructor; [constructor; auto|]. constructor; [unfold gle; lia|].
      rewrite Forall_forall in *. intros x Hx. specialize (H0 x Hx). unfold gle in *. lia.
    + constructor; auto. rewrite Forall_forall in *. intros x Hx.
      apply (Permutation_in _ (insert_perm e l)) in Hx. destruct Hx as [<-|Hx]; auto.
      unfold gle. lia.
Qed.

Lemma sort_perm : forall l, Permutation (sort_entries l) l.
Proof.
  induction l as [|x l IH]; cbn [sort_entries fold_right]; auto.
  rewrite insert_perm. constructor. auto.
Qed.

Lemma sort_sorted : forall l, gsorted (sort_entries l).
Proof.
  induction l as [|x l IH]; cbn [sort_entries fold_right]; [constructor|].
  apply insert_sorted. auto.
Qed.

Lemma orthogonal_disjoint_in : forall t i j a b, orthogonal t -> nth_error t i = Some a ->
  nth_error t j = Some b -> i <> j -> disjoint_entries a b.
Proof.
  intros t i j a b O. revert i j a b. induction O as [|x t HF O IH]; intros i j a b Hi Hj Hne.
  - destruct i; discriminate.
  - rewrite Forall_forall in HF. destruct i as [|i], j as [|j]; cbn in *; try congruence.
    + inversion Hi; subst. apply HF. eapply nth_error_In; eauto.
    + inversion Hj; subst. apply disjoint_entries_sym. apply HF. eapply nth_error_In; eauto.
    + eapply IH; eauto.
Qed.

Lemma orthogonal_perm : forall t t', Permutation t t' -> orthogonal t -> orthogonal t'.
Proof.
  intros t t' P. unfold orthogonal. induction P; intro O; auto.
  - inversion O; subst. constructor; auto. rewrite Forall_forall in *.
    intros y Hy. apply H1. eapply Permutation_in; [apply Permutation_sym; eauto|auto].
  - inversion O; subst. inversion H2; subst. inversion H1; subst.
    constructor; [constructor; auto using disjoint_entries_sym|]. constructor; auto.
Qed.

Lemma orthogonal_first : forall t o k, orthogonal t -> In o t -> entry_matches k o ->
  first_match t k = Some o.
Proof.
  intros t o k O. induction O as [|x t HF O IH]; intros Hin HM; [destruct Hin|].
  cbn [first_match]. destruct Hin as [->|Hin].
  - rewrite (proj2 (entry_matchesb_iff k o)); auto.
  - destruct (entry_matchesb k x) eqn:E; auto. exfalso.
    rewrite Forall_forall in HF. apply (HF o Hin k). split; auto. apply entry_matchesb_iff; auto.
Qed.

Lemma orthogonal_km_nodup : forall t, Forall entry_ok t -> orthogonal t -> NoDup (map km t).
Proof.
  intros t F O. induction O as [|x t HF O IH]; cbn [map]; constructor.
  - intro HI. apply in_map_iff in HI. destruct HI as [y [E Hy]].
    rewrite Forall_forall in HF. inversion F; subst. apply (HF y Hy (e_key x)).
    unfold entry_matches, key_matches. unfold km in E. inversion E as [[E1 E2]]. rewrite E1, E2. split; auto.
  - inversion F; subst. auto.
Qed.

Lemma initial_inv : forall table, Forall entry_ok table -> orthogonal table ->
  oc_inv table (sort_entries table) [].
Proof.
  intros table F O. pose proof (sort_perm table) as P.
  assert (O' : orthogonal (sort_entries table)) by (eapply orthogonal_perm; [apply Permutation_sym; eauto|auto]).
  assert (F' : Forall entry_ok (sort_entries table)).
  { rewrite Forall_forall in *. intros x Hx. apply F. eapply Permutation_in; eauto. }
  constructor; auto.
  - apply sort_sorted.
  - apply orthogonal_km_nodup; auto.
  - intros e He. cbn [alias_get]. split; [eexists; left; reflexivity|].
    intros p [<-|[]]. cbn [fst snd km]. exists (e_key e).
    rewrite Forall_forall in F'. specialize (F' e He). split; auto.
  - intros o Ho. assert (Ho' : In o (sort_entries table)).
    { eapply Permutation_in; [apply Permutation_sym; eauto|auto]. }
    exists o. split; auto. split; auto. split; auto. split; [left; auto|].
    intros k Hk. apply orthogonal_first; auto.
  - intros e p He Hp. cbn [alias_get] in Hp. destruct Hp as [<-|[]]. exists e. split; auto.
    eapply Permutation_in; eauto.
  - intros W e He. apply W. eapply Permutation_in; eauto.
Qed.

Lemma ordered_covering_spec : forall table target no_raise, Forall entry_ok table -> orthogonal table ->
  (table <> [] \/ target <> None) ->
  exists t' a', oc_inv table t' a' /\ (length t' <= length table)%nat /\
    (table <> [] -> t' <> []) /\
    (want_more target t' = true -> exists m, get_best_merge t' a' = Ok m /\ empty_merge m) /\
    ordered_covering table target [] no_raise =
      if (negb no_raise && match target with Some n => Nat.ltb n (length t') | None => false end)%bool
      then Err MinimisationFailed else Ok (t', a').
Proof.
  intros table target nr F O Ht.
  pose proof (initial_inv table F O) as I.
  assert (LN : length (sort_entries table) = length table) by (apply Permutation_length, sort_perm).
  assert (Ht' : sort_entries table <> [] \/ target <> None).
  { destruct Ht as [Ht|Ht]; auto. left. intro E. rewrite E in LN. destruct table; [congruence|discriminate]. }
  destruct (oc_loop_spec (S (length (sort_entries table))) table _ [] target I Ht' ltac:(lia))
    as [t' [a' [E [I' [L [B N]]]]]].
  exists t', a'. split; auto. split; [lia|]. split.
  { intro H. apply N. intro X. rewrite X in LN. destruct table; [congruence|discriminate]. }
  split; auto. unfold ordered_covering. rewrite E. cbn [bind fst]. reflexivity.
Qed.

Lemma oc_preserves : forall table target no_raise out al,
  Forall entry_ok table -> orthogonal table ->
  ordered_covering table target [] no_raise = Ok (out, al) ->
  forall o k, In o table -> entry_matches k o ->
    exists e, first_match out k = Some e /\ e_route e = e_route o /\
      (e_def e = true -> e_def o = true).
Proof.
  intros table target nr out al F O E o k Ho Hk.
  assert (Hne : table <> []) by (intro X; rewrite X in Ho; destruct Ho).
  destruct (ordered_covering_spec table target nr F O (or_introl Hne)) as [t' [a' [I [_ [_ [_ E']]]]]].
  rewrite E' in E.
  destruct (negb nr && match target with Some n => Nat.ltb n (length t') | None => false end)%bool; [discriminate|].
  inversion E; subst. destruct (oi_routed _ _ _ I o Ho) as [e [_ [R1 [R2 [_ R3]]]]].
  exists e. split; auto.
Qed.

Lemma oc_compress_keeps : forall table target out,
  Forall entry_ok table -> orthogonal table ->
  oc_compress_table table target = Ok out ->
  forall o k, In o table -> entry_matches k o ->
    (exists e, first_match out k = Some e /\ e_route e = e_route o /\ (e_def e = true -> e_def o = true)) \/
    (first_match out k = None /\ e_def o = true).
Proof.
  intros table target out F O E o k Ho Hk. unfold oc_compress_table in E.
  apply bind_Ok_inv in E. destruct E as [[t' a'] [E1 E2]]. cbn [fst] in E2.
  destruct (oc_preserves table target true t' a' F O E1 o k Ho Hk) as [e [H1 [H2 H3]]].
  assert (F' : Forall entry_ok t').
  { assert (Hne : table <> []) by (intro X; rewrite X in Ho; destruct Ho).
    destruct (ordered_covering_spec table target true F O (or_introl Hne)) as [t2 [a2 [I [_ [_ [_ E']]]]]].
    rewrite E' in E1. cbn in E1. inversion E1; subst. apply (oi_ok _ _ _ I). }
  destruct (remove_default_safe t' target true out F' (or_introl eq_refl) E2) as [_ S].
  specialize (S k). rewrite H1 in S. destruct S as [S|[S1 S2]].
  - left. exists e. auto.
  - right. auto.
Qed.
Lemma oc_compress_preserves : forall table target out,
  Forall entry_ok table -> orthogonal table ->
  oc_compress_table table target = Ok out ->
  forall o k, In o table -> entry_matches k o ->
    (exists e, first_match out k = Some e /\ e_route e = e_route o) \/
    (first_match out k = None /\ e_def o = true).
Proof.
  intros table target out F O E o k Ho Hk. destruct (oc_compress_keeps table target out F O E o k Ho Hk) as [[e [A [B _]]]|H]; [left; exists e; auto | right; exact H].
Qed.

Lemma oc_compress_total : forall table target, Forall entry_ok table -> orthogonal table ->
  (table <> [] \/ target <> None) ->
  (exists out, oc_compress_table table target = Ok out /\ (length out <= length table)%nat /\
     (forall n, target = Some (S n) -> (length out <= S n)%nat)) \/
  oc_compress_table table target = Err MinimisationFailed.
Proof.
  intros table target F O Ht. unfold oc_compress_table.
  destruct (ordered_covering_spec table target true F O Ht) as [t' [a' [I [L [_ [B E]]]]]].
  rewrite E. cbn [negb andb bind fst].
  assert (SUB : forall x, remove_default_routes t' None true = Ok x -> (length x <= length t')%nat).
  { intros x Hx. destruct (remove_default_safe t' None true x (oi_ok _ _ _ I) (or_introl eq_refl) Hx) as [D _].
    clear -D. induction D; cbn; lia. }
  destruct target as [[|n]|].
  - left. unfold remove_default_routes in *. eexists. split; [reflexivity|]. split.
    + specialize (SUB _ eq_refl). lia.
    + intros n H. discriminate.
  - unfold remove_default_routes in *.
    destruct (Nat.ltb_spec (S n) (length (if needs_check t' true then drop_checked t'
      else filter (fun e => negb (e_def e)) t'))) as [Ln|Ln]; auto.
    left. eexists. split; [reflexivity|]. split.
    + specialize (SUB _ eq_refl). lia.
    + intros n' H. inversion H; subst. auto.
  - left. unfold remove_default_routes in *. eexists. split; [reflexivity|]. split.
    + specialize (SUB _ eq_refl). lia.
    + intros n H. discriminate.
Qed.

Lemma generality_counts_x : forall key mask, N.land key mask = key ->
  get_generality key mask = Z.of_nat (count_bits (fun i => negb (N.testbit mask i)) 32).
Proof.
  intros key mask H. unfold get_generality. f_equal. apply Nat.le_antisymm; apply count_bits_mono; intros i _ Hi.
  - apply andb_true_iff in Hi. tauto.
  - rewrite Hi, andb_true_r. rewrite negb_true_iff in *.
    rewrite <- H, N.land_spec, Hi, andb_false_r. reflexivity.
Qed.

Lemma count_bits_filter : forall f n, count_bits f n = length (filter (fun i => f (N.of_nat i)) (seq 0 n)).
Proof.
  intros f n. induction n as [|n IH]; [reflexivity|].
  cbn [count_bits]. rewrite seq_S, filter_app, app_length. cbn [filter Nat.add].
  rewrite IH. destruct (f (N.of_nat n)); cbn [length]; lia.
Qed.
Lemma generality_counts : forall key mask, N.land key mask = key ->
  get_generality key mask =
    Z.of_nat (length (filter (fun i => negb (N.testbit mask (N.of_nat i))) (seq 0 32))).
Proof. intros key mask H. rewrite generality_counts_x by exact H. now rewrite count_bits_filter. Qed.
