(** What is left when the ordered covering compressor stops: for each route that
    still has several entries, one entry for all of them would take keys of an
    original entry of another route, or one of them shares keys with another
    entry. *)
From Coq Require Import List Arith NArith ZArith Bool Lia Sorted.
From Verif Require Import Base RouteSpec KeyMask PairSort DefaultModel OrderedModel OrderedProofs.
Import ListNotations.

Local Transparent count_bits.
Lemma count_bits_same : forall f g n,
  (forall i, (i < N.of_nat n)%N -> f i = true -> g i = true) ->
  (count_bits g n <= count_bits f n)%nat ->
  forall i, (i < N.of_nat n)%N -> g i = true -> f i = true.
Proof.
  intros f g n. induction n as [|n IH]; intros H L i Hi Hg; [lia|].
  cbn [count_bits] in L.
  assert (L' : (count_bits f n <= count_bits g n)%nat).
  { apply count_bits_mono. intros j Hj. apply H. lia. }
  assert (X : f (N.of_nat n) = g (N.of_nat n) /\ (count_bits g n <= count_bits f n)%nat).
  { pose proof (H (N.of_nat n) ltac:(lia)) as Hn.
    destruct (f (N.of_nat n)) eqn:E1, (g (N.of_nat n)) eqn:E2; try (split; [reflexivity|lia]).
    - discriminate (Hn eq_refl).
    - lia. }
  destruct X as [X1 X2]. destruct (N.eq_dec i (N.of_nat n)) as [->|Hne].
  - congruence.
  - apply IH; auto; [intros j Hj; apply H; lia|lia].
Qed.
Local Opaque count_bits.

(** ** Every route with several entries is tried *)
Lemma same_route_from_all : forall r t j i e, nth_error t i = Some e -> e_route e = r ->
  In (j + i)%nat (same_route_from r j t).
Proof.
  intros r t. induction t as [|x t IH]; intros j i e Hi He; [destruct i; discriminate|].
  cbn [same_route_from]. destruct i as [|i]; cbn [nth_error] in Hi.
  - injection Hi as ->. subst r. rewrite N.eqb_refl, Nat.add_0_r. left; auto.
  - specialize (IH (S j) i e Hi He). replace (j + S i)%nat with (S j + i)%nat by lia.
    destruct (N.eqb r (e_route x)); [right|]; auto.
Qed.

Lemma all_merges_all : forall r rest t0 considered,
  (forall i e, In i considered -> nth_error (t0 ++ rest) i = Some e -> e_route e <> r) ->
  (forall e, In e t0 -> e_route e <> r) ->
  forall i j a b, i <> j -> nth_error rest i = Some a -> nth_error rest j = Some b ->
    e_route a = r -> e_route b = r ->
  exists s, In s (all_merges considered (length t0) rest) /\
    (1 < length s)%nat /\
    (forall i e, nth_error (t0 ++ rest) i = Some e -> e_route e = r -> In i s) /\
    (forall i e, In i s -> nth_error (t0 ++ rest) i = Some e -> e_route e = r).
Proof.
  intros r rest. induction rest as [|x rest IH]; intros t0 considered HC H0 i j a b Hij Hi Hj Ha Hb;
    [destruct i; discriminate|].
  cbn [all_merges].
  assert (AT : nth_error (t0 ++ x :: rest) (length t0) = Some x).
  { rewrite nth_error_app2, Nat.sub_diag by lia. reflexivity. }
  destruct (N.eq_dec (e_route x) r) as [E|E].
  - destruct (existsb (Nat.eqb (length t0)) considered) eqn:EC.
    { apply existsb_nat_In in EC. exfalso. apply (HC _ _ EC AT E). }
    rewrite E.
    set (m := length t0 :: same_route_from r (S (length t0)) rest).
    destruct (same_route_from_spec r rest (S (length t0))) as [SS HI].
    assert (ALL : forall i e, nth_error (t0 ++ x :: rest) i = Some e -> e_route e = r -> In i m).
    { intros q e Hq He. destruct (Nat.lt_trichotomy q (length t0)) as [L|[L|L]].
      - exfalso. rewrite nth_error_app1 in Hq by auto. apply (H0 e); auto. eapply nth_error_In; eauto.
      - left; auto.
      - right. rewrite nth_error_app2 in Hq by lia.
        replace (q - length t0)%nat with (S (q - S (length t0))) in Hq by lia. cbn [nth_error] in Hq.
        replace q with (S (length t0) + (q - S (length t0)))%nat by lia.
        eapply same_route_from_all; eauto. }
    assert (ONLY : forall i e, In i m -> nth_error (t0 ++ x :: rest) i = Some e -> e_route e = r).
    { intros q e [<-|Hq] He; [congruence|]. destruct (HI q Hq) as [L [e' [He' Hr]]].
      rewrite nth_error_app2 in He by lia.
      replace (q - length t0)%nat with (S (q - S (length t0))) in He by lia. cbn [nth_error] in He.
      congruence. }
    assert (LEN : (1 < length m)%nat).
    { assert (I1 : In (length t0 + i)%nat m).
      { apply ALL with a; auto. rewrite nth_error_app2 by lia. rewrite <- Hi. f_equal. lia. }
      assert (I2 : In (length t0 + j)%nat m).
      { apply ALL with b; auto. rewrite nth_error_app2 by lia. rewrite <- Hj. f_equal. lia. }
      destruct m as [|u [|v w]]; cbn [length]; [destruct I1| |lia].
      destruct I1 as [I1|[]], I2 as [I2|[]]. lia. }
    destruct (Nat.ltb_spec 1 (length m)) as [_|L]; [|lia].
    exists m. split; [left; auto|]. auto.
  - assert (NX : forall c, (forall i e, In i c -> nth_error (t0 ++ x :: rest) i = Some e -> e_route e <> r) ->
      exists s, In s (all_merges c (S (length t0)) rest) /\ (1 < length s)%nat /\
        (forall i e, nth_error (t0 ++ x :: rest) i = Some e -> e_route e = r -> In i s) /\
        (forall i e, In i s -> nth_error (t0 ++ x :: rest) i = Some e -> e_route e = r)).
    { intros c Hc. specialize (IH (t0 ++ [x]) c).
      rewrite app_length in IH. cbn [length] in IH. rewrite Nat.add_1_r in IH.
      rewrite <- app_assoc in IH. cbn [app] in IH.
      destruct i as [|i]; cbn [nth_error] in Hi; [congruence|].
      destruct j as [|j]; cbn [nth_error] in Hj; [congruence|].
      apply (IH Hc) with i j a b; auto.
      intros e He. apply in_app_or in He. destruct He as [He|[<-|[]]]; auto. }
    destruct (existsb (Nat.eqb (length t0)) considered); [apply NX; auto|].
    set (m := length t0 :: same_route_from (e_route x) (S (length t0)) rest).
    destruct (NX (considered ++ m)) as [s [S1 S2]].
    { intros q e Hq He. apply in_app_or in Hq. destruct Hq as [Hq|Hq]; [eauto|].
      destruct Hq as [<-|Hq]; [congruence|].
      destruct (same_route_from_spec (e_route x) rest (S (length t0))) as [_ HI].
      destruct (HI q Hq) as [L [e' [He' Hr]]].
      rewrite nth_error_app2 in He by lia.
      replace (q - length t0)%nat with (S (q - S (length t0))) in He by lia. cbn [nth_error] in He.
      congruence. }
    exists s. split; auto. destruct (Nat.ltb 1 (length m)); [right|]; auto.
Qed.

(** ** If no merge is found, each was refused *)
Lemma best_step_bg : forall t a ss st st', (0 <= snd st)%Z ->
  (snd st = 0 \/ goodness (fst st) = snd st)%Z ->
  foldM (best_step t a) st ss = Ok st' ->
  (snd st <= snd st')%Z /\ (snd st' = 0 \/ goodness (fst st') = snd st')%Z.
Proof.
  intros t a ss. induction ss as [|s ss IH]; intros [best bg] st' H0 H1 H; cbn [foldM] in H.
  - injection H as <-. cbn [fst snd] in *. split; [lia|auto].
  - apply bind_Ok_inv in H. destruct H as [st1 [H2 H3]]. cbn [fst snd] in *.
    assert (X : (bg <= snd st1)%Z /\ (snd st1 = 0 \/ goodness (fst st1) = snd st1)%Z).
    { unfold best_step in H2. apply bind_Ok_inv in H2. destruct H2 as [m [_ H2]].
      destruct (Z.leb (goodness m) bg); [injection H2 as <-; cbn [fst snd]; split; [lia|auto]|].
      apply bind_Ok_inv in H2. destruct H2 as [m' [_ H2]].
      destruct (Z.ltb_spec bg (goodness m')); injection H2 as <-; cbn [fst snd]; split; auto; lia. }
    destruct X as [X1 X2]. destruct (IH st1 st' ltac:(lia) X2 H3) as [Y1 Y2]. split; [lia|auto].
Qed.

Lemma best_refused : forall t a ss st st', snd st = 0%Z ->
  foldM (best_step t a) st ss = Ok st' -> (goodness (fst st') <= 0)%Z ->
  forall s m m', In s ss -> make_merge t s = Ok m -> (0 < goodness m)%Z ->
    refine_merge t a m 0 = Ok m' -> (goodness m' <= 0)%Z.
Proof.
  intros t a ss. induction ss as [|s0 ss IH]; intros [best bg] st' H0 H HG s m m' Hs Hm Gm Hr;
    [destruct Hs|].
  cbn [snd] in H0. subst bg. cbn [foldM] in H.
  apply bind_Ok_inv in H. destruct H as [st1 [H2 H3]].
  assert (Z1 : snd st1 = 0%Z).
  { destruct (best_step_bg t a [s0] (best, 0%Z) st1) as [X1 X2]; cbn [fst snd]; auto; try lia.
    { cbn [foldM]. rewrite H2. reflexivity. }
    cbn [snd] in X1.
    destruct (best_step_bg t a ss st1 st' ltac:(lia) X2 H3) as [Y1 Y2]. lia. }
  destruct Hs as [->|Hs]; [|eapply IH; eauto].
  unfold best_step in H2. rewrite Hm in H2. cbn [bind] in H2.
  destruct (Z.leb_spec (goodness m) 0) as [L|L]; [lia|]. rewrite Hr in H2. cbn [bind] in H2.
  destruct (Z.ltb_spec 0 (goodness m')) as [L'|L']; [|lia].
  injection H2 as <-. cbn [snd] in Z1. lia.
Qed.

(** A merge that covers nothing and jumps over nothing is taken as it is. *)
Lemma upcheck_free : forall t is m g,
  (forall i, In i is -> exists e, nth_error t i = Some e /\
     existsb (fun o => intersect (e_key e) (e_mask e) (e_key o) (e_mask o))
       (slice t (i + 1) (mg_ins m)) = false) ->
  upcheck_loop t is m g false = Ok (m, false).
Proof.
  intros t is m g. induction is as [|i is IH]; intros H; [reflexivity|]. cbn [upcheck_loop].
  destruct (H i (or_introl eq_refl)) as [e [He HX]].
  apply aget_Ok_iff in He. rewrite He. cbn [bind]. rewrite HX. apply IH. intros j Hj. apply H. right; auto.
Qed.

Lemma refine_free : forall t a m, (0 < goodness m)%Z -> get_covered t a m = [] ->
  (forall i, In i (mg_entries m) -> exists e, nth_error t i = Some e /\
     existsb (fun o => intersect (e_key e) (e_mask e) (e_key o) (e_mask o))
       (slice t (i + 1) (mg_ins m)) = false) ->
  refine_merge t a m 0 = Ok m.
Proof.
  intros t a m HG HC HU. unfold refine_merge. change (2 + length t)%nat with (S (1 + length t)).
  cbn [refine_downcheck]. rewrite HC.
  destruct (Z.ltb_spec 0 (goodness m)) as [L|L]; [|lia].
  cbn [stringency fold_left]. rewrite Nat.eqb_refl. cbn [bind].
  destruct (Z.ltb_spec 0 (goodness m)) as [L2|L2]; [|lia].
  unfold refine_upcheck. rewrite upcheck_free; [reflexivity|].
  intros i Hi. apply HU. apply in_rev. auto.
Qed.

(** A cover of all picked entries has no more mask bits than the merge, and contains it. *)
Lemma cover_key : forall t m K M b e, (forall e, picked t (mg_entries m) e -> entry_ok e) ->
  (forall e k', picked t (mg_entries m) e -> entry_matches k' e -> key_matches k' K M) ->
  picked t (mg_entries m) e -> (N.testbit (e_key e) b && N.testbit M b)%bool = N.testbit K b.
Proof.
  intros t m K M b e OKs HC He. rewrite <- N.land_spec. f_equal. apply (HC e); auto. apply OKs. auto.
Qed.

Lemma cover_mask : forall t m K M b, merge_of t m -> mg_entries m <> [] ->
  (forall e, picked t (mg_entries m) e -> entry_ok e) -> (M < 2 ^ 32)%N ->
  (forall e k', picked t (mg_entries m) e -> entry_matches k' e -> key_matches k' K M) ->
  N.testbit M b = true -> N.testbit (mg_mask m) b = true.
Proof.
  intros t m K M b MO Hne OKs HM HC EM. unfold key_matches in HC.
  assert (B32 : (b < 32)%N).
  { destruct (N.lt_ge_cases b 32) as [|G]; auto. exfalso.
    rewrite (N.bits_above_log2 M b) in EM; [discriminate|].
    destruct (N.eq_dec M 0) as [->|Mn]; [cbn; lia|].
    apply N.log2_lt_pow2 in HM; lia. }
  apply (mo_bit t m MO Hne). split; auto. split.
  - intros e He. destruct (N.testbit (e_mask e) b) eqn:EB; auto. exfalso.
    assert (F : entry_matches (N.lxor (e_key e) (2 ^ b)) e).
    { unfold entry_matches, key_matches. apply N.bits_inj. intro c.
      rewrite N.land_spec, N.lxor_spec, N.pow2_bits_eqb.
      pose proof (f_equal (fun z => N.testbit z c) (OKs e He)) as X. cbn beta in X.
      rewrite N.land_spec in X. rewrite <- X at 2.
      destruct (N.eqb_spec b c) as [->|Hc]; [rewrite EB, !andb_false_r|rewrite xorb_false_r]; reflexivity. }
    apply (HC e _ He) in F. pose proof (HC e (e_key e) He (OKs e He)) as F2.
    rewrite <- F2 in F. apply (f_equal (fun z => N.testbit z b)) in F.
    rewrite !N.land_spec, N.lxor_spec, N.pow2_bits_true, EM, !andb_true_r in F.
    destruct (N.testbit (e_key e) b); discriminate.
  - intros e e' He He'. pose proof (cover_key t m K M b e OKs HC He) as X1.
    pose proof (cover_key t m K M b e' OKs HC He') as X2.
    rewrite EM, andb_true_r in X1, X2. congruence.
Qed.

Lemma merge_least : forall t m K M k, merge_of t m -> mg_entries m <> [] ->
  (forall e, picked t (mg_entries m) e -> entry_ok e) -> (M < 2 ^ 32)%N ->
  (forall e k', picked t (mg_entries m) e -> entry_matches k' e -> key_matches k' K M) ->
  key_matches k (mg_key m) (mg_mask m) -> key_matches k K M.
Proof.
  intros t m K M k MO Hne OKs HM HC Hk. unfold key_matches in Hk |- *. apply N.bits_inj. intro b.
  rewrite N.land_spec.
  destruct (picked_exists t _ (mo_range t m MO) Hne) as [e0 P0].
  pose proof (cover_key t m K M b e0 OKs HC P0) as KB.
  destruct (N.testbit M b) eqn:EM.
  2: { rewrite andb_false_r in KB |- *. auto. }
  rewrite andb_true_r in KB |- *.
  pose proof (cover_mask t m K M b MO Hne OKs HM HC EM) as MB.
  assert (KE : N.testbit k b = N.testbit (mg_key m) b).
  { rewrite <- Hk, N.land_spec, MB, andb_true_r. reflexivity. }
  rewrite KE. rewrite <- (mo_cover t m MO e0 (e_key e0) P0 (OKs e0 P0)), N.land_spec, MB, andb_true_r.
  exact KB.
Qed.

(** ** The result *)
Definition shares (a b : entry) : Prop := exists k, entry_matches k a /\ entry_matches k b.

(** The number of don't-care bits of a 32-bit mask. *)
Definition free_bits (mask : N) : nat :=
  length (filter (fun i => negb (N.testbit mask (N.of_nat i))) (seq 0 32)).

(** The key and mask cover every entry of the table with this route. *)
Definition covers_route (out : list entry) (r K M : N) : Prop :=
  (M < 2 ^ 32)%N /\
  forall e k, In e out -> e_route e = r -> entry_matches k e -> key_matches k K M.

(** No entries are left that could be put together without further ado: where
    several entries of one route are left, any entry that covers them all has a key
    of an original entry of another route, or it comes behind an entry that shares a
    key with one of them and comes behind that one. *)
Definition nothing_to_merge (table out : list entry) : Prop :=
  forall a b, In a out -> In b out -> a <> b -> e_route a = e_route b ->
    (exists i j c x, nth_error out i = Some c /\ nth_error out j = Some x /\ (i < j)%nat /\
       e_route c = e_route a /\ shares c x /\
       forall K M, covers_route out (e_route a) K M -> (free_bits (e_mask x) <= free_bits M)%nat) \/
    (exists o k, In o table /\ e_route o <> e_route a /\ entry_matches k o /\
       forall K M, covers_route out (e_route a) K M -> key_matches k K M).

Lemma gen_free : forall key mask, N.land key mask = key ->
  get_generality key mask = Z.of_nat (free_bits mask).
Proof. intros key mask H. apply generality_counts. auto. Qed.

Lemma free_count : forall m, free_bits m = count_bits (fun i => negb (N.testbit m i)) 32.
Proof. intros m. symmetry. apply (count_bits_filter (fun i => negb (N.testbit m i))). Qed.

Lemma free_bits_eq : forall m1 m2, (m1 < 2 ^ 32)%N -> (m2 < 2 ^ 32)%N ->
  (forall u, N.testbit m2 u = true -> N.testbit m1 u = true) ->
  (free_bits m2 <= free_bits m1)%nat -> m1 = m2.
Proof.
  intros m1 m2 W1 W2 SUB L. apply N.bits_inj. intro q.
  destruct (N.testbit m2 q) eqn:E1; [auto|].
  destruct (N.testbit m1 q) eqn:E2; auto. exfalso.
  assert (Lq : (q < 32)%N).
  { destruct (N.lt_ge_cases q 32) as [|G]; auto. exfalso.
    rewrite (N.bits_above_log2 m1 q) in E2; [discriminate|].
    destruct (N.eq_dec m1 0) as [->|Mn]; [cbn; lia|].
    apply N.log2_lt_pow2 in W1; lia. }
  rewrite !free_count in L.
  assert (X := count_bits_same (fun i => negb (N.testbit m1 i)) (fun i => negb (N.testbit m2 i)) 32).
  cbn beta in X. specialize (X ltac:(intros u _ Hu; apply negb_true_iff; apply negb_true_iff in Hu;
    destruct (N.testbit m2 u) eqn:Eu; auto; apply SUB in Eu; congruence) L q Lq).
  rewrite E1, E2 in X. discriminate (X eq_refl).
Qed.

Lemma stuck : forall orig t al m,
  oc_inv orig t al -> (forall o, In o orig -> entry_ok o /\ (e_mask o < 2 ^ 32)%N) ->
  get_best_merge t al = Ok m -> (goodness m <= 0)%Z -> nothing_to_merge orig t.
Proof.
  intros orig t al m I HO HB HG a b Ha Hb Hab HR.
  assert (Ht : t <> []) by (intros ->; destruct Ha).
  pose proof (oi_sorted _ _ _ I) as S.
  assert (OKT : forall e, In e t -> entry_ok e).
  { pose proof (oi_ok _ _ _ I) as F. rewrite Forall_forall in F. auto. }
  assert (WT : forall e, In e t -> (e_mask e < 2 ^ 32)%N).
  { apply (oi_width _ _ _ I). intros o Ho. apply HO. auto. }
  unfold get_best_merge in HB. apply bind_Ok_inv in HB. destruct HB as [z [_ HB]].
  apply bind_Ok_inv in HB. destruct HB as [st' [HF HB]]. injection HB as <-.
  apply In_nth_error in Ha. destruct Ha as [i Hi]. apply In_nth_error in Hb. destruct Hb as [j Hj].
  assert (Hij : i <> j) by (intros ->; congruence).
  destruct (all_merges_all (e_route a) t [] [] ltac:(intros ? ? []) ltac:(intros ? []) i j a b
              Hij Hi Hj eq_refl ltac:(auto)) as [s [S1 [S2 [S3 S4]]]].
  cbn [length app] in S1, S3, S4.
  destruct (all_merges_spec t [] [] s S1) as [SS [RR _]]. cbn [app] in RR.
  destruct (make_merge_spec t s Ht S RR) as [g [Eg [Ee MO]]].
  assert (GG : (0 < goodness g)%Z) by (unfold goodness; rewrite Ee; lia).
  assert (Hne : mg_entries g <> []) by (rewrite Ee; destruct s; [cbn in S2; lia|discriminate]).
  assert (PK : forall e, picked t (mg_entries g) e <-> In e t /\ e_route e = e_route a).
  { intros e. rewrite Ee. split.
    - intros [q [Hq He]]. split; [eapply nth_error_In; eauto|eauto].
    - intros [He Hr]. apply In_nth_error in He. destruct He as [q Hq]. exists q. split; eauto. }
  assert (DIST : forall q1 q2 u v, q1 <> q2 -> nth_error t q1 = Some u -> nth_error t q2 = Some v -> u <> v).
  { intros q1 q2 u v Hq Hu Hv ->. pose proof (oi_nodup _ _ _ I) as ND.
    rewrite NoDup_nth_error in ND. apply Hq. apply ND.
    - rewrite map_length. apply nth_error_Some. congruence.
    - rewrite !nth_error_map, Hu, Hv. reflexivity. }
  assert (FREE : forall K M, covers_route t (e_route a) K M -> (free_bits (mg_mask g) <= free_bits M)%nat).
  { intros K M [HM HC]. rewrite !free_count.
    apply count_bits_mono. intros u _ Hu. apply negb_true_iff. apply negb_true_iff in Hu.
    destruct (N.testbit M u) eqn:EM; auto. rewrite (cover_mask t g K M u MO Hne) in Hu; auto; try discriminate.
    - intros e He. apply OKT. apply PK in He. tauto.
    - intros e k' He. apply PK in He. destruct He. apply HC; auto. }
  assert (gen_free_g : get_generality (mg_key g) (mg_mask g) = Z.of_nat (free_bits (mg_mask g))).
  { apply gen_free. apply (mo_key t g MO). }
  destruct (get_covered t al g) as [|p ps] eqn:EC.
  - (* nothing covered: one of the entries shares a key with a later one *)
    left.
    destruct (existsb (fun q => match nth_error t q with
        | Some e => existsb (fun o => intersect (e_key e) (e_mask e) (e_key o) (e_mask o))
                      (slice t (q + 1) (mg_ins g))
        | None => false end) s) eqn:EX.
    + apply existsb_exists in EX. destruct EX as [q [Hq EX]].
      destruct (nth_error t q) as [c|] eqn:Ec; [|discriminate].
      apply existsb_exists in EX. destruct EX as [x [Hx EX]].
      unfold slice in Hx. apply In_nth_error in Hx. destruct Hx as [w Hw].
      apply nth_error_firstn_Some in Hw. destruct Hw as [Lw Hw]. rewrite nth_error_skipn' in Hw.
      assert (Hc : In c t) by (eapply nth_error_In; eauto).
      assert (Hx : In x t) by (eapply nth_error_In; eauto).
      exists q, (q + 1 + w)%nat, c, x. split; auto. split; auto. split; [lia|].
      split; [eauto|]. split.
      * apply intersect_iff in EX; [|apply OKT; auto|apply OKT; auto].
        destruct EX as [k K]. exists k. exact K.
      * intros K M HC. pose proof (mo_below t g MO (q + 1 + w) x ltac:(lia) Hw) as GB.
        apply FREE in HC. unfold entry_generality in GB. rewrite gen_free in GB by (apply (OKT x Hx)). lia.
    + exfalso.
      assert (RF : refine_merge t al g 0 = Ok g).
      { apply refine_free; auto. rewrite Ee. intros q Hq.
        destruct (nth_error t q) as [e|] eqn:Eq; [|apply nth_error_None in Eq; specialize (RR q Hq); lia].
        exists e. split; auto.
        destruct (existsb (fun o => intersect (e_key e) (e_mask e) (e_key o) (e_mask o))
                    (slice t (q + 1) (mg_ins g))) eqn:EY; auto.
        exfalso. rewrite <- not_true_iff_false in EX. apply EX. apply existsb_exists. exists q.
        split; auto. rewrite Eq. auto. }
      pose proof (best_refused t al _ (z, 0%Z) st' eq_refl HF HG s g g S1 Eg GG RF). lia.
  - assert (HP : In p (get_covered t al g)) by (rewrite EC; left; auto).
    unfold get_covered in HP. apply in_flat_map in HP. destruct HP as [x [Hx HP]].
    apply filter_In in HP. destruct HP as [HP1 HP2].
    apply In_nth_error in Hx. destruct Hx as [w Hw]. rewrite nth_error_skipn' in Hw.
    assert (Hx : In x t) by (eapply nth_error_In; eauto).
    destruct (oi_orig _ _ _ I x p Hx HP1) as [o [O1 [O2 O3]]].
    destruct (N.eq_dec (e_route x) (e_route a)) as [ER|ER].
    + (* the merge is an entry already there *)
      left.
      assert (PX : picked t (mg_entries g) x) by (apply PK; auto).
      pose proof (mo_above t g MO (mg_ins g + w) x ltac:(lia) Hw) as GE.
      assert (SUB : forall q, N.testbit (mg_mask g) q = true -> N.testbit (e_mask x) q = true).
      { intros q Hq. apply (mo_bit t g MO Hne) in Hq. apply Hq. auto. }
      assert (MEQ : mg_mask g = e_mask x).
      { symmetry. apply free_bits_eq; auto.
        - apply word32_bits. intros u Hu. apply (mo_bit t g MO Hne) in Hu. tauto.
        - unfold entry_generality in GE. rewrite gen_free_g, gen_free in GE by (apply (OKT x Hx)). lia. }
      assert (KEQ : mg_key g = e_key x).
      { rewrite <- (mo_cover t g MO x (e_key x) PX (OKT x Hx)), MEQ. apply (OKT x Hx). }
      assert (OTHER : forall c, In c t -> e_route c = e_route a -> km c <> km x ->
        exists i j c x, nth_error t i = Some c /\ nth_error t j = Some x /\ (i < j)%nat /\
          e_route c = e_route a /\ shares c x /\
          forall K M, covers_route t (e_route a) K M -> (free_bits (e_mask x) <= free_bits M)%nat).
      { intros c Hc Hr Hcx. apply In_nth_error in Hc. destruct Hc as [q Hq].
        assert (Hc : In c t) by (eapply nth_error_In; eauto).
        assert (PC : picked t (mg_entries g) c) by (apply PK; auto).
        exists q, (mg_ins g + w)%nat, c, x. split; auto. split; auto. split; [|split; [auto|split]].
        - destruct (Nat.lt_ge_cases q (mg_ins g + w)) as [|L]; auto. exfalso. apply Hcx.
          destruct (Nat.eq_dec q (mg_ins g + w)) as [->|Nq]; [congruence|].
          pose proof (gsorted_nth t (mg_ins g + w) q x c S Hw Hq ltac:(lia)) as GL.
          unfold gle, entry_generality in GL. rewrite !gen_free in GL by (apply OKT; auto).
          assert (MC : e_mask c = e_mask x).
          { apply free_bits_eq; auto; [|lia]. intros u Hu. rewrite <- MEQ in Hu.
            apply (mo_bit t g MO Hne) in Hu. apply Hu. auto. }
          unfold km. f_equal; auto.
          rewrite <- KEQ, <- (mo_cover t g MO c (e_key c) PC (OKT c Hc)), MEQ, <- MC. symmetry. apply (OKT c Hc).
        - exists (e_key c). split; [apply (OKT c Hc)|]. unfold entry_matches. rewrite <- KEQ, <- MEQ.
          apply (mo_cover t g MO c); [auto|apply (OKT c Hc)].
        - intros K M HC. apply FREE in HC. rewrite <- MEQ. auto. }
      assert (UN : forall c, km c = km x -> In c t -> c = x).
      { intros c E Hc. apply In_nth_error in Hc. destruct Hc as [q Hq].
        pose proof (oi_nodup _ _ _ I) as ND. rewrite NoDup_nth_error in ND.
        assert (q = (mg_ins g + w)%nat).
        { apply ND; [rewrite map_length; apply nth_error_Some; congruence|].
          rewrite !nth_error_map, Hq, Hw. cbn. congruence. }
        congruence. }
      assert (Ia : In a t) by (eapply nth_error_In; eauto).
      assert (Ib : In b t) by (eapply nth_error_In; eauto).
      destruct (km_eqb (km a) (km x)) eqn:EA.
      * apply km_eqb_eq in EA. apply (OTHER b); auto. intro E. apply Hab.
        rewrite (UN a EA Ia), (UN b E Ib). reflexivity.
      * apply (OTHER a); auto. intro E. apply km_eqb_eq in E. congruence.
    + right. apply intersect_iff in HP2; [|apply (mo_key t g MO)|].
      2: { rewrite <- O2. unfold km. cbn [fst snd]. apply (HO o O1). }
      destruct HP2 as [k [K1 K2]]. exists o, k. split; auto. split; [congruence|].
      split. { unfold entry_matches, key_matches. rewrite <- O2 in K2. exact K2. }
      intros K M [HM HC]. apply (merge_least t g K M k MO Hne); auto.
      * intros e He. apply OKT. apply PK in He. tauto.
      * intros e k' He. apply PK in He. destruct He. apply HC; auto.
Qed.

Lemma oc_total_max : forall table target no_raise, Forall entry_ok table -> orthogonal table ->
  (forall e, In e table -> (e_mask e < 2 ^ 32)%N) ->
  (table <> [] \/ target <> None) ->
  exists out al, (length out <= length table)%nat /\
    StronglySorted (fun a b => (free_bits (e_mask a) <= free_bits (e_mask b))%nat) out /\
    (forall n, target = Some n -> (n < length out)%nat -> nothing_to_merge table out) /\
    (target = None -> nothing_to_merge table out) /\
    (ordered_covering table target [] no_raise = Ok (out, al) \/
     (no_raise = false /\ (exists n, target = Some n /\ (n < length out)%nat) /\
      ordered_covering table target [] no_raise = Err MinimisationFailed)).
Proof.
  intros table target nr F O W Ht.
  destruct (ordered_covering_spec table target nr F O Ht) as [t' [a' [I [L [_ [B E]]]]]].
  exists t', a'. split; auto. split.
  { pose proof (oi_sorted _ _ _ I) as S. pose proof (oi_ok _ _ _ I) as FO. unfold gsorted in S.
    clear -S FO. rewrite Forall_forall in FO. induction S as [|e l S IH HF]; constructor.
    - apply IH. intros x Hx. apply FO. right; auto.
    - rewrite Forall_forall in *. intros y Hy. specialize (HF y Hy). unfold gle, entry_generality in HF.
      rewrite !gen_free in HF by (apply FO; cbn; auto). lia. }
  assert (B' : want_more target t' = true -> nothing_to_merge table t').
  { intro Wm. destruct (B Wm) as [m [Em Hm]]. apply stuck with a' m; auto.
    - intros o Ho. rewrite Forall_forall in F. auto.
    - rewrite goodness_empty by auto. lia. }
  split; [|split].
  - intros n -> Hn. apply B'. cbn. apply Nat.ltb_lt. auto.
  - intros ->. apply B'. reflexivity.
  - rewrite E. destruct nr; cbn [negb andb]; auto. destruct target as [n|]; auto.
    destruct (Nat.ltb_spec n (length t')) as [Ln|Ln]; auto. right. split; auto. split; auto. exists n. auto.
Qed.
