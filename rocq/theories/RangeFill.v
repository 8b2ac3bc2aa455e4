(** What the range compressor merges. *)
From Coq Require Import List Arith NArith ZArith Bool Lia Permutation Sorted.
From Verif Require Import Base RouteSpec KeyMask RangeModel RangeProofs.
Import ListNotations.
Local Open Scope Z_scope.

Notation zlen l := (Z.of_nat (length l)).

Lemma first_power_large d (t : nat) : (2 <= t)%nat -> 2 ^ Z.of_nat t - 1 <= d -> 2 ^ Z.of_nat t <= first_power d.
Proof.
  intros T D. destruct t as [|t]; [lia|]. rewrite Nat2Z.inj_succ, Z.pow_succ_r in * by lia.
  assert (P : 2 <= 2 ^ Z.of_nat t) by (change 2 with (2 ^ 1) at 1; apply Z.pow_le_mono_r; lia).
  unfold first_power, bit_length. destruct (Z.ltb_spec d 1); [lia|]. destruct (Z.leb_spec (d - 1) 0); [lia|].
  assert (L : Z.of_nat t <= Z.log2 (d - 1)) by (apply Z.log2_le_pow2; lia).
  rewrite Z.shiftl_mul_pow2, Z.mul_1_l by lia. rewrite <- Z.pow_succ_r by lia. apply Z.pow_le_mono_r; lia.
Qed.

Section WithTable.
  Variable es : list entry.
  Hypothesis E32 : Forall entry32 es.
  Hypothesis V : valid es.

  (** One iteration, with the size of its block bounded from below. *)
  Lemma step_large first last : 0 <= first < last -> last < zlen es ->
    exists (j : nat) last' e,
      nth_error es (Z.to_nat first) = Some e /\
      (let low := Kf es first / 2 ^ Z.of_nat j * 2 ^ Z.of_nat j in
      (j <= 32)%nat /\
      first - 1 <= last' <= last /\ Ef es last' < low + 2 ^ Z.of_nat j /\
      (forall i, last' < i <= last -> low + 2 ^ Z.of_nat j <= Ef es i) /\
      (forall s : nat, (exists q, Kf es first = q * 2 ^ Z.of_nat s) ->
          Kf es first + 2 ^ Z.of_nat s <= Kf es (last + 1) ->
          Kf es first + 2 ^ Z.of_nat s <= Ef es first + 1 \/
          (2 <= s)%nat /\ Kf es first + 2 ^ Z.of_nat s <= Ef es last + 1 -> (s <= j)%nat) /\
      forall fuel, merge_range (S fuel) es first last =
        if last =? last' then Ok [block_entry low j (e_route e)]
        else let* more := merge_range fuel es (last' + 1) last in
             Ok (block_entry low j (e_route e) :: more)).
  Proof.
    intros H1 H2.
    destruct (block_power_spec es E32 V first last H1 H2) as (j0 & EB & L0 & B0).
    pose proof (K_bounds es E32 first) as KB. pose proof (K_le_E es E32 first) as KE.
    pose proof (E_lt_K es E32 V first (last + 1)) as EK.
    assert (EP : Ef es (first - 1) <= Kf es first) by (destruct (Epre_lt es V first) as [?|[? E0]]; lia).
    destruct (shrink_spec j0 (Kf es first) (Ef es (first - 1)) (Kf es (last + 1)) (S j0))
      as (j & ES & Lj & B & B' & SZ); try lia.
    set (p := 2 ^ Z.of_nat j) in *.
    assert (Hp : 0 < p) by (apply Z.pow_pos_nonneg; lia).
    set (low := Kf es first / p * p) in *.
    assert (Hlow : low <= Kf es first < low + p).
    { unfold low. pose proof (Z.mul_div_le (Kf es first) p).
      pose proof (Z.mul_succ_div_gt (Kf es first) p). lia. }
    pose proof (Epre_lt_succ es E32 V first) as EPL.
    destruct (reduce_spec es (S (Z.to_nat (last + 2))) (low + p) last first)
      as (last' & ER & R1 & R2 & R3); try lia.
    destruct (zget_nth es first) as (e & He & Ez); [lia|].
    exists j, last', e. split; [assumption|]. cbv zeta. fold p. fold low.
    split; [lia|]. split; [assumption|]. split; [assumption|]. split; [assumption|].
    split.
    - intros s (q & Hq) HK Hs.
      assert (Hps : 0 < 2 ^ Z.of_nat s) by (apply Z.pow_pos_nonneg; lia).
      assert (Hfl : Kf es first / 2 ^ Z.of_nat s * 2 ^ Z.of_nat s = Kf es first).
      { rewrite Hq, Z.div_mul by lia. reflexivity. }
      apply SZ.
      + assert (HH : 2 ^ Z.of_nat s <= 2 ^ Z.of_nat j0).
        { destruct Hs as [Hs|[Hs2 Hs]].
          - pose proof (E_lt_K es E32 V first last). pose proof (K_le_E es E32 last). lia.
          - rewrite <- EB. unfold block_power.
            assert (2 ^ Z.of_nat s <= first_power (Ef es last - Kf es first)) by (apply first_power_large; lia).
            destruct (_ <? _); [|lia]. rewrite Z.shiftl_mul_pow2 by lia. lia. }
        apply Z.pow_le_mono_r_iff in HH; lia.
      + rewrite Hfl. destruct (Epre_lt es V first) as [?|[? E0]]; lia.
      + rewrite Hfl. lia.
    - intros fuel. cbn [merge_range].
      destruct (Z.eqb_spec first last); [lia|].
      rewrite get_key_Kf by lia. cbn [bind].
      rewrite get_endpoint_Ef by lia. cbn [bind].
      rewrite get_endpoint_Ef by lia. cbn [bind].
      rewrite get_key_Kf by lia. cbn [bind].
      change (if low_cut_of (Kf es first) (first_power (Ef es last - Kf es first)) +
                   first_power (Ef es last - Kf es first) <? Ef es last
              then Z.shiftl (first_power (Ef es last - Kf es first)) 1
              else first_power (Ef es last - Kf es first))
        with (block_power es first last).
      rewrite EB, Z.log2_pow2, Nat2Z.id by lia.
      rewrite ES. cbn [bind]. unfold low_cut_of. fold p. fold low.
      rewrite ER. cbn [bind]. rewrite Ez. cbn [bind]. reflexivity.
  Qed.

  (** Aligned blocks of two sizes: a point of the smaller puts it into the larger. *)
  Lemma block_in_block a low (t j : nat) x : (t <= j)%nat ->
    (exists q, a = q * 2 ^ Z.of_nat t) -> (exists q, low = q * 2 ^ Z.of_nat j) ->
    a <= x < a + 2 ^ Z.of_nat t -> low <= x < low + 2 ^ Z.of_nat j ->
    low <= a /\ a + 2 ^ Z.of_nat t <= low + 2 ^ Z.of_nat j.
  Proof.
    intros L (q & ->) (r & ->) X Y.
    assert (P : 2 ^ Z.of_nat j = 2 ^ Z.of_nat (j - t) * 2 ^ Z.of_nat t) by (rewrite <- Z.pow_add_r by lia; f_equal; lia).
    assert (0 < 2 ^ Z.of_nat t) by (apply Z.pow_pos_nonneg; lia).
    assert (0 < 2 ^ Z.of_nat (j - t)) by (apply Z.pow_pos_nonneg; lia).
    rewrite P in *. remember (2 ^ Z.of_nat t) as T. remember (2 ^ Z.of_nat (j - t)) as M. clear HeqT HeqM P L.
    split.
    - assert (r * M <= q); [|nia]. assert (r * M < q + 1); [|lia]. nia.
    - assert (q + 1 <= r * M + M); [|nia]. assert (q < r * M + M); [|lia]. nia.
  Qed.

  (** A block filled by one or more entries of a run is in one entry of the result. *)
  Lemma merge_range_block : forall fuel first last out u v a (t : nat),
    0 <= first <= u -> u <= v <= last -> last < zlen es ->
    (exists q, a = q * 2 ^ Z.of_nat t) -> Kf es u = a -> Ef es v = a + 2 ^ Z.of_nat t - 1 ->
    u = v \/ (2 <= t)%nat ->
    (forall e, u = v -> nth_error es (Z.to_nat u) = Some e ->
       forall k, (k < 2 ^ 32)%N -> a <= Z.of_N k < a + 2 ^ Z.of_nat t -> entry_matches k e) ->
    merge_range fuel es first last = Ok out ->
    exists o, In o out /\ forall k, (k < 2 ^ 32)%N -> a <= Z.of_N k < a + 2 ^ Z.of_nat t -> entry_matches k o.
  Proof.
    induction fuel as [|fuel IH]; intros first last out u v a t H1 H2 H3 HA HK HE HT HS Hm; [discriminate|].
    destruct (Z.eq_dec first last) as [->|Hne].
    - assert (u = last) by lia. assert (v = last) by lia. subst u v.
      cbn [merge_range] in Hm. rewrite Z.eqb_refl in Hm.
      destruct (zget_nth es last) as (e & He & Hz); [lia|]. rewrite Hz in Hm. cbn [bind] in Hm. injection Hm as <-.
      exists e. split; [now left|]. now apply HS.
    - destruct (step_large first last) as (j & last' & e & He & S1 & S3 & S4 & S5 & S6 & S7); [lia|lia|].
      rewrite S7 in Hm. clear S7.
      assert (HTp : 0 < 2 ^ Z.of_nat t) by (apply Z.pow_pos_nonneg; lia).
      set (p := 2 ^ Z.of_nat j) in *.
      assert (Hp : 0 < p) by (apply Z.pow_pos_nonneg; lia).
      set (low := Kf es first / p * p) in *.
      pose proof (K_bounds es E32 first) as KB.
      assert (Hlow : low <= Kf es first < low + p).
      { unfold low. pose proof (Z.mul_div_le (Kf es first) p).
        pose proof (Z.mul_succ_div_gt (Kf es first) p). lia. }
      assert (Hlow0 : 0 <= low).
      { unfold low. apply Z.mul_nonneg_nonneg; [|lia]. apply Z.div_pos; lia. }
      assert (Hq : exists q, low = q * 2 ^ Z.of_nat j) by (exists (Kf es first / p); reflexivity).
      assert (KFU : Kf es first <= a).
      { destruct (Z.eq_dec u first) as [<-|]; [lia|].
        pose proof (E_lt_K es E32 V first u). pose proof (K_le_E es E32 first). lia. }
      assert (CV : v <= last' -> forall k, (k < 2 ^ 32)%N -> a <= Z.of_N k < a + 2 ^ Z.of_nat t ->
                entry_matches k (block_entry low j (e_route e))).
      { intros L k Kk Ka. apply block_entry_range; auto. fold p. pose proof (E_mono es E32 V v last'). lia. }
      destruct (Z.eqb_spec last last') as [El|Hnl].
      { injection Hm as <-. eexists. split; [left; reflexivity|]. apply CV. lia. }
      destruct (bind_Ok_inv _ _ _ Hm) as (more & Hmore & Eo). injection Eo as <-.
      destruct (Z.leb_spec v last') as [Lv|Lv].
      { eexists. split; [left; reflexivity|]. now apply CV. }
      assert (Lu : last' + 1 <= u).
      { destruct (Z.leb_spec (last' + 1) u); [assumption|exfalso].
        pose proof (S5 v ltac:(lia)) as Sv. pose proof (E_mono es E32 V u last').
        pose proof (K_le_E es E32 u) as KEu.
        destruct (le_lt_dec t j) as [Ltj|Ltj].
        - destruct (block_in_block a low t j a Ltj HA Hq) as [_ C]; [lia|fold p; lia|]. fold p in C. lia.
        - destruct (Z.eq_dec first u) as [->|Nu].
          + assert (t <= j)%nat; [|lia]. apply S6.
            * rewrite HK. exact HA.
            * pose proof (E_lt_K es E32 V v (last + 1)). lia.
            * destruct HT as [<-|T2]; [left; lia|]. right. split; [exact T2|].
              pose proof (E_mono es E32 V v last). lia.
          + pose proof (E_lt_K es E32 V first u). pose proof (K_le_E es E32 first).
            destruct HA as (q & HA). destruct Hq as (r & Hq).
            assert (PT : 2 ^ Z.of_nat t = 2 ^ Z.of_nat (t - j) * p) by (unfold p; rewrite <- Z.pow_add_r by lia; f_equal; lia).
            assert (A1 : low < a) by lia. assert (A2 : a < low + p) by lia. fold p in Hq.
            rewrite HA, PT, Hq in A1, A2. clear - A1 A2 Hp.
            remember (2 ^ Z.of_nat (t - j)) as M. clear HeqM.
            replace (q * (M * p)) with (q * M * p) in A1, A2 by ring. replace (r * p + p) with ((r + 1) * p) in A2 by ring.
            apply Z.mul_lt_mono_pos_r in A1; [|exact Hp]. apply Z.mul_lt_mono_pos_r in A2; [|exact Hp]. lia. }
      destruct (IH (last' + 1) last more u v a t) as (o & Ho & Mo); auto; try lia.
      exists o. split; [now right|exact Mo].
  Qed.

  Lemma ranges_block : forall fuel todo pre first route out u v a (t : nat),
    es = pre ++ todo -> 0 <= first <= zlen pre ->
    (first = zlen pre -> exists e t, todo = e :: t /\ e_route e = route) ->
    (forall i e, first <= i < zlen pre -> nth_error es (Z.to_nat i) = Some e -> e_route e = route) ->
    first <= u -> u <= v < zlen es ->
    (forall i e i' e', u <= i <= v -> u <= i' <= v -> nth_error es (Z.to_nat i) = Some e ->
       nth_error es (Z.to_nat i') = Some e' -> e_route e = e_route e') ->
    (exists q, a = q * 2 ^ Z.of_nat t) -> Kf es u = a -> Ef es v = a + 2 ^ Z.of_nat t - 1 ->
    u = v \/ (2 <= t)%nat ->
    (forall e, u = v -> nth_error es (Z.to_nat u) = Some e ->
       forall k, (k < 2 ^ 32)%N -> a <= Z.of_N k < a + 2 ^ Z.of_nat t -> entry_matches k e) ->
    ranges fuel es todo (zlen pre) first route = Ok out ->
    exists o, In o out /\ (forall e, nth_error es (Z.to_nat u) = Some e -> e_route o = e_route e) /\
      forall k, (k < 2 ^ 32)%N -> a <= Z.of_N k < a + 2 ^ Z.of_nat t -> entry_matches k o.
  Proof.
    induction todo as [|x todo IH]; intros pre first route out u v a t Ees Hf Hfe Hr Hu Hv Sr HA HK HE HT HS Hm.
    - simpl in Hm. rewrite app_nil_r in Ees. subst pre.
      assert (first <> zlen es) by (intros C; destruct (Hfe C) as (e & t' & D & _); discriminate).
      destruct (merge_range_block fuel first (zlen es - 1) out u v a t) as (o & Ho & Mo); auto; try lia.
      destruct (merge_range_sound es E32 V fuel first (zlen es - 1) out route) as [_ C2]; auto; try lia.
      { intros i e Hi. apply Hr. lia. }
      exists o. split; [exact Ho|]. split; [|exact Mo]. intros e He. rewrite (Hr u e) by (auto; lia). now apply C2.
    - cbn [ranges] in Hm.
      assert (Ees2 : es = (pre ++ [x]) ++ todo) by (rewrite <- app_assoc; exact Ees).
      assert (Lp : zlen (pre ++ [x]) = zlen pre + 1) by (rewrite app_length; simpl; lia).
      assert (Hx : nth_error es (Z.to_nat (zlen pre)) = Some x).
      { rewrite Ees, Nat2Z.id, nth_error_app2 by lia. rewrite Nat.sub_diag. reflexivity. }
      assert (Ln : zlen es = zlen pre + 1 + zlen todo).
      { rewrite Ees, app_length. simpl. lia. }
      destruct (N.eqb_spec (e_route x) route) as [Ex|Nx].
      + rewrite <- Lp in Hm.
        apply (IH (pre ++ [x]) first route out u v a t); auto; try lia.
        intros i e Hi He. destruct (Z.eq_dec i (zlen pre)) as [->|].
        { rewrite Hx in He. injection He as <-. assumption. }
        eapply Hr; [|eassumption]; lia.
      + assert (first <> zlen pre).
        { intros C. destruct (Hfe C) as (e & t' & D & R). injection D as <- <-. contradiction. }
        destruct (bind_Ok_inv _ _ _ Hm) as (x1 & Ha & Hm2).
        destruct (bind_Ok_inv _ _ _ Hm2) as (x2 & Hb & Eo). injection Eo as <-.
        destruct (Z.ltb_spec v (zlen pre)) as [Lv|Lv].
        * destruct (merge_range_block fuel first (zlen pre - 1) x1 u v a t) as (o & Ho & Mo); auto; try lia.
          destruct (merge_range_sound es E32 V fuel first (zlen pre - 1) x1 route) as [_ C2]; auto; try lia.
          { intros i e Hi. apply Hr. lia. }
          exists o. split; [apply in_app_iff; now left|]. split; [|exact Mo]. intros e He. rewrite (Hr u e) by (auto; lia). now apply C2.
        * destruct (Z.leb_spec (zlen pre) u) as [Lu|Lu].
          -- rewrite <- Lp in Hb.
             destruct (IH (pre ++ [x]) (zlen pre) (e_route x) x2 u v a t) as (o & Ho & Mo); auto; try lia.
             { intros i e Hi He. replace i with (zlen pre) in He by lia. congruence. }
             exists o. split; [apply in_app_iff; now right|exact Mo].
          -- exfalso. destruct (zget_nth es u) as (e & He & _); [lia|].
             apply Nx. rewrite <- (Hr u e) by (auto; lia). apply (Sr (zlen pre) x u e); auto; lia.
  Qed.
End WithTable.

(** * Entries of contiguous keys *)

Lemma block_end e (s : nat) : entry32 e -> Z.of_N (e_mask e) = 2 ^ 32 - 2 ^ Z.of_nat s -> (s <= 32)%nat ->
  endz e = Z.of_N (e_key e) + 2 ^ Z.of_nat s - 1 /\ (exists q, Z.of_N (e_key e) = q * 2 ^ Z.of_nat s) /\
  forall k, (k < 2 ^ 32)%N -> (entry_matches k e <-> Z.of_N (e_key e) <= Z.of_N k < Z.of_N (e_key e) + 2 ^ Z.of_nat s).
Proof.
  intros E3 Hmask Hs. pose proof E3 as (Ok1 & Hk & Hm).
  assert (Hps : 0 < 2 ^ Z.of_nat s <= 2 ^ 32).
  { split; [apply Z.pow_pos_nonneg; lia|]. apply Z.pow_le_mono_r; lia. }
  assert (Hk32 : 0 <= Z.of_N (e_key e) < 2 ^ 32).
  { change (2 ^ 32) with (Z.of_N (2 ^ 32)). lia. }
  assert (HA : Z.of_N (e_key e) / 2 ^ Z.of_nat s * 2 ^ Z.of_nat s = Z.of_N (e_key e)).
  { rewrite <- land_block_mask by lia. rewrite <- Hmask. now apply (matches_Z (e_key e) e). }
  assert (M : forall k, (k < 2 ^ 32)%N -> (entry_matches k e <-> Z.of_N (e_key e) <= Z.of_N k < Z.of_N (e_key e) + 2 ^ Z.of_nat s)).
  { intros k K. rewrite matches_Z, Hmask, land_block_mask; [|change (2 ^ 32) with (Z.of_N (2 ^ 32)); lia|lia].
    apply floor_iff; [lia|]. eexists. symmetry. exact HA. }
  assert (Q : exists q, Z.of_N (e_key e) = q * 2 ^ Z.of_nat s) by (eexists; symmetry; exact HA).
  split; [|split; [exact Q|exact M]].
  pose proof (endz_bounds e E3) as EB.
  (* the last key matches, and every matching key is at most it *)
  assert (L : entry_matches (Z.to_N (endz e)) e).
  { rewrite (endz_closed e E3), N2Z.id. unfold entry_matches, key_matches.
    rewrite N.land_lor_distr_l, Ok1.
    assert (Z0 : N.land (2 ^ 32 - 1 - e_mask e) (e_mask e) = 0%N).
    { replace (2 ^ 32 - 1 - e_mask e)%N with (N.ldiff (N.ones 32) (e_mask e)).
      - apply N.bits_inj. intro n. rewrite N.land_spec, N.ldiff_spec, N.bits_0. destruct (N.testbit _ n), (N.testbit (e_mask e) n); reflexivity.
      - symmetry. change (2 ^ 32 - 1)%N with (N.ones 32). apply N.sub_nocarry_ldiff. apply N.bits_inj. intro n.
        rewrite N.ldiff_spec, N.bits_0. destruct (N.ltb_spec n 32).
        + rewrite N.ones_spec_low by assumption. apply andb_false_r.
        + rewrite andb_comm. destruct (N.eq_dec (e_mask e) 0) as [->|Z1]; [rewrite N.bits_0, andb_false_r; reflexivity|].
          rewrite (N.bits_above_log2 (e_mask e)); [apply andb_false_r|].
          apply N.lt_le_trans with 32%N; [|assumption]. apply N.log2_lt_pow2; lia. }
    now rewrite Z0, N.lor_0_r. }
  assert (K2 : (Z.to_N (endz e) < 2 ^ 32)%N) by (change (2 ^ 32) with (Z.of_N (2 ^ 32)) in EB; lia).
  pose proof (proj1 (M _ K2) L) as B1. rewrite Z2N.id in B1 by lia.
  set (w := Z.of_N (e_key e) + 2 ^ Z.of_nat s - 1).
  assert (W32 : w < 2 ^ 32).
  { unfold w. destruct Q as (q & Q). rewrite Q in Hk32 |- *.
    assert (P : 2 ^ 32 = 2 ^ (32 - Z.of_nat s) * 2 ^ Z.of_nat s) by (rewrite <- Z.pow_add_r by lia; f_equal; lia).
    rewrite P in *. assert (q < 2 ^ (32 - Z.of_nat s)); [|nia]. apply (Z.mul_lt_mono_pos_r (2 ^ Z.of_nat s)); lia. }
  assert (KW : (Z.to_N w < 2 ^ 32)%N) by (change (2 ^ 32) with (Z.of_N (2 ^ 32)) in W32; lia).
  assert (MW : entry_matches (Z.to_N w) e) by (apply M; [exact KW|]; rewrite Z2N.id by lia; lia).
  pose proof (match_bounds e _ E3 KW MW) as B2. rewrite Z2N.id in B2 by lia. lia.
Qed.

Lemma insert_sorted e l : StronglySorted (fun a b => (e_key a <= e_key b)%N) l ->
  StronglySorted (fun a b => (e_key a <= e_key b)%N) (insert_by_key e l).
Proof.
  induction l as [|x l IH]; intros S; cbn [insert_by_key]; [repeat constructor|].
  inversion S as [|? ? S' F]; subst. destruct (N.ltb_spec (e_key e) (e_key x)).
  - constructor; [exact S|]. constructor; [lia|]. eapply Forall_impl; [|exact F]. cbv beta. intros; lia.
  - constructor; [now apply IH|]. rewrite Forall_forall in *. intros y Y.
    apply (Permutation_in _ (insert_by_key_perm e l)) in Y. destruct Y as [<-|Y]; [lia|now apply F].
Qed.

Lemma sort_sorted l : StronglySorted (fun a b => (e_key a <= e_key b)%N) (sort_by_key l).
Proof.
  unfold sort_by_key. assert (G : forall l acc, StronglySorted (fun a b => (e_key a <= e_key b)%N) acc ->
    StronglySorted (fun a b => (e_key a <= e_key b)%N) (fold_left (fun acc e => insert_by_key e acc) l acc)).
  { induction l0 as [|x l0 IH]; intros acc S; [exact S|]. cbn [fold_left]. apply IH, insert_sorted, S. }
  apply G. constructor.
Qed.

Lemma orthogonal_nth l : orthogonal l -> forall i j a b, (i <> j)%nat -> nth_error l i = Some a -> nth_error l j = Some b ->
  disjoint_entries a b.
Proof.
  intros O. induction O as [|x l F O IH]; intros i j a b N A B; [destruct i; discriminate|].
  rewrite Forall_forall in F. destruct i as [|i], j as [|j]; cbn [nth_error] in A, B.
  - congruence.
  - injection A as <-. apply F. eapply nth_error_In; eauto.
  - injection B as <-. intros k [K1 K2]. eapply (F a); [eapply nth_error_In; eauto|]. eauto.
  - eapply IH; [|exact A|exact B]. congruence.
Qed.

Lemma orthogonal_perm l l' : Permutation l l' -> orthogonal l -> orthogonal l'.
Proof.
  intros P. induction P as [|x l l' P IH|x y l|l l' l'' P1 IH1 P2 IH2]; intros O; auto.
  - inversion O as [|? ? F O']; subst. constructor; [|now apply IH]. eapply Permutation_Forall; eauto.
  - inversion O as [|? ? F O']; subst. inversion O' as [|? ? F' O'']; subst. inversion F as [|? ? D F1]; subst.
    constructor; [constructor; [|exact F']|]. { intros k [K1 K2]. apply (D k). auto. }
    constructor; [exact F1|exact O''].
Qed.

Lemma sorted_valid es : Forall entry32 es -> Forall block_mask es -> orthogonal es ->
  StronglySorted (fun a b => (e_key a <= e_key b)%N) es -> valid es.
Proof.
  intros E32 BM O S i Hi. destruct (zget_nth es i Hi) as (e & He & _).
  assert (EE : Ef es i = endz e) by (unfold Ef; rewrite He; destruct (Z.ltb_spec i 0); [lia|reflexivity]).
  rewrite EE. rewrite Forall_forall in E32, BM. pose proof (nth_error_In _ _ He) as Ie.
  unfold Kf. destruct (nth_error es (Z.to_nat (i + 1))) as [e'|] eqn:He'.
  - pose proof (nth_error_In _ _ He') as Ie'. rewrite (keyz_eq e' (E32 _ Ie')).
    assert (LE : (e_key e <= e_key e')%N).
    { replace (Z.to_nat (i + 1)) with (Datatypes.S (Z.to_nat i)) in He' by lia. clear - S He He'.
      revert He He'. generalize (Z.to_nat i). intro n. revert n. induction S as [|x l S IH F]; intros n A B; [destruct n; discriminate|].
      destruct n as [|n]; cbn [nth_error] in A, B.
      - injection A as <-. rewrite Forall_forall in F. apply F. destruct l; [discriminate|]. injection B as <-. now left.
      - eapply IH; eauto. }
    destruct (BM _ Ie) as (s & Hs & Hm). destruct (block_end e s (E32 _ Ie) Hm Hs) as (EN & _ & M).
    destruct (Z.ltb_spec (endz e) (Z.of_N (e_key e'))); [assumption|exfalso].
    assert (K' : (e_key e' < 2 ^ 32)%N) by apply (E32 _ Ie').
    apply (orthogonal_nth _ O (Z.to_nat i) (Z.to_nat (i + 1)) e e' ltac:(lia) He He' (e_key e')).
    split; [apply M; [exact K'|lia] | apply (E32 _ Ie')].
  - pose proof (endz_bounds e (E32 _ Ie)). unfold maxsize. assert (2 ^ 32 < 9223372036854775807) by reflexivity. lia.
Qed.

Lemma ranges_all es fuel e0 es0 out : Forall entry32 es -> Forall block_mask es -> orthogonal es ->
  valid es -> es = e0 :: es0 -> ranges fuel es es 0 0 (e_route e0) = Ok out ->
  forall r a (t : nat), (exists q, a = q * 2 ^ Z.of_nat t) -> 0 <= a -> a + 2 ^ Z.of_nat t <= 2 ^ 32 ->
  (forall k, (k < 2 ^ 32)%N -> a <= Z.of_N k < a + 2 ^ Z.of_nat t -> exists e, In e es /\ entry_matches k e /\ e_route e = r) ->
  (2 <= t)%nat \/ (exists e, In e es /\ forall k, (k < 2 ^ 32)%N -> a <= Z.of_N k < a + 2 ^ Z.of_nat t -> entry_matches k e) ->
  exists o, In o out /\ e_route o = r /\ forall k, (k < 2 ^ 32)%N -> a <= Z.of_N k < a + 2 ^ Z.of_nat t -> entry_matches k o.
Proof.
  intros E32 BM O V Ees H r a t HA A0 A32 HR HT.
  assert (HTp : 0 < 2 ^ Z.of_nat t) by (apply Z.pow_pos_nonneg; lia).
  assert (Idx : forall e, In e es -> exists i, 0 <= i < zlen es /\ nth_error es (Z.to_nat i) = Some e).
  { intros e Hin. apply In_nth_error in Hin. destruct Hin as (i & Hi).
    exists (Z.of_nat i). rewrite Nat2Z.id. split; [|assumption].
    assert (N1 : nth_error es i <> None) by congruence. apply nth_error_Some in N1. lia. }
  assert (EQ : forall i e, 0 <= i -> nth_error es (Z.to_nat i) = Some e -> Ef es i = endz e /\ Kf es i = Z.of_N (e_key e)).
  { intros i e Hi He. unfold Ef, Kf. rewrite He. destruct (Z.ltb_spec i 0); [lia|]. split; [reflexivity|].
    apply keyz_eq. rewrite Forall_forall in E32. apply E32. eapply nth_error_In; eauto. }
  assert (RUN : forall u v a' (t' : nat), 0 <= u -> u <= v < zlen es ->
    (forall i e i' e', u <= i <= v -> u <= i' <= v -> nth_error es (Z.to_nat i) = Some e ->
       nth_error es (Z.to_nat i') = Some e' -> e_route e = e_route e') ->
    (exists q, a' = q * 2 ^ Z.of_nat t') -> Kf es u = a' -> Ef es v = a' + 2 ^ Z.of_nat t' - 1 ->
    u = v \/ (2 <= t')%nat ->
    (forall e, u = v -> nth_error es (Z.to_nat u) = Some e ->
       forall k, (k < 2 ^ 32)%N -> a' <= Z.of_N k < a' + 2 ^ Z.of_nat t' -> entry_matches k e) ->
    exists o, In o out /\ (forall e, nth_error es (Z.to_nat u) = Some e -> e_route o = e_route e) /\
      forall k, (k < 2 ^ 32)%N -> a' <= Z.of_N k < a' + 2 ^ Z.of_nat t' -> entry_matches k o).
  { intros u v a' t' U Hv Sr A1 A2 A3 A4 A5.
    apply (ranges_block es E32 V fuel es [] 0 (e_route e0) out u v a' t'); auto; cbn [length]; try lia.
    intros _. exists e0, es0. auto. }
  rewrite Forall_forall in E32, BM.
  (* one entry holds the block *)
  assert (ONE : forall e, In e es -> (forall k, (k < 2 ^ 32)%N -> a <= Z.of_N k < a + 2 ^ Z.of_nat t -> entry_matches k e) ->
    exists o, In o out /\ e_route o = r /\ forall k, (k < 2 ^ 32)%N -> a <= Z.of_N k < a + 2 ^ Z.of_nat t -> entry_matches k o).
  { intros e Ie C. destruct (Idx e Ie) as (i & Hi & He). destruct (EQ i e (proj1 Hi) He) as [EE EK].
    destruct (BM e Ie) as (s & Hs & Hm). destruct (block_end e s (E32 e Ie) Hm Hs) as (EN & Q & M).
    destruct (RUN i i (Z.of_N (e_key e)) s) as (o & Ho & Ro & Mo); auto; try lia.
    - intros i1 e1 i2 e2 L1 L2 N1 N2. replace i1 with i in N1 by lia. replace i2 with i in N2 by lia. congruence.
    - intros e1 _ N1 k K B. assert (e1 = e) by congruence. subst e1. now apply M.
    - exists o. split; [exact Ho|].
      assert (RE : e_route e = r).
      { assert (KA : (Z.to_N a < 2 ^ 32)%N) by (change (2 ^ 32) with (Z.of_N (2 ^ 32)) in A32; lia).
        destruct (HR (Z.to_N a) KA) as (e' & I' & M' & R'); [rewrite Z2N.id; lia|].
        destruct (Idx e' I') as (i' & Hi' & He').
        destruct (Nat.eq_dec (Z.to_nat i) (Z.to_nat i')) as [E|NE]; [rewrite E in He; congruence|].
        exfalso. apply (orthogonal_nth _ O _ _ e e' NE He He' (Z.to_N a)). split; [apply C; [exact KA|rewrite Z2N.id; lia]|exact M']. }
      split; [rewrite <- RE; now apply Ro|]. intros k K B. apply Mo; [exact K|]. now apply M, C. }
  destruct HT as [T2|(e & Ie & C)]; [|eapply ONE; eauto].
  (* the entries with the first and the last key *)
  assert (KA : (Z.to_N a < 2 ^ 32)%N) by (change (2 ^ 32) with (Z.of_N (2 ^ 32)) in A32; lia).
  set (z := a + 2 ^ Z.of_nat t - 1).
  assert (KZ : (Z.to_N z < 2 ^ 32)%N) by (unfold z; change (2 ^ 32) with (Z.of_N (2 ^ 32)) in A32; lia).
  destruct (HR (Z.to_N a) KA) as (e1 & I1 & M1 & R1); [rewrite Z2N.id; lia|].
  destruct (HR (Z.to_N z) KZ) as (e2 & I2 & M2 & R2); [unfold z; rewrite Z2N.id; lia|].
  destruct (BM e1 I1) as (s1 & Hs1 & Hm1). destruct (block_end e1 s1 (E32 e1 I1) Hm1 Hs1) as (EN1 & Q1 & MM1).
  destruct (BM e2 I2) as (s2 & Hs2 & Hm2). destruct (block_end e2 s2 (E32 e2 I2) Hm2 Hs2) as (EN2 & Q2 & MM2).
  pose proof (proj1 (MM1 _ KA) M1) as B1. rewrite Z2N.id in B1 by lia.
  pose proof (proj1 (MM2 _ KZ) M2) as B2. rewrite Z2N.id in B2 by (unfold z; lia).
  destruct (le_lt_dec t s1) as [L1|L1].
  { destruct (block_in_block a (Z.of_N (e_key e1)) t s1 a L1 HA Q1) as [X Y]; [lia|lia|].
    apply (ONE e1 I1). intros k K B. apply MM1; [exact K|lia]. }
  destruct (le_lt_dec t s2) as [L2|L2].
  { destruct (block_in_block a (Z.of_N (e_key e2)) t s2 z L2 HA Q2) as [X Y]; [unfold z; lia|lia|].
    apply (ONE e2 I2). intros k K B. apply MM2; [exact K|lia]. }
  destruct (block_in_block (Z.of_N (e_key e1)) a s1 t a ltac:(lia) Q1 HA) as [X1 Y1]; [lia|lia|].
  destruct (block_in_block (Z.of_N (e_key e2)) a s2 t z ltac:(lia) Q2 HA) as [X2 Y2]; [lia|unfold z; lia|].
  destruct (Idx e1 I1) as (u & Hu & Hn1). destruct (Idx e2 I2) as (v & Hv & Hn2).
  destruct (EQ u e1 (proj1 Hu) Hn1) as [EE1 EK1]. destruct (EQ v e2 (proj1 Hv) Hn2) as [EE2 EK2].
  assert (E32' : Forall entry32 es) by (apply Forall_forall; exact E32).
  assert (UV : u <= v).
  { destruct (Z.leb_spec u v); [assumption|exfalso]. pose proof (E_lt_K es E32' V v u ltac:(lia) ltac:(lia)).
    pose proof (Z.pow_pos_nonneg 2 (Z.of_nat s2)). unfold z in *. lia. }
  assert (SR : forall i e, u <= i <= v -> nth_error es (Z.to_nat i) = Some e -> e_route e = r).
  { intros i e Hi He. destruct (EQ i e ltac:(lia) He) as [EEi EKi].
    assert (G1 : a <= Z.of_N (e_key e)).
    { rewrite <- EKi. destruct (Z.eq_dec i u) as [->|]; [lia|].
      pose proof (E_lt_K es E32' V u i ltac:(lia) ltac:(lia)). pose proof (K_le_E es E32' u Hu). lia. }
    assert (G2 : Z.of_N (e_key e) <= z).
    { rewrite <- EKi. pose proof (K_le_E es E32' i ltac:(lia)). pose proof (E_mono es E32' V i v ltac:(lia) ltac:(lia)). unfold z in *. lia. }
    assert (Ie : In e es) by (eapply nth_error_In; eauto). pose proof (E32 e Ie) as (Ok1 & Kk & _).
    destruct (HR (e_key e) Kk) as (e' & I' & M' & R'); [unfold z in G2; lia|].
    destruct (Idx e' I') as (i' & Hi' & He').
    destruct (Nat.eq_dec (Z.to_nat i) (Z.to_nat i')) as [E|NE]; [rewrite E in He; congruence|].
    exfalso. apply (orthogonal_nth _ O _ _ e e' NE He He' (e_key e)). split; [exact Ok1|exact M']. }
  destruct (RUN u v a t) as (o & Ho & Ro & Mo); auto; try lia.
  - intros i x i' x' Hi Hi' N1 N2. rewrite (SR i x), (SR i' x') by auto. reflexivity.
  - intros e <- He. assert (e = e1) by congruence. subst e. exfalso.
    assert (e2 = e1) by congruence. subst e2. assert (EZ : endz e1 = z) by (unfold z in *; lia).
    assert (2 ^ Z.of_nat s1 < 2 ^ Z.of_nat t) by (apply Z.pow_lt_mono_r; lia). unfold z in EZ. lia.
  - exists o. split; [exact Ho|]. split; [rewrite (Ro e1 Hn1); exact R1|exact Mo].
Qed.

(** A block of at least four keys all of which go to one route in the table is inside one
    entry of the result; so is each entry of the table. *)
Lemma range_fills fuel as_far target table out r a t :
  Forall entry32 table -> Forall block_mask table -> orthogonal table ->
  as_far = true \/ (target <= length table)%nat ->
  range_compress fuel as_far target table = Ok out ->
  (exists q, a = q * 2 ^ t)%N -> (a + 2 ^ t <= 2 ^ 32)%N ->
  (forall k, (a <= k < a + 2 ^ t)%N -> exists e, In e table /\ entry_matches k e /\ e_route e = r) ->
  (2 <= t)%N \/ (exists e, In e table /\ forall k, (a <= k < a + 2 ^ t)%N -> entry_matches k e) ->
  exists o, In o out /\ e_route o = r /\ forall k, (a <= k < a + 2 ^ t)%N -> entry_matches k o.
Proof.
  intros E32 BM O HF H HA A32 HR HT. unfold range_compress in H.
  assert (C0 : (negb as_far && Nat.ltb (length table) target)%bool = false).
  { destruct as_far; [reflexivity|]. destruct HF as [HF|HF]; [discriminate|]. cbn [negb andb]. now apply Nat.ltb_ge. }
  rewrite C0 in H. clear C0.
  pose proof (sort_by_key_perm table) as P.
  assert (E32s : Forall entry32 (sort_by_key table)) by (eapply Permutation_Forall; [symmetry; exact P|exact E32]).
  assert (BMs : Forall block_mask (sort_by_key table)) by (eapply Permutation_Forall; [symmetry; exact P|exact BM]).
  assert (Os : orthogonal (sort_by_key table)) by (eapply orthogonal_perm; [symmetry; exact P|exact O]).
  pose proof (sorted_valid _ E32s BMs Os (sort_sorted table)) as V.
  destruct (validate_total (sort_by_key table)) as (b & EV & Hb). rewrite EV in H. cbn [bind] in H.
  rewrite (proj2 Hb V) in H.
  assert (PW : Z.of_N (2 ^ t) = 2 ^ Z.of_nat (N.to_nat t)) by (rewrite N2Z.inj_pow; f_equal; lia).
  assert (P32 : Z.of_N (2 ^ 32) = 2 ^ 32) by reflexivity.
  destruct (sort_by_key table) as [|e0 es0] eqn:Ees; [discriminate|]. rewrite <- Ees in *.
  destruct (ranges_all _ fuel e0 es0 out E32s BMs Os V Ees H r (Z.of_N a) (N.to_nat t)) as (o & Ho & Ro & Mo).
  - destruct HA as (q & ->). exists (Z.of_N q). rewrite N2Z.inj_mul, PW. reflexivity.
  - lia.
  - rewrite <- PW, <- P32. lia.
  - intros k K B. rewrite <- PW in B. destruct (HR k ltac:(lia)) as (e & Ie & R). exists e.
    split; [eapply Permutation_in; [symmetry; exact P|exact Ie]|exact R].
  - destruct HT as [T|(e & Ie & C)]; [left; lia|right]. exists e.
    split; [eapply Permutation_in; [symmetry; exact P|exact Ie]|]. intros k K B. rewrite <- PW in B. apply C. lia.
  - exists o. split; [exact Ho|]. split; [exact Ro|]. intros k B. apply Mo; [lia|]. rewrite <- PW. lia.
Qed.
