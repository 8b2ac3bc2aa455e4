(** Proofs about the range compressor model. *)
From Coq Require Import List Arith NArith ZArith Bool Lia Permutation.
From Verif Require Import Base RouteSpec KeyMask RangeModel.
Import ListNotations.
Local Open Scope Z_scope.

(** A 32-bit entry. *)
Definition entry32 (e : entry) : Prop :=
  entry_ok e /\ (e_key e < 2 ^ 32)%N /\ (e_mask e < 2 ^ 32)%N.

Definition keyz (e : entry) : Z := Z.of_N (N.land (e_key e) (e_mask e)).
Definition endz (e : entry) : Z :=
  Z.land (Z.lor (Z.of_N (e_key e)) (Z.lnot (Z.of_N (e_mask e)))) 4294967295.

(** * Bits *)
Lemma ones32 : 4294967295 = Z.ones 32.
Proof. reflexivity. Qed.

Lemma matches_Z k e : entry_matches k e <-> Z.land (Z.of_N k) (Z.of_N (e_mask e)) = Z.of_N (e_key e).
Proof.
  unfold entry_matches, key_matches. rewrite <- Z_of_N_land. lia.
Qed.

Lemma land_ones_small k n : 0 <= k < 2 ^ n -> 0 <= n -> Z.land k (Z.ones n) = k.
Proof. intros Hk Hn. rewrite Z.land_ones by lia. now apply Z.mod_small. Qed.

Lemma endz_bounds e : entry32 e -> 0 <= endz e < 2 ^ 32.
Proof.
  intros _. unfold endz. rewrite ones32, Z.land_ones by lia.
  apply Z.mod_pos_bound. reflexivity.
Qed.

Lemma keyz_eq e : entry32 e -> keyz e = Z.of_N (e_key e).
Proof. intros (H & _). unfold keyz. now rewrite H. Qed.

Lemma match_bounds e k :
  entry32 e -> (k < 2 ^ 32)%N -> entry_matches k e -> keyz e <= Z.of_N k <= endz e.
Proof.
  intros E Hk M. pose proof (keyz_eq e E) as EK. pose proof (endz_bounds e E) as HB.
  rewrite matches_Z in M. rewrite EK. split.
  - rewrite <- M. apply Z.ldiff_le; [lia|].
    apply Z.bits_inj'. intros n Hn. rewrite Z.ldiff_spec, Z.land_spec, Z.bits_0.
    destruct (Z.testbit (Z.of_N k) n), (Z.testbit (Z.of_N (e_mask e)) n); reflexivity.
  - apply Z.ldiff_le; [lia|].
    apply Z.bits_inj'. intros n Hn. rewrite Z.ldiff_spec, Z.bits_0. unfold endz.
    rewrite Z.land_spec, Z.lor_spec, Z.lnot_spec by assumption.
    assert (Hb : Z.testbit (Z.of_N k) n = Z.testbit (Z.of_N k) n && Z.testbit 4294967295 n).
    { rewrite <- Z.land_spec, ones32, land_ones_small; [reflexivity| |lia].
      split; [lia|]. change (2 ^ 32) with (Z.of_N (2 ^ 32)). lia. }
    assert (Hm : Z.testbit (Z.of_N (e_key e)) n
                 = Z.testbit (Z.of_N k) n && Z.testbit (Z.of_N (e_mask e)) n)
      by (rewrite <- M, Z.land_spec; reflexivity).
    rewrite Hm. revert Hb.
    destruct (Z.testbit (Z.of_N k) n), (Z.testbit (Z.of_N (e_mask e)) n),
      (Z.testbit 4294967295 n); simpl; congruence.
Qed.

Lemma key_le_end e : entry32 e -> keyz e <= endz e.
Proof.
  intros E. assert (keyz e <= Z.of_N (e_key e) <= endz e); [|lia].
  apply match_bounds; auto; [apply E|]. destruct E as (H & _). exact H.
Qed.

(** The mask [2^32 - 2^j] rounds down to a multiple of [2^j]. *)
Lemma land_block_mask k j :
  0 <= k < 2 ^ 32 -> 0 <= j <= 32 -> Z.land k (2 ^ 32 - 2 ^ j) = k / 2 ^ j * 2 ^ j.
Proof.
  intros Hk Hj.
  rewrite <- Z.shiftr_div_pow2, <- Z.shiftl_mul_pow2 by lia.
  replace (2 ^ 32 - 2 ^ j) with (Z.shiftl (Z.ones (32 - j)) j).
  2:{ rewrite Z.shiftl_mul_pow2, Z.ones_equiv by lia.
      replace 32 with ((32 - j) + j) at 2 by lia. rewrite Z.pow_add_r by lia. nia. }
  apply Z.bits_inj'. intros n Hn.
  rewrite Z.land_spec, !Z.shiftl_spec by assumption.
  destruct (Z.ltb_spec n j).
  - rewrite (Z.testbit_neg_r (Z.ones _)) by lia.
    rewrite (Z.testbit_neg_r (Z.shiftr k j)) by lia. apply andb_false_r.
  - rewrite Z.shiftr_spec by lia. replace (n - j + j) with n by lia.
    destruct (Z.ltb_spec n 32).
    + rewrite Z.ones_spec_low by lia. apply andb_true_r.
    + rewrite Z.ones_spec_high by lia. rewrite andb_false_r.
      symmetry. destruct (Z.eq_dec k 0) as [->|]; [apply Z.bits_0|].
      apply Z.bits_above_log2; [lia|].
      assert (Z.log2 k < 32) by (apply Z.log2_lt_pow2; lia). lia.
Qed.

(** * Indexed views of the table *)
Definition Kf (es : list entry) (i : Z) : Z :=
  match nth_error es (Z.to_nat i) with Some e => keyz e | None => maxsize end.
Definition Ef (es : list entry) (i : Z) : Z :=
  if i <? 0 then 0 else match nth_error es (Z.to_nat i) with Some e => endz e | None => 0 end.

Notation zlen l := (Z.of_nat (length l)).

Lemma zget_nth es i : 0 <= i < zlen es ->
  exists e : entry, nth_error es (Z.to_nat i) = Some e /\ zget es i = Ok e.
Proof.
  intros H. destruct (nth_error es (Z.to_nat i)) as [e|] eqn:E.
  - exists e. split; [reflexivity|]. unfold zget.
    destruct (Z.ltb_spec i 0); [lia|]. now apply aget_Ok_iff.
  - apply nth_error_None in E. lia.
Qed.

Lemma get_key_Kf es i : 0 <= i <= zlen es -> get_key es i = Ok (Kf es i).
Proof.
  intros H. unfold get_key, Kf. destruct (Z.eqb_spec i (zlen es)) as [->|Hne].
  - rewrite Nat2Z.id. destruct (nth_error es (length es)) eqn:E; [|reflexivity].
    assert (nth_error es (length es) <> None) by congruence.
    apply nth_error_Some in H0. lia.
  - destruct (zget_nth es i) as (e & -> & ->); [lia|]. reflexivity.
Qed.

Lemma get_endpoint_Ef es i : i < zlen es -> get_endpoint es i = Ok (Ef es i).
Proof.
  intros H. unfold get_endpoint, Ef. destruct (Z.ltb_spec i 0); [reflexivity|].
  destruct (zget_nth es i) as (e & -> & ->); [lia|]. reflexivity.
Qed.

Definition valid (es : list entry) : Prop :=
  forall i, 0 <= i < zlen es -> Ef es i < Kf es (i + 1).

Lemma validate_spec es : forall n i,
  0 <= i -> i + Z.of_nat n = zlen es ->
  exists b, validate es i n = Ok b /\
    (b = true <-> forall j, i <= j < zlen es -> Ef es j < Kf es (j + 1)).
Proof.
  induction n as [|n IH]; intros i Hi Hl; simpl.
  - exists true. split; [reflexivity|]. split; [|reflexivity]. intros _ j Hj. lia.
  - rewrite get_endpoint_Ef by lia. cbn [bind].
    rewrite get_key_Kf by lia. cbn [bind].
    destruct (Z.geb_spec (Ef es i) (Kf es (i + 1))) as [Hge|Hlt].
    + exists false. split; [reflexivity|]. split; [discriminate|].
      intros H. specialize (H i). lia.
    + destruct (IH (i + 1)) as (b & E & Hb); [lia|lia|]. exists b. split; [assumption|].
      rewrite Hb. split.
      * intros H j Hj. destruct (Z.eq_dec j i) as [->|]; [lia|]. apply H. lia.
      * intros H j Hj. apply H. lia.
Qed.

Section WithTable.
  Variable es : list entry.
  Hypothesis E32 : Forall entry32 es.
  Hypothesis V : valid es.

  Lemma nth32 i e : nth_error es i = Some e -> entry32 e.
  Proof. intros H. rewrite Forall_forall in E32. apply E32. eapply nth_error_In; eauto. Qed.

  Lemma K_le_E i : 0 <= i < zlen es -> Kf es i <= Ef es i.
  Proof.
    intros H. destruct (zget_nth es i H) as (e & He & _). unfold Kf, Ef. rewrite He.
    destruct (Z.ltb_spec i 0); [lia|]. apply key_le_end. eapply nth32; eauto.
  Qed.

  Lemma K_bounds i : 0 <= i < zlen es -> 0 <= Kf es i < 2 ^ 32.
  Proof.
    intros H. destruct (zget_nth es i H) as (e & He & _). unfold Kf. rewrite He.
    apply nth32 in He. rewrite keyz_eq by assumption. destruct He as (_ & Hk & _).
    change (2 ^ 32) with (Z.of_N (2 ^ 32)). lia.
  Qed.

  Lemma E_bounds i : i < zlen es -> 0 <= Ef es i < 2 ^ 32.
  Proof.
    intros H. unfold Ef. destruct (Z.ltb_spec i 0); [lia|].
    destruct (zget_nth es i) as (e & He & _); [lia|]. rewrite He.
    apply endz_bounds. eapply nth32; eauto.
  Qed.

  Lemma E_lt_K : forall i j, 0 <= i < j -> j <= zlen es -> Ef es i < Kf es j.
  Proof.
    intros i j Hij Hj.
    assert (forall d : nat, i + 1 + Z.of_nat d <= zlen es -> Ef es i < Kf es (i + 1 + Z.of_nat d)).
    { induction d as [|d IH]; intros Hd.
      - rewrite Z.add_0_r. apply V. lia.
      - pose proof (K_le_E (i + 1 + Z.of_nat d)). pose proof (V (i + 1 + Z.of_nat d)).
        replace (i + 1 + Z.of_nat (S d)) with (i + 1 + Z.of_nat d + 1) by lia. lia. }
    specialize (H (Z.to_nat (j - i - 1))).
    replace (i + 1 + Z.of_nat (Z.to_nat (j - i - 1))) with j in H by lia. lia.
  Qed.

  Lemma E_mono i j : 0 <= i <= j -> j < zlen es -> Ef es i <= Ef es j.
  Proof.
    intros H1 H2. destruct (Z.eq_dec i j) as [->|]; [lia|].
    pose proof (E_lt_K i j). pose proof (K_le_E j). lia.
  Qed.

  Lemma Epre_lt i : 0 <= i < zlen es -> Ef es (i - 1) < Kf es i \/ (i = 0 /\ Ef es (i - 1) = 0).
  Proof.
    intros H. destruct (Z.eq_dec i 0) as [->|].
    - right. split; reflexivity.
    - left. replace i with (i - 1 + 1) at 2 by lia. apply V. lia.
  Qed.

  Lemma Epre_lt_succ i : 0 <= i < zlen es -> Ef es (i - 1) < Kf es i + 1.
  Proof. intros H. pose proof (K_bounds i H). destruct (Epre_lt i H); lia. Qed.

  (** ** The loops *)
  Lemma log2_pow2' j : 0 <= j -> Z.log2 (2 ^ j) = j.
  Proof. intros. now apply Z.log2_pow2. Qed.

  Lemma shrink_spec : forall (j : nat) fp pre post fuel,
    (j < fuel)%nat -> 0 <= fp -> fp < post -> pre <= fp ->
    exists j', shrink fuel fp pre post (2 ^ Z.of_nat j) = Ok (2 ^ Z.of_nat j') /\
      (j' <= j)%nat /\
      fp / 2 ^ Z.of_nat j' * 2 ^ Z.of_nat j' + 2 ^ Z.of_nat j' <= post /\
      pre <= fp / 2 ^ Z.of_nat j' * 2 ^ Z.of_nat j' /\
      (forall s, (s <= j)%nat ->
         pre <= fp / 2 ^ Z.of_nat s * 2 ^ Z.of_nat s ->
         fp / 2 ^ Z.of_nat s * 2 ^ Z.of_nat s + 2 ^ Z.of_nat s <= post ->
         (s <= j')%nat).
  Proof.
    induction j as [|j IH]; intros fp pre post fuel Hf H0 Hp Hpre;
      (destruct fuel as [|fuel]; [lia|]); cbn [shrink]; unfold low_cut_of.
    - change (2 ^ Z.of_nat 0) with 1. simpl (1 <? 1). cbn [andb].
      exists O. split; [reflexivity|]. split; [lia|].
      change (2 ^ Z.of_nat 0) with 1. rewrite Z.div_1_r. split; [lia|]. split; [lia|]. intros; lia.
    - assert (Hpow : 2 ^ Z.of_nat (S j) = 2 * 2 ^ Z.of_nat j).
      { rewrite Nat2Z.inj_succ, Z.pow_succ_r by lia. reflexivity. }
      assert (Hpos : 0 < 2 ^ Z.of_nat j) by (apply Z.pow_pos_nonneg; lia).
      assert (H1 : (1 <? 2 ^ Z.of_nat (S j)) = true) by (apply Z.ltb_lt; lia).
      rewrite H1. cbn [andb].
      set (P := 2 ^ Z.of_nat (S j)) in *.
      destruct ((fp / P * P <? pre) || (post <? fp / P * P + P)) eqn:C.
      + replace (Z.shiftr P 1) with (2 ^ Z.of_nat j)
          by (rewrite Z.shiftr_div_pow2, Hpow by lia;
              rewrite Z.mul_comm; symmetry; apply Z.div_mul; lia).
        destruct (IH fp pre post fuel) as (j' & E & L & B & B' & S1); try lia.
        exists j'. split; [assumption|]. split; [lia|]. split; [assumption|].
        split; [assumption|]. intros s Hs Hs1 Hs2.
        destruct (Nat.eq_dec s (S j)) as [->|].
        * exfalso. fold P in Hs1, Hs2. apply orb_true_iff in C.
          rewrite !Z.ltb_lt in C. lia.
        * apply S1; auto. lia.
      + exists (S j). split; [reflexivity|]. split; [lia|].
        apply orb_false_iff in C. rewrite !Z.ltb_ge in C. fold P.
        split; [lia|]. split; [lia|]. intros; lia.
  Qed.

  Lemma reduce_spec : forall fuel high last first,
    0 <= first -> first - 1 <= last < zlen es -> Ef es (first - 1) < high ->
    last - (first - 1) < Z.of_nat fuel ->
    exists last', reduce_last fuel es high last (Ef es last) = Ok last' /\
      first - 1 <= last' <= last /\ Ef es last' < high /\
      (forall j, last' < j <= last -> high <= Ef es j).
  Proof.
    induction fuel as [|fuel IH]; intros high last first H0 Hl Hp Hf; [lia|].
    cbn [reduce_last]. destruct (Z.leb_spec high (Ef es last)).
    - rewrite get_endpoint_Ef by lia. cbn [bind].
      assert (last <> first - 1) by (intros ->; lia).
      destruct (IH high (last - 1) first) as (l' & E & B1 & B2 & B3); try lia.
      exists l'. split; [assumption|]. split; [lia|]. split; [assumption|].
      intros j Hj. destruct (Z.eq_dec j last) as [->|]; [assumption|]. apply B3. lia.
    - exists last. split; [reflexivity|]. split; [lia|]. split; [assumption|].
      intros; lia.
  Qed.

  (** ** Power computation *)
  Lemma first_power_spec d : 1 <= d -> d < 2 ^ 32 ->
    exists j : nat, first_power d = 2 ^ Z.of_nat j /\ d <= 2 ^ Z.of_nat j /\ (j <= 32)%nat.
  Proof.
    intros H1 H2. unfold first_power, bit_length.
    destruct (Z.ltb_spec d 1); [lia|].
    destruct (Z.leb_spec (d - 1) 0).
    - exists O. split; [reflexivity|]. simpl. lia.
    - assert (L0 : 0 <= Z.log2 (d - 1)) by apply Z.log2_nonneg.
      exists (Z.to_nat (Z.log2 (d - 1) + 1)).
      rewrite Z2Nat.id by lia. rewrite Z.shiftl_mul_pow2, Z.mul_1_l by lia.
      split; [reflexivity|].
      assert (Z.log2 (d - 1) < 32) by (apply Z.log2_lt_pow2; lia).
      pose proof (Z.log2_spec (d - 1)) as LS.
      split; [|lia]. unfold Z.succ in LS. lia.
  Qed.

  Definition block_power (first last : Z) : Z :=
    let fp := Kf es first in
    let lp := Ef es last in
    let power0 := first_power (lp - fp) in
    if low_cut_of fp power0 + power0 <? lp then Z.shiftl power0 1 else power0.

  Lemma block_power_spec first last : 0 <= first < last -> last < zlen es ->
    exists j : nat, block_power first last = 2 ^ Z.of_nat j /\
      Ef es last - Kf es first <= 2 ^ Z.of_nat j /\ (j <= 32)%nat.
  Proof.
    intros H1 H2. unfold block_power.
    pose proof (K_bounds first). pose proof (E_bounds last).
    pose proof (E_lt_K first last). pose proof (K_le_E first). pose proof (K_le_E last).
    destruct (first_power_spec (Ef es last - Kf es first)) as (j & E & L & B); try lia.
    rewrite E. unfold low_cut_of.
    destruct (Z.ltb_spec (Kf es first / 2 ^ Z.of_nat j * 2 ^ Z.of_nat j + 2 ^ Z.of_nat j)
                (Ef es last)).
    - exists (S j). rewrite Z.shiftl_mul_pow2 by lia.
      rewrite Nat2Z.inj_succ, Z.pow_succ_r by lia.
      split; [ring|]. split; [lia|].
      destruct (Nat.eq_dec j 32) as [->|]; [|lia]. exfalso.
      rewrite Z.div_small in H6 by (change (Z.of_nat 32) with 32; lia).
      change (Z.of_nat 32) with 32 in H6. lia.
    - exists j. auto.
  Qed.

  (** ** The emitted block entry *)
  Definition block_entry (low : Z) (j : nat) (r : N) : entry :=
    mkEntry (Z.to_N low) (Z.to_N (2 ^ 32 - 2 ^ Z.of_nat j)) r false.

  Lemma block_entry_matches low j r k :
    (j <= 32)%nat -> 0 <= low -> (k < 2 ^ 32)%N ->
    (entry_matches k (block_entry low j r) <->
     Z.of_N k / 2 ^ Z.of_nat j * 2 ^ Z.of_nat j = low).
  Proof.
    intros Hj Hlow Hk. rewrite matches_Z. unfold block_entry; cbn [e_mask e_key].
    assert (0 < 2 ^ Z.of_nat j <= 2 ^ 32).
    { split; [apply Z.pow_pos_nonneg; lia|]. apply Z.pow_le_mono_r; lia. }
    rewrite !Z2N.id by lia.
    rewrite land_block_mask; [reflexivity| |lia].
    change (2 ^ 32) with (Z.of_N (2 ^ 32)). lia.
  Qed.

  Lemma floor_iff k low p : 0 < p -> (exists q, low = q * p) ->
    (k / p * p = low <-> low <= k < low + p).
  Proof.
    intros Hp (q & ->). split.
    - intros H. apply Z.mul_reg_r in H; [|lia]. subst q.
      pose proof (Z.mul_div_le k p). pose proof (Z.mul_succ_div_gt k p). lia.
    - intros H. f_equal. symmetry. apply Z.div_unique with (k - q * p); lia.
  Qed.

  Lemma block_entry_range low j r k :
    (j <= 32)%nat -> 0 <= low -> (exists q, low = q * 2 ^ Z.of_nat j) -> (k < 2 ^ 32)%N ->
    (entry_matches k (block_entry low j r) <-> low <= Z.of_N k < low + 2 ^ Z.of_nat j).
  Proof.
    intros. rewrite block_entry_matches by assumption. apply floor_iff; auto.
    apply Z.pow_pos_nonneg; lia.
  Qed.

  Lemma block_entry_ok low j r :
    (j <= 32)%nat -> 0 <= low < 2 ^ 32 -> (exists q, low = q * 2 ^ Z.of_nat j) ->
    entry_ok (block_entry low j r).
  Proof.
    intros Hj Hlow Hq.
    assert (H : entry_matches (Z.to_N low) (block_entry low j r)).
    { assert (0 < 2 ^ Z.of_nat j) by (apply Z.pow_pos_nonneg; lia).
      apply block_entry_range; auto; try lia. }
    exact H.
  Qed.

  (** One iteration of the loop of [_merge_range]. *)
  Lemma merge_range_step_all first last :
    0 <= first < last -> last < zlen es ->
    exists (j : nat) last' e,
      nth_error es (Z.to_nat first) = Some e /\
      (let low := Kf es first / 2 ^ Z.of_nat j * 2 ^ Z.of_nat j in
      (j <= 32)%nat /\
      low + 2 ^ Z.of_nat j <= Kf es (last + 1) /\
      Ef es (first - 1) <= low /\
      first - 1 <= last' <= last /\ Ef es last' < low + 2 ^ Z.of_nat j /\
      (forall i, last' < i <= last -> low + 2 ^ Z.of_nat j <= Ef es i) /\
      (forall s : nat, (exists q, Kf es first = q * 2 ^ Z.of_nat s) ->
          Kf es first + 2 ^ Z.of_nat s <= Ef es first + 1 -> (s <= j)%nat) /\
      forall fuel, merge_range (S fuel) es first last =
        if last =? last' then Ok [block_entry low j (e_route e)]
        else let* more := merge_range fuel es (last' + 1) last in
             Ok (block_entry low j (e_route e) :: more)).
  Proof.
    intros H1 H2.
    destruct (block_power_spec first last H1 H2) as (j0 & EB & L0 & B0).
    pose proof (K_bounds first) as KB. pose proof (K_le_E first) as KE.
    pose proof (E_lt_K first (last + 1)) as EK.
    assert (EP : Ef es (first - 1) <= Kf es first) by (destruct (Epre_lt first) as [?|[? E0]]; lia).
    destruct (shrink_spec j0 (Kf es first) (Ef es (first - 1)) (Kf es (last + 1)) (S j0))
      as (j & ES & Lj & B & B' & SZ); try lia.
    set (p := 2 ^ Z.of_nat j) in *.
    assert (Hp : 0 < p) by (apply Z.pow_pos_nonneg; lia).
    set (low := Kf es first / p * p) in *.
    assert (Hlow : low <= Kf es first < low + p).
    { unfold low. pose proof (Z.mul_div_le (Kf es first) p).
      pose proof (Z.mul_succ_div_gt (Kf es first) p). lia. }
    pose proof (Epre_lt_succ first) as EPL.
    destruct (reduce_spec (S (Z.to_nat (last + 2))) (low + p) last first)
      as (last' & ER & R1 & R2 & R3); try lia.
    destruct (zget_nth es first) as (e & He & Ez); [lia|].
    exists j, last', e. split; [assumption|]. cbv zeta. fold p. fold low.
    split; [lia|]. split; [assumption|]. split; [assumption|]. split; [assumption|].
    split; [assumption|]. split; [assumption|].
    split.
    - intros s (q & Hq) Hs.
      assert (Hps : 0 < 2 ^ Z.of_nat s) by (apply Z.pow_pos_nonneg; lia).
      assert (Hfl : Kf es first / 2 ^ Z.of_nat s * 2 ^ Z.of_nat s = Kf es first).
      { rewrite Hq, Z.div_mul by lia. reflexivity. }
      apply SZ.
      + (* s <= j0: the initial power is at least the first block *)
        pose proof (E_lt_K first last). pose proof (K_le_E last).
        assert (HH : 2 ^ Z.of_nat s <= 2 ^ Z.of_nat j0) by lia.
        apply Z.pow_le_mono_r_iff in HH; lia.
      + rewrite Hfl. destruct (Epre_lt first) as [?|[? E0]]; lia.
      + rewrite Hfl. lia.
    - intros fuel. cbn [merge_range].
      destruct (Z.eqb_spec first last); [lia|].
      rewrite get_key_Kf by lia. cbn [bind].
      rewrite get_endpoint_Ef by lia. cbn [bind].
      rewrite get_endpoint_Ef by lia. cbn [bind].
      rewrite get_key_Kf by lia. cbn [bind].
      change (if low_cut_of (Kf es first) (first_power (Ef es last - Kf es first)) +
                   first_power (Ef es last - Kf es first) <? Ef es last
              then Z.shiftl (first_power (Ef es last - Kf es first)) 1
              else first_power (Ef es last - Kf es first))
        with (block_power first last).
      rewrite EB, Z.log2_pow2, Nat2Z.id by lia.
      rewrite ES. cbn [bind]. unfold low_cut_of. fold p. fold low.
      rewrite ER. cbn [bind]. rewrite Ez. cbn [bind]. reflexivity.
  Qed.

  Lemma merge_range_step fuel first last :
    0 <= first < last -> last < zlen es ->
    exists (j : nat) last' e,
      nth_error es (Z.to_nat first) = Some e /\
      (let low := Kf es first / 2 ^ Z.of_nat j * 2 ^ Z.of_nat j in
      (j <= 32)%nat /\
      low + 2 ^ Z.of_nat j <= Kf es (last + 1) /\
      Ef es (first - 1) <= low /\
      first - 1 <= last' <= last /\ Ef es last' < low + 2 ^ Z.of_nat j /\
      (forall i, last' < i <= last -> low + 2 ^ Z.of_nat j <= Ef es i) /\
      (forall s : nat, (exists q, Kf es first = q * 2 ^ Z.of_nat s) ->
          Kf es first + 2 ^ Z.of_nat s <= Ef es first + 1 -> (s <= j)%nat) /\
      merge_range (S fuel) es first last =
        if last =? last' then Ok [block_entry low j (e_route e)]
        else let* more := merge_range fuel es (last' + 1) last in
             Ok (block_entry low j (e_route e) :: more)).
  Proof.
    intros H1 H2. destruct (merge_range_step_all first last H1 H2)
      as (j & last' & e & He & S1 & S2 & S2b & S3 & S4 & S5 & S6 & S7).
    exists j, last', e. split; [assumption|]. cbv zeta. auto 10.
  Qed.

  (** Soundness of a merge, for arbitrary masks. *)
  Lemma merge_range_sound : forall fuel first last out r,
    0 <= first <= last -> last < zlen es ->
    (forall i e, first <= i <= last -> nth_error es (Z.to_nat i) = Some e -> e_route e = r) ->
    merge_range fuel es first last = Ok out ->
    (forall i e k, first <= i <= last -> nth_error es (Z.to_nat i) = Some e ->
       (k < 2 ^ 32)%N -> entry_matches k e -> exists o, In o out /\ entry_matches k o) /\
    (forall o, In o out -> e_route o = r /\ entry_ok o /\
       forall k, (k < 2 ^ 32)%N -> entry_matches k o ->
       Ef es (first - 1) <= Z.of_N k < Kf es (last + 1)).
  Proof.
    induction fuel as [|fuel IH]; intros first last out r H1 H2 Hr Hm; [discriminate|].
    destruct (Z.eq_dec first last) as [->|Hne].
    - cbn [merge_range] in Hm. rewrite Z.eqb_refl in Hm.
      destruct (zget_nth es last) as (e & He & Hz); [lia|].
      rewrite Hz in Hm. cbn [bind] in Hm. injection Hm as <-. split.
      + intros i e' k Hi He' Hk M. replace i with last in He' by lia.
        exists e'. split; [|assumption]. left. congruence.
      + intros o [<-|[]]. split; [eapply Hr; eauto; lia|].
        split; [apply nth32 in He; apply He|].
        intros k Hk M. pose proof (match_bounds e k (nth32 _ _ He) Hk M).
        assert (EKl : Kf es last = keyz e) by (unfold Kf; now rewrite He).
        assert (EEl : Ef es last = endz e).
        { unfold Ef. rewrite He. destruct (Z.ltb_spec last 0); [lia|reflexivity]. }
        pose proof (V last). destruct (Epre_lt last) as [?|[? E0]]; lia.
    - destruct (merge_range_step fuel first last) as (j & last' & e & He & S1 & S2 & S2b & S3 & S4 & S5 & S6 & S7);
        try lia.
      rewrite S7 in Hm. clear S7.
      set (p := 2 ^ Z.of_nat j) in *.
      assert (Hp : 0 < p) by (apply Z.pow_pos_nonneg; lia).
      set (low := Kf es first / p * p) in *.
      pose proof (K_bounds first) as KB.
      assert (Hlow : low <= Kf es first < low + p).
      { unfold low. pose proof (Z.mul_div_le (Kf es first) p).
        pose proof (Z.mul_succ_div_gt (Kf es first) p). lia. }
      assert (Hlow0 : 0 <= low).
      { unfold low. apply Z.mul_nonneg_nonneg; [|lia]. apply Z.div_pos; lia. }
      assert (Hq : exists q, low = q * 2 ^ Z.of_nat j) by (exists (Kf es first / p); reflexivity).
      set (b := block_entry low j (e_route e)) in *.
      assert (Hre : e_route e = r) by (eapply Hr; eauto; lia).
      assert (Cov : forall i e' k, first <= i <= last' -> nth_error es (Z.to_nat i) = Some e' ->
                (k < 2 ^ 32)%N -> entry_matches k e' -> entry_matches k b).
      { intros i e' k Hi He' Hk M. apply block_entry_range; auto. fold p.
        pose proof (match_bounds e' k (nth32 _ _ He') Hk M).
        assert (Kf es i = keyz e') by (unfold Kf; now rewrite He').
        assert (Ef es i = endz e').
        { unfold Ef. rewrite He'. destruct (Z.ltb_spec i 0); [lia|reflexivity]. }
        pose proof (E_mono i last').
        assert (Kf es first <= Kf es i).
        { destruct (Z.eq_dec i first) as [->|]; [lia|].
          pose proof (E_lt_K first i). pose proof (K_le_E first). lia. }
        lia. }
      assert (Bb : e_route b = r /\ entry_ok b /\
         forall k, (k < 2 ^ 32)%N -> entry_matches k b ->
         Ef es (first - 1) <= Z.of_N k < Kf es (last + 1)).
      { split; [assumption|]. split.
        - apply block_entry_ok; auto. lia.
        - intros k Hk M. apply block_entry_range in M; auto. fold p in M. lia. }
      destruct (Z.eqb_spec last last') as [El|Hnl].
      + injection Hm as <-. split.
        * intros i e' k Hi He' Hk M. exists b. split; [now left|].
          eapply Cov; eauto. lia.
        * intros o [<-|[]]. exact Bb.
      + destruct (bind_Ok_inv _ _ _ Hm) as (more & Hmore & Eo). injection Eo as <-.
        destruct (IH (last' + 1) last more r) as [C1 C2]; try lia; auto.
        { intros i e' Hi He'. eapply Hr; eauto. lia. }
        split.
        * intros i e' k Hi He' Hk M. destruct (Z.leb_spec i last').
          -- exists b. split; [now left|]. eapply Cov; eauto. lia.
          -- destruct (C1 i e' k) as (o & Ho & Mo); auto; try lia.
             exists o. split; [now right|assumption].
        * intros o [<-|Ho]; [exact Bb|]. destruct (C2 o Ho) as (R1 & R2 & R3).
          split; [assumption|]. split; [assumption|]. intros k Hk M. specialize (R3 k Hk M).
          replace (last' + 1 - 1) with last' in R3 by lia.
          assert (Ef es (first - 1) <= Ef es last'); [|lia].
          destruct (Z.eq_dec first 0) as [->|]; [|apply E_mono; lia].
          change (Ef es (0 - 1)) with 0. apply E_bounds. lia.
  Qed.

  (** Termination for contiguous masks. *)
  Definition block_mask (e : entry) : Prop :=
    exists s : nat, (s <= 32)%nat /\ Z.of_N (e_mask e) = 2 ^ 32 - 2 ^ Z.of_nat s.

  Lemma merge_range_terminates : forall fuel first last,
    Forall block_mask es ->
    0 <= first <= last -> last < zlen es -> last - first < Z.of_nat fuel ->
    exists out, merge_range fuel es first last = Ok out /\
      Z.of_nat (length out) <= last - first + 1.
  Proof.
    induction fuel as [|fuel IH]; intros first last BM H1 H2 Hf; [lia|].
    destruct (Z.eq_dec first last) as [->|Hne].
    - cbn [merge_range]. rewrite Z.eqb_refl.
      destruct (zget_nth es last) as (e & He & ->); [lia|]. cbn [bind].
      eexists; split; [reflexivity|]. simpl; lia.
    - destruct (merge_range_step fuel first last) as (j & last' & e & He & S1 & S2 & S2b & S3 & S4 & S5 & S6 & S7);
        try lia.
      rewrite S7. clear S7.
      set (p := 2 ^ Z.of_nat j) in *.
      assert (Hp : 0 < p) by (apply Z.pow_pos_nonneg; lia).
      set (low := Kf es first / p * p) in *.
      destruct (Z.eqb_spec last last') as [El|Hnl].
      { eexists; split; [reflexivity|]. simpl; lia. }
      assert (Hprog : first <= last').
      { destruct (Z.leb_spec first last'); [assumption|exfalso].
        assert (El' : last' = first - 1) by lia. subst last'.
        pose proof (S5 first) as S5'.
        assert (BMe : block_mask e).
        { rewrite Forall_forall in BM. apply BM. eapply nth_error_In; eauto. }
        destruct BMe as (s & Hs & Hmask).
        assert (Hps : 0 < 2 ^ Z.of_nat s <= 2 ^ 32).
        { split; [apply Z.pow_pos_nonneg; lia|]. apply Z.pow_le_mono_r; lia. }
        pose proof (nth32 _ _ He) as E3.
        assert (EK : Kf es first = Z.of_N (e_key e)).
        { unfold Kf. rewrite He. now apply keyz_eq. }
        assert (Hk32 : 0 <= Z.of_N (e_key e) < 2 ^ 32).
        { destruct E3 as (_ & Hk & _). change (2 ^ 32) with (Z.of_N (2 ^ 32)). lia. }
        assert (HA : Kf es first = Kf es first / 2 ^ Z.of_nat s * 2 ^ Z.of_nat s).
        { rewrite EK. rewrite <- land_block_mask by lia. rewrite <- Hmask.
          destruct E3 as (Ok1 & _). apply (matches_Z (e_key e) e) in Ok1. now symmetry. }
        assert (HE : Ef es first = Kf es first + 2 ^ Z.of_nat s - 1).
        { unfold Ef. destruct (Z.ltb_spec first 0); [lia|]. rewrite He.
          rewrite EK. unfold endz.
          assert (HM : Z.lnot (Z.of_N (e_mask e)) = 2 ^ Z.of_nat s - 1 - 2 ^ 32).
          { rewrite Hmask. unfold Z.lnot. lia. }
          (* key | ~mask, below 2^32 *)
          assert (X : Z.land (Z.lor (Z.of_N (e_key e)) (Z.lnot (Z.of_N (e_mask e)))) 4294967295
                      = Z.lor (Z.of_N (e_key e)) (Z.ones (Z.of_nat s))).
          { rewrite ones32. rewrite <- (land_ones_small (Z.of_N (e_key e)) 32) at 2 by lia.
            apply Z.bits_inj'. intros n Hn.
            rewrite Z.land_spec, !Z.lor_spec, Z.land_spec, Z.lnot_spec by assumption.
            rewrite Hmask.
            replace (2 ^ 32 - 2 ^ Z.of_nat s) with (Z.shiftl (Z.ones (32 - Z.of_nat s)) (Z.of_nat s)).
            2:{ rewrite Z.shiftl_mul_pow2, Z.ones_equiv by lia.
                replace 32 with ((32 - Z.of_nat s) + Z.of_nat s) at 2 by lia.
                rewrite Z.pow_add_r by lia. nia. }
            rewrite Z.shiftl_spec by assumption.
            destruct (Z.ltb_spec n (Z.of_nat s)).
            - rewrite (Z.testbit_neg_r (Z.ones (32 - Z.of_nat s))) by lia.
              rewrite (Z.ones_spec_low (Z.of_nat s)) by lia.
              rewrite (Z.ones_spec_low 32) by lia. rewrite !orb_true_r. reflexivity.
            - rewrite (Z.ones_spec_high (Z.of_nat s)) by lia. rewrite orb_false_r.
              destruct (Z.ltb_spec n 32).
              + rewrite (Z.ones_spec_low (32 - Z.of_nat s)) by lia. simpl.
                now rewrite orb_false_r.
              + rewrite (Z.ones_spec_high 32) by lia. now rewrite !andb_false_r. }
          rewrite X.
          rewrite <- Z.add_nocarry_lxor, Z.lxor_lor || idtac.
          assert (D : Z.land (Z.of_N (e_key e)) (Z.ones (Z.of_nat s)) = 0).
          { rewrite Z.land_ones by lia. rewrite <- EK, HA.
            apply Z.mod_mul. lia. }
          rewrite <- Z.lxor_lor by assumption.
          rewrite <- Z.add_nocarry_lxor by assumption.
          rewrite Z.ones_equiv. lia. }
        assert (s <= j)%nat.
        { apply S6; [eexists; exact HA|lia]. }
        (* p is a multiple of the first block, so the whole block is below low+p *)
        assert (HP : p = 2 ^ Z.of_nat (j - s) * 2 ^ Z.of_nat s).
        { unfold p. rewrite <- Z.pow_add_r by lia. f_equal. lia. }
        assert (Hlt : Kf es first < low + p).
        { unfold low. pose proof (Z.mul_succ_div_gt (Kf es first) p). lia. }
        assert (Kf es first + 2 ^ Z.of_nat s <= low + p).
        { set (S2' := 2 ^ Z.of_nat s) in *. set (m := 2 ^ Z.of_nat (j - s)) in *.
          assert (Lq : low + p = ((Kf es first / p + 1) * m) * S2').
          { unfold low. rewrite HP at 2 3. ring. }
          rewrite Lq in Hlt |- *.
          remember (Kf es first / S2') as qa. remember ((Kf es first / p + 1) * m) as qb.
          clear - Hlt HA Hps. rewrite HA in Hlt |- *.
          apply Z.mul_lt_mono_pos_r in Hlt; [|lia].
          replace (qa * S2' + S2') with ((qa + 1) * S2') by ring.
          apply Z.mul_le_mono_nonneg_r; lia. }
        lia. }
      destruct (IH (last' + 1) last BM) as (more & -> & Lm); try lia.
      cbn [bind]. eexists; split; [reflexivity|]. simpl length. lia.
  Qed.

  (** ** All runs *)
  Lemma ranges_sound : forall fuel todo pre first route out,
    es = pre ++ todo ->
    0 <= first <= zlen pre ->
    (first = zlen pre -> exists e t, todo = e :: t /\ e_route e = route) ->
    (forall i e, first <= i < zlen pre -> nth_error es (Z.to_nat i) = Some e -> e_route e = route) ->
    ranges fuel es todo (zlen pre) first route = Ok out ->
    (forall i e k, first <= i < zlen es -> nth_error es (Z.to_nat i) = Some e ->
       (k < 2 ^ 32)%N -> entry_matches k e -> routes_to out k (e_route e)) /\
    Forall entry_ok out /\
    (forall o k, In o out -> (k < 2 ^ 32)%N -> entry_matches k o -> Ef es (first - 1) <= Z.of_N k) /\
    (forall o i e k, In o out -> first <= i < zlen es -> nth_error es (Z.to_nat i) = Some e ->
       (k < 2 ^ 32)%N -> entry_matches k e -> entry_matches k o ->
       e_route o = e_route e \/ Z.of_N k = endz e).
  Proof.
    induction todo as [|x todo IH]; intros pre first route out Ees Hf Hfe Hr Hm.
    - simpl in Hm. rewrite app_nil_r in Ees. subst pre.
      assert (first <> zlen es) by (intros C; destruct (Hfe C) as (e & t & D & _); discriminate).
      destruct (merge_range_sound fuel first (zlen es - 1) out route) as [C1 C2]; try lia; auto.
      { intros i e Hi. apply Hr. lia. }
      split.
      + intros i e k Hi He Hk M.
        destruct (C1 i e k) as (o & Ho & Mo); auto; try lia.
        destruct (first_match_exists out k o Ho Mo) as (o' & Fo).
        exists o'. split; [assumption|].
        apply first_match_Some in Fo. destruct (C2 o') as [-> _]; [tauto|].
        symmetry. eapply Hr; [|eassumption]; lia.
      + split; [|split].
        * apply Forall_forall. intros o Ho. now apply C2.
        * intros o k Ho Hk M. now apply C2 in M.
        * intros o i e k Ho Hi He Hk _ _. left. destruct (C2 o Ho) as [-> _].
          symmetry. eapply Hr; [|eassumption]; lia.
    - cbn [ranges] in Hm.
      assert (Ees2 : es = (pre ++ [x]) ++ todo) by (rewrite <- app_assoc; exact Ees).
      assert (Lp : zlen (pre ++ [x]) = zlen pre + 1) by (rewrite app_length; simpl; lia).
      assert (Hx : nth_error es (Z.to_nat (zlen pre)) = Some x).
      { rewrite Ees, Nat2Z.id, nth_error_app2 by lia. rewrite Nat.sub_diag. reflexivity. }
      assert (Ln : zlen es = zlen pre + 1 + zlen todo).
      { rewrite Ees, app_length. simpl. lia. }
      destruct (N.eqb_spec (e_route x) route) as [Ex|Nx].
      + rewrite <- Lp in Hm.
        destruct (IH (pre ++ [x]) first route out) as [C1 C2]; auto; try lia.
        intros i e Hi He. destruct (Z.eq_dec i (zlen pre)) as [->|].
        { rewrite Hx in He. injection He as <-. assumption. }
        eapply Hr; [|eassumption]; lia.
      + assert (first <> zlen pre).
        { intros C. destruct (Hfe C) as (e & t & D & R). injection D as <- <-. contradiction. }
        destruct (bind_Ok_inv _ _ _ Hm) as (a & Ha & Hm2).
        destruct (bind_Ok_inv _ _ _ Hm2) as (b & Hb & Eo). injection Eo as <-.
        destruct (merge_range_sound fuel first (zlen pre - 1) a route) as [C1 C2]; try lia; auto.
        { intros i e Hi. apply Hr. lia. }
        rewrite <- Lp in Hb.
        destruct (IH (pre ++ [x]) (zlen pre) (e_route x) b) as (D1 & D2 & D3 & D4); auto; try lia.
        { intros i e Hi He. replace i with (zlen pre) in He by lia. congruence. }
        split.
        * intros i e k Hi He Hk M. destruct (Z.ltb_spec i (zlen pre)).
          -- destruct (C1 i e k) as (o & Ho & Mo); auto; try lia.
             destruct (first_match_exists a k o Ho Mo) as (o' & Fo).
             exists o'. rewrite first_match_app, Fo. split; [reflexivity|].
             apply first_match_Some in Fo. destruct (C2 o') as [-> _]; [tauto|].
             symmetry. eapply Hr; [|eassumption]; lia.
          -- destruct (D1 i e k) as (o & Fo & Ro); auto; try lia.
             exists o. split; [|assumption]. rewrite first_match_app.
             replace (first_match a k) with (@None entry); [assumption|].
             symmetry. apply first_match_None. intros o' Ho' Mo'.
             destruct (C2 o' Ho') as (_ & _ & B). specialize (B k Hk Mo').
             replace (zlen pre - 1 + 1) with (zlen pre) in B by lia.
             pose proof (match_bounds e k (nth32 _ _ He) Hk M).
             assert (Kf es i = keyz e) by (unfold Kf; now rewrite He).
             assert (Kf es (zlen pre) <= Kf es i).
             { destruct (Z.eq_dec i (zlen pre)) as [->|]; [lia|].
               pose proof (E_lt_K (zlen pre) i). pose proof (K_le_E (zlen pre)). lia. }
             lia.
        * split; [|split].
          -- apply Forall_app. split; [|assumption]. apply Forall_forall. intros o Ho.
             now apply C2.
          -- intros o k Ho Hk M. apply in_app_or in Ho. destruct Ho as [Ho|Ho].
             ++ now apply C2 in M.
             ++ pose proof (D3 o k Ho Hk M).
                assert (Ef es (first - 1) <= Ef es (zlen pre - 1)); [|lia].
                destruct (Z.eq_dec first 0) as [->|]; [|apply E_mono; lia].
                change (Ef es (0 - 1)) with 0. apply E_bounds. lia.
          -- intros o i e k Ho Hi He Hk M Mo. apply in_app_or in Ho.
             pose proof (match_bounds e k (nth32 _ _ He) Hk M) as MB.
             assert (EKi : Kf es i = keyz e) by (unfold Kf; now rewrite He).
             assert (EEi : Ef es i = endz e).
             { unfold Ef. rewrite He. destruct (Z.ltb_spec i 0); [lia|reflexivity]. }
             destruct (Z.ltb_spec i (zlen pre)), Ho as [Ho|Ho].
             ++ left. destruct (C2 o Ho) as [-> _].
                symmetry. eapply Hr; [|eassumption]; lia.
             ++ right. pose proof (D3 o k Ho Hk Mo).
                pose proof (E_mono i (zlen pre - 1)). lia.
             ++ exfalso. destruct (C2 o Ho) as (_ & _ & B). specialize (B k Hk Mo).
                replace (zlen pre - 1 + 1) with (zlen pre) in B by lia.
                assert (Kf es (zlen pre) <= Kf es i); [|lia].
                destruct (Z.eq_dec i (zlen pre)) as [->|]; [lia|].
                pose proof (E_lt_K (zlen pre) i). pose proof (K_le_E (zlen pre)). lia.
             ++ eapply D4; eauto. lia.
  Qed.

  Lemma ranges_terminates : forall fuel todo pre first route,
    Forall block_mask es ->
    es = pre ++ todo -> (length es <= fuel)%nat ->
    0 <= first <= zlen pre ->
    (first = zlen pre -> exists e t, todo = e :: t /\ e_route e = route) ->
    exists out, ranges fuel es todo (zlen pre) first route = Ok out /\
      Z.of_nat (length out) <= zlen es - first.
  Proof.
    induction todo as [|x todo IH]; intros pre first route BM Ees Hfu Hf Hfe.
    - simpl. rewrite app_nil_r in Ees. subst pre.
      assert (first <> zlen es) by (intros C; destruct (Hfe C) as (e & t & D & _); discriminate).
      destruct (merge_range_terminates fuel first (zlen es - 1) BM) as (out & E & L); try lia.
      exists out. split; [assumption|lia].
    - cbn [ranges].
      assert (Ees2 : es = (pre ++ [x]) ++ todo) by (rewrite <- app_assoc; exact Ees).
      assert (Lp : zlen (pre ++ [x]) = zlen pre + 1) by (rewrite app_length; simpl; lia).
      assert (Ln : zlen es = zlen pre + 1 + zlen todo).
      { rewrite Ees, app_length. simpl. lia. }
      destruct (N.eqb_spec (e_route x) route) as [Ex|Nx].
      + rewrite <- Lp.
        destruct (IH (pre ++ [x]) first route BM) as (out & E & L); auto; try lia.
        exists out. auto.
      + assert (first <> zlen pre).
        { intros C. destruct (Hfe C) as (e & t & D & R). injection D as <- <-. contradiction. }
        destruct (merge_range_terminates fuel first (zlen pre - 1) BM) as (a & -> & La); try lia.
        cbn [bind]. rewrite <- Lp.
        destruct (IH (pre ++ [x]) (zlen pre) (e_route x) BM) as (b & -> & Lb); auto; try lia.
        cbn [bind]. eexists; split; [reflexivity|]. rewrite app_length. lia.
  Qed.
End WithTable.

(** * The whole compressor *)
Lemma insert_by_key_perm e l : Permutation (insert_by_key e l) (e :: l).
Proof.
  induction l as [|x l IH]; simpl; [reflexivity|].
  destruct (N.ltb (e_key e) (e_key x)); [reflexivity|].
  rewrite IH. apply perm_swap.
Qed.

Lemma sort_by_key_perm l : Permutation (sort_by_key l) l.
Proof.
  unfold sort_by_key.
  assert (H : forall l acc, Permutation (fold_left (fun acc e => insert_by_key e acc) l acc) (l ++ acc)).
  { clear l. induction l as [|e l IH]; intros acc; simpl; [reflexivity|].
    rewrite IH. rewrite insert_by_key_perm. symmetry. apply Permutation_middle. }
  specialize (H l []). now rewrite app_nil_r in H.
Qed.

Lemma validate_total es : exists b, validate es 0 (length es) = Ok b /\ (b = true <-> valid es).
Proof.
  destruct (validate_spec es (length es) 0) as (b & E & H); [lia|lia|].
  exists b. split; [assumption|]. rewrite H. unfold valid. reflexivity.
Qed.

Lemma range_sound fuel as_far target table out :
  Forall entry32 table ->
  range_compress fuel as_far target table = Ok out ->
  out = table \/
  (Forall entry_ok out /\
   (forall e k, In e table -> (k < 2 ^ 32)%N -> entry_matches k e -> routes_to out k (e_route e)) /\
   (forall o e k, In o out -> In e table -> (k < 2 ^ 32)%N ->
      entry_matches k e -> entry_matches k o -> e_route o = e_route e \/ Z.of_N k = endz e)).
Proof.
  intros E32. unfold range_compress.
  destruct (negb as_far && Nat.ltb (length table) target)%bool.
  { intros H. injection H as <-. now left. }
  destruct (validate_total (sort_by_key table)) as (b & -> & Hb). cbn [bind].
  destruct b; [|intros H; injection H as <-; now left].
  assert (V : valid (sort_by_key table)) by (now apply Hb). clear Hb.
  pose proof (sort_by_key_perm table) as P.
  assert (E32s : Forall entry32 (sort_by_key table)).
  { rewrite Forall_forall in *. intros x Hx. apply E32. eapply Permutation_in; eauto. }
  set (es := sort_by_key table) in *. clearbody es.
  destruct es as [|e0 es0] eqn:Ees; [discriminate|]. rewrite <- Ees in *.
  intros H. right.
  destruct (ranges_sound es E32s V fuel es [] 0 (e_route e0) out) as (C1 & C2 & _ & C4); auto.
  - simpl. lia.
  - intros _. exists e0, es0. auto.
  - simpl. intros; lia.
  - assert (Idx : forall e, In e table -> exists i, 0 <= i < zlen es /\ nth_error es (Z.to_nat i) = Some e).
    { intros e Hin.
      assert (Hin' : In e es) by (eapply Permutation_in; [symmetry; exact P|assumption]).
      apply In_nth_error in Hin'. destruct Hin' as (i & Hi).
      exists (Z.of_nat i). rewrite Nat2Z.id. split; [|assumption].
      assert (nth_error es i <> None) by congruence. apply nth_error_Some in H0. lia. }
    split; [assumption|]. split.
    + intros e k Hin Hk M. destruct (Idx e Hin) as (i & Hi & He). eapply C1; eauto.
    + intros o e k Ho Hin Hk M Mo. destruct (Idx e Hin) as (i & Hi & He). eapply C4; eauto.
Qed.

Lemma range_terminates fuel as_far target table :
  Forall entry32 table -> Forall block_mask table ->
  (length table <= fuel)%nat -> table <> [] ->
  exists out, range_compress fuel as_far target table = Ok out /\
    (length out <= length table)%nat.
Proof.
  intros E32 BM Hf Hne. unfold range_compress.
  destruct (negb as_far && Nat.ltb (length table) target)%bool.
  { exists table. auto. }
  destruct (validate_total (sort_by_key table)) as (b & -> & Hb). cbn [bind].
  destruct b; [|exists table; auto].
  assert (V : valid (sort_by_key table)) by (now apply Hb). clear Hb.
  pose proof (sort_by_key_perm table) as P.
  assert (E32s : Forall entry32 (sort_by_key table)).
  { rewrite Forall_forall in *. intros x Hx. apply E32. eapply Permutation_in; eauto. }
  assert (BMs : Forall block_mask (sort_by_key table)).
  { rewrite Forall_forall in *. intros x Hx. apply BM. eapply Permutation_in; eauto. }
  pose proof (Permutation_length P) as PL.
  set (es := sort_by_key table) in *. clearbody es.
  destruct es as [|e0 es0] eqn:Ees.
  { apply Permutation_nil in P. contradiction. }
  rewrite <- Ees in *.
  destruct (ranges_terminates es E32s V fuel es [] 0 (e_route e0)) as (out & E & L); auto.
  - lia.
  - simpl. lia.
  - intros _. exists e0, es0. auto.
  - exists out. split; [assumption|lia].
Qed.

(** With an orthogonal input both outcomes preserve routing. *)
Lemma range_preserves fuel as_far target table out :
  Forall entry32 table -> orthogonal table ->
  range_compress fuel as_far target table = Ok out ->
  forall e k, In e table -> (k < 2 ^ 32)%N -> entry_matches k e -> routes_to out k (e_route e).
Proof.
  intros E32 O H e k Hin Hk M.
  destruct (range_sound fuel as_far target table out E32 H) as [->|[_ [C _]]]; [|now apply C].
  destruct (first_match_exists table k e Hin M) as (e' & F).
  exists e'. split; [assumption|].
  apply first_match_Some in F. destruct F as [I' M'].
  f_equal. eapply orthogonal_unique; eauto.
Qed.

Lemma endz_closed e : entry32 e -> endz e = Z.of_N (N.lor (e_key e) (2 ^ 32 - 1 - e_mask e)).
Proof.
  intros (Ok1 & Hk & Hm). unfold endz.
  assert (L : Z.of_N (2 ^ 32 - 1 - e_mask e) = Z.ldiff (Z.ones 32) (Z.of_N (e_mask e))).
  { rewrite N2Z.inj_sub by lia.
    replace (Z.of_N (2 ^ 32 - 1)) with (Z.ones 32) by reflexivity.
    apply Z.sub_nocarry_ldiff.
    apply Z.bits_inj'. intros n Hn. rewrite Z.ldiff_spec, Z.bits_0.
    destruct (Z.ltb_spec n 32).
    - rewrite Z.ones_spec_low by lia. apply andb_false_r.
    - destruct (N.eq_dec (e_mask e) 0) as [->|]; [now rewrite Z.bits_0|].
      rewrite (Z.bits_above_log2 (Z.of_N (e_mask e))); [reflexivity|lia|].
      assert (Z.log2 (Z.of_N (e_mask e)) < 32); [|lia].
      apply Z.log2_lt_pow2; [lia|]. change (2 ^ 32) with (Z.of_N (2 ^ 32)). lia. }
  rewrite Z_of_N_lor, L, ones32.
  rewrite <- (land_ones_small (Z.of_N (e_key e)) 32) at 2; [| |lia].
  2:{ split; [lia|]. change (2 ^ 32) with (Z.of_N (2 ^ 32)). lia. }
  apply Z.bits_inj'. intros n Hn.
  rewrite Z.land_spec, !Z.lor_spec, Z.land_spec, Z.ldiff_spec, Z.lnot_spec by assumption.
  destruct (Z.testbit (Z.of_N (e_key e)) n), (Z.testbit (Z.of_N (e_mask e)) n),
    (Z.testbit (Z.ones 32) n); reflexivity.
Qed.

Lemma range_overlap fuel as_far target table out :
  Forall entry32 table -> orthogonal table ->
  range_compress fuel as_far target table = Ok out ->
  forall o e k, In o out -> In e table -> (k < 2 ^ 32)%N ->
    entry_matches k e -> entry_matches k o ->
    e_route o = e_route e \/ k = N.lor (e_key e) (2 ^ 32 - 1 - e_mask e).
Proof.
  intros E32 O H o e k Ho He Hk M Mo.
  destruct (range_sound fuel as_far target table out E32 H) as [->|[_ [_ C]]].
  - left. f_equal. eapply orthogonal_unique; eauto.
  - destruct (C o e k Ho He Hk M Mo) as [L|R]; [now left|right].
    rewrite endz_closed in R; [lia|]. rewrite Forall_forall in E32. auto.
Qed.

(** The looping witness. *)
Definition loop_table : list entry :=
  [ mkEntry 9 4294967295 1 false; mkEntry 10 4294967291 2 false;
    mkEntry 15 4294967295 2 false ].

Lemma loop_step fuel :
  merge_range (S fuel) loop_table 1 2 =
  let* more := merge_range fuel loop_table 1 2 in
  Ok (mkEntry 10 4294967294 2 false :: more).
Proof. cbn [merge_range]. remember (merge_range fuel) as F. vm_compute. reflexivity. Qed.

Lemma loop_never fuel : merge_range fuel loop_table 1 2 = Err OutOfFuel.
Proof.
  induction fuel as [|fuel IH]; [reflexivity|]. now rewrite loop_step, IH.
Qed.

Lemma range_loops fuel : range_compress fuel true 0 loop_table = Err OutOfFuel.
Proof.
  assert (R : range_compress fuel true 0 loop_table =
    let* a := merge_range fuel loop_table 0 0 in
    let* b := merge_range fuel loop_table 1 2 in Ok (a ++ b)) by reflexivity.
  rewrite R, loop_never. destruct fuel; reflexivity.
Qed.
