(** Lemmas about the bit utilities. *)
From Coq Require Import List Arith NArith Bool Lia Permutation Sorted.
From Verif Require Import Base RouteSpec KeyMask UtilModel.
Import ListNotations.
Local Open Scope N_scope.

(** ** Arrays of bits *)

Lemma expand_length : forall v, length (expand_to_bit_array v) = 32%nat.
Proof. intros. unfold expand_to_bit_array. rewrite map_length, seq_length. reflexivity. Qed.

Lemma expand_nth : forall v p, (p < 32)%nat ->
  nth p (expand_to_bit_array v) false = N.testbit v (N.of_nat (31 - p)).
Proof.
  intros v p H. unfold expand_to_bit_array.
  rewrite nth_indep with (d' := N.testbit v (N.of_nat (31 - 0)))
    by (rewrite map_length, seq_length; auto).
  rewrite (map_nth (fun i => N.testbit v (N.of_nat (31 - i)))).
  rewrite seq_nth by auto. reflexivity.
Qed.

Lemma compress_snoc : forall bs b,
  compress_from_bit_array (bs ++ [b]) = 2 * compress_from_bit_array bs + N.b2n b.
Proof. intros. unfold compress_from_bit_array. rewrite fold_left_app. reflexivity. Qed.

Lemma compress_testbit : forall bs i,
  N.testbit (compress_from_bit_array bs) (N.of_nat i) =
  if (i <? length bs)%nat then nth (length bs - 1 - i) bs false else false.
Proof.
  intro bs. induction bs as [|b bs IH] using rev_ind; intro i.
  - unfold compress_from_bit_array. cbn [fold_left]. rewrite N.bits_0. reflexivity.
  - rewrite compress_snoc, app_length. cbn [length].
    destruct i as [|i].
    + change (N.of_nat 0) with 0. rewrite N.testbit_0_r.
      destruct (Nat.ltb_spec 0 (length bs + 1)); [|lia].
      rewrite app_nth2 by lia.
      replace (length bs + 1 - 1 - 0 - length bs)%nat with 0%nat by lia. reflexivity.
    + rewrite Nat2N.inj_succ, N.testbit_succ_r, IH.
      destruct (Nat.ltb_spec i (length bs)); destruct (Nat.ltb_spec (S i) (length bs + 1)); try lia; auto.
      rewrite app_nth1 by lia. f_equal. lia.
Qed.

Lemma testbit_high : forall v i, v < 2 ^ 32 -> 32 <= i -> N.testbit v i = false.
Proof.
  intros v i Hv Hi. destruct (N.eq_dec v 0) as [->|Hz]; [apply N.bits_0|].
  apply N.bits_above_log2.
  apply N.lt_le_trans with 32; auto. apply N.log2_lt_pow2; [lia|auto].
Qed.

Lemma lt_pow2_bits : forall v n, (forall i, n <= i -> N.testbit v i = false) -> v < 2 ^ n.
Proof.
  intros v n H. destruct (N.eq_dec v 0) as [->|Hz].
  - apply N.neq_0_lt_0. apply N.pow_nonzero. lia.
  - apply N.log2_lt_pow2; [lia|].
    destruct (N.lt_ge_cases (N.log2 v) n); auto.
    specialize (H _ H0). rewrite N.bit_log2 in H by auto. discriminate.
Qed.

Lemma testbit_above : forall v n i, v < 2 ^ n -> n <= i -> N.testbit v i = false.
Proof.
  intros v n i Hv Hi. destruct (N.eq_dec v 0) as [->|Hz]; [apply N.bits_0|].
  apply N.bits_above_log2.
  apply N.lt_le_trans with n; auto. apply N.log2_lt_pow2; [lia|auto].
Qed.

Lemma compress_lt : forall bs, compress_from_bit_array bs < 2 ^ N.of_nat (length bs).
Proof.
  intros. apply lt_pow2_bits. intros i Hi.
  replace i with (N.of_nat (N.to_nat i)) by lia.
  rewrite compress_testbit. destruct (Nat.ltb_spec (N.to_nat i) (length bs)); auto; lia.
Qed.

Lemma compress_expand : forall v, v < 2 ^ 32 ->
  compress_from_bit_array (expand_to_bit_array v) = v.
Proof.
  intros v Hv. apply N.bits_inj. intro i.
  replace i with (N.of_nat (N.to_nat i)) by lia.
  rewrite compress_testbit, expand_length.
  destruct (Nat.ltb_spec (N.to_nat i) 32).
  - rewrite expand_nth by lia. f_equal. lia.
  - symmetry. apply testbit_high; auto. lia.
Qed.

Lemma expand_compress : forall bs, length bs = 32%nat ->
  expand_to_bit_array (compress_from_bit_array bs) = bs.
Proof.
  intros bs H. apply nth_ext with false false.
  - rewrite expand_length. auto.
  - intros p Hp. rewrite expand_length in Hp. rewrite expand_nth by auto.
    rewrite compress_testbit, H.
    destruct (Nat.ltb_spec (31 - p) 32); [|lia]. f_equal. lia.
Qed.

Lemma mapM_aget_Ok : forall {A} (l : list A) ps vals,
  mapM (aget l) ps = Ok vals ->
  length vals = length ps /\
  forall j p d, nth_error ps j = Some p -> nth j vals d = nth p l d.
Proof.
  intros A l ps. induction ps as [|p ps IH]; intros vals H.
  - cbn in H. inversion H; subst. split; auto. intros j q d Hj. destruct j; discriminate.
  - cbn [mapM] in H. apply bind_Ok_inv in H. destruct H as [y [Hy H]].
    apply bind_Ok_inv in H. destruct H as [ys [Hys H]]. inversion H; subst.
    destruct (IH _ Hys) as [HL HN]. split; [cbn; congruence|].
    intros [|j] q d Hj; cbn in *.
    + inversion Hj; subst. apply aget_Ok_iff in Hy. symmetry.
      apply nth_error_nth with (d := d) in Hy. auto.
    + eauto.
Qed.

Lemma mapM_aget_total : forall {A} (l : list A) ps,
  (forall p, In p ps -> (p < length l)%nat) -> exists vals, mapM (aget l) ps = Ok vals.
Proof.
  intros A l ps. induction ps as [|p ps IH]; intros H.
  - eexists; reflexivity.
  - destruct (aget_lt l p) as [x Hx]; [apply H; left; auto|].
    destruct IH as [ys Hys]; [intros; apply H; right; auto|].
    exists (x :: ys). cbn [mapM]. rewrite Hx. cbn [bind]. rewrite Hys. reflexivity.
Qed.

Lemma compress_bits_ok : forall bs ps, length bs = 32%nat -> ps <> [] ->
  (length ps <= 32)%nat -> (forall p, In p ps -> (p < 32)%nat) ->
  exists v, compress_bits_from_bit_array bs ps = Ok v /\
    v < 2 ^ N.of_nat (length ps) /\
    forall j p, nth_error ps j = Some p ->
      N.testbit v (N.of_nat (length ps - 1 - j)) = nth p bs false.
Proof.
  intros bs ps HL Hne Hle Hp.
  destruct (mapM_aget_total bs ps) as [vals Hv]; [intros; rewrite HL; auto|].
  destruct (mapM_aget_Ok _ _ _ Hv) as [HLv HN].
  unfold compress_bits_from_bit_array. rewrite Hv. cbn [bind].
  destruct (length ps) as [|n] eqn:E; [destruct ps; [congruence|discriminate]|].
  destruct (Nat.ltb_spec 32 (S n)) as [L|L]; [lia|]. clear L.
  eexists; split; [reflexivity|].
  assert (HLL : length (firstn (32 - S n) (repeat false 32) ++ vals) = 32%nat).
  { rewrite app_length, firstn_length, repeat_length. lia. }
  assert (HF : length (firstn (32 - S n) (repeat false 32)) = (32 - S n)%nat).
  { rewrite firstn_length, repeat_length. lia. }
  split.
  - apply lt_pow2_bits. intros i Hi.
    replace i with (N.of_nat (N.to_nat i)) by lia.
    rewrite compress_testbit, HLL.
    destruct (Nat.ltb_spec (N.to_nat i) 32); auto.
    rewrite app_nth1 by (rewrite HF; lia).
    assert (G : forall m k q, nth q (firstn m (repeat false k)) false = false).
    { clear. intro m. induction m; intros [|k] [|q]; cbn; auto. }
    apply G.
  - intros j p Hj. assert (j < S n)%nat.
    { rewrite <- E. apply nth_error_Some. congruence. }
    rewrite compress_testbit, HLL.
    destruct (Nat.ltb_spec (S n - 1 - j) 32); [|lia].
    rewrite app_nth2 by (rewrite HF; lia). rewrite HF.
    replace (32 - 1 - (S n - 1 - j) - (32 - S n))%nat with j by lia.
    apply HN. auto.
Qed.

(** ** Scattering *)

Lemma nth_upd_eq : forall {A} (l : list A) i x d, (i < length l)%nat -> nth i (upd l i x) d = x.
Proof.
  intros. apply nth_error_nth. apply nth_error_upd_eq. auto.
Qed.

Lemma nth_upd_neq : forall {A} (l : list A) i j x d, i <> j -> nth j (upd l i x) d = nth j l d.
Proof.
  intros A l. induction l; intros [|i] [|j] x d H; cbn; auto; try congruence.
Qed.

Lemma scatter_length : forall {A} ps (arr vs : list A), length (scatter arr ps vs) = length arr.
Proof.
  intros A ps. induction ps as [|p ps IH]; intros arr [|v vs]; cbn; auto.
  rewrite IH, upd_length. auto.
Qed.

Lemma scatter_out : forall {A} ps (arr vs : list A) p d, ~ In p ps ->
  nth p (scatter arr ps vs) d = nth p arr d.
Proof.
  intros A ps. induction ps as [|q ps IH]; intros arr [|v vs] p d H; cbn; auto.
  rewrite IH by (intro; apply H; right; auto).
  apply nth_upd_neq. intro; subst; apply H; left; auto.
Qed.

Lemma scatter_in : forall {A} ps (arr vs : list A) j p d, NoDup ps ->
  length vs = length ps -> (forall q, In q ps -> (q < length arr)%nat) ->
  nth_error ps j = Some p -> nth p (scatter arr ps vs) d = nth j vs d.
Proof.
  intros A ps. induction ps as [|q ps IH]; intros arr [|v vs] j p d ND HL HB HJ; cbn in *.
  - destruct j; discriminate.
  - destruct j; discriminate.
  - discriminate.
  - inversion ND; subst. destruct j as [|j]; cbn in *.
    + inversion HJ; subst. rewrite scatter_out by auto. apply nth_upd_eq. apply HB; auto.
    + apply IH; auto. intros r Hr. rewrite upd_length. apply HB. auto.
Qed.

Definition good_positions (ps : list nat) : Prop :=
  NoDup ps /\ forall p, In p ps -> (p < 32)%nat.

Lemma good_positions_length : forall ps, good_positions ps -> (length ps <= 32)%nat.
Proof.
  intros ps [ND HB]. rewrite <- (seq_length 32 0).
  apply NoDup_incl_length; auto. intros p Hp. apply in_seq. specialize (HB _ Hp). lia.
Qed.

Lemma last_n_nth : forall n v j, (0 < n <= 32)%nat -> (j < n)%nat ->
  nth j (last_n n (expand_to_bit_array v)) false = N.testbit v (N.of_nat (n - 1 - j)).
Proof.
  intros n v j Hn Hj. unfold last_n. destruct n as [|n]; [lia|].
  rewrite expand_length.
  assert (G : forall (l : list bool) k i, nth i (skipn k l) false = nth (k + i) l false).
  { clear. intros l. induction l; intros [|k] i; cbn; auto; try (destruct i; reflexivity). }
  rewrite G, expand_nth by lia. f_equal. lia.
Qed.

Lemma last_n_length : forall n v, (0 < n <= 32)%nat ->
  length (last_n n (expand_to_bit_array v)) = n.
Proof.
  intros n v H. unfold last_n. destruct n; [lia|]. rewrite skipn_length, expand_length. lia.
Qed.

Lemma spread_in : forall key ps v j p, good_positions ps -> nth_error ps j = Some p ->
  N.testbit (spread_key key ps v) (N.of_nat (31 - p)) = N.testbit v (N.of_nat (length ps - 1 - j)).
Proof.
  intros key ps v j p G HJ. pose proof (good_positions_length _ G) as HL.
  destruct G as [ND HB].
  assert (j < length ps)%nat by (apply nth_error_Some; congruence).
  assert (p < 32)%nat by (apply HB; eapply nth_error_In; eauto).
  unfold spread_key. rewrite compress_testbit, scatter_length, expand_length.
  destruct (Nat.ltb_spec (31 - p) 32); [|lia].
  replace (32 - 1 - (31 - p))%nat with p by lia.
  rewrite (scatter_in ps _ _ j p false ND).
  - apply last_n_nth; lia.
  - apply last_n_length. lia.
  - intros q Hq. rewrite expand_length. auto.
  - auto.
Qed.

Lemma spread_out : forall key ps v i, (i < 32)%nat -> ~ In (31 - i)%nat ps ->
  N.testbit (spread_key key ps v) (N.of_nat i) = N.testbit key (N.of_nat i).
Proof.
  intros key ps v i Hi HN. unfold spread_key.
  rewrite compress_testbit, scatter_length, expand_length.
  destruct (Nat.ltb_spec i 32); [|lia].
  replace (32 - 1 - i)%nat with (31 - i)%nat by lia.
  rewrite scatter_out by auto. rewrite expand_nth by lia. f_equal. lia.
Qed.

Lemma spread_lt : forall key ps v, spread_key key ps v < 2 ^ 32.
Proof.
  intros. unfold spread_key. eapply N.lt_le_trans; [apply compress_lt|].
  rewrite scatter_length, expand_length. change (N.of_nat 32) with 32. lia.
Qed.

Lemma spread_inj : forall key ps v w, good_positions ps ->
  v < 2 ^ N.of_nat (length ps) -> w < 2 ^ N.of_nat (length ps) ->
  spread_key key ps v = spread_key key ps w -> v = w.
Proof.
  intros key ps v w G Hv Hw E. apply N.bits_inj. intro i.
  destruct (N.lt_ge_cases i (N.of_nat (length ps))) as [H|H].
  - remember (length ps - 1 - N.to_nat i)%nat as j eqn:Ej.
    destruct (nth_error ps j) as [p|] eqn:EP.
    + pose proof (spread_in key ps v j p G EP) as A.
      pose proof (spread_in key ps w j p G EP) as B.
      rewrite E in A. rewrite A in B.
      replace (N.of_nat (length ps - 1 - j)) with i in B by lia. auto.
    + apply nth_error_None in EP. lia.
  - rewrite !(testbit_above _ (N.of_nat (length ps))); auto.
Qed.

(** [k] agrees with [key] away from the positions. *)
Definition agree_off (ps : list nat) (key k : N) : Prop :=
  forall i, (i < 32)%nat -> ~ In (31 - i)%nat ps ->
    N.testbit k (N.of_nat i) = N.testbit key (N.of_nat i).

(** The value read back at the positions. *)
Definition gather (ps : list nat) (k : N) : N :=
  compress_from_bit_array (map (fun p => N.testbit k (N.of_nat (31 - p))) ps).

Lemma gather_lt : forall ps k, gather ps k < 2 ^ N.of_nat (length ps).
Proof. intros. unfold gather. eapply N.lt_le_trans; [apply compress_lt|]. rewrite map_length. lia. Qed.

Lemma gather_bit : forall ps k j p, nth_error ps j = Some p ->
  N.testbit (gather ps k) (N.of_nat (length ps - 1 - j)) = N.testbit k (N.of_nat (31 - p)).
Proof.
  intros ps k j p H. assert (j < length ps)%nat by (apply nth_error_Some; congruence).
  unfold gather. rewrite compress_testbit, map_length.
  destruct (Nat.ltb_spec (length ps - 1 - j) (length ps)); [|lia].
  replace (length ps - 1 - (length ps - 1 - j))%nat with j by lia.
  apply nth_error_nth. rewrite nth_error_map, H. reflexivity.
Qed.

Lemma spread_gather : forall key ps k, good_positions ps -> k < 2 ^ 32 ->
  agree_off ps key k -> spread_key key ps (gather ps k) = k.
Proof.
  intros key ps k G Hk HA. apply N.bits_inj. intro i.
  destruct (N.lt_ge_cases i 32) as [H|H].
  - replace i with (N.of_nat (N.to_nat i)) by lia.
    destruct (in_dec Nat.eq_dec (31 - N.to_nat i)%nat ps) as [HI|HI].
    + apply In_nth_error in HI. destruct HI as [j HJ].
      pose proof (spread_in key ps (gather ps k) j _ G HJ) as A.
      rewrite (gather_bit _ _ _ _ HJ) in A.
      replace (31 - (31 - N.to_nat i))%nat with (N.to_nat i) in A by lia. auto.
    + rewrite spread_out by (auto; lia). symmetry. apply HA; auto. lia.
  - rewrite !testbit_high; auto. apply spread_lt.
Qed.

(** ** Masks *)

Lemma seq_sorted : forall n s, StronglySorted lt (seq s n).
Proof.
  induction n; intro s; cbn; constructor; auto.
  apply Forall_forall. intros x Hx. apply in_seq in Hx. lia.
Qed.

Lemma filter_sorted : forall (f : nat -> bool) l, StronglySorted lt l -> StronglySorted lt (filter f l).
Proof.
  intros f l. induction 1; cbn; [constructor|].
  destruct (f a); auto. constructor; auto.
  rewrite Forall_forall in *. intros x Hx. apply filter_In in Hx. apply H0. tauto.
Qed.

Lemma zeros_of_eq : forall m, zeros_of m =
  filter (fun p => negb (nth p (expand_to_bit_array m) false)) (seq 0 32).
Proof. reflexivity. Qed.

Lemma zeros_spec : forall m p, In p (zeros_of m) <->
  (p < 32)%nat /\ N.testbit m (N.of_nat (31 - p)) = false.
Proof.
  intros m p. rewrite zeros_of_eq. remember (seq 0 32) as S32 eqn:ES.
  rewrite filter_In. subst S32. rewrite in_seq. split.
  - intros [H1 H2]. assert (p < 32)%nat by lia. split; auto.
    rewrite expand_nth in H2 by auto. destruct (N.testbit m (N.of_nat (31 - p))); auto; discriminate.
  - intros [H1 H2]. split; [lia|]. rewrite expand_nth by auto. rewrite H2. reflexivity.
Qed.

Lemma zeros_NoDup : forall m, NoDup (zeros_of m).
Proof. intros. rewrite zeros_of_eq. apply NoDup_filter. apply seq_NoDup. Qed.

Lemma zeros_sorted : forall m, StronglySorted lt (zeros_of m).
Proof. intro. rewrite zeros_of_eq. apply filter_sorted, seq_sorted. Qed.

Global Opaque zeros_of.

Lemma zeros_good : forall m, good_positions (zeros_of m).
Proof.
  intros. split; [apply zeros_NoDup|].
  intros p Hp. apply zeros_spec in Hp. tauto.
Qed.

Lemma zeros_In : forall m i, (i < 32)%nat ->
  In (31 - i)%nat (zeros_of m) <-> N.testbit m (N.of_nat i) = false.
Proof.
  intros m i Hi. rewrite zeros_spec.
  replace (31 - (31 - i))%nat with i by lia.
  split; [tauto|]. intro; split; auto. lia.
Qed.

Lemma land_key_bits : forall key mask k, key < 2 ^ 32 -> mask < 2 ^ 32 -> k < 2 ^ 32 ->
  N.land key mask = key ->
  (N.land k mask = key <->
   forall i, (i < 32)%nat -> N.testbit mask (N.of_nat i) = true ->
      N.testbit k (N.of_nat i) = N.testbit key (N.of_nat i)).
Proof.
  intros key mask k Hk Hm Hk' HK. split.
  - intros E i Hi HM. rewrite <- E. rewrite N.land_spec, HM, andb_true_r. reflexivity.
  - intros H. apply N.bits_inj. intro i.
    destruct (N.lt_ge_cases i 32) as [Hi|Hi].
    + rewrite N.land_spec.
      replace i with (N.of_nat (N.to_nat i)) by lia.
      destruct (N.testbit mask (N.of_nat (N.to_nat i))) eqn:EM.
      * rewrite andb_true_r. apply H; auto. lia.
      * rewrite andb_false_r. rewrite <- HK, N.land_spec, EM, andb_false_r. reflexivity.
    + rewrite N.land_spec, !testbit_high; auto.
Qed.

Lemma agree_off_zeros : forall key mask k, key < 2 ^ 32 -> mask < 2 ^ 32 -> k < 2 ^ 32 ->
  N.land key mask = key ->
  (agree_off (zeros_of mask) key k <-> N.land k mask = key).
Proof.
  intros key mask k H1 H2 H3 H4. rewrite land_key_bits by auto.
  unfold agree_off. split; intros H i Hi.
  - intro HM. apply H; auto. rewrite zeros_In by auto. congruence.
  - intro HN. apply H; auto. rewrite zeros_In in HN by auto.
    destruct (N.testbit mask (N.of_nat i)); congruence.
Qed.

Lemma spread_agree : forall key ps v, agree_off ps key (spread_key key ps v).
Proof. intros key ps v i Hi HN. apply spread_out; auto. Qed.

Lemma nrange_In : forall n v, In v (nrange n) <-> v < n.
Proof.
  intros. unfold nrange. rewrite in_map_iff. split.
  - intros [x [<- Hx]]. apply in_seq in Hx. lia.
  - intro H. exists (N.to_nat v). split; [lia|]. apply in_seq. lia.
Qed.

Lemma nrange_length : forall n, length (nrange n) = N.to_nat n.
Proof. intros. unfold nrange. rewrite map_length, seq_length. auto. Qed.

Lemma nrange_nth : forall n i, (i < N.to_nat n)%nat -> nth_error (nrange n) i = Some (N.of_nat i).
Proof.
  intros. unfold nrange. rewrite nth_error_map.
  rewrite nth_error_nth' with (d := O) by (rewrite seq_length; auto).
  rewrite seq_nth by auto. reflexivity.
Qed.

(** Order: larger values give larger keys when the positions go from the most
    to the least significant. *)
Lemma lt_by_bit : forall a b i, N.testbit a i = false -> N.testbit b i = true ->
  (forall j, i < j -> N.testbit a j = N.testbit b j) -> a < b.
Proof.
  intros a b i Ha Hb H.
  assert (E : N.shiftr a (N.succ i) = N.shiftr b (N.succ i)).
  { apply N.bits_inj. intro j. rewrite !N.shiftr_spec by lia. apply H. lia. }
  pose proof (N.div_eucl_spec a (2 ^ N.succ i)).
  assert (A : a = 2 ^ N.succ i * (a / 2 ^ N.succ i) + a mod 2 ^ N.succ i)
    by (apply N.div_mod; apply N.pow_nonzero; lia).
  assert (B : b = 2 ^ N.succ i * (b / 2 ^ N.succ i) + b mod 2 ^ N.succ i)
    by (apply N.div_mod; apply N.pow_nonzero; lia).
  rewrite !N.shiftr_div_pow2 in E.
  assert (HA : a mod 2 ^ N.succ i < 2 ^ i).
  { apply lt_pow2_bits. intros j Hj.
    destruct (N.eq_dec j i) as [->|].
    - rewrite N.mod_pow2_bits_low by lia. auto.
    - rewrite N.mod_pow2_bits_high by lia. auto. }
  assert (HB : 2 ^ i <= b mod 2 ^ N.succ i).
  { destruct (N.lt_ge_cases (b mod 2 ^ N.succ i) (2 ^ i)) as [L|L]; auto.
    pose proof (testbit_above _ _ i L ltac:(lia)) as T.
    rewrite N.mod_pow2_bits_low in T by lia. congruence. }
  rewrite A, B, E. lia.
Qed.

Lemma bit_of_lt : forall a b, a < b ->
  exists i, N.testbit a i = false /\ N.testbit b i = true /\
    forall j, i < j -> N.testbit a j = N.testbit b j.
Proof.
  intros a b H.
  assert (HX : N.lxor a b <> 0) by (rewrite N.lxor_eq_0_iff; lia).
  remember (N.log2 (N.lxor a b)) as i eqn:Ei.
  assert (T : N.testbit (N.lxor a b) i = true) by (subst; apply N.bit_log2; auto).
  assert (U : forall j, i < j -> N.testbit a j = N.testbit b j).
  { intros j Hj. pose proof (N.bits_above_log2 (N.lxor a b) j ltac:(lia)) as X.
    rewrite N.lxor_spec in X. destruct (N.testbit a j), (N.testbit b j); auto; discriminate. }
  rewrite N.lxor_spec in T.
  destruct (N.testbit a i) eqn:EA; destruct (N.testbit b i) eqn:EB; try discriminate.
  - exfalso. assert (b < a); [|lia].
    apply lt_by_bit with i; auto. intros. symmetry. auto.
  - exists i. auto.
Qed.

Lemma sorted_nth_lt : forall ps i j p q, StronglySorted lt ps ->
  nth_error ps i = Some p -> nth_error ps j = Some q -> (i < j)%nat -> (p < q)%nat.
Proof.
  intros ps. induction ps as [|x ps IH]; intros i j p q S Hi Hj Hlt.
  - destruct i; discriminate.
  - inversion S; subst. destruct j as [|j]; [lia|]. destruct i as [|i]; cbn in *.
    + inversion Hi; subst. rewrite Forall_forall in H2. apply H2. eapply nth_error_In; eauto.
    + eapply IH; eauto. lia.
Qed.

Lemma spread_mono : forall key ps v w, good_positions ps -> StronglySorted lt ps ->
  w < 2 ^ N.of_nat (length ps) -> v < w -> spread_key key ps v < spread_key key ps w.
Proof.
  intros key ps v w G S Hw Hlt.
  destruct (bit_of_lt _ _ Hlt) as [i [Hv [Hw' HU]]].
  assert (Hi : i < N.of_nat (length ps)).
  { destruct (N.lt_ge_cases i (N.of_nat (length ps))) as [L|L]; auto.
    rewrite (testbit_above _ _ _ Hw L) in Hw'. discriminate. }
  remember (length ps - 1 - N.to_nat i)%nat as j eqn:Ej.
  destruct (nth_error ps j) as [p|] eqn:EP; [|apply nth_error_None in EP; lia].
  pose proof G as [ND HB].
  assert (Hp : (p < 32)%nat) by (apply HB; eapply nth_error_In; eauto).
  assert (EI : N.of_nat (length ps - 1 - j) = i) by lia.
  apply lt_by_bit with (N.of_nat (31 - p)).
  - rewrite (spread_in _ _ _ _ _ G EP), EI. auto.
  - rewrite (spread_in _ _ _ _ _ G EP), EI. auto.
  - intros k Hk. destruct (N.lt_ge_cases k 32) as [L|L].
    + replace k with (N.of_nat (N.to_nat k)) by lia.
      destruct (in_dec Nat.eq_dec (31 - N.to_nat k)%nat ps) as [HI|HI].
      * apply In_nth_error in HI. destruct HI as [j' HJ'].
        replace (N.to_nat k) with (31 - (31 - N.to_nat k))%nat by lia.
        rewrite !(spread_in _ _ _ _ _ G HJ'). apply HU.
        assert (j' < j)%nat.
        { destruct (Nat.lt_ge_cases j' j); auto. exfalso.
          destruct (Nat.eq_dec j j') as [<-|].
          - assert (E1 : p = (31 - N.to_nat k)%nat) by congruence. lia.
          - pose proof (sorted_nth_lt ps j j' _ _ S EP HJ' ltac:(lia)). lia. }
        lia.
      * rewrite !spread_out by (auto; lia). reflexivity.
    + rewrite !testbit_high; auto using spread_lt.
Qed.

(** All keys of a key and mask. *)
Definition all_keys (key mask : N) (n : N) : list N :=
  map (spread_key key (zeros_of mask)) (nrange n).

Lemma map_nrange_sorted : forall (f : N -> N) n,
  (forall v w, v < w -> w < n -> f v < f w) -> StronglySorted N.lt (map f (nrange n)).
Proof.
  intros f n H. unfold nrange. rewrite map_map.
  assert (G : forall m s, (s + m <= N.to_nat n)%nat ->
     StronglySorted N.lt (map (fun x => f (N.of_nat x)) (seq s m))).
  { induction m; intros s Hs; cbn; constructor.
    - apply IHm. lia.
    - apply Forall_forall. intros x Hx. apply in_map_iff in Hx.
      destruct Hx as [y [<- Hy]]. apply in_seq in Hy. apply H; lia. }
  apply G. lia.
Qed.

Lemma spread_nil : forall key v, key < 2 ^ 32 -> spread_key key [] v = key.
Proof. intros. unfold spread_key. cbn [length scatter]. apply compress_expand. auto. Qed.

(** ** [get_key_ranges] *)

Lemma span_zeros_spec : forall mb ps, exists k, (k <= length ps)%nat /\
  fst (span_zeros mb ps) = firstn k ps /\
  snd (span_zeros mb ps) = filter (fun q => negb (nth q mb false)) (skipn k ps) /\
  (forall p, In p (firstn k ps) -> nth p mb false = false).
Proof.
  intros mb ps. induction ps as [|p ps IH].
  - exists O. cbn. repeat split; auto. intros p [].
  - cbn [span_zeros]. destruct (nth p mb false) eqn:E; cbn [negb].
    + exists O. split; [lia|]. cbn [firstn skipn]. split; auto. split; auto. intros q [].
    + destruct IH as [k [HK [H1 [H2 H3]]]]. destruct (span_zeros mb ps) as [f r].
      exists (S k). cbn [fst snd firstn skipn length] in *. split; [lia|].
      split; [congruence|]. split; auto. intros q [<-|Hq]; auto.
Qed.

Lemma rev_seq_split : forall n k, (k <= n)%nat ->
  rev (seq 0 n) = rev (seq (n - k) k) ++ rev (seq 0 (n - k)).
Proof.
  intros n k H. rewrite <- rev_app_distr. f_equal.
  replace n with ((n - k) + k)%nat at 1 by lia. rewrite seq_app. reflexivity.
Qed.

Lemma rev_seq_firstn : forall n k, (k <= n)%nat -> firstn k (rev (seq 0 n)) = rev (seq (n - k) k).
Proof.
  intros n k H. rewrite (rev_seq_split n k H).
  rewrite firstn_app. rewrite firstn_all2 by (rewrite rev_length, seq_length; lia).
  rewrite rev_length, seq_length. replace (k - k)%nat with O by lia. cbn [firstn].
  apply app_nil_r.
Qed.

Lemma rev_seq_skipn : forall n k, (k <= n)%nat -> skipn k (rev (seq 0 n)) = rev (seq 0 (n - k)).
Proof.
  intros n k H. rewrite (rev_seq_split n k H).
  rewrite skipn_app. rewrite skipn_all2 by (rewrite rev_length, seq_length; lia).
  rewrite rev_length, seq_length. replace (k - k)%nat with O by lia. reflexivity.
Qed.

Lemma ranges_form : forall key mask, key < 2 ^ 32 ->
  exists k r, (k <= 32)%nat /\ good_positions r /\
    (forall i, (i < k)%nat -> N.testbit mask (N.of_nat i) = false) /\
    (forall i, (i < 32)%nat -> (In (31 - i)%nat r <->
        (k <= i)%nat /\ N.testbit mask (N.of_nat i) = false)) /\
    get_key_ranges key mask =
      map (fun v => (spread_key key r v, 2 ^ N.of_nat k)) (nrange (2 ^ N.of_nat (length r))).
Proof.
  intros key mask Hk.
  destruct (span_zeros_spec (expand_to_bit_array mask) (rev (seq 0 32)))
    as [k [HK [H1 [H2 H3]]]].
  rewrite rev_length, seq_length in HK.
  rewrite rev_seq_firstn in H1, H3 by auto. rewrite rev_seq_skipn in H2 by auto.
  unfold get_key_ranges.
  destruct (span_zeros (expand_to_bit_array mask) (rev (seq 0 32))) as [f r].
  cbn [fst snd] in *.
  assert (HR : forall p, In p r <-> (p < 32 - k)%nat /\ N.testbit mask (N.of_nat (31 - p)) = false).
  { intro p. rewrite H2, filter_In, <- in_rev, in_seq. split.
    - intros [A B]. split; [lia|]. rewrite expand_nth in B by lia.
      destruct (N.testbit mask (N.of_nat (31 - p))); auto; discriminate.
    - intros [A B]. split; [lia|]. rewrite expand_nth by lia. rewrite B. reflexivity. }
  assert (HF : length f = k) by (rewrite H1, rev_length, seq_length; auto).
  exists k, r. split; [auto|]. split.
  { split.
    - rewrite H2. apply NoDup_filter. apply NoDup_rev. apply seq_NoDup.
    - intros p Hp. apply HR in Hp. lia. }
  split.
  { intros i Hi. specialize (H3 (31 - i)%nat). rewrite <- in_rev, in_seq in H3.
    rewrite expand_nth in H3 by lia.
    replace (31 - (31 - i))%nat with i in H3 by lia. apply H3. lia. }
  split.
  { intros i Hi. rewrite HR. replace (31 - (31 - i))%nat with i by lia.
    split; intros [A B]; split; auto; lia. }
  rewrite HF. clear HR H2 H3. destruct r as [|p r].
  - assert (E1 : nrange (2 ^ N.of_nat (@length nat [])) = [0]) by reflexivity.
    rewrite E1. clear E1. rewrite <- (spread_nil key 0 Hk) at 1. reflexivity.
  - reflexivity.
Qed.

Definition clear_low (k : N) (x : N) : N := N.shiftl (N.shiftr x k) k.

Lemma clear_low_bit : forall k x i, N.testbit (clear_low k x) i =
  if i <? k then false else N.testbit x i.
Proof.
  intros. unfold clear_low. destruct (N.ltb_spec i k).
  - apply N.shiftl_spec_low. auto.
  - rewrite N.shiftl_spec_high' by auto. rewrite N.shiftr_spec by lia. f_equal. lia.
Qed.

Lemma clear_low_range : forall k b x, clear_low k b = b ->
  (b <= x < b + 2 ^ k <-> clear_low k x = b).
Proof.
  intros k b x Hb. unfold clear_low in *.
  rewrite N.shiftl_mul_pow2, N.shiftr_div_pow2 in *.
  assert (P : 2 ^ k <> 0) by (apply N.pow_nonzero; lia).
  pose proof (N.div_mod x (2 ^ k) P). pose proof (N.mod_lt x (2 ^ k) P).
  remember (2 ^ k) as m eqn:Em. clear Em. remember (x / m) as q eqn:Eq. clear Eq.
  remember (b / m) as qb eqn:Eqb. clear Eqb. remember (x mod m) as r eqn:Er. clear Er.
  split.
  - intros [A B]. assert (q = qb).
    { destruct (N.lt_trichotomy q qb) as [L|[L|L]]; auto; exfalso.
      - assert (m * (q + 1) <= m * qb) by (apply N.mul_le_mono_l; lia). lia.
      - assert (m * (qb + 1) <= m * q) by (apply N.mul_le_mono_l; lia). lia. }
    subst. lia.
  - intro. lia.
Qed.

Lemma ranges_exact : forall key mask k, key < 2 ^ 32 -> mask < 2 ^ 32 -> N.land key mask = key ->
  k < 2 ^ 32 ->
  (N.land k mask = key <-> exists b n, In (b, n) (get_key_ranges key mask) /\ b <= k < b + n).
Proof.
  intros key mask x Hk Hm HK Hx.
  destruct (ranges_form key mask Hk) as [k [r [Hk32 [G [HZ [HR E]]]]]]. rewrite E.
  assert (KZ : forall i, (i < k)%nat -> N.testbit key (N.of_nat i) = false).
  { intros i Hi. rewrite <- HK, N.land_spec, HZ, andb_false_r by auto. reflexivity. }
  assert (CL : forall v, clear_low (N.of_nat k) (spread_key key r v) = spread_key key r v).
  { intro v. apply N.bits_inj. intro i. rewrite clear_low_bit.
    destruct (N.ltb_spec i (N.of_nat k)); auto. symmetry.
    replace i with (N.of_nat (N.to_nat i)) by lia.
    rewrite spread_out; [apply KZ; lia|lia|]. rewrite HR by lia. lia. }
  assert (CX : clear_low (N.of_nat k) x < 2 ^ 32).
  { apply lt_pow2_bits. intros i Hi. rewrite clear_low_bit.
    destruct (N.ltb_spec i (N.of_nat k)); auto. apply testbit_high; auto. }
  rewrite land_key_bits by auto. split.
  - intro HA. exists (clear_low (N.of_nat k) x), (2 ^ N.of_nat k).
    assert (AO : agree_off r key (clear_low (N.of_nat k) x)).
    { intros i Hi HN. rewrite clear_low_bit. destruct (N.ltb_spec (N.of_nat i) (N.of_nat k)).
      - symmetry. apply KZ. lia.
      - apply HA; auto. destruct (N.testbit mask (N.of_nat i)) eqn:EM; auto.
        exfalso. apply HN. apply HR; auto. split; auto. lia. }
    pose proof (spread_gather key r _ G CX AO) as SG. split.
    + apply in_map_iff. exists (gather r (clear_low (N.of_nat k) x)). split.
      * congruence.
      * apply nrange_In. apply gather_lt.
    + apply clear_low_range; [|reflexivity]. rewrite <- SG. apply CL.
  - intros [b [n [HIn Hb]]]. apply in_map_iff in HIn. destruct HIn as [v [HE Hv]].
    inversion HE; subst b n. clear HE.
    apply (proj1 (clear_low_range _ _ x (CL v))) in Hb.
    intros i Hi HM.
    assert (k <= i)%nat.
    { destruct (Nat.le_gt_cases k i); auto. rewrite HZ in HM by auto. discriminate. }
    rewrite <- (spread_out key r v i) by (auto; rewrite HR by auto; intros [_ A]; congruence).
    rewrite <- Hb, clear_low_bit. destruct (N.ltb_spec (N.of_nat i) (N.of_nat k)); auto. lia.
Qed.

Lemma ranges_disjoint : forall key mask i j b n b' n' k, key < 2 ^ 32 -> N.land key mask = key ->
  nth_error (get_key_ranges key mask) i = Some (b, n) ->
  nth_error (get_key_ranges key mask) j = Some (b', n') -> i <> j ->
  b <= k < b + n -> ~ (b' <= k < b' + n').
Proof.
  intros key mask i j b n b' n' x Hk HK Hi Hj Hne Hb Hb'.
  destruct (ranges_form key mask Hk) as [k [r [Hk32 [G [HZ [HR E]]]]]]. rewrite E in *.
  assert (KZ : forall i, (i < k)%nat -> N.testbit key (N.of_nat i) = false).
  { intros q Hq. rewrite <- HK, N.land_spec, HZ, andb_false_r by auto. reflexivity. }
  assert (CL : forall v, clear_low (N.of_nat k) (spread_key key r v) = spread_key key r v).
  { intro v. apply N.bits_inj. intro q. rewrite clear_low_bit.
    destruct (N.ltb_spec q (N.of_nat k)); auto. symmetry.
    replace q with (N.of_nat (N.to_nat q)) by lia.
    rewrite spread_out; [apply KZ; lia|lia|]. rewrite HR by lia. lia. }
  assert (Li : (i < N.to_nat (2 ^ N.of_nat (length r)))%nat).
  { rewrite <- nrange_length, <- (map_length (fun v => (spread_key key r v, 2 ^ N.of_nat k))).
    apply nth_error_Some. congruence. }
  assert (Lj : (j < N.to_nat (2 ^ N.of_nat (length r)))%nat).
  { rewrite <- nrange_length, <- (map_length (fun v => (spread_key key r v, 2 ^ N.of_nat k))).
    apply nth_error_Some. congruence. }
  rewrite nth_error_map, nrange_nth in Hi by auto. cbn [option_map] in Hi.
  rewrite nth_error_map, nrange_nth in Hj by auto. cbn [option_map] in Hj.
  inversion Hi; subst b n. inversion Hj; subst b' n'.
  apply (proj1 (clear_low_range _ _ x (CL _))) in Hb.
  apply (proj1 (clear_low_range _ _ x (CL _))) in Hb'.
  rewrite Hb in Hb'. apply spread_inj in Hb'; auto; lia.
Qed.

Lemma ranges_same_size : forall key mask, key < 2 ^ 32 -> exists k, (k <= 32)%nat /\
  forall b n, In (b, n) (get_key_ranges key mask) ->
    n = 2 ^ N.of_nat k /\ b < 2 ^ 32.
Proof.
  intros key mask Hk.
  destruct (ranges_form key mask Hk) as [k [r [Hk32 [G [HZ [HR E]]]]]]. rewrite E.
  exists k. split; auto. intros b n H. apply in_map_iff in H. destruct H as [v [HE _]].
  inversion HE; subst. split; auto. apply spread_lt.
Qed.

(** ** [get_keys] *)

Lemma list_ext_nth_error : forall {A} (l l' : list A),
  (forall i, nth_error l i = nth_error l' i) -> l = l'.
Proof.
  intros A l. induction l as [|x l IH]; intros [|y l'] H; auto.
  - specialize (H O). discriminate.
  - specialize (H O). discriminate.
  - pose proof (H O) as H0. cbn in H0. inversion H0; subst. f_equal. apply IH.
    intro i. apply (H (S i)).
Qed.

Lemma fill_spec : forall key zeros offset vs arr,
  NoDup vs ->
  (forall v, In v vs -> (N.to_nat v + offset < length arr)%nat) ->
  exists arr', fill key zeros offset vs arr = Ok arr' /\ length arr' = length arr /\
    (forall v, In v vs -> nth_error arr' (N.to_nat v + offset) = Some (spread_key key zeros v)) /\
    (forall i, (forall v, In v vs -> i <> N.to_nat v + offset)%nat -> nth_error arr' i = nth_error arr i).
Proof.
  intros key zeros offset vs. induction vs as [|v vs IH]; intros arr ND HB.
  - exists arr. cbn. split; auto. split; auto. split; auto. intros v [].
  - inversion ND; subst. cbn [fill]. unfold set_at, aset.
    destruct (Nat.ltb_spec (N.to_nat v + offset) (length arr)) as [L|L];
      [|specialize (HB v (or_introl eq_refl)); lia].
    cbn [bind].
    destruct (IH (upd arr (N.to_nat v + offset) (spread_key key zeros v)) H2) as [arr' [E [HL [H3 H4]]]].
    { intros w Hw. rewrite upd_length. apply HB. right; auto. }
    exists arr'. split; auto. split; [rewrite HL; apply upd_length|]. split.
    + intros w [<-|Hw]; auto. rewrite H4.
      * apply nth_error_upd_eq. auto.
      * intros w Hw Heq. assert (v = w) by lia. subst. contradiction.
    + intros i Hi. rewrite H4.
      * apply nth_error_upd_neq. intro. apply (Hi v); [left; auto|auto].
      * intros w Hw. apply Hi. right; auto.
Qed.

Lemma nrange_NoDup : forall n, NoDup (nrange n).
Proof.
  intros. unfold nrange. apply FinFun.Injective_map_NoDup.
  - intros x y H. lia.
  - apply seq_NoDup.
Qed.

Lemma set_at_ok : forall a i v, (i < length a)%nat -> set_at a i v = Ok (upd a i v).
Proof. intros. unfold set_at, aset. destruct (Nat.ltb_spec i (length a)); auto; lia. Qed.

(** The call without an array. *)
Lemma get_keys_fresh : forall key mask limit, key < 2 ^ 32 -> mask < 2 ^ 32 ->
  N.land key mask = key -> (limit <> Some 0 \/ n_keys mask <> 1) ->
  exists ks, get_keys key mask None 0 limit = Ok (ks, N.of_nat (length ks)) /\
    N.of_nat (length ks) = (match limit with None => n_keys mask | Some l => N.min l (n_keys mask) end) /\
    StronglySorted N.lt ks /\
    (forall k, In k ks -> k < 2 ^ 32 /\ N.land k mask = key) /\
    (forall k k', In k ks -> k' < k -> N.land k' mask = key -> In k' ks) /\
    (N.of_nat (length ks) = n_keys mask -> forall k, k < 2 ^ 32 -> N.land k mask = key -> In k ks).
Proof.
  intros key mask limit Hk Hm HK HL.
  pose proof (zeros_good mask) as G. pose proof (zeros_sorted mask) as S.
  remember (match limit with None => n_keys mask | Some l => N.min l (n_keys mask) end) as n eqn:En.
  assert (Hn : n <= n_keys mask) by (destruct limit; lia).
  assert (FORM : get_keys key mask None 0 limit =
    Ok (map (spread_key key (zeros_of mask)) (nrange n), n)).
  { unfold get_keys, n_keys in *. destruct (zeros_of mask) as [|z zs] eqn:EZ.
    - cbn [length] in *. change (2 ^ N.of_nat 0) with 1 in *.
      rewrite set_at_ok by (cbn; lia). cbn [bind upd].
      assert (n = 1).
      { destruct limit as [l|]; auto. destruct HL as [HL|HL]; [|congruence].
        destruct (N.eq_dec l 0); [subst; congruence|]. lia. }
      rewrite H. unfold nrange. change (N.to_nat 1) with 1%nat. cbn [seq map].
      rewrite spread_nil by auto. reflexivity.
    - rewrite <- EZ in *. clear EZ z zs.
      replace (match limit with Some l => N.min l (2 ^ N.of_nat (length (zeros_of mask)))
        | None => 2 ^ N.of_nat (length (zeros_of mask)) end) with n by auto.
      destruct (fill_spec key (zeros_of mask) 0 (nrange n) (repeat 0 (N.to_nat n)) (nrange_NoDup n))
        as [arr [E [EL [E1 E2]]]].
      { intros v Hv. apply nrange_In in Hv. rewrite repeat_length. lia. }
      rewrite E. cbn [bind]. f_equal. f_equal. rewrite repeat_length in EL.
      apply list_ext_nth_error. intro i.
      destruct (Nat.lt_ge_cases i (N.to_nat n)).
      + specialize (E1 (N.of_nat i)). rewrite nrange_In in E1.
        rewrite Nat2N.id, Nat.add_0_r in E1. rewrite E1 by lia.
        rewrite nth_error_map, nrange_nth by auto. reflexivity.
      + rewrite (proj2 (nth_error_None _ _)) by lia. symmetry. apply nth_error_None.
        rewrite map_length, nrange_length. auto. }
  assert (LEN : N.of_nat (length (map (spread_key key (zeros_of mask)) (nrange n))) = n).
  { rewrite map_length, nrange_length. lia. }
  exists (map (spread_key key (zeros_of mask)) (nrange n)). rewrite LEN.
  split; auto. split; auto. split; [|split; [|split]].
  - apply map_nrange_sorted. intros v w Hvw Hw. apply spread_mono; auto.
    unfold n_keys in Hn. lia.
  - intros k HIn. apply in_map_iff in HIn. destruct HIn as [v [<- _]].
    split; [apply spread_lt|]. apply agree_off_zeros; auto using spread_lt, spread_agree.
  - intros k k' HIn Hlt HM. apply in_map_iff in HIn. destruct HIn as [v [<- Hv]].
    apply nrange_In in Hv.
    assert (Hk' : k' < 2 ^ 32) by (pose proof (spread_lt key (zeros_of mask) v); lia).
    assert (AO : agree_off (zeros_of mask) key k') by (apply agree_off_zeros; auto).
    pose proof (spread_gather key _ k' G Hk' AO) as SG.
    apply in_map_iff. exists (gather (zeros_of mask) k'). split; auto. apply nrange_In.
    destruct (N.lt_ge_cases (gather (zeros_of mask) k') n) as [L|L]; auto. exfalso.
    pose proof (gather_lt (zeros_of mask) k').
    pose proof (spread_mono key (zeros_of mask) v (gather (zeros_of mask) k') G S H ltac:(lia)). lia.
  - intros HE k Hk' HM.
    assert (AO : agree_off (zeros_of mask) key k) by (apply agree_off_zeros; auto).
    pose proof (spread_gather key _ k G Hk' AO) as SG.
    apply in_map_iff. exists (gather (zeros_of mask) k). split; auto. apply nrange_In.
    rewrite HE. apply gather_lt.
Qed.

(** The call with an array. *)
Lemma fill_error : forall key zeros offset vs arr,
  (exists v, In v vs /\ (length arr <= N.to_nat v + offset)%nat) ->
  fill key zeros offset vs arr = Err IndexError.
Proof.
  intros key zeros offset vs. induction vs as [|v vs IH]; intros arr [w [HI HL]]; [destruct HI|].
  cbn [fill]. unfold set_at, aset.
  destruct (Nat.ltb_spec (N.to_nat v + offset) (length arr)) as [L|L]; cbn [bind]; auto.
  apply IH. exists w. rewrite upd_length. split; auto.
  destruct HI as [<-|HI]; auto. lia.
Qed.

Definition keys_wanted (mask : N) (len : nat) (limit : option N) : N :=
  let m := N.min (n_keys mask) (N.of_nat len) in
  match limit with None => m | Some l => N.min l m end.

Lemma get_keys_array : forall key mask a offset limit, n_keys mask <> 1 ->
  let n := keys_wanted mask (length a) limit in
  (n = 0 \/ (N.to_nat n + offset <= length a)%nat ->
   exists ks, get_keys key mask None 0 (Some n) = Ok (ks, n) /\
     get_keys key mask (Some a) offset limit =
       Ok (firstn offset a ++ ks ++ skipn (offset + length ks) a, n)) /\
  (n <> 0 -> (length a < N.to_nat n + offset)%nat ->
   get_keys key mask (Some a) offset limit = Err IndexError).
Proof.
  intros key mask a offset limit HZ n.
  assert (Hn : n <= n_keys mask).
  { unfold n, keys_wanted. destruct limit; lia. }
  assert (EQ : forall arr lim, zeros_of mask <> [] -> get_keys key mask (Some arr) offset lim =
    let* a' := fill key (zeros_of mask) offset (nrange (keys_wanted mask (length arr) lim)) arr in
    Ok (a', keys_wanted mask (length arr) lim)).
  { intros arr lim HE. unfold get_keys, keys_wanted, n_keys.
    destruct (zeros_of mask) as [|z zs] eqn:EZ; [congruence|]. rewrite <- EZ.
    destruct (N.ltb_spec (N.of_nat (length arr)) (2 ^ N.of_nat (length (zeros_of mask)))) as [L|L].
    - rewrite N.min_r by lia. reflexivity.
    - rewrite N.min_l by lia. reflexivity. }
  assert (HE : zeros_of mask <> []).
  { intro E. apply HZ. unfold n_keys. rewrite E. reflexivity. }
  rewrite (EQ a limit HE). fold n. split.
  - intro HO.
    destruct (fill_spec key (zeros_of mask) 0 (nrange n) (repeat 0 (N.to_nat n)) (nrange_NoDup n))
        as [ks [E [EL [E1 E2]]]].
    { intros v Hv. apply nrange_In in Hv. rewrite repeat_length. lia. }
    rewrite repeat_length in EL.
    exists ks. split.
    { unfold get_keys. destruct (zeros_of mask) as [|z zs] eqn:EZ; [congruence|].
      rewrite <- EZ in *. fold (n_keys mask). rewrite N.min_l by auto. rewrite E. reflexivity. }
    destruct (fill_spec key (zeros_of mask) offset (nrange n) a (nrange_NoDup n))
        as [a' [F [FL [F1 F2]]]].
    { intros v Hv. apply nrange_In in Hv. destruct HO; lia. }
    rewrite F. cbn [bind]. f_equal. f_equal. apply list_ext_nth_error. intro i.
    assert (HN : forall v, In v (nrange n) <-> v < n) by apply nrange_In.
    destruct (Nat.lt_ge_cases i offset) as [L|L].
    + rewrite F2 by (intros v _; lia).
      destruct (Nat.lt_ge_cases i (length a)) as [La|La].
      * rewrite nth_error_app1 by (rewrite firstn_length; lia).
        clear -L. revert i offset L. induction a as [|x a IH]; intros [|i] [|o] L; cbn; auto; try lia.
        apply IH. lia.
      * rewrite (proj2 (nth_error_None a i)) by lia. symmetry. apply nth_error_None.
        rewrite !app_length, firstn_length, skipn_length, EL.
        destruct HO as [->|HO]; lia.
    + destruct (Nat.lt_ge_cases (length a) offset) as [La|La].
      { assert (Z : n = 0) by (destruct HO; auto; lia).
        rewrite Z in EL. destruct ks; [|discriminate].
        rewrite Z in F. cbn in F. inversion F; subst a'.
        cbn [app length]. rewrite Nat.add_0_r, firstn_skipn. reflexivity. }
      rewrite nth_error_app2 by (rewrite firstn_length; lia).
      rewrite firstn_length. replace (Nat.min offset (length a)) with offset by lia.
      destruct (Nat.lt_ge_cases (i - offset) (length ks)) as [Lk|Lk].
      * rewrite nth_error_app1 by auto.
        specialize (F1 (N.of_nat (i - offset))). rewrite HN in F1.
        rewrite Nat2N.id in F1. replace (i - offset + offset)%nat with i in F1 by lia.
        specialize (E1 (N.of_nat (i - offset))). rewrite HN in E1.
        rewrite Nat2N.id, Nat.add_0_r in E1. rewrite F1, E1 by lia. reflexivity.
      * rewrite nth_error_app2 by auto. rewrite F2 by (intros v Hv; apply HN in Hv; lia).
        assert (G : forall (l : list N) k q, nth_error (skipn k l) q = nth_error l (k + q)).
        { clear. intros l. induction l; intros [|k] q; cbn; auto. destruct q; auto. }
        rewrite G. f_equal. lia.
  - intros Hnz HO. rewrite fill_error; auto.
    exists (n - 1). rewrite nrange_In. split; [lia|]. lia.
Qed.

(** ** Bit widths *)

Lemma allocator_bits_least : forall n b, n <= 2 ^ b <-> allocator_bits_needed n <= b.
Proof.
  intros n b. unfold allocator_bits_needed. destruct (N.eqb_spec n 0) as [->|Hn].
  - split; intros; lia.
  - rewrite N.log2_up_le_pow2 by lia. reflexivity.
Qed.

Lemma get_n_bits_allocator : forall n, n <> 1 -> get_n_bits n = allocator_bits_needed n.
Proof.
  intros n H. unfold get_n_bits, allocator_bits_needed.
  destruct (N.eqb_spec n 0); auto. destruct (N.eqb_spec n 1); auto. contradiction.
Qed.

Lemma power_of_2_iff : forall v, is_power_of_2 v = true <-> exists k, v = 2 ^ k.
Proof.
  intro v. unfold is_power_of_2. destruct (N.eqb_spec v 0) as [->|Hv].
  - split; [discriminate|]. intros [k E]. symmetry in E. apply N.pow_nonzero in E; [destruct E|lia].
  - rewrite N.eqb_eq. split.
    + intro H. exists (N.log2 v).
      destruct (N.log2_spec v ltac:(lia)) as [A B].
      destruct (N.eq_dec v (2 ^ N.log2 v)) as [|D]; auto. exfalso.
      assert (T1 : N.testbit v (N.log2 v) = true) by (apply N.bit_log2; auto).
      assert (L : N.log2 (v - 1) = N.log2 v).
      { apply N.log2_unique; [lia|]. split; lia. }
      assert (T2 : N.testbit (v - 1) (N.log2 v) = true).
      { rewrite <- L. apply N.bit_log2.
        pose proof (N.pow_nonzero 2 (N.log2 v) ltac:(lia)). lia. }
      assert (T : N.testbit (N.land v (v - 1)) (N.log2 v) = true)
        by (rewrite N.land_spec, T1, T2; auto).
      rewrite H, N.bits_0 in T. discriminate.
    + intros [k ->]. apply N.bits_inj. intro i. rewrite N.land_spec, N.bits_0.
      rewrite N.pow2_bits_eqb. destruct (N.eqb_spec k i) as [<-|]; auto.
      rewrite N.sub_1_r, <- N.ones_equiv. rewrite N.ones_spec_high by lia. reflexivity.
Qed.

(** ** Route words *)

Lemma add_bit : forall v l i, N.testbit v l = false ->
  N.testbit (v + N.shiftl 1 l) i = (N.testbit v i || N.eqb l i)%bool.
Proof.
  intros v l i H. rewrite N.shiftl_1_l.
  assert (D : N.land v (2 ^ l) = 0).
  { apply N.bits_inj. intro j. rewrite N.land_spec, N.bits_0, N.pow2_bits_eqb.
    destruct (N.eqb_spec l j) as [<-|]; [rewrite H; auto|apply andb_false_r]. }
  rewrite N.add_nocarry_lxor by auto. rewrite N.lxor_lor by auto.
  rewrite N.lor_spec, N.pow2_bits_eqb. reflexivity.
Qed.

Lemma add_bits : forall (f : N -> N) ls v i, (forall a b, f a = f b -> a = b) -> NoDup ls ->
  (forall l, In l ls -> N.testbit v (f l) = false) ->
  (N.testbit (fold_left (fun v l => v + N.shiftl 1 (f l)) ls v) i = true <->
   N.testbit v i = true \/ exists l, In l ls /\ f l = i).
Proof.
  intros f ls. induction ls as [|l ls IH]; intros v i HI ND HF; cbn [fold_left].
  - split; [auto|]. intros [H|[l [[] _]]]; auto.
  - inversion ND; subst. rewrite IH; auto.
    + rewrite add_bit by (apply HF; left; auto). rewrite orb_true_iff, N.eqb_eq. split.
      * intros [[H|H]|[m [Hm E]]]; auto; right; [exists l|exists m]; split; auto;
          [left|right]; auto.
      * intros [H|[m [[<-|Hm] E]]]; auto. right. exists m. auto.
    + intros m Hm. rewrite add_bit by (apply HF; left; auto).
      rewrite HF by (right; auto). cbn [orb]. apply N.eqb_neq. intro E. apply HI in E.
      subst. contradiction.
Qed.

Lemma reduce_route_bits : forall procs links i, NoDup procs -> NoDup links ->
  (forall l, In l links -> l < 6) ->
  (N.testbit (reduce_route_value procs links) i = true <->
   (i < 6 /\ In i links) \/ (6 <= i /\ In (i - 6) procs)).
Proof.
  intros procs links i NP NL HL. unfold reduce_route_value.
  assert (B0 : forall j, N.testbit (fold_left (fun v l => v + N.shiftl 1 l) links 0) j = true <->
      In j links).
  { intro j. rewrite (add_bits (fun l => l)) by (auto using N.bits_0).
    rewrite N.bits_0. split.
    - intros [H|[l [H <-]]]; [discriminate|auto].
    - intro H. right. exists j. auto. }
  rewrite (add_bits (fun p => p + 6)); auto.
  - rewrite B0. split.
    + intros [H|[p [Hp <-]]].
      * left. split; auto.
      * right. split; [lia|]. replace (p + 6 - 6) with p by lia. auto.
    + intros [[_ H]|[H6 H]]; auto. right. exists (i - 6). split; auto. lia.
  - intros. lia.
  - intros p Hp. destruct (N.testbit (fold_left (fun v l => v + N.shiftl 1 l) links 0) (p + 6)) eqn:E; auto.
    apply B0 in E. apply HL in E. lia.
Qed.

Lemma slice_keys_spec : forall base n x i, (i < N.to_nat n)%nat ->
  nth_error (slice_keys base n x) i = Some (base + N.of_nat i * 2 ^ x).
Proof.
  intros. unfold slice_keys. rewrite nth_error_map, nrange_nth by auto.
  cbn [option_map]. rewrite N.shiftl_mul_pow2. reflexivity.
Qed.

(** Keys of a slice stay inside the block of an aligned key and mask. *)
Lemma slice_keys_in_mask : forall base n x b, n * 2 ^ x <= 2 ^ b ->
  N.land base (N.ones b) = 0 ->
  forall k, In k (slice_keys base n x) -> N.ldiff k (N.ones b) = base.
Proof.
  intros base n x b Hn HB k HIn. unfold slice_keys in HIn. apply in_map_iff in HIn.
  destruct HIn as [i [<- Hi]]. apply nrange_In in Hi.
  rewrite N.shiftl_mul_pow2.
  assert (L : i * 2 ^ x < 2 ^ b).
  { apply N.lt_le_trans with (n * 2 ^ x); auto. apply N.mul_lt_mono_pos_r; auto.
    apply N.neq_0_lt_0. apply N.pow_nonzero. lia. }
  remember (i * 2 ^ x) as y eqn:Ey. clear Ey.
  assert (D : N.land base y = 0).
  { apply N.bits_inj. intro j. rewrite N.land_spec, N.bits_0.
    destruct (N.lt_ge_cases j b).
    - assert (T : N.testbit (N.land base (N.ones b)) j = false) by (rewrite HB; apply N.bits_0).
      rewrite N.land_spec, N.ones_spec_low, andb_true_r in T by auto. rewrite T. reflexivity.
    - rewrite (testbit_above y b) by auto. apply andb_false_r. }
  rewrite N.add_nocarry_lxor by auto. rewrite N.lxor_lor by auto.
  apply N.bits_inj. intro j. rewrite N.ldiff_spec, N.lor_spec.
  destruct (N.lt_ge_cases j b).
  - rewrite N.ones_spec_low by auto. cbn [negb]. rewrite andb_false_r.
    assert (T : N.testbit (N.land base (N.ones b)) j = false) by (rewrite HB; apply N.bits_0).
    rewrite N.land_spec, N.ones_spec_low, andb_true_r in T by auto. auto.
  - rewrite N.ones_spec_high by auto. cbn [negb]. rewrite andb_true_r.
    rewrite (testbit_above y b) by auto. apply orb_false_r.
Qed.
