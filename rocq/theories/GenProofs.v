(** Lemmas about merging machine entries and the table generators. *)
From Coq Require Import List Arith NArith ZArith Bool Lia.
From Verif Require Import Base Dict RouteSpec AllocModel AllocProofs TablesModel GenModel.
Import ListNotations.
Local Open Scope N_scope.

(** ** Arithmetic *)

Lemma low_bit_spec : forall i, 0 < i -> exists l, low_bit i = 2 ^ l /\ i mod 2 ^ l = 0.
Proof.
  intros [|p] H; [lia|]. clear H. unfold low_bit. cbn [Z.of_N].
  assert (G : exists l, Z.land (Zpos p) (- Zpos p) = (2 ^ Z.of_N l)%Z /\ exists q, N.pos p = q * 2 ^ l).
  { induction p as [p IH|p IH|].
    - exists 0. split; [|exists (N.pos p~1); now rewrite N.mul_1_r].
      change (2 ^ Z.of_N 0)%Z with 1%Z.
      assert (E1 : Z.pos p~1 = (2 * Z.pos p + 1)%Z) by lia.
      assert (E2 : (- Z.pos p~1)%Z = (2 * Z.lnot (Z.pos p) + 1)%Z) by (unfold Z.lnot; lia).
      rewrite E2, E1. apply Z.bits_inj'. intros n Hn. rewrite Z.land_spec.
      destruct (Z.eq_dec n 0) as [-> |N0].
      + rewrite !Z.testbit_odd_0. reflexivity.
      + replace n with (Z.succ (n - 1)) by lia.
        rewrite !Z.testbit_odd_succ by lia. rewrite Z.lnot_spec by lia.
        rewrite andb_negb_r. replace (Z.testbit 1 (Z.succ (n - 1))) with (Z.testbit (2 * 0 + 1) (Z.succ (n - 1))) by reflexivity.
        rewrite Z.testbit_odd_succ by lia. now rewrite Z.bits_0.
    - destruct IH as (l & A & q & B). exists (N.succ l). split.
      + assert (E1 : Z.pos p~0 = Z.shiftl (Z.pos p) 1) by (rewrite Z.shiftl_mul_pow2; lia).
        assert (E2 : (- Z.pos p~0)%Z = Z.shiftl (- Z.pos p) 1) by (rewrite Z.shiftl_mul_pow2; lia).
        rewrite E2, E1, <- Z.shiftl_land, A, Z.shiftl_mul_pow2 by lia.
        rewrite N2Z.inj_succ, Z.pow_succ_r by lia. lia.
      + exists q. rewrite N.pow_succ_r'. nia.
    - exists 0. split; [reflexivity|]. exists 1. reflexivity. }
  destruct G as (l & A & q & B). exists l. split.
  - rewrite A. rewrite <- (N2Z.id (2 ^ l)). rewrite N2Z.inj_pow. reflexivity.
  - rewrite B. apply N.mod_mul. pose proof (pow2_pos l). lia.
Qed.

Lemma group_mask_spec : forall b l, group_mask (mask_of b) b (2 ^ l) = mask_of (b + l).
Proof.
  intros. unfold group_mask, mask_of. rewrite N.shiftl_mul_pow2, N.pow_add_r.
  pose proof (pow2_pos b). pose proof (pow2_pos l).
  rewrite <- N.sub_add_distr. f_equal.
  rewrite N.mul_sub_distr_r, N.mul_1_l. nia.
Qed.

Lemma mod0_mul : forall a m, m <> 0 -> a mod m = 0 -> exists q, a = q * m.
Proof. intros a m H E. exists (a / m). rewrite (N.div_mod a m) at 1 by auto. rewrite E. lia. Qed.

Lemma mod0_pow_le : forall a l l', l' <= l -> a mod 2 ^ l = 0 -> a mod 2 ^ l' = 0.
Proof.
  intros a l l' H E. apply mod0_mul in E; [|pose proof (pow2_pos l); lia]. destruct E as [q ->].
  replace l with ((l - l') + l') by lia. rewrite N.pow_add_r, N.mul_assoc.
  apply N.mod_mul. pose proof (pow2_pos l'). lia.
Qed.

(** The keys of an aligned block of machine indexes. *)
Lemma tile_matches : forall K b B s l k, b + B <= 32 -> K mod 2 ^ (b + B) = 0 -> K < 2 ^ 32 ->
  s mod 2 ^ l = 0 -> s + 2 ^ l <= 2 ^ B -> k < 2 ^ 32 ->
  (N.land k (mask_of (b + l)) = K + s * 2 ^ b <-> K + s * 2 ^ b <= k < K + (s + 2 ^ l) * 2 ^ b).
Proof.
  intros K b B s l k HB HK K32 Hs Hl Hk.
  pose proof (pow2_pos b) as Pb. pose proof (pow2_pos l) as Pl.
  assert (LB : l <= B).
  { destruct (N.le_gt_cases l B); auto. exfalso.
    assert (2 ^ B < 2 ^ l) by (apply N.pow_lt_mono_r; lia). lia. }
  apply mod0_mul in HK; [|pose proof (pow2_pos (b + B)); lia]. destruct HK as [q ->].
  apply mod0_mul in Hs; [|lia]. destruct Hs as [r ->].
  assert (E : q * 2 ^ (b + B) + r * 2 ^ l * 2 ^ b = N.shiftl (q * 2 ^ (B - l) + r) (b + l)).
  { rewrite N.shiftl_mul_pow2. replace (b + B) with ((B - l) + (b + l)) by lia.
    rewrite !N.pow_add_r. nia. }
  rewrite E. rewrite block_match by lia. rewrite block_range, <- E.
  rewrite (N.pow_add_r 2 b l).
  assert (q * 2 ^ (b + B) + (r * 2 ^ l + 2 ^ l) * 2 ^ b =
          q * 2 ^ (b + B) + r * 2 ^ l * 2 ^ b + 2 ^ b * 2 ^ l) as -> by nia.
  tauto.
Qed.

Lemma tile_end : forall K b B e, b + B <= 32 -> K mod 2 ^ (b + B) = 0 -> K < 2 ^ 32 -> e <= 2 ^ B ->
  K + e * 2 ^ b <= 2 ^ 32.
Proof.
  intros K b B e HB HK K32 He. apply mod0_mul in HK; [|pose proof (pow2_pos (b + B)); lia].
  destruct HK as [q ->].
  assert (E : 2 ^ 32 = 2 ^ (32 - (b + B)) * 2 ^ (b + B)) by (rewrite <- N.pow_add_r; f_equal; lia).
  rewrite E in K32 |- *. clear E. rewrite (N.pow_add_r 2 b B) in *.
  pose proof (pow2_pos b) as Pb. pose proof (pow2_pos B) as PB.
  remember (2 ^ (32 - (b + B))) as M. remember (2 ^ b) as x. remember (2 ^ B) as y.
  clear HeqM Heqx Heqy.
  assert (Q : q < M).
  { apply (N.mul_lt_mono_pos_r (x * y)); [apply N.mul_pos_pos; lia|exact K32]. }
  assert (e * x <= y * x) by (apply N.mul_le_mono_r; lia).
  assert ((q + 1) * (x * y) <= M * (x * y)) by (apply N.mul_le_mono_r; lia). lia.
Qed.

(** ** Tilings *)

Section Tiles.
  Variables (K b B : N).
  Hypothesis HB : b + B <= 32.
  Hypothesis HK : K mod 2 ^ (b + B) = 0.
  Hypothesis K32 : K < 2 ^ 32.

  (** [run s es]: machine entries of consecutive indexes from [s]. *)
  Fixpoint run (s : N) (es : list ment) : Prop :=
    match es with
    | [] => True
    | e :: es' => me_index e = s /\ me_key e = K + s * 2 ^ b /\ run (s + 1) es'
    end.

  (** Blocks that cover the indexes from [s] to [e] and start at given entries. *)
  Inductive tiles : N -> N -> list ment -> list out -> Prop :=
  | tiles_nil : forall s, tiles s s [] []
  | tiles_cons : forall s e l es o os m,
      s mod 2 ^ l = 0 -> s + 2 ^ l <= 2 ^ B ->
      nth_error es 0 = Some m -> o_rent o = me_rent m -> o_key o = me_key m ->
      o_key o = K + s * 2 ^ b -> o_mask o = mask_of (b + l) ->
      tiles (s + 2 ^ l) e (skipn (N.to_nat (2 ^ l)) es) os ->
      tiles s e es (o :: os).

  Lemma run_skipn : forall n s es, run s es -> run (s + N.of_nat n) (skipn n es).
  Proof. clear HB HK K32 B.
    induction n as [|n IH]; intros s es H.
    - simpl. now rewrite N.add_0_r.
    - destruct es as [|e es]; [exact I|]. cbn [skipn]. destruct H as (_ & _ & H).
      apply IH in H. replace (s + N.of_nat (S n)) with (s + 1 + N.of_nat n) by lia. exact H.
  Qed.

  Lemma break_down_tiles : forall fuel s es L, (length es <= fuel)%nat -> run s es ->
    s mod 2 ^ L = 0 -> N.of_nat (length es) < 2 ^ L -> s + N.of_nat (length es) <= 2 ^ B ->
    exists os, break_down fuel (mask_of b) b es = Ok os /\ tiles s (s + N.of_nat (length es)) es os /\
      (length os <= length es)%nat.
  Proof. clear HB HK K32.
    induction fuel as [|fuel IH]; intros s es L F R A LL E.
    - destruct es; [|simpl in F; lia]. exists []. cbn [length]. rewrite N.add_0_r.
      split; [reflexivity|]. split; [constructor|lia].
    - destruct es as [|m es]. { exists []. cbn [length]. rewrite N.add_0_r.
      split; [reflexivity|]. split; [constructor|lia]. }
      cbn [break_down].
      set (r := m :: es) in *. remember (N.log2 (N.of_nat (length r))) as l eqn:El.
      assert (LR : 0 < N.of_nat (length r)) by (unfold r; cbn [length]; lia).
      destruct (N.log2_spec _ LR) as [L1 L2]. rewrite <- El in *.
      assert (LT : l < L) by (apply (N.pow_lt_mono_r_iff 2); lia).
      pose proof (pow2_pos l) as Pl.
      assert (SL : length (skipn (N.to_nat (2 ^ l)) r) = (length r - N.to_nat (2 ^ l))%nat)
        by apply skipn_length.
      assert (AL : s mod 2 ^ l = 0) by (apply mod0_pow_le with L; [lia|auto]).
      rewrite N.pow_succ_r' in L2.
      destruct (IH (s + 2 ^ l) (skipn (N.to_nat (2 ^ l)) r) l) as (os & H1 & H2 & H3).
      + lia.
      + pose proof (run_skipn (N.to_nat (2 ^ l)) s r R) as X. now rewrite N2Nat.id in X.
      + apply mod0_mul in AL; [|lia]. destruct AL as [q ->].
        replace (q * 2 ^ l + 2 ^ l) with ((q + 1) * 2 ^ l) by lia. apply N.mod_mul. lia.
      + rewrite SL. lia.
      + rewrite SL. lia.
      + rewrite H1. cbn [bind]. eexists. split; [reflexivity|].
        rewrite SL in H2. replace (s + 2 ^ l + N.of_nat (length r - N.to_nat (2 ^ l)))
          with (s + N.of_nat (length r)) in H2 by lia.
        split; [|cbn [length]; rewrite SL in H3; lia].
        destruct R as (R1 & R2 & R3).
        eapply tiles_cons with (l := l) (m := m); auto; cbn [o_rent o_key o_mask]; auto.
        * lia.
        * now rewrite group_mask_spec.
  Qed.

  Lemma merge_loop_tiles : forall fuel is_last n mx s es,
    (length es <= fuel)%nat -> run s es -> mx < 2 ^ B ->
    s + N.of_nat (length es) <= mx + 1 ->
    (is_last = true -> es <> [] -> s + N.of_nat (length es) = mx + 1) ->
    (s = 0 -> n = N.of_nat (length es)) ->
    exists os e, merge_loop fuel (mask_of b) b is_last n es = Ok os /\ tiles s e es os /\
      (length os <= length es)%nat /\
      (e = s + N.of_nat (length es) \/
       s + N.of_nat (length es) = mx + 1 /\ mx < e <= 2 ^ B).
  Proof. clear HB HK K32.
    induction fuel as [|fuel IH]; intros is_last n mx s es F R M E IL S0.
    - destruct es; [|simpl in F; lia]. exists [], s. cbn [length].
      split; [reflexivity|]. split; [constructor|]. split; [lia|]. left. lia.
    - destruct es as [|m es]. { exists [], s. cbn [length].
      split; [reflexivity|]. split; [constructor|]. split; [lia|]. left. lia. }
      cbn [merge_loop].
      set (r := m :: es) in *.
      assert (LR : 0 < N.of_nat (length r)) by (unfold r; cbn [length]; lia).
      assert (NS : r <> []) by discriminate.
      assert (EI : me_index m = s) by apply R. rewrite EI. clear EI.
      assert (NX : exists l, n_sequential s n = 2 ^ l /\ s mod 2 ^ l = 0 /\ s + 2 ^ l <= 2 ^ B).
      { unfold n_sequential. destruct (N.ltb_spec 0 s) as [P|P].
        - destruct (low_bit_spec s P) as (l & L1 & L2). exists l. split; [auto|]. split; [auto|].
          apply mod0_mul in L2; [|pose proof (pow2_pos l); lia]. destruct L2 as [q Hq].
          assert (LB : l < B).
          { apply (N.pow_lt_mono_r_iff 2); [lia|]. pose proof (pow2_pos l). destruct q; nia. }
          assert (EB : 2 ^ B = 2 ^ (B - l) * 2 ^ l) by (rewrite <- N.pow_add_r; f_equal; lia).
          rewrite EB in *. subst s. assert (q < 2 ^ (B - l)) by nia. nia.
        - assert (s = 0) by lia. subst s. exists (N.log2_up n). split; [auto|].
          split; [apply N.mod_0_l; pose proof (pow2_pos (N.log2_up n)); lia|].
          rewrite N.add_0_l. apply N.pow_le_mono_r; [lia|]. rewrite S0 by auto.
          rewrite <- (N.log2_up_pow2 B) by lia. apply N.log2_up_le_mono. lia. }
      destruct NX as (l & NX1 & NX2 & NX3). rewrite NX1. pose proof (pow2_pos l) as Pl.
      assert (SL : length (skipn (N.to_nat (2 ^ l)) r) = (length r - N.to_nat (2 ^ l))%nat)
        by apply skipn_length.
      destruct (N.leb_spec (2 ^ l) (N.of_nat (length r))) as [C|C]; cbn [orb].
      + destruct (IH is_last n mx (s + 2 ^ l) (skipn (N.to_nat (2 ^ l)) r))
          as (os & e & H1 & H2 & H3 & H4).
        * rewrite SL. lia.
        * pose proof (run_skipn (N.to_nat (2 ^ l)) s r R) as X. now rewrite N2Nat.id in X.
        * auto.
        * rewrite SL. lia.
        * intros X Y. specialize (IL X NS). rewrite SL. lia.
        * lia.
        * rewrite H1. cbn [bind]. eexists. exists e. split; [reflexivity|].
          split; [|split; [cbn [length]; rewrite SL in H3; lia|]].
          { destruct R as (R1 & R2 & R3).
            eapply tiles_cons with (l := l) (m := m); auto; cbn [o_rent o_key o_mask]; auto.
            now rewrite group_mask_spec. }
          { rewrite SL in H4. lia. }
      + destruct is_last.
        * rewrite skipn_all2 by lia. destruct fuel; cbn [merge_loop bind].
          all: eexists; exists (s + 2 ^ l); split; [reflexivity|];
            split; [|split; [cbn [length]; lia|]].
          1, 3: destruct R as (R1 & R2 & R3);
            eapply tiles_cons with (l := l) (m := m); auto; cbn [o_rent o_key o_mask]; auto;
            [now rewrite group_mask_spec|rewrite skipn_all2 by lia; constructor].
          all: right; specialize (IL eq_refl NS); lia.
        * destruct (break_down_tiles (length r) s r l) as (os & H1 & H2 & H3); auto; [lia|].
          exists os, (s + N.of_nat (length r)). auto.
  Qed.

  Lemma merge_tiles : forall mx s es, es <> [] -> run s es -> mx < 2 ^ B ->
    s + N.of_nat (length es) <= mx + 1 ->
    exists os e, merge_machine_entries (mask_of b) b mx es = Ok os /\ tiles s e es os /\
      (length os <= length es)%nat /\
      (e = s + N.of_nat (length es) \/
       s + N.of_nat (length es) = mx + 1 /\ mx < e <= 2 ^ B).
  Proof. clear HB HK K32.
    intros mx s es NE R M E. unfold merge_machine_entries.
    destruct (rev es) as [|x r] eqn:ER.
    { apply (f_equal (@rev ment)) in ER. rewrite rev_involutive in ER. contradiction. }
    apply merge_loop_tiles; auto.
    intros H _. apply N.eqb_eq in H.
    assert (EL : es = rev r ++ [x]).
    { rewrite <- (rev_involutive es), ER. reflexivity. }
    pose proof (run_skipn (length (rev r)) s es R) as X.
    rewrite EL in X. rewrite skipn_app, skipn_all, Nat.sub_diag in X. cbn [app skipn run] in X.
    destruct X as [X _].
    rewrite EL, app_length. cbn [length]. lia.
  Qed.

  (** What a tiling matches. *)
  Definition out_matches (k : N) (o : out) : Prop := N.land k (o_mask o) = o_key o.

  Lemma tiles_le : forall s e es os, tiles s e es os -> s <= e.
  Proof. clear HB HK K32. induction 1; lia. Qed.

  Lemma tiles_bound : forall s e es os, tiles s e es os -> s <= 2 ^ B -> e <= 2 ^ B.
  Proof. clear HB HK K32. induction 1; auto. Qed.

  Lemma tiles_spec : forall s e es os, tiles s e es os -> forall k, k < 2 ^ 32 ->
    ((exists o, In o os /\ out_matches k o) <-> K + s * 2 ^ b <= k < K + e * 2 ^ b).
  Proof.
    induction 1 as [s|s e l es o os m T1 T2 T3 T4 T5 T6 T7 T IH]; intros k Hk.
    - split; [intros (o & [] & _)|lia].
    - specialize (IH k Hk). apply tiles_le in T.
      assert (Mo : out_matches k o <-> K + s * 2 ^ b <= k < K + (s + 2 ^ l) * 2 ^ b).
      { unfold out_matches. rewrite T6, T7. now apply tile_matches with B. }
      assert ((s + 2 ^ l) * 2 ^ b <= e * 2 ^ b) by (apply N.mul_le_mono_r; lia).
      assert (s * 2 ^ b <= (s + 2 ^ l) * 2 ^ b) by (apply N.mul_le_mono_r; lia).
      split.
      + intros (o' & [<- |I] & MO).
        * apply Mo in MO. lia.
        * destruct IH as [IH _]. specialize (IH (ex_intro _ o' (conj I MO))). lia.
      + intros R. destruct (N.lt_ge_cases k (K + (s + 2 ^ l) * 2 ^ b)).
        * exists o. split; [left; auto|]. apply Mo. lia.
        * destruct IH as [_ IH]. destruct IH as (o' & I & MO); [lia|]. exists o'. split; [right|]; auto.
  Qed.

  (** The keys of an index are in one block. *)
  Lemma tiles_whole : forall s e es os, tiles s e es os -> forall i, s <= i < e ->
    exists o, In o os /\ forall k, K + i * 2 ^ b <= k < K + i * 2 ^ b + 2 ^ b -> out_matches k o.
  Proof.
    induction 1 as [s|s e l es o os m T1 T2 T3 T4 T5 T6 T7 T IH]; intros i Hi; [lia|].
    destruct (N.lt_ge_cases i (s + 2 ^ l)) as [C|C].
    - exists o. split; [left; reflexivity|]. intros k Hk. unfold out_matches. rewrite T6, T7.
      pose proof (tile_end K b B (s + 2 ^ l) HB HK K32 T2) as X.
      assert (Y : (i + 1) * 2 ^ b <= (s + 2 ^ l) * 2 ^ b) by (apply N.mul_le_mono_r; lia).
      assert (Z : s * 2 ^ b <= i * 2 ^ b) by (apply N.mul_le_mono_r; lia).
      apply tile_matches with B; auto; lia.
    - destruct (IH i) as (o' & O1 & O2); [lia|]. exists o'. split; [right|]; auto.
  Qed.

  Lemma tiles_disjoint : forall s e es os, tiles s e es os ->
    ForallOrdPairs (fun o o' => forall k, k < 2 ^ 32 -> ~ (out_matches k o /\ out_matches k o')) os.
  Proof.
    induction 1 as [s|s e l es o os m T1 T2 T3 T4 T5 T6 T7 T IH]; constructor; auto.
    apply Forall_forall. intros o' I k Hk [M1 M2].
    assert (X : exists o, In o os /\ out_matches k o) by eauto.
    apply (tiles_spec _ _ _ _ T k Hk) in X.
    unfold out_matches in M1. rewrite T6, T7 in M1. apply tile_matches with (B := B) in M1; auto.
    lia.
  Qed.

  Lemma tiles_ok : forall s e es os, tiles s e es os -> forall o, In o os ->
    N.land (o_key o) (o_mask o) = o_key o /\ o_key o < 2 ^ 32 /\ o_mask o < 2 ^ 32 /\
    exists m, In m es /\ o_key o = me_key m /\ o_rent o = me_rent m.
  Proof.
    induction 1 as [s|s e l es o os m T1 T2 T3 T4 T5 T6 T7 T IH]; intros o' I; [destruct I|].
    destruct I as [<- |I].
    - pose proof (pow2_pos l) as Pl. pose proof (pow2_pos b) as Pb.
      assert (L32 : K + s * 2 ^ b < 2 ^ 32).
      { pose proof (tile_end K b B (s + 2 ^ l) HB HK K32 T2) as X.
        assert (s * 2 ^ b < (s + 2 ^ l) * 2 ^ b) by (apply N.mul_lt_mono_pos_r; lia). lia. }
      assert (LB : l <= B).
      { destruct (N.le_gt_cases l B); auto. exfalso.
        assert (2 ^ B < 2 ^ l) by (apply N.pow_lt_mono_r; lia). lia. }
      split; [|split; [congruence|split; [rewrite T7; apply mask_of_lt; lia|]]].
      + rewrite T6, T7. apply tile_matches with B; auto. split; [lia|].
        assert (s * 2 ^ b < (s + 2 ^ l) * 2 ^ b) by (apply N.mul_lt_mono_pos_r; lia). lia.
      + exists m. split; [|auto]. eapply nth_error_In; eauto.
    - destruct (IH o' I) as (A & A1 & A2 & m' & A3 & A4). split; [auto|]. split; [auto|]. split; [auto|].
      exists m'. split; [|auto].
      rewrite <- (firstn_skipn (N.to_nat (2 ^ l)) es). apply in_or_app. auto.
  Qed.

  Lemma run_In : forall es s m, run s es -> In m es ->
    s <= me_index m < s + N.of_nat (length es) /\ me_key m = K + me_index m * 2 ^ b.
  Proof. clear HB HK K32 B.
    induction es as [|e es IH]; intros s m R I; [destruct I|]. destruct R as (R1 & R2 & R3).
    cbn [length]. destruct I as [<- |I]; [split; [lia|congruence]|].
    destruct (IH (s + 1) m R3 I) as [A1 A2]. split; [lia|auto].
  Qed.

  Lemma run_nth : forall es s i, run s es -> s <= i < s + N.of_nat (length es) ->
    exists m, In m es /\ me_index m = i.
  Proof. clear HB HK K32 B.
    induction es as [|e es IH]; intros s i R H; [cbn [length] in H; lia|].
    destruct R as (R1 & R2 & R3). cbn [length] in H.
    destruct (N.eq_dec i s) as [-> |NE]; [exists e; split; [left|]; auto|].
    destruct (IH (s + 1) i R3) as (m & A & C); [lia|]. exists m. split; [right|]; auto.
  Qed.
End Tiles.

(** ** C18 *)

(** The key of machine index [i] of an application vertex. *)
Definition index_key (K b i : N) : N := K + i * 2 ^ b.

Lemma merge_spec : forall K b B mx i0 es,
  b + B <= 32 -> K mod 2 ^ (b + B) = 0 -> K < 2 ^ 32 -> mx < 2 ^ B ->
  es <> [] -> run K b i0 es -> i0 + N.of_nat (length es) <= mx + 1 ->
  exists os, merge_machine_entries (mask_of b) b mx es = Ok os /\
    (length os <= length es)%nat /\
    (forall o, In o os -> N.land (o_key o) (o_mask o) = o_key o /\ o_key o < 2 ^ 32 /\ o_mask o < 2 ^ 32 /\
       exists m, In m es /\ o_key o = me_key m /\ o_rent o = me_rent m) /\
    (forall m, In m es -> exists o, In o os /\
       forall k, me_key m <= k < me_key m + 2 ^ b -> out_matches k o) /\
    (forall o k, In o os -> k < 2 ^ 32 -> out_matches k o ->
       K <= k < K + 2 ^ (b + B) /\
       ((exists m, In m es /\ me_key m <= k < me_key m + 2 ^ b) \/
        index_key K b (mx + 1) <= k /\ i0 + N.of_nat (length es) = mx + 1)) /\
    ForallOrdPairs (fun o o' => forall k, k < 2 ^ 32 -> ~ (out_matches k o /\ out_matches k o')) os.
Proof.
  intros K b B mx i0 es HB HK K32 HM NE R L.
  destruct (merge_tiles K b B mx i0 es NE R HM L) as (os & e & H1 & H2 & H3 & H4).
  pose proof (pow2_pos b) as Pb.
  assert (EB : e <= 2 ^ B) by (destruct H4; lia).
  exists os. split; [auto|]. split; [auto|].
  split; [eapply tiles_ok; eauto|].
  split; [|split; [|eapply tiles_disjoint; eauto]].
  - intros m I. destruct (run_In _ _ _ _ _ R I) as [A1 A2].
    destruct (tiles_whole K b B HB HK K32 _ _ _ _ H2 (me_index m)) as (o & O1 & O2); [destruct H4; lia|].
    exists o. split; [exact O1|]. intros k Hk. apply O2. rewrite <- A2. lia.
  - intros o k I Hk MO.
    assert (X : exists o, In o os /\ out_matches k o) by eauto.
    apply (tiles_spec K b B HB HK K32 _ _ _ _ H2 k Hk) in X.
    split.
    + rewrite N.pow_add_r.
      assert (e * 2 ^ b <= 2 ^ B * 2 ^ b) by (apply N.mul_le_mono_r; lia). lia.
    + destruct (N.lt_ge_cases k (K + (i0 + N.of_nat (length es)) * 2 ^ b)) as [C|C].
      * left. set (i := (k - K) / 2 ^ b).
        assert (D : i * 2 ^ b <= k - K < (i + 1) * 2 ^ b).
        { unfold i. pose proof (N.mul_div_le (k - K) (2 ^ b)).
          pose proof (N.mul_succ_div_gt (k - K) (2 ^ b)). lia. }
        destruct (run_nth K b es i0 i R) as (m & M1 & M2).
        { split.
          - destruct (N.le_gt_cases i0 i); auto. exfalso.
            assert ((i + 1) * 2 ^ b <= i0 * 2 ^ b) by (apply N.mul_le_mono_r; lia). lia.
          - destruct (N.lt_ge_cases i (i0 + N.of_nat (length es))); auto. exfalso.
            assert ((i0 + N.of_nat (length es)) * 2 ^ b <= i * 2 ^ b) by (apply N.mul_le_mono_r; lia).
            lia. }
        exists m. split; [auto|]. destruct (run_In _ _ _ _ _ R M1) as [_ ->]. rewrite M2. lia.
      * right. destruct H4 as [-> |[H4 H5]]; [lia|]. unfold index_key. rewrite <- H4. split; [lia|auto].
Qed.

(** ** Adding entries *)

Definition out_good (o : out) : Prop :=
  N.land (o_key o) (o_mask o) = o_key o /\ o_key o < 2 ^ 32 /\ o_mask o < 2 ^ 32.
Definition out_disj (o o' : out) : Prop := forall k, k < 2 ^ 32 -> ~ (out_matches k o /\ out_matches k o').
Definition ent (o : out) : entry := mkEntry (o_key o) (o_mask o) (re_route (o_rent o)) (re_def (o_rent o)).

Lemma fop_app : forall {A} (R : A -> A -> Prop) l1 l2, ForallOrdPairs R l1 -> ForallOrdPairs R l2 ->
  (forall x y, In x l1 -> In y l2 -> R x y) -> ForallOrdPairs R (l1 ++ l2).
Proof.
  intros A R l1 l2 F1 F2 H. induction F1 as [|x l1 F F1 IH]; [auto|].
  cbn [app]. constructor.
  - apply Forall_app. split; auto. apply Forall_forall. intros y Hy. apply H; [left; auto|auto].
  - apply IH. intros a c Ha. apply H. now right.
Qed.

Lemma fop_map : forall {A B} (f : A -> B) (R : B -> B -> Prop) (S : A -> A -> Prop) (P : A -> Prop) l,
  (forall x y, P x -> P y -> S x y -> R (f x) (f y)) -> Forall P l -> ForallOrdPairs S l ->
  ForallOrdPairs R (map f l).
Proof.
  intros A B f R S P l H F O. induction O as [|x l Fx O IH]; cbn [map]; constructor.
  - apply Forall_forall. intros y Hy. apply in_map_iff in Hy. destruct Hy as (z & <- & Hz).
    rewrite Forall_forall in F, Fx. apply H; [apply F; left; auto|apply F; right; auto|auto].
  - apply IH. now apply Forall_inv_tail in F.
Qed.

Lemma land_low : forall k m, m < 2 ^ 32 -> N.land (k mod 2 ^ 32) m = N.land k m.
Proof.
  intros k m H. rewrite <- N.land_ones, <- N.land_assoc. f_equal.
  rewrite N.land_comm, N.land_ones. now apply N.mod_small.
Qed.

Lemma out_matches_low : forall k o, o_mask o < 2 ^ 32 -> (out_matches (k mod 2 ^ 32) o <-> out_matches k o).
Proof. intros. unfold out_matches. now rewrite land_low. Qed.

Lemma disj_ent : forall o o', out_good o -> out_good o' -> out_disj o o' -> disjoint_entries (ent o) (ent o').
Proof.
  intros o o' (_ & _ & G) (_ & _ & G') D k [M M'].
  unfold entry_matches, key_matches, ent in M, M'. cbn [e_key e_mask] in M, M'.
  apply (D (k mod 2 ^ 32)).
  - apply N.mod_lt. lia.
  - split; apply out_matches_low; auto.
Qed.

Section Gen.
  Variable entry_eq : entry -> entry -> bool.
  Variable infos : list info.
  Variable app_of : nat -> option nat.

  Lemma add_out_fresh : forall t done o, t_entries t = map ent done -> out_good o ->
    Forall out_good done -> Forall (fun d => out_disj d o) done ->
    exists t', add_out entry_eq t o = Ok t' /\ t_entries t' = map ent (done ++ [o]) /\
      t_x t' = t_x t /\ t_y t' = t_y t.
  Proof.
    intros t done o E (G1 & G2 & G3) F D. unfold add_out.
    rewrite G1, N.eqb_refl. unfold unc_add.
    destruct (find _ (t_entries t)) as [old|] eqn:FD.
    - exfalso. apply find_some in FD. destruct FD as [I S]. rewrite E in I.
      apply in_map_iff in I. destruct I as (d & <- & I).
      unfold same_km, ent in S. cbn [e_key e_mask] in S. apply andb_true_iff in S.
      destruct S as [S1 S2]. apply N.eqb_eq in S1, S2.
      rewrite Forall_forall in D, F. apply (D d I (o_key o) G2). split; [|exact G1].
      unfold out_matches. congruence.
    - eexists. split; [reflexivity|]. cbn [t_entries t_x t_y]. rewrite E, map_app. auto.
  Qed.

  Lemma fold_add : forall outs t done, t_entries t = map ent done ->
    Forall out_good (done ++ outs) -> ForallOrdPairs out_disj (done ++ outs) ->
    exists t', foldM (add_out entry_eq) t outs = Ok t' /\ t_entries t' = map ent (done ++ outs) /\
      t_x t' = t_x t /\ t_y t' = t_y t.
  Proof.
    induction outs as [|o outs IH]; intros t done E F O.
    - exists t. rewrite app_nil_r. split; [reflexivity|]. auto.
    - assert (SP : done ++ o :: outs = (done ++ [o]) ++ outs) by now rewrite <- app_assoc.
      destruct (add_out_fresh t done o) as (t1 & A1 & A2 & A3 & A4); auto.
      + apply Forall_app in F. destruct F as [_ F]. now apply Forall_inv in F.
      + apply Forall_app in F. tauto.
      + clear - O. induction done as [|d done IH]; [constructor|].
        cbn [app] in O. inversion_clear O as [|? ? F1 F2]. constructor; [|auto].
        rewrite Forall_forall in F1. apply F1. apply in_or_app. right. left. auto.
      + cbn [foldM]. rewrite A1. cbn [bind].
        rewrite SP in *. destruct (IH t1 (done ++ [o]) A2 F O) as (t' & B1 & B2 & B3 & B4).
        exists t'. split; [auto|]. split; [auto|]. split; congruence.
  Qed.

  (** ** Well keyed tables *)

  Variable items : list ((vertex * nat) * rent).

  (** A machine vertex of application vertex [a] in partition [p], in the table. *)
  Definition sender (a p m : nat) (i : info) : Prop :=
    (exists en, In ((Mac m, p), en) items) /\ app_of m = Some a /\ get_info infos (Mac m) p = Ok i.

  (** No machine vertex of the partition has the mask of a machine vertex that the
      allocator chooses. *)
  Definition plain (a p : nat) (mm : N) : Prop :=
    forall m i, sender a p m i -> km_mask (i_km i) <> mm.

  (** The keys are those the zoned allocator chooses: the block of the
      application vertex, with machine indexes up to [mx]; the keys of all other
      sources are elsewhere. *)
  Definition zoned (a p : nat) (x : km) (mm b mx K B : N) : Prop :=
    x = mkKM K (mask_of (b + B)) /\ mm = mask_of b /\ b + B <= 32 /\
    K mod 2 ^ (b + B) = 0 /\ K < 2 ^ 32 /\ mx < 2 ^ B /\
    (forall m i, sender a p m i -> exists idx, idx <= mx /\ i_extra i = IMac idx /\
       i_km i = mkKM (K + idx * 2 ^ b) (mask_of b)) /\
    (forall v p' en i, In ((v, p'), en) items -> get_info infos v p' = Ok i ->
       (forall m, v = Mac m -> app_of m = Some a -> p' <> p) -> km_disjoint (i_km i) x).

  Definition app_zone (a p : nat) (j : info) (b mx K B : N) : Prop :=
    get_info infos (App a) p = Ok j /\ i_extra j = IApp (mask_of b) b mx /\
    zoned a p (i_km j) (mask_of b) b mx K B.

  Record well_keyed : Prop := {
    wk_nodup : NoDup (map fst items);
    wk_info : forall v p en, In ((v, p), en) items -> exists i,
      get_info infos v p = Ok i /\ km_ok (i_km i) /\
      (forall m, v = Mac m -> exists idx, i_extra i = IMac idx);
    wk_disjoint : forall v p en i v' p' en' i', In ((v, p), en) items -> In ((v', p'), en') items ->
      get_info infos v p = Ok i -> get_info infos v' p' = Ok i' -> (v, p) <> (v', p') ->
      km_disjoint (i_km i) (i_km i');
    wk_app : forall m p en a, In ((Mac m, p), en) items -> app_of m = Some a ->
      exists j mm b mx, get_info infos (App a) p = Ok j /\ i_extra j = IApp mm b mx /\
        (plain a p mm \/ exists K B, zoned a p (i_km j) mm b mx K B);
    wk_apps : forall a p j b mx K B a' p' j' b' mx' K' B' m i m' i',
      app_zone a p j b mx K B -> app_zone a' p' j' b' mx' K' B' ->
      sender a p m i -> sender a' p' m' i' -> (a, p) <> (a', p') ->
      km_disjoint (i_km j) (i_km j')
  }.
  Hypothesis WK : well_keyed.

  Lemma in_sender : forall m p en a, In ((Mac m, p), en) items -> app_of m = Some a ->
    exists i, sender a p m i.
  Proof.
    intros m p en a I A. destruct (wk_info WK _ _ _ I) as (i & G & _).
    exists i. split; [eauto|]. auto.
  Qed.

  (** The keys a source may take in the merged table. *)
  Definition owns (s : vertex * nat) (k : N) : Prop :=
    (exists i, get_info infos (fst s) (snd s) = Ok i /\ km_matches k (i_km i)) \/
    (exists m p a j b mx K B i, s = (Mac m, p) /\ app_zone a p j b mx K B /\ sender a p m i /\
       i_extra i = IMac mx /\ K + (mx + 1) * 2 ^ b <= k < K + 2 ^ (b + B)).

  Lemma zone_matches : forall a p j b mx K B k, app_zone a p j b mx K B -> k < 2 ^ 32 ->
    (km_matches k (i_km j) <-> K <= k < K + 2 ^ (b + B)).
  Proof.
    intros a p j b mx K B k (_ & _ & Z1 & _ & Z3 & Z4 & Z5 & _) Hk. unfold km_matches.
    rewrite Z1. cbn [km_mask km_key].
    pose proof (tile_matches K b B 0 B k Z3 Z4 Z5) as T.
    rewrite N.mul_0_l, N.add_0_r, N.add_0_l in T.
    rewrite N.pow_add_r, (N.mul_comm (2 ^ b)). apply T; auto using N.le_refl.
  Qed.

  Lemma sender_matches : forall a p j b mx K B m i k, app_zone a p j b mx K B -> sender a p m i ->
    k < 2 ^ 32 -> km_matches k (i_km i) -> K <= k < K + (mx + 1) * 2 ^ b.
  Proof.
    intros a p j b mx K B m i k (_ & _ & Z1 & _ & Z3 & Z4 & Z5 & Z6 & Z7 & _) S Hk M.
    destruct (Z7 m i S) as (idx & L & _ & E). rewrite E in M. unfold km_matches in M.
    cbn [km_mask km_key] in M.
    pose proof (tile_matches K b B idx 0 k Z3 Z4 Z5) as T. rewrite N.add_0_r in T.
    apply T in M; auto.
    - change (2 ^ 0) with 1 in M.
      assert ((idx + 1) * 2 ^ b <= (mx + 1) * 2 ^ b) by (apply N.mul_le_mono_r; lia). lia.
    - apply N.mod_1_r.
    - change (2 ^ 0) with 1. lia.
  Qed.

  Lemma zone_fun : forall a p j b mx K B j' b' mx' K' B',
    app_zone a p j b mx K B -> app_zone a p j' b' mx' K' B' ->
    j' = j /\ b' = b /\ mx' = mx /\ K' = K.
  Proof.
    intros a p j b mx K B j' b' mx' K' B' (Z1 & Z2 & Z3 & _) (Y1 & Y2 & Y3 & _).
    assert (j' = j) by congruence. subst j'.
    rewrite Z2 in Y2. inversion Y2. rewrite Z3 in Y3. inversion Y3. auto.
  Qed.

  (** A key is owned by one source only. *)
  Lemma owns_inj : forall s en s' en' k, In (s, en) items -> In (s', en') items -> k < 2 ^ 32 ->
    owns s k -> owns s' k -> s = s'.
  Proof.
    assert (MIX : forall s en s' en' k, In (s, en) items -> In (s', en') items -> k < 2 ^ 32 ->
      (exists i, get_info infos (fst s) (snd s) = Ok i /\ km_matches k (i_km i)) ->
      (exists m p a j b mx K B i, s' = (Mac m, p) /\ app_zone a p j b mx K B /\ sender a p m i /\
         i_extra i = IMac mx /\ K + (mx + 1) * 2 ^ b <= k < K + 2 ^ (b + B)) -> s = s').
    { intros [v q] en s' en' k I I' Hk (i & G & M)
        (m & p & a & j & b & mx & K & B & i' & E & Z & S & X & R). cbn [fst snd] in G.
      pose proof Z as (Z1 & Z2 & Z3 & _ & _ & _ & _ & _ & _ & ZD).
      destruct v as [v|v].
      - exfalso. apply (ZD _ _ _ _ I G) with k; auto; [discriminate|]. split; [auto|].
        apply (zone_matches _ _ _ _ _ _ _ _ Z Hk). lia.
      - destruct (Nat.eq_dec q p) as [-> |NP].
        + destruct (app_of v) as [a'|] eqn:EA.
          * destruct (Nat.eq_dec a' a) as [-> |NA].
            { exfalso. assert (S' : sender a p v i) by (split; eauto).
              pose proof (sender_matches _ _ _ _ _ _ _ _ _ _ Z S' Hk M). lia. }
            { exfalso. apply (ZD _ _ _ _ I G) with k; auto; [intros w [= <-]; congruence|].
              split; [auto|]. apply (zone_matches _ _ _ _ _ _ _ _ Z Hk). lia. }
          * exfalso. apply (ZD _ _ _ _ I G) with k; auto; [intros w [= <-]; congruence|].
            split; [auto|]. apply (zone_matches _ _ _ _ _ _ _ _ Z Hk). lia.
        + exfalso. apply (ZD _ _ _ _ I G) with k; auto. split; [auto|].
          apply (zone_matches _ _ _ _ _ _ _ _ Z Hk). lia. }
    intros s en s' en' k I I' Hk [O|O] [O'|O'].
    - destruct O as (i & G & M), O' as (i' & G' & M'), s as [v p], s' as [v' p'].
      cbn [fst snd] in *.
      destruct (source_eqb (v, p) (v', p')) eqn:EQ.
      + apply (pair_eqb_spec _ _ vertex_eqb_spec Nat.eqb_eq) in EQ. auto.
      + exfalso. apply (wk_disjoint WK _ _ _ _ _ _ _ _ I I' G G') with k; auto.
        intro C. apply (pair_eqb_spec _ _ vertex_eqb_spec Nat.eqb_eq) in C.
        unfold source_eqb in EQ. congruence.
    - eapply MIX; eauto.
    - symmetry. eapply MIX; eauto.
    - destruct O as (m & p & a & j & b & mx & K & B & i & E & Z & S & X & R).
      destruct O' as (m' & p' & a' & j' & b' & mx' & K' & B' & i' & E' & Z' & S' & X' & R').
      destruct (ap_eqb (a, p) (a', p')) eqn:EQ.
      + apply ap_eqb_spec in EQ. inversion EQ; subst a' p'.
        destruct (zone_fun _ _ _ _ _ _ _ _ _ _ _ _ Z Z') as (-> & -> & -> & ->).
        destruct Z as (_ & _ & Z1 & _ & Z3 & Z4 & Z5 & Z6 & Z7 & _).
        destruct (Z7 _ _ S) as (x & L & X1 & X2), (Z7 _ _ S') as (x' & L' & X1' & X2').
        assert (x = mx) by congruence. assert (x' = mx) by congruence. subst x x'.
        destruct S as ((e1 & S1) & S2 & S3), S' as ((e2 & S1') & S2' & S3').
        destruct (Nat.eq_dec m m') as [-> |NM]; [congruence|]. exfalso.
        destruct (wk_info WK _ _ _ S1) as (i2 & G2 & (K1 & K2 & K3) & _).
        assert (i2 = i) by congruence. subst i2.
        apply (wk_disjoint WK _ _ _ _ _ _ _ _ S1 S1' S3 S3') with (k := km_key (i_km i)); auto;
          [congruence|].
        split; [exact K3|]. unfold km_matches in *. rewrite X2' , X2 in *. exact K3.
      + exfalso. apply (wk_apps WK _ _ _ _ _ _ _ _ _ _ _ _ _ _ _ _ _ _ Z Z' S S') with k; auto.
        * intro C. apply ap_eqb_spec in C. congruence.
        * split; [apply (zone_matches _ _ _ _ _ _ _ _ Z Hk)|apply (zone_matches _ _ _ _ _ _ _ _ Z' Hk)]; lia.
  Qed.

  (** ** What the entries of some items cover *)

  (** Sources of one application vertex and partition. *)
  Definition kin (s s' : vertex * nat) : Prop :=
    s = s' \/ exists m m' p a, s = (Mac m, p) /\ s' = (Mac m', p) /\ app_of m = Some a /\ app_of m' = Some a.

  Definition covers (l : list ((vertex * nat) * rent)) (outs : list out) : Prop :=
    Forall out_good outs /\ ForallOrdPairs out_disj outs /\
    (forall v p en i, In ((v, p), en) l -> get_info infos v p = Ok i -> exists o, In o outs /\
       (forall k, k < 2 ^ 32 -> km_matches k (i_km i) -> out_matches k o) /\ re_route (o_rent o) = re_route en /\
         exists s', kin (v, p) s' /\ In (s', o_rent o) l) /\
    (forall o k, In o outs -> k < 2 ^ 32 -> out_matches k o -> exists s en, In (s, en) l /\ owns s k) /\
    (length outs <= length l)%nat.

  Lemma nodup_split : forall (l1 l2 : list ((vertex * nat) * rent)) s en en', NoDup (map fst (l1 ++ l2)) ->
    In (s, en) l1 -> In (s, en') l2 -> False.
  Proof.
    intros l1 l2 s en en' ND I1 I2. rewrite map_app in ND.
    induction l1 as [|x l1 IH]; [destruct I1|]. cbn [map app] in ND. inversion_clear ND as [|? ? N1 N2].
    destruct I1 as [-> |I1]; [|auto]. apply N1. apply in_or_app. right.
    apply in_map_iff. exists (s, en'). auto.
  Qed.

  Lemma covers_app : forall l1 l2 rest o1 o2, l1 ++ l2 ++ rest = items ->
    covers l1 o1 -> covers l2 o2 -> covers (l1 ++ l2) (o1 ++ o2).
  Proof.
    intros l1 l2 rest o1 o2 E (A1 & A2 & A3 & A4 & A5) (B1 & B2 & B3 & B4 & B5).
    assert (I1 : forall x, In x l1 -> In x items) by (intros; rewrite <- E; apply in_or_app; auto).
    assert (I2 : forall x, In x l2 -> In x items)
      by (intros; rewrite <- E; apply in_or_app; right; apply in_or_app; auto).
    split; [apply Forall_app; auto|]. split; [|split; [|split]].
    - apply fop_app; auto. intros x y X Y k Hk [M1 M2].
      destruct (A4 x k X Hk M1) as (s & en & S1 & S2). destruct (B4 y k Y Hk M2) as (s' & en' & S1' & S2').
      assert (s = s') by (eapply owns_inj; eauto). subst s'.
      pose proof (wk_nodup WK) as ND. rewrite <- E in ND.
      apply (nodup_split l1 (l2 ++ rest) s en en' ND S1). apply in_or_app; auto.
    - intros v p en i I G. apply in_app_or in I. destruct I as [I|I].
      + destruct (A3 _ _ _ _ I G) as (o & X & Y & Z & s' & KN & W). exists o.
        split; [apply in_or_app; auto|]. split; [auto|]. split; [auto|]. exists s'. split; [auto|]. apply in_or_app; auto.
      + destruct (B3 _ _ _ _ I G) as (o & X & Y & Z & s' & KN & W). exists o.
        split; [apply in_or_app; auto|]. split; [auto|]. split; [auto|]. exists s'. split; [auto|]. apply in_or_app; auto.
    - intros o k I Hk M. apply in_app_or in I. destruct I as [I|I].
      + destruct (A4 _ _ I Hk M) as (s & en & X & Y). exists s, en. split; [apply in_or_app|]; auto.
      + destruct (B4 _ _ I Hk M) as (s & en & X & Y). exists s, en. split; [apply in_or_app|]; auto.
    - rewrite !app_length. lia.
  Qed.

  Lemma covers_nil : covers [] [].
  Proof.
    split; [constructor|]. split; [constructor|]. split; [intros v p en i []|].
    split; [intros o k []|]. auto.
  Qed.

  Lemma covers_one : forall v p en i, In ((v, p), en) items -> get_info infos v p = Ok i ->
    covers [((v, p), en)] [mkOut (km_key (i_km i)) (km_mask (i_km i)) en].
  Proof.
    intros v p en i I G. destruct (wk_info WK _ _ _ I) as (i' & G' & (K1 & K2 & K3) & _).
    assert (i' = i) by congruence. subst i'.
    split; [constructor; [|constructor]; split; [exact K3|split; [exact K1|exact K2]]|].
    split; [constructor; constructor|]. split; [|split; [|auto]].
    - intros v' p' en' i' [E|[]] G2. inversion E; subst v' p' en'.
      assert (i' = i) by congruence. subst i'.
      eexists. split; [left; reflexivity|]. split; [intros k Hk M; exact M|]. split; [reflexivity|].
      exists (v, p). split; [now left|left; reflexivity].
    - intros o k [<- |[]] Hk M. exists (v, p), en. split; [left; auto|]. left. exists i. auto.
  Qed.

  (** ** The dictionary of sources *)

  Lemma km_eqb_spec : forall x y, km_eqb x y = true <-> x = y.
  Proof.
    intros [a c] [a' c']. unfold km_eqb. cbn [km_key km_mask]. rewrite andb_true_iff, !N.eqb_eq.
    split; [intros [-> ->]; auto|intros [= -> ->]; auto].
  Qed.

  Definition seen_ok (seen : list (km * (vertex * nat))) (l : list ((vertex * nat) * rent)) : Prop :=
    forall k v p, In (k, (v, p)) seen -> exists en i, In ((v, p), en) l /\ get_info infos v p = Ok i /\ i_km i = k.

  Lemma note_source_ok : forall seen l rest v p en i, l ++ ((v, p), en) :: rest = items ->
    seen_ok seen l -> get_info infos v p = Ok i ->
    exists seen', note_source seen (i_km i) (v, p) = Ok seen' /\ seen_ok seen' (l ++ [((v, p), en)]).
  Proof.
    intros seen l rest v p en i E S G. unfold note_source.
    assert (I : In ((v, p), en) items) by (rewrite <- E; apply in_or_app; right; left; auto).
    destruct (dget km_eqb seen (i_km i)) as [[v' p']|] eqn:D.
    - exfalso. apply (dget_In _ km_eqb_spec) in D. destruct (S _ _ _ D) as (en' & i' & I' & G' & K').
      destruct (wk_info WK _ _ _ I) as (i2 & G2 & (K1 & K2 & K3) & _).
      assert (i2 = i) by congruence. subst i2.
      assert (I2 : In ((v', p'), en') items) by (rewrite <- E; apply in_or_app; left; auto).
      apply (wk_disjoint WK _ _ _ _ _ _ _ _ I I2 G G') with (k := km_key (i_km i)); auto.
      + intros [= -> ->]. pose proof (wk_nodup WK) as ND. rewrite <- E in ND.
        apply (nodup_split l _ _ _ en ND I'). left. reflexivity.
      + rewrite K'. split; exact K3.
    - eexists. split; [reflexivity|]. intros k w q Iq.
      apply (dset_In _ km_eqb_spec) in Iq. destruct Iq as [Iq|Iq].
      + destruct Iq as [-> [= -> ->]]. exists en, i. split; [apply in_or_app; right; left; auto|auto].
      + destruct (S _ _ _ Iq) as (en' & i' & I' & G' & K'). exists en', i'.
        split; [apply in_or_app; left; auto|auto].
  Qed.
  Lemma seen_ok_app : forall seen l l', seen_ok seen l -> seen_ok seen (l ++ l').
  Proof.
    intros seen l l' S k v p I. destruct (S k v p I) as (en & i & A & B). exists en, i.
    split; [apply in_or_app; auto|auto].
  Qed.

  (** ** The basic generator *)

  Lemma basic_loop_ok : forall rest pre seen t done, pre ++ rest = items -> seen_ok seen pre ->
    t_entries t = map ent done -> covers pre done -> length done = length pre ->
    exists t' done', basic_loop entry_eq infos rest seen t = Ok t' /\ t_entries t' = map ent done' /\
      covers items done' /\ length done' = length items /\ t_x t' = t_x t /\ t_y t' = t_y t.
  Proof.
    induction rest as [|[[v p] en] rest IH]; intros pre seen t done E S T C L.
    - rewrite app_nil_r in E. subst pre. exists t, done. cbn [basic_loop]. auto 7.
    - assert (I : In ((v, p), en) items) by (rewrite <- E; apply in_or_app; right; left; auto).
      destruct (wk_info WK _ _ _ I) as (i & G & _).
      destruct (note_source_ok seen pre rest v p en i E S G) as (seen' & N1 & N2).
      set (o := mkOut (km_key (i_km i)) (km_mask (i_km i)) en).
      assert (C2 : covers (pre ++ [((v, p), en)]) (done ++ [o])).
      { apply covers_app with rest; auto. now apply covers_one. }
      destruct (fold_add [o] t done T) as (t1 & A1 & A2 & A3 & A4); [apply C2|apply C2|].
      destruct (IH (pre ++ [((v, p), en)]) seen' t1 (done ++ [o])) as (t' & done' & B1 & B2 & B3 & B4 & B5 & B6); auto.
      + now rewrite <- app_assoc.
      + rewrite !app_length. cbn [length]. lia.
      + exists t', done'. cbn [basic_loop]. rewrite G. cbn [bind]. rewrite N1. cbn [bind].
        cbn [foldM] in A1. fold o. destruct (add_out entry_eq t o) as [t1'|]; [|discriminate].
        cbn [bind] in A1 |- *. injection A1 as ->.
        split; [auto|]. split; [auto|]. split; [auto|]. split; [auto|]. split; congruence.
  Qed.

  (** ** The merging generator *)

  (** The group that [scan_group] takes. *)
  Lemma scan_group_plain : forall mm app p k index en rest, km_mask k <> mm ->
    scan_group infos app_of mm app p k index en rest = Ok ([], rest).
  Proof.
    intros mm app p k index en rest H. destruct rest as [|[[v' p'] en'] rest]; [reflexivity|].
    cbn [scan_group]. apply N.eqb_neq in H. now rewrite H.
  Qed.

  Definition member (a p : nat) (m : ment) (x : (vertex * nat) * rent) : Prop :=
    exists w i, x = ((Mac w, p), me_rent m) /\ app_of w = Some a /\ get_info infos (Mac w) p = Ok i /\
      i_extra i = IMac (me_index m) /\ km_key (i_km i) = me_key m.

  Lemma opt_eqb_eq : forall x y, opt_eqb x y = true -> x = y.
  Proof.
    intros [x|] [y|]; cbn [opt_eqb]; try discriminate; auto. intro H. apply Nat.eqb_eq in H. congruence.
  Qed.

  Lemma scan_group_zoned : forall a p j b mx K B, app_zone a p j b mx K B ->
    forall rest k index en, (forall x, In x rest -> In x items) ->
    exists g taken lft, scan_group infos app_of (mask_of b) (Some a) p k index en rest = Ok (g, lft) /\
      rest = taken ++ lft /\ Forall2 (member a p) g taken /\ run K b (index + 1) g /\
      Forall (fun m => re_route (me_rent m) = re_route en) g.
  Proof.
    intros a p j b mx K B Z. induction rest as [|[[v' p'] en'] rest IH]; intros k index en IN.
    - exists [], [], []. cbn [scan_group]. split; [reflexivity|]. split; [auto|]. split; [constructor|].
      split; [exact I|constructor].
    - assert (STOP : exists g taken lft,
        @Ok (list ment * list ((vertex * nat) * rent)) ([], ((v', p'), en') :: rest) = Ok (g, lft) /\
        ((v', p'), en') :: rest = taken ++ lft /\ Forall2 (member a p) g taken /\ run K b (index + 1) g /\
        Forall (fun m => re_route (me_rent m) = re_route en) g).
      { exists [], [], (((v', p'), en') :: rest). split; [reflexivity|]. split; [auto|].
        split; [constructor|]. split; [exact I|constructor]. }
      cbn [scan_group].
      destruct (negb (km_mask k =? mask_of b)); [exact STOP|].
      destruct v' as [v'|m']; [exact STOP|].
      destruct (Nat.eqb_spec p p') as [<- |NP]; cbn [negb]; [|exact STOP].
      destruct (mask_has_holes (km_mask k)); [exact STOP|].
      assert (I : In ((Mac m', p), en') items) by (apply IN; left; auto).
      destruct (wk_info WK _ _ _ I) as (i' & G & _ & XI). rewrite G. cbn [bind].
      destruct (XI m' eq_refl) as [index' X]. rewrite X.
      destruct (N.eqb_spec index' (index + 1)) as [EI|NI]; cbn [negb]; [|exact STOP].
      destruct (opt_eqb (app_of m') (Some a)) eqn:EA; cbn [andb]; [|exact STOP].
      destruct (N.eqb_spec (re_route en) (re_route en')) as [ER|NR]; [|exact STOP].
      apply opt_eqb_eq in EA.
      destruct (IH (i_km i') index' en') as (g & taken & lft & H1 & H2 & H3 & H4 & H5).
      { intros x Hx. apply IN. now right. }
      rewrite H1. cbn [bind].
      exists (mkMent en' (km_key (i_km i')) index' :: g), (((Mac m', p), en') :: taken), lft.
      assert (S : sender a p m' i') by (split; eauto).
      pose proof Z as (_ & _ & _ & _ & _ & _ & _ & _ & Z7 & _).
      destruct (Z7 m' i' S) as (idx & L & X' & EK). assert (idx = index') by congruence. subst idx.
      split; [reflexivity|]. split; [cbn [app]; congruence|]. split; [|split].
      + constructor; [|auto]. exists m', i'. cbn [me_rent me_index me_key]. auto.
      + cbn [run me_index me_key]. split; [auto|]. split; [rewrite EK; cbn [km_key]; congruence|].
        now rewrite <- EI.
      + constructor; [cbn [me_rent]; auto|]. eapply Forall_impl; [|exact H5]. cbv beta. congruence.
  Qed.

  Lemma member_info : forall a p j b mx K B m x, app_zone a p j b mx K B -> member a p m x -> In x items ->
    exists w i, x = ((Mac w, p), me_rent m) /\ sender a p w i /\ i_extra i = IMac (me_index m) /\
      me_index m <= mx /\ i_km i = mkKM (me_key m) (mask_of b).
  Proof.
    intros a p j b mx K B m x Z (w & i & E & A & G & X & KK) I.
    assert (S : sender a p w i) by (split; [exists (me_rent m); congruence|auto]).
    destruct Z as (_ & _ & _ & _ & _ & _ & _ & _ & Z7 & _).
    destruct (Z7 w i S) as (idx & L & X' & EK). assert (idx = me_index m) by congruence. subst idx.
    exists w, i. split; [auto|]. split; [auto|]. split; [auto|]. split; [auto|].
    rewrite EK in *. cbn [km_key] in KK. congruence.
  Qed.

  (** A merged group covers its members. *)
  Lemma covers_group : forall a p j b mx K B g taken i0, app_zone a p j b mx K B ->
    Forall2 (member a p) g taken -> (forall x, In x taken -> In x items) -> g <> [] ->
    run K b i0 g -> (forall m m', In m g -> In m' g -> re_route (me_rent m) = re_route (me_rent m')) ->
    exists outs, merge_machine_entries (mask_of b) b mx g = Ok outs /\ covers taken outs.
  Proof.
    intros a p j b mx K B g taken i0 Z F IN NE R RR.
    pose proof Z as (_ & _ & Z1 & _ & Z3 & Z4 & Z5 & Z6 & _).
    pose proof (pow2_pos b) as Pb.
    assert (LG : 0 < N.of_nat (length g)) by (destruct g; [congruence|cbn [length]; lia]).
    assert (LE : i0 + N.of_nat (length g) <= mx + 1).
    { destruct (run_nth K b g i0 (i0 + N.of_nat (length g) - 1) R) as (m & M1 & M2).
      { destruct g; [congruence|]. cbn [length]. lia. }
      destruct (Forall2_In_l _ _ _ _ F M1) as (x & X1 & X2).
      destruct (member_info _ _ _ _ _ _ _ _ _ Z X2 (IN x X1)) as (w & i & _ & _ & _ & L & _).
      destruct g; [congruence|]. cbn [length] in *. lia. }
    destruct (merge_spec K b B mx i0 g Z3 Z4 Z5 Z6 NE R LE) as (outs & H1 & H2 & H3 & H4 & H5 & H6).
    exists outs. split; [auto|].
    assert (LF : length g = length taken) by (clear - F; induction F; cbn [length]; congruence).
    assert (MM : forall m i w k, sender a p w i -> i_km i = mkKM (me_key m) (mask_of b) -> In m g -> k < 2 ^ 32 ->
      (km_matches k (i_km i) <-> me_key m <= k < me_key m + 2 ^ b)).
    { intros m i w k S EK I Hk. destruct (run_In _ _ _ _ _ R I) as [A1 A2].
      unfold km_matches. rewrite EK. cbn [km_mask km_key].
      pose proof (tile_matches K b B (me_index m) 0 k Z3 Z4 Z5) as T. rewrite N.add_0_r in T.
      change (2 ^ 0) with 1 in T. rewrite A2.
      replace (K + me_index m * 2 ^ b + 2 ^ b) with (K + (me_index m + 1) * 2 ^ b) by lia.
      apply T; auto; [apply N.mod_1_r|]. lia. }
    split; [|split; [exact H6|split; [|split]]].
    - apply Forall_forall. intros o Ho. destruct (H3 o Ho) as (A1 & A2 & A3 & _). split; [|split]; auto.
    - intros v q en i I G.
      destruct (Forall2_In_r _ _ _ _ F I) as (m & M1 & M2).
      destruct (member_info _ _ _ _ _ _ _ _ _ Z M2 (IN _ I)) as (w & i' & E & S & X & L & EK).
      inversion E; subst v q en. assert (i' = i) by (destruct S as (_ & _ & S); congruence). subst i'.
      destruct (H4 m M1) as (o & O1 & O2).
      exists o. split; [auto|]. split; [intros k Hk M; apply O2; apply (MM m i w k S EK M1 Hk); exact M|].
      destruct (H3 o O1) as (_ & _ & _ & m' & M1' & _ & ->). split; [auto|].
      destruct (Forall2_In_l _ _ _ _ F M1') as (x' & X1' & (w' & i' & -> & A' & _)).
      exists (Mac w', p). split; [|exact X1']. right. exists w, w', p, a. split; [auto|]. split; [auto|].
      split; [apply S|exact A'].
    - intros o k I Hk M. destruct (H5 o k I Hk M) as [RG [(m & M1 & M2)|[O1 O2]]].
      + destruct (Forall2_In_l _ _ _ _ F M1) as (x & X1 & X2).
        destruct (member_info _ _ _ _ _ _ _ _ _ Z X2 (IN _ X1)) as (w & i & E & S & X & L & EK).
        exists (Mac w, p), (me_rent m). split; [congruence|]. left. exists i. cbn [fst snd].
        split; [apply S|]. now apply (MM m i w k S EK M1 Hk).
      + destruct (run_nth K b g i0 mx R) as (m & M1 & M2); [lia|].
        destruct (Forall2_In_l _ _ _ _ F M1) as (x & X1 & X2).
        destruct (member_info _ _ _ _ _ _ _ _ _ Z X2 (IN _ X1)) as (w & i & E & S & X & L & EK).
        exists (Mac w, p), (me_rent m). split; [congruence|]. right.
        exists w, p, a, j, b, mx, K, B, i. split; [auto|]. split; [auto|]. split; [auto|].
        split; [congruence|]. unfold index_key in O1. lia.
    - rewrite <- LF. auto.
  Qed.

  Lemma merged_loop_ok : forall fuel rest pre seen t done, pre ++ rest = items ->
    (length rest <= fuel)%nat -> seen_ok seen pre ->
    t_entries t = map ent done -> covers pre done ->
    exists t' done', merged_loop entry_eq infos app_of fuel rest seen t = Ok t' /\
      t_entries t' = map ent done' /\ covers items done' /\ t_x t' = t_x t /\ t_y t' = t_y t.
  Proof.
    induction fuel as [|fuel IH]; intros rest pre seen t done E F S T C.
    - destruct rest; [|cbn [length] in F; lia]. rewrite app_nil_r in E. subst pre.
      exists t, done. cbn [merged_loop]. auto 6.
    - destruct rest as [|[[v p] en] rest].
      { rewrite app_nil_r in E. subst pre. exists t, done. cbn [merged_loop]. auto 6. }
      cbn [length] in F.
      assert (I : In ((v, p), en) items) by (rewrite <- E; apply in_or_app; right; left; auto).
      destruct (wk_info WK _ _ _ I) as (i & G & KO & XI).
      destruct (note_source_ok seen pre rest v p en i E S G) as (seen' & N1 & N2).
      set (o := mkOut (km_key (i_km i)) (km_mask (i_km i)) en).
      (** A group of items goes into the table and the loop goes on. *)
      assert (STEP : forall taken lft outs, ((v, p), en) :: rest = (((v, p), en) :: taken) ++ lft ->
        covers (((v, p), en) :: taken) outs ->
        exists t1, foldM (add_out entry_eq) t outs = Ok t1 /\
        exists t' done', merged_loop entry_eq infos app_of fuel lft seen' t1 = Ok t' /\
          t_entries t' = map ent done' /\ covers items done' /\ t_x t' = t_x t /\ t_y t' = t_y t).
      { intros taken lft outs EQ C2.
        assert (C3 : covers (pre ++ ((v, p), en) :: taken) (done ++ outs)).
        { apply covers_app with lft; auto. rewrite <- E, EQ. reflexivity. }
        destruct (fold_add outs t done T) as (t1 & A1 & A2 & A3 & A4); [apply C3|apply C3|].
        exists t1. split; [auto|].
        destruct (IH lft (pre ++ ((v, p), en) :: taken) seen' t1 (done ++ outs))
          as (t' & done' & B1 & B2 & B3 & B4 & B5); auto.
        + rewrite <- E, EQ, <- app_assoc. reflexivity.
        + injection EQ as EQ. apply (f_equal (@length _)) in EQ. rewrite app_length in EQ. lia.
        + replace (pre ++ ((v, p), en) :: taken) with ((pre ++ [((v, p), en)]) ++ taken)
            by (rewrite <- app_assoc; reflexivity).
          now apply seen_ok_app.
        + exists t', done'. split; [auto|]. split; [auto|]. split; [auto|]. split; congruence. }
      assert (ONE : covers [((v, p), en)] [o]) by now apply covers_one.
      assert (SINGLE : exists t' done',
        (let* t := add_out entry_eq t o in merged_loop entry_eq infos app_of fuel rest seen' t) = Ok t' /\
        t_entries t' = map ent done' /\ covers items done' /\ t_x t' = t_x t /\ t_y t' = t_y t).
      { destruct (STEP [] rest [o] eq_refl ONE) as (t1 & A1 & B). cbn [foldM] in A1.
        destruct (add_out entry_eq t o) as [t1'|]; [|discriminate].
        cbn [bind] in A1 |- *. injection A1 as ->. exact B. }
      cbn [merged_loop]. rewrite G. cbn [bind]. rewrite N1. cbn [bind]. fold o.
      destruct v as [v|m]; [exact SINGLE|].
      destruct (XI m eq_refl) as [index X]. rewrite X.
      destruct (app_of m) as [a|] eqn:EA; [|exact SINGLE].
      destruct (wk_app WK m p en a I EA) as (j & mm & b & mx & GJ & XJ & Z). rewrite GJ. cbn [bind].
      rewrite XJ.
      assert (SD : sender a p m i) by (split; eauto).
      destruct Z as [Z|(K & B & Z)].
      + rewrite scan_group_plain by (now apply (Z m i)). cbn [bind merged_keys_and_masks me_key me_rent].
        fold o. destruct (STEP [] rest [o] eq_refl ONE) as (t1 & A1 & t' & done' & B1 & B2).
        rewrite A1. cbn [bind]. exists t', done'. auto.
      + assert (EM : mm = mask_of b) by apply Z. subst mm.
        assert (AZ : app_zone a p j b mx K B) by (split; [auto|split; auto]).
        destruct (scan_group_zoned a p j b mx K B AZ rest (i_km i) index en)
          as (g & taken & lft & H1 & H2 & H3 & H4 & H5).
        { intros x Hx. rewrite <- E. apply in_or_app. right. now right. }
        rewrite H1. cbn [bind].
        pose proof Z as (_ & _ & _ & _ & _ & _ & Z7 & _).
        destruct (Z7 m i SD) as (idx & L & X' & EK). assert (idx = index) by congruence. subst idx.
        assert (MO : exists outs, merged_keys_and_masks (mask_of b) b mx (km_mask (i_km i))
            (mkMent en (km_key (i_km i)) index :: g) = Ok outs /\ covers (((Mac m, p), en) :: taken) outs).
        { destruct g as [|g0 g].
          - inversion H3; subst taken. exists [o]. split; [reflexivity|exact ONE].
          - set (gg := mkMent en (km_key (i_km i)) index :: g0 :: g).
            destruct (covers_group a p j b mx K B gg (((Mac m, p), en) :: taken) index AZ)
              as (outs & O1 & O2).
            + constructor; [|exact H3]. exists m, i. cbn [me_rent me_index me_key]. auto.
            + intros x Hx. rewrite <- E, H2. apply in_or_app. right.
              destruct Hx as [<- |Hx]; [left; auto|]. right. apply in_or_app. auto.
            + discriminate.
            + unfold gg. cbn [run me_index me_key]. split; [auto|].
              split; [rewrite EK; reflexivity|exact H4].
            + assert (RE : forall m, In m gg -> re_route (me_rent m) = re_route en).
              { intros y [<- |Hy]; [reflexivity|]. rewrite Forall_forall in H5. auto. }
              intros y y' Hy Hy'. rewrite !RE; auto.
            + exists outs. split; [exact O1|exact O2]. }
        destruct MO as (outs & M1 & M2). rewrite M1. cbn [bind].
        destruct (STEP taken lft outs) as (t1 & A1 & t' & done' & B1 & B2); [cbn [app]; congruence|auto|].
        rewrite A1. cbn [bind]. exists t', done'. auto.
  Qed.

  (** ** C19 *)

  Lemma covers_routes : forall outs v p en i k, covers items outs -> In ((v, p), en) items ->
    get_info infos v p = Ok i -> k < 2 ^ 32 -> km_matches k (i_km i) ->
    routes_to (map ent outs) k (re_route en).
  Proof.
    intros outs v p en i k (C1 & C2 & C3 & _) I G Hk M.
    destruct (C3 _ _ _ _ I G) as (o & O1 & O2 & O3 & _). specialize (O2 k Hk M). clear C3.
    unfold routes_to. exists (ent o). split; [|exact O3].
    induction outs as [|o' outs IH]; [destruct O1|]. inversion_clear C2 as [|? ? F1 F2].
    cbn [map first_match]. unfold entry_matchesb, ent at 1 2. cbn [e_key e_mask].
    destruct O1 as [<- |O1].
    - unfold out_matches in O2. rewrite O2, N.eqb_refl. reflexivity.
    - destruct (N.eqb_spec (N.land k (o_mask o')) (o_key o')) as [EQ|NE].
      + exfalso. rewrite Forall_forall in F1. apply (F1 o O1 k Hk). split; auto.
      + apply IH; auto. now apply Forall_inv_tail in C1.
  Qed.

  Lemma covers_orthogonal : forall outs, covers items outs -> orthogonal (map ent outs).
  Proof.
    intros outs (C1 & C2 & _). unfold orthogonal.
    apply fop_map with (S := out_disj) (P := out_good); auto. apply disj_ent.
  Qed.

  Lemma generators_agree : forall x y, exists tb tm,
    basic_table entry_eq infos x y items = Ok tb /\ merged_table entry_eq infos app_of x y items = Ok tm /\
    t_x tb = x /\ t_y tb = y /\ t_x tm = x /\ t_y tm = y /\
    orthogonal (t_entries tb) /\ orthogonal (t_entries tm) /\
    length (t_entries tb) = length items /\ (length (t_entries tm) <= length items)%nat /\
    (forall v p en i k, In ((v, p), en) items -> get_info infos v p = Ok i -> k < 2 ^ 32 ->
       km_matches k (i_km i) ->
       routes_to (t_entries tb) k (re_route en) /\ routes_to (t_entries tm) k (re_route en)) /\
    (forall e k, In e (t_entries tm) -> k < 2 ^ 32 -> entry_matches k e ->
       (exists v p en i, In ((v, p), en) items /\ get_info infos v p = Ok i /\ km_matches k (i_km i)) \/
       (exists m p en a j, In ((Mac m, p), en) items /\ app_of m = Some a /\
          get_info infos (App a) p = Ok j /\ km_matches k (i_km j))).
  Proof.
    intros x y.
    destruct (basic_loop_ok items [] [] (empty_table x y) []) as (tb & db & B1 & B2 & B3 & B4 & B5 & B6);
      auto using covers_nil. { intros k v p []. }
    destruct (merged_loop_ok (length items) items [] [] (empty_table x y) [])
      as (tm & dm & M1 & M2 & M3 & M4 & M5); auto using covers_nil. { intros k v p []. }
    exists tb, tm. split; [exact B1|]. split; [exact M1|].
    rewrite B2, M2, !map_length.
    split; [auto|]. split; [auto|]. split; [auto|]. split; [auto|].
    split; [now apply covers_orthogonal|]. split; [now apply covers_orthogonal|].
    split; [auto|]. split; [apply M3|]. split.
    - intros v p en i k I G Hk M. split; eapply covers_routes; eauto.
    - intros e k I Hk M. apply in_map_iff in I. destruct I as (o & <- & I).
      destruct M3 as (_ & _ & _ & M3 & _). destruct (M3 o k I Hk M) as ([v p] & en & I' & [O|O]).
      + left. destruct O as (i & G & MK). exists v, p, en, i. auto.
      + right. destruct O as (m & q & a & j & b & mx & K & B & i & E & Z & S & X & R).
        inversion E; subst v q. exists m, p, en, a, j. split; [auto|]. split; [apply S|].
        split; [apply Z|]. apply (zone_matches _ _ _ _ _ _ _ _ Z Hk). lia.
  Qed.

End Gen.

(** ** Keys chosen by the allocator are well keyed *)

Lemma get_info_spec : forall infos v p i, get_info infos v p = Ok i ->
  In i infos /\ i_vertex i = v /\ i_part i = p.
Proof.
  intros infos v p i H. unfold get_info in H. destruct (find (same_info v p) infos) as [x|] eqn:F;
    [|discriminate]. injection H as ->. apply find_some in F. destruct F as [I S].
  unfold same_info in S. apply andb_true_iff in S. destruct S as [S1 S2].
  apply vertex_eqb_spec in S1. apply Nat.eqb_eq in S2. auto.
Qed.

Lemma get_info_In : forall infos v p i,
  (forall i j, In i infos -> In j infos -> i_vertex i = i_vertex j -> i_part i = i_part j -> i = j) ->
  In i infos -> i_vertex i = v -> i_part i = p -> get_info infos v p = Ok i.
Proof.
  intros infos v p i U I V P. unfold get_info.
  destruct (find (same_info v p) infos) as [x|] eqn:F.
  - apply find_some in F. destruct F as [Ix S].
    unfold same_info in S. apply andb_true_iff in S. destruct S as [S1 S2].
    apply vertex_eqb_spec in S1. apply Nat.eqb_eq in S2. f_equal. apply U; congruence.
  - exfalso. pose proof (find_none _ _ F i I) as C. unfold same_info in C.
    apply andb_false_iff in C. destruct C as [C|C].
    + rewrite (proj2 (vertex_eqb_spec (i_vertex i) v) V) in C. discriminate.
    + rewrite (proj2 (Nat.eqb_eq (i_part i) p) P) in C. discriminate.
Qed.

(** The sources of a table: machine vertices of partitions without fixed keys, or
    such partitions as a whole, but not both of one partition. *)
Definition table_sources (e : graph_env) (parts : list (nat * nat)) (app_of : nat -> option nat)
    (items : list ((vertex * nat) * rent)) : Prop :=
  NoDup (map fst items) /\
  (forall m p en, In ((Mac m, p), en) items -> exists a, app_of m = Some a /\
     free_part e parts a p /\ counted e a p /\ In m (ae_outgoing e a p)) /\
  (forall a p en, In ((App a, p), en) items -> free_part e parts a p /\ ae_outgoing e a p <> []) /\
  (forall a p en m en', In ((App a, p), en) items -> In ((Mac m, p), en') items -> app_of m <> Some a).

Lemma alloc_well_keyed : forall flexible e parts infos app_of items,
  env_ok e parts -> allocate flexible e parts = Ok infos -> table_sources e parts app_of items ->
  well_keyed infos app_of items.
Proof.
  intros flexible e parts infos app_of items EO H (ND & TM & TA & TX).
  assert (U : forall i j, In i infos -> In j infos -> i_vertex i = i_vertex j -> i_part i = i_part j -> i = j)
    by (intros; eapply alloc_unique; eauto).
  (** A machine vertex of the table. *)
  assert (MAC : forall m p en a i, In ((Mac m, p), en) items -> app_of m = Some a ->
    get_info infos (Mac m) p = Ok i ->
    free_part e parts a p /\ counted e a p /\ is_mac infos e a p m i).
  { intros m p en a i I A G. destruct (TM m p en I) as (a' & A' & F & C & O).
    assert (a' = a) by congruence. subst a'. apply get_info_spec in G. destruct G as (G1 & G2 & G3).
    split; [auto|]. split; [auto|]. split; auto. }
  assert (MACI : forall m p en, In ((Mac m, p), en) items -> exists a i, app_of m = Some a /\
    get_info infos (Mac m) p = Ok i).
  { intros m p en I. destruct (TM m p en I) as (a & A & F & C & O).
    destruct (alloc_machine_block _ _ _ _ _ _ _ EO H F C O) as (i & j & b & (I1 & I2 & I3 & I4) & _).
    exists a, i. split; [auto|]. now apply get_info_In. }
  assert (APP : forall a p, free_part e parts a p -> ae_outgoing e a p <> [] ->
    exists j, get_info infos (App a) p = Ok j /\ is_app infos a p j /\ km_ok (i_km j)).
  { intros a p F NE.
    destruct (allocate_shape _ _ _ _ _ _ EO F H) as (fixed & z' & used & aps & news & SH).
    destruct (sh_app_exists _ _ _ _ _ _ _ _ _ SH a p (proj1 F) NE) as [j Hj].
    exists j. destruct Hj as (I1 & I2 & I3). split; [now apply get_info_In|].
    split; [split; auto|].
    destruct (sh_free_app _ _ _ _ _ _ _ _ _ SH a p j F) as (idx & J1 & J2 & _); [split; auto|].
    pose proof (sh_am32 _ _ _ _ _ _ _ _ _ SH) as A32.
    destruct (sh_index_bound _ _ _ _ _ _ _ _ _ SH a p idx J1) as [_ IB].
    rewrite J2. unfold km_ok. cbn [km_key km_mask].
    destruct (block_key_ok (z_atoms_mac z') idx A32 IB). auto using mask_of_lt. }
  (** The keys of a machine vertex are keys of its partition. *)
  assert (SUB : forall a p m i j k, free_part e parts a p -> counted e a p -> is_mac infos e a p m i ->
    is_app infos a p j -> k < 2 ^ 32 -> km_matches k (i_km i) -> km_matches k (i_km j)).
  { intros a p m i j k F C (I1 & I2 & I3 & I4) (J1 & J2 & J3) Hk M.
    destruct (alloc_machine_block _ _ _ _ _ _ _ EO H F C I4)
      as (i' & j' & b & (X1 & X2 & X3 & _) & (Y1 & Y2 & Y3) & _ & _ & _ & _ & _ & S).
    assert (i' = i) by (apply U; congruence). assert (j' = j) by (apply U; congruence).
    subst. auto. }
  assert (NEO : forall a p m, In m (ae_outgoing e a p) -> ae_outgoing e a p <> []).
  { intros a p m I E. rewrite E in I. destruct I. }
  assert (CROSS : forall m p en a i a' p' j', In ((Mac m, p), en) items -> app_of m = Some a ->
    get_info infos (Mac m) p = Ok i -> free_part e parts a' p' -> is_app infos a' p' j' ->
    (a, p) <> (a', p') -> km_disjoint (i_km i) (i_km j')).
  { intros m p en a i a' p' j' I A G F' J' NE k Hk [M1 M2].
    destruct (MAC m p en a i I A G) as (F & C & IM).
    destruct (APP a p F) as (j & _ & J & _); [apply (NEO a p m); apply IM|].
    apply (alloc_apps_disjoint _ _ _ _ _ _ _ _ _ _ EO H F J F' J' NE k Hk). split; [|auto].
    eapply SUB; eauto. }
  constructor.
  - exact ND.
  - intros [a|m] p en I.
    + destruct (TA a p en I) as [F NE]. destruct (APP a p F NE) as (j & G & _ & K).
      exists j. split; [auto|]. split; [auto|]. discriminate.
    + destruct (MACI m p en I) as (a & i & A & G). exists i. split; [auto|].
      destruct (MAC m p en a i I A G) as (F & C & IM).
      destruct (allocate_shape _ _ _ _ _ _ EO F H) as (fixed & z' & used & aps & news & SH).
      destruct (sh_free_mac _ _ _ _ _ _ _ _ _ EO SH a p m i F C IM)
        as (idx & x & nba & nb & I1 & I2 & I3 & I4 & I5 & _ & IX & EK & _).
      destruct (sh_index_bound _ _ _ _ _ _ _ _ _ SH a p idx I1) as [_ IB].
      pose proof (sh_am32 _ _ _ _ _ _ _ _ _ SH) as A32.
      assert (KB : N.lor (N.shiftl idx nb) (N.of_nat x) < 2 ^ (32 - nba)).
      { rewrite lor_shiftl_add by auto.
        assert (E : 2 ^ (32 - nba) = 2 ^ (32 - z_atoms_mac z') * 2 ^ nb)
          by (rewrite <- N.pow_add_r; f_equal; lia).
        rewrite E. pose proof (pow2_pos nb). nia. }
      split; [|intros m' [= <-]; eauto].
      rewrite EK. unfold km_ok. cbn [km_key km_mask].
      assert (A33 : nba <= 32) by lia.
      destruct (block_key_ok nba _ A33 KB). auto using mask_of_lt.
  - intros v p en i v' p' en' i' I I' G G' NE.
    destruct v as [a|m], v' as [a'|m'].
    + destruct (TA a p en I) as [F NO], (TA a' p' en' I') as [F' NO'].
      apply get_info_spec in G. apply get_info_spec in G'.
      apply (alloc_apps_disjoint _ _ _ _ _ _ _ _ _ _ EO H F G F' G'). congruence.
    + destruct (TA a p en I) as [F NO]. destruct (MACI m' p' en' I') as (a' & _ & A' & _).
      apply get_info_spec in G. intros k Hk [M1 M2].
      apply (CROSS m' p' en' a' i' a p i I' A' G' F G) with k; auto.
      intros [= -> ->]. apply (TX a p en m' en' I I' A').
    + destruct (TA a' p' en' I') as [F NO]. destruct (MACI m p en I) as (a & _ & A & _).
      apply get_info_spec in G'.
      apply (CROSS m p en a i a' p' i' I A G F G').
      intros [= <- <-]. apply (TX a p en' m en I' I A).
    + destruct (MACI m p en I) as (a & _ & A & _), (MACI m' p' en' I') as (a' & _ & A' & _).
      destruct (MAC m p en a i I A G) as (F & C & IM).
      destruct (MAC m' p' en' a' i' I' A' G') as (F' & C' & IM').
      apply (alloc_machines_disjoint _ _ _ _ _ _ _ _ _ _ _ _ EO H F C IM F' C' IM'). congruence.
  - intros m p en a I A.
    destruct (MACI m p en I) as (a' & i & A' & G). assert (a' = a) by congruence. subst a'. clear A'.
    destruct (MAC m p en a i I A G) as (F & C & IM).
    destruct (APP a p F) as (j & GJ & J & _); [apply (NEO a p m); apply IM|].
    destruct (allocate_shape _ _ _ _ _ _ EO F H) as (fixed & z' & used & aps & news & SH).
    destruct (sh_free_mac _ _ _ _ _ _ _ _ _ EO SH a p m i F C IM)
      as (idx & x & nba & nb & I1 & I2 & I3 & I4 & I5 & IF & IX & EK & _).
    destruct (sh_free_app _ _ _ _ _ _ _ _ _ SH a p j F J) as (idx' & J1 & J2 & _).
    assert (idx' = idx) by (eapply sh_index_fun; eauto). subst idx'.
    destruct (sh_app _ _ _ _ _ _ _ _ _ SH a p j J) as (idx' & nba' & nbm' & L1 & L2 & L3 & _).
    rewrite IF in L2. inversion L2; subst nba' nbm'. clear L2.
    destruct (sh_index_bound _ _ _ _ _ _ _ _ _ SH a p idx I1) as [_ IB].
    pose proof (sh_am32 _ _ _ _ _ _ _ _ _ SH) as A32.
    destruct (sh_fields _ _ _ _ _ _ _ _ _ SH a p nba (Some nb) F C IF) as (nb' & EN & _ & _ & LEN).
    inversion EN; subst nb'. clear EN.
    assert (LO : (0 < length (ae_outgoing e a p))%nat).
    { destruct IM as (_ & _ & _ & IM). destruct (ae_outgoing e a p); [destruct IM|cbn [length]; lia]. }
    exists j, (mask_of nba), nba, (N.of_nat (length (ae_outgoing e a p)) - 1).
    split; [auto|]. split; [auto|]. right. exists (N.shiftl idx (z_atoms_mac z')), nb.
    split; [rewrite I3; auto|]. split; [auto|]. split; [lia|].
    destruct (block_key_ok (z_atoms_mac z') idx A32 IB) as [_ K32].
    split; [rewrite I3, N.shiftl_mul_pow2; apply N.mod_mul; pose proof (pow2_pos (z_atoms_mac z')); lia|].
    split; [auto|]. split; [lia|]. split.
    + intros m' i' ((en' & S1) & S2 & S3).
      destruct (MAC m' p en' a i' S1 S2 S3) as (_ & _ & IM').
      destruct (sh_free_mac _ _ _ _ _ _ _ _ _ EO SH a p m' i' F C IM')
        as (idx2 & x2 & nba2 & nb2 & Y1 & Y2 & Y3 & Y4 & Y5 & YF & YX & YK & _).
      rewrite IF in YF. inversion YF; subst nba2 nb2.
      assert (idx2 = idx) by (eapply sh_index_fun; eauto). subst idx2.
      exists (N.of_nat x2). split.
      { assert ((x2 < length (ae_outgoing e a p))%nat).
        { rewrite <- (sort_lo_length e). apply nth_error_Some. congruence. }
        lia. }
      split; [auto|]. rewrite YK. f_equal. rewrite lor_shiftl_add by auto.
      rewrite !N.shiftl_mul_pow2, <- I3, N.pow_add_r. nia.
    + intros v p' en' i' I' G' NS. destruct v as [a'|m'].
      * destruct (TA a' p' en' I') as [F' NO']. apply get_info_spec in G'.
        apply (alloc_apps_disjoint _ _ _ _ _ _ _ _ _ _ EO H F' G' F J).
        intros [= -> ->]. apply (TX a p en' m en I' I A).
      * destruct (MACI m' p' en' I') as (a' & _ & A' & _).
        apply (CROSS m' p' en' a' i' a p j I' A' G' F J).
        intros [= -> ->]. now apply (NS m').
  - intros a p j b mx K B a' p' j' b' mx' K' B' m i m' i' Z Z' ((en & S1) & S2 & S3) ((en' & S1') & S2' & S3') NE.
    destruct (MAC m p en a i S1 S2 S3) as (F & C & IM).
    destruct (MAC m' p' en' a' i' S1' S2' S3') as (F' & C' & IM').
    destruct Z as (G & _), Z' as (G' & _). apply get_info_spec in G. apply get_info_spec in G'.
    apply (alloc_apps_disjoint _ _ _ _ _ _ _ _ _ _ EO H F G F' G' NE).
Qed.

(** ** Whole machines *)

(** What two tables of one chip have in common. *)
Definition tables_agree (infos : list info) (items : list ((vertex * nat) * rent)) (tb tm : table) : Prop :=
  orthogonal (t_entries tb) /\ orthogonal (t_entries tm) /\
  length (t_entries tb) = length items /\ (length (t_entries tm) <= length items)%nat /\
  (forall v p en i k, In ((v, p), en) items -> get_info infos v p = Ok i -> k < 2 ^ 32 ->
     km_matches k (i_km i) ->
     routes_to (t_entries tb) k (re_route en) /\ routes_to (t_entries tm) k (re_route en)).

Lemma add_table_new : forall ts t, ~ In (t_x t, t_y t) (map (fun t => (t_x t, t_y t)) ts) ->
  add_table ts t = Ok (ts ++ [t]).
Proof.
  intros ts t H. unfold add_table. destruct (existsb (same_chip t) ts) eqn:E; [|reflexivity].
  exfalso. apply H. apply existsb_exists in E. destruct E as (u & I & S).
  unfold same_chip in S. apply andb_true_iff in S. destruct S as [S1 S2]. apply Z.eqb_eq in S1, S2.
  apply in_map_iff. exists u. split; [congruence|auto].
Qed.

Definition same_pos (r : (Z * Z) * list ((vertex * nat) * rent)) (t : table) : Prop :=
  fst r = (t_x t, t_y t).

Lemma generate_ok : forall (make : Z -> Z -> list ((vertex * nat) * rent) -> res table) (R : list ((vertex * nat) * rent) -> table -> Prop) routers,
  (forall r, In r routers -> exists t, make (fst (fst r)) (snd (fst r)) (snd r) = Ok t /\
     t_x t = fst (fst r) /\ t_y t = snd (fst r) /\ R (snd r) t) ->
  NoDup (map fst routers) ->
  exists ts, generate make routers = Ok ts /\ Forall2 (fun r t => same_pos r t /\ R (snd r) t) routers ts.
Proof.
  intros make R routers H ND. unfold generate.
  assert (G : forall routers acc,
    (forall r, In r routers -> exists t, make (fst (fst r)) (snd (fst r)) (snd r) = Ok t /\
     t_x t = fst (fst r) /\ t_y t = snd (fst r) /\ R (snd r) t) ->
    NoDup (map fst routers) ->
    (forall r, In r routers -> ~ In (fst r) (map (fun t => (t_x t, t_y t)) acc)) ->
    exists ts, foldM (fun ts r => let* t := make (fst (fst r)) (snd (fst r)) (snd r) in add_table ts t) acc routers
      = Ok (acc ++ ts) /\ Forall2 (fun r t => same_pos r t /\ R (snd r) t) routers ts).
  { clear. induction routers as [|r routers IH]; intros acc H ND HA.
    - exists []. rewrite app_nil_r. split; [reflexivity|constructor].
    - cbn [map] in ND. inversion_clear ND as [|? ? N1 N2].
      destruct (H r (or_introl eq_refl)) as (t & T1 & T2 & T3 & T4).
      assert (EF : fst r = (t_x t, t_y t)) by (rewrite T2, T3; apply surjective_pairing).
      destruct (IH (acc ++ [t])) as (ts & A & B); auto.
      { intros r' I. apply H. now right. }
      { intros r' I C. rewrite map_app in C. apply in_app_or in C. destruct C as [C|[C|[]]].
        - apply (HA r' (or_intror I) C).
        - apply N1. apply in_map_iff. exists r'. split; [congruence|auto]. }
      exists (t :: ts). split; [|constructor; [split; [exact EF|exact T4]|exact B]].
      cbn [foldM]. rewrite T1. cbn [bind]. rewrite add_table_new.
      + cbn [bind]. rewrite A, <- app_assoc. reflexivity.
      + rewrite <- EF. apply HA. left. reflexivity. }
  destruct (G routers [] H ND) as (ts & A & B); [intros r _ []|]. exists ts. auto.
Qed.

Lemma Forall2_weaken : forall {A B} (R S : A -> B -> Prop) l l', (forall x y, R x y -> S x y) ->
  Forall2 R l l' -> Forall2 S l l'.
Proof. intros A B R S l l' H F. induction F; constructor; auto. Qed.

Lemma whole_agree : forall entry_eq flexible e parts infos app_of routers,
  env_ok e parts -> allocate flexible e parts = Ok infos ->
  NoDup (map fst routers) -> (forall r, In r routers -> table_sources e parts app_of (snd r)) ->
  exists tbs tms,
    generate (basic_table entry_eq infos) routers = Ok tbs /\
    generate (merged_table entry_eq infos app_of) routers = Ok tms /\
    Forall2 (fun r t => fst r = (t_x t, t_y t)) routers tbs /\
    Forall2 (fun r t => fst r = (t_x t, t_y t)) routers tms /\
    (forall n r tb tm, nth_error routers n = Some r -> nth_error tbs n = Some tb ->
       nth_error tms n = Some tm -> tables_agree infos (snd r) tb tm).
Proof.
  intros entry_eq flexible e parts infos app_of routers EO A ND TS.
  assert (W : forall r, In r routers -> well_keyed infos app_of (snd r))
    by (intros r I; eapply alloc_well_keyed; eauto).
  destruct (generate_ok (basic_table entry_eq infos)
    (fun items t => exists x y, basic_table entry_eq infos x y items = Ok t) routers) as (tbs & B1 & B2); auto.
  { intros r I. destruct (generators_agree entry_eq infos app_of (snd r) (W r I) (fst (fst r)) (snd (fst r)))
      as (tb & tm & H1 & H2 & H3 & H4 & _). exists tb. eauto 6. }
  destruct (generate_ok (merged_table entry_eq infos app_of)
    (fun items t => merged_table entry_eq infos app_of (t_x t) (t_y t) items = Ok t) routers) as (tms & M1 & M2); auto.
  { intros r I. destruct (generators_agree entry_eq infos app_of (snd r) (W r I) (fst (fst r)) (snd (fst r)))
      as (tb & tm & H1 & H2 & H3 & H4 & H5 & H6 & _). exists tm. rewrite H5, H6. auto. }
  assert (ALL : forall n r tb tm, nth_error routers n = Some r -> nth_error tbs n = Some tb ->
       nth_error tms n = Some tm -> tables_agree infos (snd r) tb tm).
  { intros n r tb tm N1 N2 N3.
    assert (PB : forall {X Y} (R : X -> Y -> Prop) l l', Forall2 R l l' -> forall n x y,
      nth_error l n = Some x -> nth_error l' n = Some y -> R x y).
    { clear. induction 1; intros [|n] a c H1 H2; cbn [nth_error] in *; try discriminate; [congruence|eauto]. }
    destruct (PB _ _ _ _ _ B2 n r tb N1 N2) as (PX & x & y & HB).
    destruct (PB _ _ _ _ _ M2 n r tm N1 N3) as (PY & HM).
    destruct (generators_agree entry_eq infos app_of (snd r) (W r (nth_error_In _ _ N1)) x y)
      as (tb' & tx & H1 & _ & _ & _ & _ & _ & O1 & _ & L1 & _ & R1 & _).
    destruct (generators_agree entry_eq infos app_of (snd r) (W r (nth_error_In _ _ N1)) (t_x tm) (t_y tm))
      as (ty & tm' & _ & H2 & _ & _ & _ & _ & _ & O2 & _ & L2 & R2 & _).
    assert (tb' = tb) by congruence. assert (tm' = tm) by congruence. subst tb' tm'.
    split; [auto|]. split; [auto|]. split; [auto|]. split; [auto|].
    intros v p en i k I G Hk M. split; [apply (R1 v p en i k I G Hk M)|apply (R2 v p en i k I G Hk M)]. }
  exists tbs, tms. split; [auto|]. split; [auto|].
  split; [eapply Forall2_weaken; [|exact B2]; cbv beta; unfold same_pos; tauto|].
  split; [eapply Forall2_weaken; [|exact M2]; cbv beta; unfold same_pos; tauto|]. exact ALL.
Qed.

(** * Two sources with one key *)
Lemma km_eqb_eq : forall a b, km_eqb a b = true <-> a = b.
Proof.
  intros [k m] [k' m']. unfold km_eqb. cbn [km_key km_mask]. rewrite Bool.andb_true_iff, !N.eqb_eq. split.
  - intros [-> ->]. reflexivity.
  - intros E. injection E as -> ->. auto.
Qed.
Lemma source_eqb_iff : forall a b, source_eqb a b = true <-> a = b.
Proof. exact (pair_eqb_spec _ _ vertex_eqb_spec Nat.eqb_eq). Qed.

Definition clash_free (infos : list info) (items : list ((vertex * nat) * rent)) : Prop :=
  forall v p en i v' p' en' i', In ((v, p), en) items -> In ((v', p'), en') items ->
    get_info infos v p = Ok i -> get_info infos v' p' = Ok i' -> i_km i = i_km i' -> (v, p) = (v', p').

Lemma basic_clash : forall entry_eq infos x y items, NoDup (map fst items) ->
  (forall v p en, In ((v, p), en) items -> exists i, get_info infos v p = Ok i /\ N.land (km_key (i_km i)) (km_mask (i_km i)) = km_key (i_km i)) ->
  (clash_free infos items /\ exists t, basic_table entry_eq infos x y items = Ok t /\ length (t_entries t) = length items) \/
  (~ clash_free infos items /\ basic_table entry_eq infos x y items = Err KeyError).
Proof.
  intros entry_eq infos x y items ND HI. unfold basic_table.
  assert (G : forall rest pre seen t, pre ++ rest = items -> clash_free infos pre ->
     (forall k s, dget km_eqb seen k = Some s <-> exists v p en i, s = (v, p) /\ In ((v, p), en) pre /\ get_info infos v p = Ok i /\ i_km i = k) ->
     (forall e, In e (t_entries t) -> exists v p en i, In ((v, p), en) pre /\ get_info infos v p = Ok i /\ i_km i = mkKM (e_key e) (e_mask e)) ->
     length (t_entries t) = length pre ->
     (clash_free infos items /\ exists t', basic_loop entry_eq infos rest seen t = Ok t' /\ length (t_entries t') = length items) \/
     (~ clash_free infos items /\ basic_loop entry_eq infos rest seen t = Err KeyError)).
  { induction rest as [|[[v p] en] rest IH]; intros pre seen t E CF SE TE TL.
    - rewrite app_nil_r in E. subst pre. left. split; [exact CF|]. exists t. auto.
    - assert (IN : In ((v, p), en) items) by (rewrite <- E; apply in_app_iff; right; left; reflexivity).
      assert (PI : forall z, In z pre -> In z items) by (intros z Z; rewrite <- E; apply in_app_iff; auto).
      destruct (HI v p en IN) as [i [G1 G2]]. cbn [basic_loop]. rewrite G1. cbn [bind]. unfold note_source.
      assert (NEW : forall en', ~ In ((v, p), en') pre).
      { intros en' X. rewrite <- E in ND. rewrite map_app in ND. cbn [map fst] in ND. apply NoDup_remove in ND. destruct ND as [_ ND].
        apply ND. apply in_app_iff. left. apply in_map_iff. exists ((v, p), en'). auto. }
      destruct (dget km_eqb seen (i_km i)) as [s'|] eqn:D.
      + right. apply SE in D. destruct D as [v' [p' [en' [i' [-> [D1 [D2 D3]]]]]]].
        assert (NE : (v', p') <> (v, p)) by (intros X; injection X as -> ->; exact (NEW en' D1)).
        split.
        * intros C. apply NE. exact (C v' p' en' i' v p en i (PI _ D1) IN D2 G1 D3).
        * destruct (source_eqb (v', p') (v, p)) eqn:Q; [apply source_eqb_iff in Q; contradiction | reflexivity].
      + cbn [bind]. unfold add_out. cbn [o_key o_mask o_rent]. rewrite G2, N.eqb_refl. unfold unc_add.
        assert (FN : find (same_km (mkEntry (km_key (i_km i)) (km_mask (i_km i)) (re_route en) (re_def en))) (t_entries t) = None).
        { destruct (find _ (t_entries t)) as [e|] eqn:F; [|reflexivity]. exfalso. apply find_some in F. destruct F as [F1 F2].
          unfold same_km in F2. cbn [e_key e_mask] in F2. apply andb_prop in F2. destruct F2 as [F2 F3]. apply N.eqb_eq in F2, F3.
          destruct (TE e F1) as [v' [p' [en' [i' [X1 [X2 X3]]]]]].
          assert (Y : dget km_eqb seen (i_km i) = Some (v', p')).
          { apply SE. exists v', p', en', i'. split; [reflexivity|]. split; [exact X1|]. split; [exact X2|]. rewrite X3.
            first [rewrite <- F2, <- F3 | rewrite F2, F3]; destruct (i_km i); reflexivity. }
          congruence. }
        rewrite FN. cbn [bind]. apply (IH (pre ++ [((v, p), en)])).
        * rewrite <- app_assoc. exact E.
        * intros v1 p1 en1 i1 v2 p2 en2 i2 H1 H2 K1 K2 KE. apply in_app_iff in H1, H2.
          assert (OLD : forall v' p' en' i', In ((v', p'), en') pre -> get_info infos v' p' = Ok i' -> i_km i' <> i_km i).
          { intros v' p' en' i' X1 X2 X3. assert (Y : dget km_eqb seen (i_km i) = Some (v', p')) by (apply SE; exists v', p', en', i'; auto). congruence. }
          destruct H1 as [H1|[H1|[]]]; destruct H2 as [H2|[H2|[]]].
          -- exact (CF v1 p1 en1 i1 v2 p2 en2 i2 H1 H2 K1 K2 KE).
          -- injection H2 as <- <- <-. exfalso. apply (OLD v1 p1 en1 i1 H1 K1). congruence.
          -- injection H1 as <- <- <-. exfalso. apply (OLD v2 p2 en2 i2 H2 K2). congruence.
          -- congruence.
        * intros k s. rewrite (dget_dset _ km_eqb_eq). destruct (km_eqb (i_km i) k) eqn:Q.
          -- apply km_eqb_eq in Q. split.
             ++ intros X. injection X as <-. exists v, p, en, i. split; [reflexivity|]. split; [apply in_app_iff; right; left; reflexivity | auto].
             ++ intros [v' [p' [en' [i' [-> [X1 [X2 X3]]]]]]]. apply in_app_iff in X1. destruct X1 as [X1|[X1|[]]]; [|congruence].
                exfalso. assert (Y : dget km_eqb seen (i_km i) = Some (v', p')) by (apply SE; exists v', p', en', i'; split; [reflexivity|]; split; [exact X1|]; split; [exact X2 | congruence]). congruence.
          -- rewrite (SE k s). split.
             ++ intros [v' [p' [en' [i' [X0 [X1 X2]]]]]]. exists v', p', en', i'. split; [exact X0|]. split; [apply in_app_iff; auto | exact X2].
             ++ intros [v' [p' [en' [i' [X0 [X1 [X2 X3]]]]]]]. exists v', p', en', i'. split; [exact X0|]. split; [|auto].
                apply in_app_iff in X1. destruct X1 as [X1|[X1|[]]]; [exact X1|]. injection X1 as <- <- <-. exfalso.
                assert (km_eqb (i_km i) k = true) by (apply km_eqb_eq; congruence). congruence.
        * intros e X. cbn [t_entries] in X. apply in_app_iff in X. destruct X as [X|[<-|[]]].
          -- destruct (TE e X) as [v' [p' [en' [i' [X1 X2]]]]]. exists v', p', en', i'. split; [apply in_app_iff; auto | exact X2].
          -- exists v, p, en, i. split; [apply in_app_iff; right; left; reflexivity|]. split; [exact G1|]. cbn [e_key e_mask]. destruct (i_km i). reflexivity.
        * cbn [t_entries]. rewrite !app_length. cbn [length]. lia. }
  apply (G items [] [] (empty_table x y)); [reflexivity | intros ? ? ? ? ? ? ? ? [] | | intros e [] | reflexivity].
  intros k s. split; [discriminate|]. intros [? [? [? [? [_ [[] _]]]]]].
Qed.

(** * The entries of the tables *)
(** Every entry of a basic table is made from an item. *)
Lemma basic_from_items : forall entry_eq infos rest seen t t', basic_loop entry_eq infos rest seen t = Ok t' ->
  forall e, In e (t_entries t') -> In e (t_entries t) \/ exists v p en i, In ((v, p), en) rest /\ get_info infos v p = Ok i /\
    e = mkEntry (km_key (i_km i)) (km_mask (i_km i)) (re_route en) (re_def en).
Proof.
  intros entry_eq infos. induction rest as [|[[v p] en] rest IH]; intros seen t t' H e I; cbn [basic_loop] in H.
  - injection H as ->. left. exact I.
  - apply bind_Ok_inv in H. destruct H as [i [G H]]. apply bind_Ok_inv in H. destruct H as [seen' [_ H]].
    apply bind_Ok_inv in H. destruct H as [t1 [A H]].
    destruct (IH _ _ _ H e I) as [X|[v' [p' [en' [i' [X Y]]]]]].
    + unfold add_out in A. cbn [o_key o_mask o_rent] in A. destruct (N.eqb _ _); [|discriminate]. unfold unc_add in A.
      destruct (find _ (t_entries t)) as [old|].
      * destruct (entry_eq old _); [|discriminate]. injection A as <-. left. exact X.
      * injection A as <-. cbn [t_entries] in X. apply in_app_iff in X. destruct X as [X|[<-|[]]]; [left; exact X|].
        right. exists v, p, en, i. split; [left; reflexivity | auto].
    + right. exists v', p', en', i'. split; [right; exact X | exact Y].
Qed.

Definition entry_word (e : entry) : Prop := entry_ok e /\ e_key e < 2 ^ 32 /\ e_mask e < 2 ^ 32.
Lemma generators_words : forall entry_eq infos app_of items x y tb tm, well_keyed infos app_of items ->
  basic_table entry_eq infos x y items = Ok tb -> merged_table entry_eq infos app_of x y items = Ok tm ->
  Forall entry_word (t_entries tb) /\ Forall entry_word (t_entries tm).
Proof.
  intros entry_eq infos app_of items x y tb tm WK HB HM.
  destruct (basic_loop_ok entry_eq infos app_of items WK items [] [] (empty_table x y) []) as (tb' & db & B1 & B2 & B3 & _);
    auto using covers_nil. { intros k v p []. }
  destruct (merged_loop_ok entry_eq infos app_of items WK (length items) items [] [] (empty_table x y) [])
    as (tm' & dm & M1 & M2 & M3 & _); auto using covers_nil. { intros k v p []. }
  unfold basic_table in HB. unfold merged_table in HM.
  assert (tb' = tb) by congruence. assert (tm' = tm) by congruence. subst tb' tm'. rewrite B2, M2.
  split; apply Forall_map; [destruct B3 as [F _] | destruct M3 as [F _]]; (eapply Forall_impl; [|exact F]); intros o [A [B C]]; (split; [exact A | auto]).
Qed.
(** A key of a source is matched in the merged table by an entry with the flag of
    a source of the same application vertex and partition with the same route. *)
Lemma merged_flag : forall entry_eq infos app_of items x y tm v p en i k, well_keyed infos app_of items ->
  merged_table entry_eq infos app_of x y items = Ok tm -> In ((v, p), en) items -> get_info infos v p = Ok i ->
  k < 2 ^ 32 -> km_matches k (i_km i) ->
  exists o s' en', first_match (t_entries tm) k = Some o /\ e_route o = re_route en /\
    kin app_of (v, p) s' /\ In (s', en') items /\ re_route en' = re_route en /\ e_def o = re_def en'.
Proof.
  intros entry_eq infos app_of items x y tm v p en i k WK HM I G Hk M.
  destruct (merged_loop_ok entry_eq infos app_of items WK (length items) items [] [] (empty_table x y) [])
    as (tm' & dm & M1 & M2 & M3 & _); auto using covers_nil. { intros k' v' p' []. }
  unfold merged_table in HM. assert (tm' = tm) by congruence. subst tm'. rewrite M2.
  destruct M3 as (C1 & C2 & C3 & _). destruct (C3 _ _ _ _ I G) as (o & O1 & O2 & O3 & s' & KN & IN'). specialize (O2 k Hk M). clear C3.
  exists (ent o), s', (o_rent o). split; [|split; [exact O3|auto]].
  clear M2. induction dm as [|o' outs IH]; [destruct O1|]. inversion_clear C2 as [|? ? F1 F2].
  cbn [map first_match]. unfold entry_matchesb, ent at 1 2. cbn [e_key e_mask].
  destruct O1 as [<- |O1].
  - unfold out_matches in O2. rewrite O2, N.eqb_refl. reflexivity.
  - destruct (N.eqb_spec (N.land k (o_mask o')) (o_key o')) as [EQ|NE].
    + exfalso. rewrite Forall_forall in F1. apply (F1 o O1 k Hk). split; auto.
    + apply IH; auto. now apply Forall_inv_tail in C1.
Qed.

(** A key of a source is matched in the basic table by an entry with the flag of
    the source. *)
Lemma basic_flag : forall entry_eq infos app_of items x y tb v p en i k o, well_keyed infos app_of items ->
  basic_table entry_eq infos x y items = Ok tb -> In ((v, p), en) items -> get_info infos v p = Ok i -> k < 2 ^ 32 -> km_matches k (i_km i) ->
  In o (t_entries tb) -> entry_matches k o -> e_route o = re_route en /\ e_def o = re_def en.
Proof.
  intros entry_eq infos app_of items x y tb v p en i k o WK HB I G Hk M O MO. unfold basic_table in HB.
  destruct (basic_from_items _ _ _ _ _ _ HB o O) as [[]|[v' [p' [en' [i' [I' [G' ->]]]]]]].
  assert (S : (v, p) = (v', p')).
  { destruct (source_eqb (v, p) (v', p')) eqn:Q; [apply source_eqb_iff; exact Q|]. exfalso.
    apply (wk_disjoint _ _ _ WK v p en i v' p' en' i' I I' G G') with k; [intros E; rewrite (proj2 (source_eqb_iff _ _) E) in Q; discriminate | exact Hk | split; [exact M | exact MO]]. }
  injection S as <- <-. assert (en' = en); [|subst; auto].
  pose proof (wk_nodup _ _ _ WK) as ND. clear - I I' ND. induction items as [|[s e0] l IH]; [destruct I|].
  cbn [map fst] in ND. inversion_clear ND as [|? ? N1 N2].
  assert (OUT : forall z, In ((v, p), z) l -> s <> (v, p)) by (intros z Z ->; apply N1; apply in_map_iff; exists ((v, p), z); auto).
  destruct I as [I|I], I' as [I'|I'].
  - congruence.
  - exfalso. apply (OUT en' I'). congruence.
  - exfalso. apply (OUT en I). congruence.
  - exact (IH I I' N2).
Qed.

(** All the keys of a source are matched by one entry. *)
Lemma basic_whole : forall entry_eq infos app_of items x y tb v p en i, well_keyed infos app_of items ->
  basic_table entry_eq infos x y items = Ok tb -> In ((v, p), en) items -> get_info infos v p = Ok i ->
  exists o, In o (t_entries tb) /\ e_route o = re_route en /\
    forall k, k < 2 ^ 32 -> km_matches k (i_km i) -> entry_matches k o.
Proof.
  intros entry_eq infos app_of items x y tb v p en i WK HB I G.
  destruct (basic_loop_ok entry_eq infos app_of items WK items [] [] (empty_table x y) [])
    as (tb' & db & B1 & B2 & B3 & _); auto using covers_nil. { intros k' v' p' []. }
  unfold basic_table in HB. assert (tb' = tb) by congruence. subst tb'. rewrite B2.
  destruct B3 as (_ & _ & C3 & _). destruct (C3 _ _ _ _ I G) as (o & O1 & O2 & O3 & _).
  exists (ent o). split; [apply in_map; exact O1|]. split; [exact O3 | exact O2].
Qed.
Lemma merged_whole : forall entry_eq infos app_of items x y tm v p en i, well_keyed infos app_of items ->
  merged_table entry_eq infos app_of x y items = Ok tm -> In ((v, p), en) items -> get_info infos v p = Ok i ->
  exists o, In o (t_entries tm) /\ e_route o = re_route en /\
    forall k, k < 2 ^ 32 -> km_matches k (i_km i) -> entry_matches k o.
Proof.
  intros entry_eq infos app_of items x y tm v p en i WK HM I G.
  destruct (merged_loop_ok entry_eq infos app_of items WK (length items) items [] [] (empty_table x y) [])
    as (tm' & dm & M1 & M2 & M3 & _); auto using covers_nil. { intros k' v' p' []. }
  unfold merged_table in HM. assert (tm' = tm) by congruence. subst tm'. rewrite M2.
  destruct M3 as (_ & _ & C3 & _). destruct (C3 _ _ _ _ I G) as (o & O1 & O2 & O3 & _).
  exists (ent o). split; [apply in_map; exact O1|]. split; [exact O3 | exact O2].
Qed.
