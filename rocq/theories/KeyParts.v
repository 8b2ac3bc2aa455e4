(** Which blocks of keys the partitions get, and in which order. *)
From Coq Require Import List Arith NArith Bool Lia Permutation Sorted.
From Verif Require Import Base Dict RouteSpec KeyMask UtilModel UtilProofs AllocModel AllocProofs KeyOrder FixAlloc.
Import ListNotations.
Local Open Scope N_scope.

(** Below each index there are only indices of earlier partitions and blocks of fixed keys. *)
Definition dense (used : list N) (idx : N) (aps : list ((nat * nat) * N)) : Prop :=
  forall l x r, aps = l ++ x :: r -> forall y, idx <= y < snd x -> In y used \/ In y (map snd l).

Lemma allocate_loop_dense : forall e flexible fixed z used parts idx infos infos' n,
  NoDup used -> idx <= N.of_nat n + below used idx ->
  allocate_loop e flexible fixed z used parts idx infos = Ok infos' ->
  exists aps news, infos' = infos ++ concat news /\
    map fst aps = filter (nonempty e) parts /\
    StronglySorted idx_lt aps /\
    Forall (fun x => idx <= snd x /\ ~ In (snd x) used /\
                     snd x < N.of_nat (n + length aps) + N.of_nat (length used)) aps /\
    Forall2 (part_infos e flexible fixed z) aps news /\
    dense used idx aps.
Proof.
  intros e flexible fixed z used parts.
  induction parts as [|[a p] parts IH]; intros idx infos infos' n ND HI H;
    cbn [allocate_loop] in H.
  - inversion H; subst. exists [], []. simpl. rewrite app_nil_r.
    split; [auto|]. split; [auto|]. split; [constructor|]. split; [constructor|]. split; [constructor|].
    intros l x r E. destruct l; discriminate.
  - apply bind_Ok_inv in H. destruct H as (idx1 & Hs & H).
    pose proof (skip_used_count _ _ _ _ ND Hs) as HC.
    apply skip_used_spec in Hs. destruct Hs as (HL & HN & HB).
    cbn [filter]. unfold nonempty at 1. cbn [fst snd].
    destruct (ae_outgoing e a p) as [|m0 ms] eqn:EO.
    + apply IH with (n := n) in H; auto; [|lia].
      destruct H as (aps & news & A & B & C & D & F & G). exists aps, news.
      split; [auto|]. split; [auto|]. split; [auto|]. split; [|split; [auto|]].
      * eapply Forall_impl; [|exact D]. cbv beta. intros x (X1 & X2 & X3). split; [lia|]. auto.
      * intros l x r E y Y. destruct (N.ltb_spec y idx1); [left; apply HB; lia|]. eapply G; eauto. lia.
    + apply bind_Ok_inv in H. destruct H as (bits & Hb & H).
      destruct (field_sizes flexible z bits) as [nba nbm] eqn:EF.
      apply bind_Ok_inv in H. destruct H as (infos1 & H1 & H).
      apply alloc_machines_spec in H1. destruct H1 as (macs & -> & LM & GM).
      apply bind_Ok_inv in H. destruct H as (k & Hk & H).
      apply bind_Ok_inv in H. destruct H as (infos2 & H2 & H).
      apply add_info_Ok in H2. destruct H2 as [-> _].
      apply IH with (n := S n) in H; auto.
      2:{ pose proof (below_mono used idx1 (idx1 + 1)). lia. }
      destruct H as (aps & news & A & B & C & D & F & G).
      exists (((a, p), idx1) :: aps), ((macs ++ [mkInfo (App a) p k (IApp (mask_of nba) nba
                     (N.of_nat (length (sort_lo e (m0 :: ms))) - 1))]) :: news).
      split; [|split; [|split; [|split; [|split]]]].
      * rewrite A. cbn [concat]. rewrite <- !app_assoc. reflexivity.
      * simpl. now rewrite B.
      * constructor; auto. eapply Forall_impl; [|exact D]. cbv beta. unfold idx_lt. simpl.
        intros x (X1 & _). lia.
      * constructor.
        -- simpl. split; [lia|]. split; [auto|]. pose proof (below_le used idx1). lia.
        -- eapply Forall_impl; [|exact D]. cbv beta. cbn [length].
           intros x (X1 & X2 & X3). split; [lia|]. split; [auto|]. lia.
      * constructor; auto. unfold part_infos. exists bits, nba, nbm, macs, k.
        rewrite EO. split.
        { unfold dgetE in Hb. destruct (dget ap_eqb (z_bits z) (a, p)); congruence. }
        split; [auto|]. split; [now rewrite sort_lo_length|].
        split; [rewrite LM; apply sort_lo_length|]. split.
        -- intros j m E. destruct (GM j m E) as (k' & A1 & B1).
           rewrite N.add_0_l in *. eauto.
        -- unfold app_block. destruct (dget fk_eqb fixed (p, App a)) as [k'|].
           ++ now inversion Hk.
           ++ apply make_km_Ok in Hk. destruct Hk as [X ->]. auto.
      * intros l x r E y Y. destruct (N.ltb_spec y idx1); [left; apply HB; lia|].
        destruct l as [|x0 l]; cbn [app] in E.
        -- injection E as <- <-. cbn [snd] in Y. lia.
        -- injection E as <- E. destruct (N.eq_dec y idx1) as [->|]; [right; left; reflexivity|].
           destruct (G l x r E y) as [U|U]; [lia|left; exact U|right; right; exact U].
Qed.

Lemma allocate_dense : forall flexible e parts infos a0 p0,
  env_ok e parts -> free_part e parts a0 p0 ->
  allocate flexible e parts = Ok infos ->
  exists fixed z' used aps news, alloc_shape flexible e parts infos fixed z' used aps news /\
    dense used 0 aps /\ find_fixed e (ordered_set parts) = Ok (fixed, false).
Proof.
  intros flexible e parts infos a0 p0 EO [F1 F2] H. unfold allocate in H.
  destruct (ordered_set_spec parts) as [ND I].
  apply bind_Ok_inv in H. destruct H as ([fixed allf] & H1 & H). pose proof H1 as FF.
  apply find_fixed_spec in H1; auto using env_ok_set. destruct H1 as [INV AF].
  apply bind_Ok_inv in H. destruct H as ([z' used] & H2 & H).
  assert (allf = false).
  { rewrite AF. apply not_true_is_false. intro C. rewrite forallb_forall in C.
    specialize (C (a0, p0)). rewrite I in C. specialize (C F1). simpl in C.
    rewrite F2 in C. discriminate. }
  rewrite H0 in FF, AF. rewrite H0 in H. clear allf H0.
  destruct (calculate_zones_spec e fixed (ordered_set parts) ND) as (S & _ & _ & _ & L).
  pose proof (check_zones_spec _ _ _ _ _ S H2) as (EU & _ & _ & _ & LB & _).
  assert (NU : NoDup used) by (rewrite EU; apply nodup_used).
  apply allocate_loop_dense with (n := 0%nat) in H; auto; [|lia].
  destruct H as (aps & news & A & B & C & D & F & G).
  exists fixed, z', used, aps, news. split; [|split; [exact G|exact FF]].
  split; [auto|]. split; [auto|]. split; [auto|].
  split; [auto|]. split; [auto|]. split; [|auto].
  eapply Forall_impl; [|exact D]. cbv beta. intros x (X1 & X2 & X3). split; auto.
  eapply N.lt_le_trans; [exact X3|].
  rewrite <- (map_length fst aps), B, <- L. rewrite Nat.add_0_l. exact LB.
Qed.

(** * The order of the partitions *)

Lemma ordered_set_snoc : forall l x, ordered_set (l ++ [x]) =
  if existsb (ap_eqb x) (ordered_set l) then ordered_set l else ordered_set l ++ [x].
Proof. intros l x. unfold ordered_set. rewrite fold_left_app. reflexivity. Qed.

Lemma ordered_set_app : forall l2 l1, exists r, ordered_set (l1 ++ l2) = ordered_set l1 ++ r.
Proof.
  induction l2 as [|x l2 IH] using rev_ind; intros l1.
  - exists []. now rewrite !app_nil_r.
  - destruct (IH l1) as (r & E). rewrite app_assoc, ordered_set_snoc, E.
    destruct (existsb _ _); [eauto|]. exists (r ++ [x]). now rewrite app_assoc.
Qed.

Lemma ordered_set_first : forall l1 x l2, ~ In x l1 ->
  exists r, ordered_set (l1 ++ x :: l2) = ordered_set l1 ++ x :: r.
Proof.
  intros l1 x l2 N. change (l1 ++ x :: l2) with (l1 ++ [x] ++ l2). rewrite app_assoc.
  destruct (ordered_set_app l2 (l1 ++ [x])) as (r & ->). rewrite ordered_set_snoc.
  destruct (existsb (ap_eqb x) (ordered_set l1)) eqn:E.
  - apply existsb_ap in E. destruct N. now apply ordered_set_spec.
  - exists r. now rewrite <- app_assoc.
Qed.

(** The indices of the partitions before one are those of the list before it. *)
Lemma aps_first : forall flexible e parts infos fixed z' used aps news l1 a p l2 idx,
  alloc_shape flexible e parts infos fixed z' used aps news ->
  parts = l1 ++ (a, p) :: l2 -> ~ In (a, p) l1 -> In ((a, p), idx) aps ->
  exists l r, aps = l ++ ((a, p), idx) :: r /\ map fst l = filter (nonempty e) (ordered_set l1).
Proof.
  intros flexible e parts infos fixed z' used aps news l1 a p l2 idx SH EP NI I.
  destruct (in_split _ _ I) as (l & r & EA). exists l, r. split; [exact EA|].
  assert (M := SH). destruct M as (_ & _ & _ & M & _).
  destruct (ordered_set_first l1 (a, p) l2 NI) as (r' & E). rewrite <- EP in E.
  pose proof (proj1 (ordered_set_spec parts)) as ND.
  rewrite E in M, ND. rewrite filter_app, EA, map_app in M. cbn [map fst filter] in M.
  destruct (sh_in_parts _ _ _ _ _ _ _ _ _ SH a p idx I) as [_ NE].
  assert (NT : nonempty e (a, p) = true) by (unfold nonempty; cbn [fst snd]; destruct (ae_outgoing e a p); congruence).
  rewrite NT in M.
  apply NoDup_remove_2 in ND.
  assert (N1 : ~ In (a, p) (filter (nonempty e) (ordered_set l1)))
    by (intro C; apply filter_In in C; apply ND, in_app_iff; tauto).
  assert (N2 : ~ In (a, p) (map fst l)).
  { intro C. pose proof (NoDup_filter (nonempty e) (proj1 (ordered_set_spec parts))) as ND2.
    destruct SH as (_ & _ & _ & M2 & _). rewrite <- M2, EA, map_app in ND2. cbn [map fst] in ND2.
    apply NoDup_remove_2 in ND2. apply ND2, in_app_iff. now left. }
  clear - M N1 N2. revert M N1 N2. generalize (map fst l) (filter (nonempty e) (ordered_set l1)).
  induction l0 as [|x l0 IH]; intros l2 M N1 N2; destruct l2 as [|y l2]; cbn [app] in M.
  - reflexivity.
  - injection M as <- _. destruct N1. now left.
  - injection M as -> _. destruct N2. now left.
  - injection M as -> M. f_equal. apply IH; [exact M | |]; intro C; [apply N1|apply N2]; now right.
Qed.

Lemma sorted_split : forall l x r, StronglySorted idx_lt (l ++ x :: r) ->
  forall y, In y r -> snd x < snd y.
Proof.
  induction l as [|z l IH]; intros x r S y Y; cbn [app] in S; inversion S as [|? ? S' F]; subst.
  - rewrite Forall_forall in F. now apply F.
  - eapply IH; eauto.
Qed.

Lemma sorted_before : forall l x r, StronglySorted idx_lt (l ++ x :: r) ->
  forall y, In y l -> snd y < snd x.
Proof.
  induction l as [|z l IH]; intros x r S y Y; [destruct Y|]. cbn [app] in S. inversion S as [|? ? S' F]; subst.
  destruct Y as [->|Y]; [|eapply IH; eauto].
  rewrite Forall_forall in F. apply F, in_app_iff. right. now left.
Qed.

Lemma sorted_nodup : forall l, StronglySorted idx_lt l -> NoDup (map snd l).
Proof.
  induction l as [|x l IH]; intros S; cbn [map]; constructor; inversion S as [|? ? S' F]; subst; auto.
  intro C. apply in_map_iff in C. destruct C as (y & E & Y). rewrite Forall_forall in F.
  specialize (F y Y). unfold idx_lt in F. lia.
Qed.

(** So many blocks below one are taken by earlier partitions and by fixed keys. *)
Lemma exact_index : forall flexible e parts infos fixed z' used aps news l x r b,
  alloc_shape flexible e parts infos fixed z' used aps news -> dense used 0 aps ->
  aps = l ++ x :: r -> NoDup b -> (forall y, In y b <-> In y used /\ y < snd x) ->
  snd x = N.of_nat (length l + length b).
Proof.
  intros flexible e parts infos fixed z' used aps news l x r b SH DN E NB HB.
  destruct SH as (_ & _ & _ & _ & SS & FN & _). subst aps.
  assert (P : Permutation (map snd l ++ b) (nrange (snd x))).
  { apply NoDup_Permutation.
    - assert (NL : NoDup (map snd l)).
      { apply sorted_nodup in SS. rewrite map_app in SS. clear - SS. revert SS. generalize (map snd (x :: r)).
        induction (map snd l) as [|y k IH]; intros q N; [constructor|]. cbn [app] in N. inversion N; subst.
        constructor; [|eapply IH; eauto]. intro C. apply H1, in_app_iff. now left. }
      clear - NL NB HB FN. rewrite Forall_forall in FN.
      assert (D : forall y, In y (map snd l) -> ~ In y b).
      { intros y Y B. apply HB in B. apply in_map_iff in Y. destruct Y as (w & <- & W).
        destruct (FN w) as [U _]; [apply in_app_iff; now left|]. tauto. }
      induction (map snd l) as [|y k IH]; [exact NB|]. inversion NL; subst. cbn [app]. constructor.
      + rewrite in_app_iff. intros [C|C]; [auto|]. apply (D y (or_introl eq_refl) C).
      + apply IH; [assumption|]. intros w W. apply D. now right.
    - apply nrange_NoDup.
    - intro y. rewrite nrange_In, in_app_iff. split.
      + intros [Y|Y]; [|now apply HB]. apply in_map_iff in Y. destruct Y as (w & <- & W). eapply sorted_before; eauto.
      + intro L. destruct (DN l x r eq_refl y) as [U|U]; [lia| right; now apply HB | now left]. }
  apply Permutation_length in P. rewrite app_length, map_length, nrange_length in P. lia.
Qed.

Lemma first_split : forall (x : nat * nat) l1 l2, exists k1 k2,
  l1 ++ x :: l2 = k1 ++ x :: k2 /\ ~ In x k1 /\ incl k1 l1.
Proof.
  intros x l1 l2. induction l1 as [|y l1 IH].
  - exists [], l2. split; [reflexivity|]. split; [intros []|apply incl_refl].
  - destruct (ap_eqb y x) eqn:E.
    + apply ap_eqb_spec in E. subst y. exists [], (l1 ++ x :: l2). split; [reflexivity|]. split; [intros []|apply incl_nil_l].
    + destruct IH as (k1 & k2 & E1 & N & L). exists (y :: k1), k2. cbn [app]. rewrite E1. split; [reflexivity|]. split.
      * intros [->|C]; [|auto]. rewrite (proj2 (ap_eqb_spec x x) eq_refl) in E. discriminate.
      * intros w [->|W]; [now left|right; auto].
Qed.

(** * Results *)

(** Partition by partition in the order of the graph, in blocks of one size. *)
Lemma alloc_blocks : forall flexible e parts infos,
  env_ok e parts -> allocate flexible e parts = Ok infos ->
  exists s, s <= 32 /\
    (forall a p j, free_part e parts a p -> is_app infos a p j ->
       exists n, n < 2 ^ (32 - s) /\ i_km j = mkKM (n * 2 ^ s) (2 ^ 32 - 2 ^ s)) /\
    (forall l1 a p l2 j a' p' j', parts = l1 ++ (a, p) :: l2 -> ~ In (a', p') l1 -> (a', p') <> (a, p) ->
       free_part e parts a p -> free_part e parts a' p' -> is_app infos a p j -> is_app infos a' p' j' ->
       km_key (i_km j) < km_key (i_km j')) /\
    (flexible = true -> forall t,
       (forall a p, free_part e parts a p -> (exists m, In m (ae_outgoing e a p) /\ 0 < ae_n_keys e m p) ->
          exists x y, x + y <= t /\ N.of_nat (length (ae_outgoing e a p)) <= 2 ^ y /\ enough_bits e a p x) ->
       s <= t).
Proof.
  intros flexible e parts infos EO H.
  destruct (existsb (fun ap => match ae_app_fixed e (fst ap) (snd ap) with None => true | Some _ => false end) parts) eqn:X.
  - apply existsb_exists in X. destruct X as ([a0 p0] & I0 & F0). cbn [fst snd] in F0.
    assert (HF : free_part e parts a0 p0) by (split; [exact I0|]; now destruct (ae_app_fixed e a0 p0)).
    destruct (allocate_shape _ _ _ _ _ _ EO HF H) as (fixed & z' & used & aps & news & SH).
    set (s := z_atoms_mac z'). assert (A32 : s <= 32) by (eapply sh_am32; eauto).
    exists s. split; [exact A32|]. split; [|split].
    + intros a p j F J. destruct (sh_free_app _ _ _ _ _ _ _ _ _ SH a p j F J) as (idx & I & E & _).
      exists idx. split; [apply (sh_index_bound _ _ _ _ _ _ _ _ _ SH a p idx I)|].
      rewrite E. fold s. now rewrite N.shiftl_mul_pow2, mask_of_pow.
    + intros l1 a p l2 j a' p' j' EP NI NE F F' J J'.
      destruct (sh_free_app _ _ _ _ _ _ _ _ _ SH a p j F J) as (idx & I & E & _).
      destruct (sh_free_app _ _ _ _ _ _ _ _ _ SH a' p' j' F' J') as (idx' & I' & E' & _).
      rewrite E, E'. cbn [km_key]. rewrite !N.shiftl_mul_pow2. apply N.mul_lt_mono_pos_r; [apply pow2_pos|].
      destruct (first_split (a, p) l1 l2) as (k1 & k2 & EK & NK & LK). rewrite EK in EP.
      destruct (aps_first _ _ _ _ _ _ _ _ _ _ _ _ _ _ SH EP NK I) as (l & r & EA & ML).
      destruct SH as (_ & _ & _ & _ & SS & _). rewrite EA in SS, I'. apply in_app_iff in I'. cbn [snd].
      destruct I' as [I'|[I'|I']].
      * exfalso. apply (in_map fst) in I'. rewrite ML in I'. apply filter_In in I'. destruct I' as [I' _].
        apply NI, LK. exact (proj1 (proj2 (ordered_set_spec k1) (a', p')) I').
      * injection I' as -> -> _. congruence.
      * exact (sorted_split _ _ _ SS ((a', p'), idx') I').
    + intros Ef t HT. destruct (sh_zones _ _ _ _ _ _ _ _ _ SH) as (_ & _ & _ & _ & _ & EZ & _).
      unfold s. rewrite (EZ Ef). destruct (ordered_set_spec parts) as [ND I].
      destruct (calculate_zones_spec e fixed (ordered_set parts) ND) as (_ & _ & U & _).
      destruct (U t t t) as (_ & _ & G); [|exact G].
      intros a p HI [K D]. apply I in HI.
      assert (FP : free_part e parts a p) by (split; [exact HI|]; rewrite <- D; symmetry; eapply sh_fixed_app; eauto).
      destruct (HT a p FP) as (x & y & XY & LY & EX).
      { destruct (max_keys_attained e a p K) as (m & M & EM). exists m. split; [exact M|]. lia. }
      apply enough_atom_bits in EX. apply allocator_bits_least in LY. fold (mach_bits e a p) in LY. lia.
  - exists 0. split; [lia|]. assert (NF : forall a p, ~ free_part e parts a p).
    { intros a p [I F]. apply not_true_iff_false in X. apply X, existsb_exists. exists (a, p).
      split; [exact I|]. cbn [fst snd]. now rewrite F. }
    split; [intros a p j F; destruct (NF _ _ F)|]. split; [|intros; lia].
    intros l1 a p l2 j a' p' j' _ _ _ F. destruct (NF _ _ F).
Qed.

(** The block of a partition is the first that is neither of a partition before it nor of a key
    fixed by the user. *)
Lemma alloc_numbered : forall flexible e parts infos l1 a p l2 j s ps b,
  env_ok e parts -> allocate flexible e parts = Ok infos ->
  flexible = true \/ one_largest e parts \/ no_fixed e parts ->
  (forall x, user_key e parts x -> km_ok x) ->
  parts = l1 ++ (a, p) :: l2 -> ~ In (a, p) l1 -> ae_app_fixed e a p = None -> is_app infos a p j ->
  s <= 32 -> km_mask (i_km j) = 2 ^ 32 - 2 ^ s ->
  senders e l1 ps ->
  NoDup b ->
  (forall n, In n b <-> n * 2 ^ s < km_key (i_km j) /\
     exists key x, key < 2 ^ 32 /\ user_key e parts x /\ km_matches key x /\ n = key / 2 ^ s) ->
  km_key (i_km j) = N.of_nat (length ps + length b) * 2 ^ s.
Proof.
  intros flexible e parts infos l1 a p l2 j s ps b EO H MODE KO EP NI FR J S32 EM SP NB HB.
  assert (FP : free_part e parts a p) by (split; [subst parts; apply in_app_iff; right; now left | exact FR]).
  destruct (allocate_dense _ _ _ _ _ _ EO FP H) as (fixed & z' & used & aps & news & SH & DN & FF).
  destruct (sh_free_app _ _ _ _ _ _ _ _ _ SH a p j FP J) as (idx & I & E & _).
  assert (A32 : z_atoms_mac z' <= 32) by (eapply sh_am32; eauto).
  assert (ES : z_atoms_mac z' = s).
  { rewrite E in EM. cbn [km_mask] in EM. rewrite mask_of_pow in EM.
    assert (P1 : 2 ^ z_atoms_mac z' <= 2 ^ 32) by (apply N.pow_le_mono_r; lia).
    assert (P2 : 2 ^ s <= 2 ^ 32) by (apply N.pow_le_mono_r; lia).
    apply (N.pow_inj_r 2); [lia|]. clear - EM P1 P2.
    remember (2 ^ z_atoms_mac z') as u. remember (2 ^ s) as v. remember (2 ^ 32) as w. clear Hequ Heqv Heqw. lia. }
  rewrite E in HB |- *. cbn [km_key] in HB |- *. rewrite ES in HB |- *. rewrite N.shiftl_mul_pow2 in HB |- *.
  f_equal.
  destruct (aps_first _ _ _ _ _ _ _ _ _ _ _ _ _ _ SH EP NI I) as (l & r & EA & ML).
  assert (LL : length l = length ps).
  { rewrite <- (map_length fst l), ML. now apply senders_count. }
  rewrite <- LL. change idx with (snd ((a, p), idx)). eapply exact_index; eauto.
  intro y. rewrite HB. cbn [snd].
  destruct (ordered_set_spec parts) as [ND OI].
  assert (UK : forall x, user_key e (ordered_set parts) x <-> user_key e parts x).
  { intro x. unfold user_key. split; intros (a' & p' & I' & Q); exists a', p'; (split; [now apply OI|exact Q]). }
  destruct (sh_zones _ _ _ _ _ _ _ _ _ SH) as (_ & EU & _ & LEZ & _).
  assert (UT : forall n, In n used <->
     exists key x, key < 2 ^ 32 /\ user_key e parts x /\ km_matches key x /\ n = key / 2 ^ s).
  { assert (KC : keys_complete e (ordered_set parts)) by (eapply loop_complete; exact FF).
    destruct MODE as [M|[M|M]].
    1,2: (assert (W : z_atoms_mac z' = z_atoms_mac (calculate_zones e fixed (ordered_set parts)))
            by (eapply sh_same_width; eauto);
          destruct (used_taken e (ordered_set parts) fixed false s ND (env_ok_set _ _ EO) KC) as [_ BT];
          [intros x X; apply KO, UK, X | exact FF | exact S32 |];
          rewrite EU, <- W, ES; intro n; rewrite BT; split; intros (key & x & Q1 & Q2 & Q3 & Q4); exists key, x;
          (split; [exact Q1|]; split; [now apply UK|]; split; [exact Q3|exact Q4])).
    assert (NU : forall x, ~ user_key e parts x).
    { intros x (a' & p' & I' & [Q|(m & Mm & Q)]); destruct (M a' p' I') as [Z1 Z2]; [congruence|].
      rewrite (Z2 m Mm) in Q. discriminate. }
    assert (EF : fixed = []).
    { destruct fixed as [|[k x] fixed']; [reflexivity|]. exfalso.
      destruct (NU x). apply UK. apply (found_values _ _ _ _ ND (env_ok_set _ _ EO) KC FF x). exists (k, x). split; [now left|reflexivity]. }
    intro n. rewrite EU, EF. split; [intros []|]. intros (key & x & _ & Q & _). destruct (NU _ Q). }
  rewrite UT. split.
  - intros [L Q]. split; [exact Q|]. apply N.mul_lt_mono_pos_r in L; [exact L|apply pow2_pos].
  - intros [Q L]. split; [|exact Q]. apply N.mul_lt_mono_pos_r; [apply pow2_pos|exact L].
Qed.
