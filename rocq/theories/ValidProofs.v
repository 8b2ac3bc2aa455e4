(** Proofs about the route validity checker. *)
From Coq Require Import List Arith NArith ZArith Bool Lia.
From Verif Require Import Base RouteSpec KeyMask Dict TablesModel AllocModel AllocProofs GenModel
  TreeModel MachModel PathProofs RangeProofs ValidModel.
Import ListNotations.

(** * What packets do *)
Section Net.
  Variable link : xy -> nat -> option xy.
  Variable tables : list table.

  (** The entry a router uses for a key. *)
  Definition entry_at (c : xy) (k : N) : option entry :=
    match get_table tables (fst c) (snd c) with
    | None => None
    | Some t => first_match (t_entries t) k
    end.

  (** The ways copies of a packet take from the source: a copy leaves a router by
      each link of the entry, or straight on if no entry matches; a packet sent by
      the source that no entry matches there is dropped.  The way is the list of
      links, the last one first. *)
  Inductive walk (k : N) (src : xy) : list nat -> xy -> Prop :=
  | w_source : walk k src [] src
  | w_route : forall way c e l c',
      walk k src way c -> entry_at c k = Some e ->
      l < 6 -> N.testbit (e_route e) (N.of_nat l) = true -> link c l = Some c' ->
      walk k src (l :: way) c'
  | w_default : forall way c l c',
      walk k src (l :: way) c -> entry_at c k = None -> link c l = Some c' ->
      walk k src (l :: l :: way) c'.

  Definition delivered (k : N) (src : xy) (d : xy * nat) : Prop :=
    exists way e, walk k src way (fst d) /\ entry_at (fst d) k = Some e /\
      N.testbit (e_route e) (N.of_nat (6 + snd d)) = true.

  Definition visits_once (k : N) (src : xy) : Prop :=
    forall way way' c, walk k src way c -> walk k src way' c -> way = way'.
End Net.

(** Masks that leave a number of low bits free, and only these. *)
Definition contiguous (e : entry) : Prop :=
  exists j, (j <= 32)%N /\ e_mask e = (2 ^ 32 - 2 ^ j)%N.

(** * Contiguous masks *)
Lemma in_range_masks_iff : forall e, in_range_masks (e_mask e) = true <-> contiguous e.
Proof.
  intros e. unfold in_range_masks, contiguous, range_masks. rewrite existsb_exists. split.
  - intros (m & Hm & E). apply N.eqb_eq in E. subst m. apply in_map_iff in Hm.
    destruct Hm as (i & Hi & Hs). apply in_seq in Hs. exists (N.of_nat i). split; [lia|].
    rewrite <- Hi. unfold full_mask.
    assert (1 <= 2 ^ N.of_nat i)%N by (pose proof (N.pow_nonzero 2 (N.of_nat i)); lia).
    change (2 ^ 32)%N with 4294967296%N. lia.
  - intros (j & Hj & E). exists (e_mask e). split; [|apply N.eqb_refl].
    apply in_map_iff. exists (N.to_nat j). split; [|apply in_seq; lia].
    rewrite N2Nat.id, E. unfold full_mask.
    assert (1 <= 2 ^ j)%N by (pose proof (N.pow_nonzero 2 j); lia).
    change (2 ^ 32)%N with 4294967296%N. lia.
Qed.

Lemma contiguous_Z : forall e, contiguous e ->
  exists j, (0 <= j <= 32)%Z /\ Z.of_N (e_mask e) = (2 ^ 32 - 2 ^ j)%Z.
Proof.
  intros e (j & Hj & E). exists (Z.of_N j). split; [lia|]. rewrite E.
  assert (2 ^ j <= 2 ^ 32)%N by (apply N.pow_le_mono_r; lia).
  rewrite N2Z.inj_sub, !N2Z.inj_pow by assumption. reflexivity.
Qed.

Lemma last_key_contiguous : forall e j, (0 <= j <= 32)%Z -> Z.of_N (e_mask e) = (2 ^ 32 - 2 ^ j)%Z ->
  entry_last_key e = (Z.of_N (e_key e) + 2 ^ j - 1)%Z.
Proof.
  intros e j Hj E. unfold entry_last_key. rewrite E. unfold full_mask.
  change (Z.of_N 4294967295) with (Z.ones 32). rewrite Z.land_ones by lia.
  assert (0 < 2 ^ j)%Z by (apply Z.pow_pos_nonneg; lia).
  assert (2 ^ j <= 2 ^ 32)%Z by (apply Z.pow_le_mono_r; lia).
  assert (Z.lnot (2 ^ 32 - 2 ^ j) mod 2 ^ 32 = 2 ^ j - 1)%Z; [|lia].
  replace (Z.lnot (2 ^ 32 - 2 ^ j)) with (2 ^ j - 1 + (-1) * 2 ^ 32)%Z
    by (unfold Z.lnot; lia).
  rewrite Z_mod_plus_full. apply Z.mod_small. lia.
Qed.

Lemma contiguous_matches : forall e k, contiguous e -> entry_ok e -> (k < 2 ^ 32)%N ->
  (entry_matches k e <-> (Z.of_N (e_key e) <= Z.of_N k <= entry_last_key e)%Z).
Proof.
  intros e k C O Hk. destruct (contiguous_Z e C) as (j & Hj & E).
  rewrite (last_key_contiguous e j Hj E), matches_Z, E.
  assert (HO : Z.land (Z.of_N (e_key e)) (2 ^ 32 - 2 ^ j) = Z.of_N (e_key e)).
  { rewrite <- E, <- Z_of_N_land. f_equal. exact O. }
  assert (Hp : (0 < 2 ^ j)%Z) by (apply Z.pow_pos_nonneg; lia).
  assert (HB : (Z.of_N (e_key e) < 2 ^ 32)%Z).
  { rewrite <- HO. rewrite <- E, <- Z_of_N_land.
    assert (Z.of_N (e_mask e) < 2 ^ 32)%Z by lia.
    assert (N.land (e_key e) (e_mask e) <= e_mask e)%N; [|lia].
    apply N.ldiff_le. apply N.bits_inj. intro i. rewrite N.ldiff_spec, N.land_spec, N.bits_0.
    destruct (N.testbit (e_key e) i), (N.testbit (e_mask e) i); reflexivity. }
  rewrite land_block_mask in HO by lia.
  assert (Hk' : (Z.of_N k < 2 ^ 32)%Z) by (change (2 ^ 32)%Z with (Z.of_N (2 ^ 32)); lia).
  rewrite land_block_mask by lia.
  remember (2 ^ j)%Z as P. remember (Z.of_N k) as a. remember (Z.of_N (e_key e)) as b.
  assert (0 <= a)%Z by lia. clear HB E Hk' C O Hk.
  pose proof (Z.div_mod a P ltac:(lia)) as D. pose proof (Z.mod_pos_bound a P Hp) as M.
  clear Heqa Heqb HeqP. split.
  - intro X. lia.
  - intros X. assert (a / P = b / P)%Z; [|nia].
    symmetry. apply Z.div_unique with (a - b)%Z; [left; lia|]. rewrite Z.mul_comm, HO. lia.
Qed.

Lemma contiguous_last_lt : forall e, contiguous e -> entry_ok e ->
  (Z.of_N (e_key e) <= entry_last_key e < 2 ^ 32)%Z.
Proof.
  intros e C O. destruct (contiguous_Z e C) as (j & Hj & E).
  rewrite (last_key_contiguous e j Hj E).
  assert (HO : Z.land (Z.of_N (e_key e)) (2 ^ 32 - 2 ^ j) = Z.of_N (e_key e)).
  { rewrite <- E, <- Z_of_N_land. f_equal. exact O. }
  assert (Hp : (0 < 2 ^ j)%Z) by (apply Z.pow_pos_nonneg; lia).
  assert (HB : (Z.of_N (e_key e) <= 2 ^ 32 - 2 ^ j)%Z).
  { rewrite <- E. assert (N.land (e_key e) (e_mask e) <= e_mask e)%N.
    { apply N.ldiff_le. apply N.bits_inj. intro i. rewrite N.ldiff_spec, N.land_spec, N.bits_0.
      destruct (N.testbit (e_key e) i), (N.testbit (e_mask e) i); reflexivity. }
    unfold entry_ok in O. rewrite O in H. lia. }
  lia.
Qed.

(** * _locate_routing_entry *)
Definition covers_or_misses (key : N) (n : nat) (e : entry) : Prop :=
  contiguous e ->
  (entry_matches key e -> (Z.of_N key + Z.of_nat n - 1 <= entry_last_key e)%Z) /\
  (~ entry_matches key e ->
     (Z.of_N key + Z.of_nat n < Z.of_N (e_key e) \/ entry_last_key e < Z.of_N key)%Z).

Lemma locate_loop_iff : forall key n es found e, Forall entry_ok es ->
  (locate_loop key n found es = Ok e <->
   match found with Some f => e = f | None => first_match es key = Some e end /\
   Forall (covers_or_misses key n) es).
Proof.
  intros key n. induction es as [|x es IH]; intros found e F.
  - cbn [locate_loop first_match]. destruct found as [f|].
    + split; [intros [= ->]; auto | intros (-> & _); auto].
    + split; [discriminate | intros (H & _); discriminate].
  - inversion F as [|? ? Ox Fs]; subst. cbn [locate_loop first_match].
    assert (Em : (N.land (e_mask x) key =? e_key x)%N = entry_matchesb key x)
      by (unfold entry_matchesb; rewrite N.land_comm; reflexivity).
    rewrite Em. destruct (entry_matchesb key x) eqn:M.
    + pose proof (proj1 (entry_matchesb_iff _ _) M) as M'.
      destruct (in_range_masks (e_mask x)) eqn:R.
      * pose proof (proj1 (in_range_masks_iff x) R) as C.
        destruct (Z.ltb_spec (entry_last_key x) (Z.of_N key + Z.of_nat n - 1)) as [L|L].
        -- split; [discriminate|]. intros (_ & HF). apply Forall_inv in HF.
           destruct (HF C) as (HA & _). specialize (HA M'). lia.
        -- rewrite IH by assumption. split.
           ++ intros (H1 & H2). split; [destruct found; auto; congruence|].
              constructor; [|assumption]. intros _. split; [intros _; lia | contradiction].
           ++ intros (H1 & H2). split; [destruct found; auto; congruence|].
              now apply Forall_inv_tail in H2.
      * assert (NC : ~ contiguous x) by (rewrite <- in_range_masks_iff, R; discriminate).
        rewrite IH by assumption. split.
        -- intros (H1 & H2). split; [destruct found; auto; congruence|].
           constructor; [|assumption]. intro; contradiction.
        -- intros (H1 & H2). split; [destruct found; auto; congruence|].
           now apply Forall_inv_tail in H2.
    + assert (M' : ~ entry_matches key x) by (rewrite <- entry_matchesb_iff, M; discriminate).
      destruct (in_range_masks (e_mask x)) eqn:R.
      * pose proof (proj1 (in_range_masks_iff x) R) as C.
        pose proof (contiguous_last_lt x C Ox) as B.
        destruct (Z.gtb_spec (Z.min (entry_last_key x) (Z.of_N key + Z.of_nat n) -
                     Z.max (Z.of_N (e_key x)) (Z.of_N key) + 1) 0) as [L|L].
        -- split; [discriminate|]. intros (_ & HF). apply Forall_inv in HF.
           destruct (HF C) as (_ & HA). specialize (HA M'). lia.
        -- rewrite IH by assumption. split.
           ++ intros (H1 & H2). split; [assumption|].
              constructor; [|assumption]. intros _. split; [contradiction | intros _; lia].
           ++ intros (H1 & H2). split; [assumption|]. now apply Forall_inv_tail in H2.
      * assert (NC : ~ contiguous x) by (rewrite <- in_range_masks_iff, R; discriminate).
        rewrite IH by assumption. split.
        -- intros (H1 & H2). split; [assumption|].
           constructor; [|assumption]. intro; contradiction.
        -- intros (H1 & H2). split; [assumption|]. now apply Forall_inv_tail in H2.
Qed.

Lemma covers_or_misses_iff : forall key n e, entry_ok e -> (key + N.of_nat n <= 2 ^ 32)%N ->
  (key < 2 ^ 32)%N ->
  (covers_or_misses key n e <->
   (contiguous e ->
    (forall i, i < n -> entry_matches (key + N.of_nat i) e) \/
    (entry_matches key e /\ n = 0) \/
    (forall i, i <= n -> (key + N.of_nat i < 2 ^ 32)%N -> ~ entry_matches (key + N.of_nat i) e))).
Proof.
  intros key n e O HB HK. unfold covers_or_misses. split; intros H C; specialize (H C).
  - pose proof (contiguous_last_lt e C O) as B. destruct H as (H1 & H2).
    destruct (entry_matchesb key e) eqn:M.
    + apply entry_matchesb_iff in M. specialize (H1 M). left. intros i Hi.
      apply contiguous_matches in M; auto. apply contiguous_matches; auto; lia.
    + assert (M' : ~ entry_matches key e) by (rewrite <- entry_matchesb_iff, M; discriminate).
      specialize (H2 M'). right. right. intros i Hi Hk M2.
      apply contiguous_matches in M2; auto. lia.
  - pose proof (contiguous_last_lt e C O) as B. destruct H as [H|[(H & ->)|H]].
    + destruct n as [|n].
      * split; intro M; [apply contiguous_matches in M; auto; lia|].
        destruct (Z.lt_ge_cases (entry_last_key e) (Z.of_N key)); [auto|].
        left. destruct (Z.lt_ge_cases (Z.of_N key) (Z.of_N (e_key e))); [lia|].
        exfalso. apply M. apply contiguous_matches; auto.
      * split; intro M.
        -- specialize (H n ltac:(lia)). apply contiguous_matches in H; auto; lia.
        -- exfalso. apply M. specialize (H 0 ltac:(lia)). now rewrite N.add_0_r in H.
    + split; [|contradiction]. intros _. apply contiguous_matches in H; auto. lia.
    + split; intro M.
      * exfalso. apply (H 0); [lia|lia|]. now rewrite N.add_0_r.
      * destruct (Z.lt_ge_cases (entry_last_key e) (Z.of_N key)); [auto|]. left.
        destruct (Z.lt_ge_cases (Z.of_N key + Z.of_nat n) (Z.of_N (e_key e))) as [|L]; [assumption|].
        exfalso.
        destruct (Z.lt_ge_cases (Z.of_N key) (Z.of_N (e_key e))) as [L2|L2].
        -- assert (EK : (key + N.of_nat (N.to_nat (e_key e - key)) = e_key e)%N) by lia.
           apply (H (N.to_nat (e_key e - key))); [lia| rewrite EK; change (2 ^ 32)%N with 4294967296%N; lia |].
           rewrite EK. exact O.
        -- apply M. apply contiguous_matches; auto.
Qed.

Lemma locate_first : forall es key n e, locate_loop key n None es = Ok e -> Forall entry_ok es ->
  first_match es key = Some e.
Proof. intros es key n e H F. apply locate_loop_iff in H; tauto. Qed.

(** With contiguous masks, all the keys take the entry that was located. *)
Lemma locate_all_keys : forall es key n e i, locate_loop key n None es = Ok e ->
  Forall entry_ok es -> Forall contiguous es -> i < n ->
  first_match es (key + N.of_nat i) = Some e.
Proof.
  intros es key n e i H F C Hi. apply locate_loop_iff in H; [|assumption]. destruct H as (H & HC).
  cbn beta iota in H.
  assert (HK : (Z.of_N key + Z.of_nat n - 1 < 2 ^ 32)%Z).
  { apply first_match_Some in H. destruct H as (HIn & M).
    rewrite Forall_forall in F, C, HC. specialize (F e HIn). specialize (C e HIn). specialize (HC e HIn).
    destruct (HC C) as (HA & _). specialize (HA M).
    pose proof (contiguous_last_lt e C F). lia. }
  revert H. induction es as [|x es IH]; cbn [first_match]; [discriminate|].
  pose proof (Forall_inv F) as Fx. pose proof (Forall_inv C) as Cx. pose proof (Forall_inv HC) as Hx.
  apply Forall_inv_tail in F, C, HC. destruct (Hx Cx) as (H1 & H2).
  assert (K32 : (key + N.of_nat i < 2 ^ 32)%N).
  { change (2 ^ 32)%N with (Z.to_N (2 ^ 32)). lia. }
  assert (K0 : (key < 2 ^ 32)%N) by lia.
  destruct (entry_matchesb key x) eqn:M.
  - intros [= ->]. apply entry_matchesb_iff in M.
    replace (entry_matchesb (key + N.of_nat i) e) with true; [reflexivity|]. symmetry.
    apply entry_matchesb_iff. specialize (H1 M). apply contiguous_matches in M; auto.
    apply contiguous_matches; auto. lia.
  - intros H. replace (entry_matchesb (key + N.of_nat i) x) with false; [auto|]. symmetry.
    assert (M' : ~ entry_matches key x) by (rewrite <- entry_matchesb_iff, M; discriminate).
    specialize (H2 M'). apply not_true_is_false. rewrite entry_matchesb_iff.
    intro M2. apply contiguous_matches in M2; auto. lia.
Qed.

Lemma bad_keys_nil : forall e n base, bad_keys e n base = [] <->
  forall i, i < n -> entry_matches (base + N.of_nat i) e.
Proof.
  intros e n base. unfold bad_keys. split.
  - intros H i Hi. destruct (N.eqb (N.land (e_mask e) (base + N.of_nat i)) (e_key e)) eqn:E.
    + apply N.eqb_eq in E. unfold entry_matches, key_matches. now rewrite N.land_comm.
    + assert (HIn : In (base + N.of_nat i)%N []).
      { rewrite <- H. apply filter_In. rewrite E. split; [|reflexivity].
        apply in_map_iff. exists i. split; [reflexivity|apply in_seq; lia]. }
      destruct HIn.
  - intros H. destruct (filter _ _) as [|k l] eqn:E; [reflexivity|].
    assert (HIn : In k (k :: l)) by (left; reflexivity). rewrite <- E in HIn.
    apply filter_In in HIn. destruct HIn as (H1 & H2). apply in_map_iff in H1.
    destruct H1 as (i & <- & Hi). apply in_seq in Hi. specialize (H i ltac:(lia)).
    unfold entry_matches, key_matches in H. rewrite N.land_comm, H, N.eqb_refl in H2. discriminate.
Qed.

Lemma entry_links_In : forall e l, In l (entry_links e) <->
  l < 6 /\ N.testbit (e_route e) (N.of_nat l) = true.
Proof.
  intros e l. unfold entry_links. rewrite filter_In, in_seq. split; intros (H1 & H2); split; auto; lia.
Qed.

Lemma entry_procs_In : forall e p, In p (entry_procs e) <->
  N.testbit (e_route e) (N.of_nat (6 + p)) = true.
Proof.
  intros e p. unfold entry_procs. rewrite filter_In, in_seq. split; [tauto|].
  intros H. split; [|assumption]. split; [lia|].
  destruct (N.eq_dec (e_route e) 0) as [Z0|NZ]; [rewrite Z0, N.bits_0 in H; discriminate|].
  destruct (le_lt_dec (0 + N.to_nat (N.size (e_route e))) p) as [L|L]; [exfalso|assumption].
  rewrite N.bits_above_log2 in H; [discriminate|].
  rewrite N.size_log2 in L by assumption. lia.
Qed.

Lemma entry_links_NoDup : forall e, NoDup (entry_links e).
Proof. intro e. apply NoDup_filter. apply seq_NoDup. Qed.

Lemma core_eqb_spec : forall a b, core_eqb a b = true <-> a = b.
Proof. apply pair_eqb_spec; [apply xy_eqb_eq | apply Nat.eqb_eq]. Qed.

Lemma core_add_In : forall l c d, In d (core_add l c) <-> In d l \/ d = c.
Proof.
  intros l c d. unfold core_add. destruct (existsb (core_eqb c) l) eqn:E.
  - apply existsb_exists in E. destruct E as (x & Hx & Ex). apply core_eqb_spec in Ex. subst x.
    split; [auto|]. intros [H| ->]; assumption.
  - rewrite in_app_iff. simpl. intuition.
Qed.

Lemma get_table_Some : forall ts x y t, get_table ts x y = Some t -> In t ts /\ t_x t = x /\ t_y t = y.
Proof.
  intros ts x y t H. unfold get_table in H. apply find_some in H. destruct H as (H & E).
  apply andb_true_iff in E. destruct E as (E1 & E2). apply Z.eqb_eq in E1, E2. auto.
Qed.

Lemma is_dest_reached : forall procs t st d,
  In d (tr_reached (is_dest procs t st)) <->
  In d (tr_reached st) \/ (fst d = (t_x t, t_y t) /\ In (snd d) procs).
Proof.
  intros procs t st d. unfold is_dest. cbn [tr_reached].
  generalize (tr_reached st). induction procs as [|p procs IH]; intros acc; cbn [fold_left].
  - simpl. tauto.
  - rewrite IH, core_add_In. simpl. destruct d as (c, q); cbn [fst snd]. split.
    + intros [[H|H]|(H1 & H2)]; auto. injection H as -> ->. right. auto.
    + intros [H|(-> & [-> | H])]; auto.
Qed.

Section TraceProofs.
  Variable link : xy -> nat -> option xy.
  Variable tables : list table.
  Variable key : N.
  Variable n_atoms : nat.

  Notation trace := (trace link tables key n_atoms).

  Definition located (c : xy) (e : entry) : Prop :=
    exists t, get_table tables (fst c) (snd c) = Some t /\ locate_entry t key n_atoms = Ok e.

  (** A step the trace follows. *)
  Definition tstep (c : xy) (l : nat) (c' : xy) : Prop :=
    exists e, located c e /\ In l (entry_links e) /\ link c l = Some c' /\
      get_table tables (fst c') (snd c') <> None.

  Definition tdest (c : xy) (d : xy * nat) : Prop :=
    exists e, located c e /\ fst d = c /\ In (snd d) (entry_procs e).

  Lemma located_fun : forall c e e', located c e -> located c e' -> e = e'.
  Proof. intros c e e' (t & H1 & H2) (t' & H3 & H4). congruence. Qed.

  (** What one run adds: the ways and routers [W]. *)
  Definition adds (st st' : trace_st) (W : list (list nat * xy)) (roots : list (list nat * xy)) : Prop :=
    tr_visited st' = tr_visited st ++ map snd W /\
    (forall d, In d (tr_reached st') <->
       In d (tr_reached st) \/ exists p c, In (p, c) (roots ++ W) /\ tdest c d) /\
    (tr_failed st' = [] <-> tr_failed st = [] /\
       forall p c e, In (p, c) W -> located c e -> bad_keys e n_atoms key = []) /\
    (forall p c, In (p, c) W -> exists e, located c e) /\
    (NoDup (tr_visited st) -> NoDup (tr_visited st')).

  Definition body (fuel : nat) (c : xy) := fun (st : trace_st) l =>
    match link c l with
    | None => Ok st
    | Some c' =>
        match get_table tables (fst c') (snd c') with
        | None => Ok st
        | Some t' =>
            if existsb (xy_eqb c') (tr_visited st) then Err RoutingException
            else
              let visited := tr_visited st ++ [c'] in
              let* e' := locate_entry t' key n_atoms in
              let failed := match bad_keys e' n_atoms key with
                            | [] => tr_failed st
                            | bad => tr_failed st ++ [(c', bad)]
                            end in
              trace fuel e' t' c' (mkTrace visited (tr_reached st) failed)
        end
    end.

  Definition st_dest (e : entry) (t : table) (st : trace_st) : trace_st :=
    match entry_procs e with [] => st | _ => is_dest (entry_procs e) t st end.

  Lemma trace_S : forall fuel e t c st,
    trace (S fuel) e t c st = foldM (body fuel c) (st_dest e t st) (entry_links e).
  Proof.
    intros. cbn [ValidModel.trace]. unfold st_dest.
    destruct (entry_links e) as [|l ls] eqn:EL.
    - destruct (entry_procs e); reflexivity.
    - destruct (entry_procs e); reflexivity.
  Qed.

  Lemma st_dest_spec : forall e t st c, located c e -> get_table tables (fst c) (snd c) = Some t ->
    tr_visited (st_dest e t st) = tr_visited st /\ tr_failed (st_dest e t st) = tr_failed st /\
    forall d, In d (tr_reached (st_dest e t st)) <-> In d (tr_reached st) \/ tdest c d.
  Proof.
    intros e t st c L T. unfold st_dest.
    assert (E : forall d, tdest c d <-> fst d = (t_x t, t_y t) /\ In (snd d) (entry_procs e)).
    { intro d. apply get_table_Some in T. destruct T as (_ & -> & ->).
      rewrite <- surjective_pairing. split.
      - intros (e' & L' & H1 & H2). rewrite (located_fun _ _ _ L L'). auto.
      - intros (H1 & H2). exists e. auto. }
    destruct (entry_procs e) as [|p ps] eqn:EP.
    - repeat split; try reflexivity. + auto. + intros [H|H]; auto. apply E in H. destruct H as (_ & []).
    - split; [reflexivity|]. split; [reflexivity|]. intro d. rewrite is_dest_reached, E. reflexivity.
  Qed.

  Definition closed_below (W : list (list nat * xy)) : Prop :=
    forall p d l d', In (p, d) W -> tstep d l d' -> In (l :: p, d') W.

  Lemma trace_spec : forall fuel e t c st st' P,
    trace fuel e t c st = Ok st' -> get_table tables (fst c) (snd c) = Some t -> located c e ->
    exists W, adds st st' W [(P, c)] /\
      (forall l d', tstep c l d' -> In (l :: P, d') W) /\ closed_below W /\
      (forall R : list nat -> xy -> Prop, R P c ->
         (forall p d l d', R p d -> tstep d l d' -> R (l :: p) d') ->
         forall p d, In (p, d) W -> R p d).
  Proof.
    induction fuel as [|fuel IH]; intros e t c st st' P H T L; [discriminate|].
    rewrite trace_S in H.
    destruct (st_dest_spec e t st c L T) as (SV & SF & SR).
    assert (HL : forall ls s, (forall l, In l ls -> In l (entry_links e)) ->
      foldM (body fuel c) s ls = Ok st' ->
      exists W, adds s st' W [] /\
        (forall l d', In l ls -> tstep c l d' -> In (l :: P, d') W) /\ closed_below W /\
        (forall R : list nat -> xy -> Prop, R P c ->
           (forall p d l d', R p d -> tstep d l d' -> R (l :: p) d') ->
           forall p d, In (p, d) W -> R p d)).
    { clear H SV SF SR st. induction ls as [|l ls IHl]; intros s Hls H; cbn [foldM] in H.
      - injection H as <-. exists []. split.
        + unfold adds. rewrite app_nil_r. repeat split; auto.
          * intros [H|(p & d0 & [] & _)]; auto.
          * intros p c0 e0 [].
          * intros (Hf & _). auto.
          * intros p d0 [].
        + split; [intros l d' []|]. split; [intros p d l d' [] | intros R _ _ p d []].
      - apply bind_Ok_inv in H. destruct H as (s1 & H1 & H2).
        destruct (IHl s1 (fun l' Hl' => Hls l' (or_intror Hl')) H2) as (W2 & A2 & B2 & C2 & D2).
        assert (HN : s1 = s /\ (forall d', ~ tstep c l d') \/
          exists c' t' e', link c l = Some c' /\ get_table tables (fst c') (snd c') = Some t' /\
            ~ In c' (tr_visited s) /\ locate_entry t' key n_atoms = Ok e' /\
            trace fuel e' t' c' (mkTrace (tr_visited s ++ [c']) (tr_reached s)
              (match bad_keys e' n_atoms key with [] => tr_failed s
               | bad => tr_failed s ++ [(c', bad)] end)) = Ok s1).
        { unfold body in H1. destruct (link c l) as [c'|] eqn:EL.
          2:{ injection H1 as <-. left. split; [reflexivity|]. intros d' (? & _ & _ & X & _). congruence. }
          destruct (get_table tables (fst c') (snd c')) as [t'|] eqn:ET.
          2:{ injection H1 as <-. left. split; [reflexivity|].
              intros d' (? & _ & _ & X & Y). rewrite EL in X. injection X as <-. contradiction. }
          destruct (existsb (xy_eqb c') (tr_visited s)) eqn:EV; [discriminate|].
          apply bind_Ok_inv in H1. destruct H1 as (e' & E' & H1). right.
          exists c', t', e'. split; [reflexivity|]. split; [assumption|]. split; [|auto].
          intro HIn. enough (existsb (xy_eqb c') (tr_visited s) = true) by congruence.
          apply existsb_exists. exists c'. split; [assumption|]. now apply xy_eqb_eq. }
        destruct HN as [(-> & HN)|(c' & t' & e' & EL & ET & NV & EE & H1')].
        + exists W2. split; [assumption|]. split; [|auto]. intros l' d' [<-|Hl'] S; [|eauto].
          destruct (HN _ S).
        + assert (L' : located c' e') by (exists t'; auto).
          destruct (IH _ _ _ _ _ (l :: P) H1' ET L') as (W1 & A1 & B1 & C1 & D1).
          destruct A1 as (V1 & R1 & F1 & G1 & N1). destruct A2 as (V2 & R2 & F2 & G2 & N2).
          cbn [tr_visited tr_reached tr_failed] in *.
          exists ((l :: P, c') :: W1 ++ W2). split.
          { split; [|split; [|split; [|split]]].
            - rewrite V2, V1. cbn [map snd]. rewrite map_app, <- !app_assoc. reflexivity.
            - intro d. rewrite R2, R1. cbn [app]. split.
              + intros [[H|(p & q & H & HT)]|(p & q & H & HT)]; auto.
                * right. exists p, q. split; [|assumption]. destruct H as [H|H]; [left; assumption|].
                  right. apply in_or_app. auto.
                * right. exists p, q. split; [|assumption]. right. apply in_or_app. auto.
              + intros [H|(p & q & [H|H] & HT)]; auto.
                * left. right. exists p, q. split; [left; assumption|assumption].
                * apply in_app_iff in H. destruct H as [H|H].
                  -- left. right. exists p, q. split; [right; assumption|assumption].
                  -- right. exists p, q. auto.
            - rewrite F2, F1. split.
              + intros ((Hf & HW1) & HW2). destruct (bad_keys e' n_atoms key) eqn:EB.
                * split; [assumption|]. intros p q e0 [HIn|HIn] HL0.
                  -- injection HIn as <- <-. now rewrite <- (located_fun _ _ _ L' HL0).
                  -- apply in_app_iff in HIn. destruct HIn as [HIn|HIn]; eauto.
                * destruct (tr_failed s); discriminate.
              + intros (Hf & HW). assert (EB : bad_keys e' n_atoms key = [])
                  by (apply (HW (l :: P) c' e'); [left; reflexivity|assumption]).
                rewrite EB. split; [split; [assumption|]|]; intros p q e0 HIn HL0;
                  apply (HW p q e0); auto; right; apply in_or_app; auto.
            - intros p q [HIn|HIn]; [injection HIn as <- <-; eauto|].
              apply in_app_iff in HIn. destruct HIn; eauto.
            - intros ND. apply N2, N1. apply NoDup_snoc; assumption. }
          split.
          { intros l' d' [<-|Hl'] S.
            - destruct S as (? & _ & _ & X & _). rewrite EL in X. injection X as <-. left. reflexivity.
            - right. apply in_or_app. right. eauto. }
          split.
          { intros p d l0 d' [HIn|HIn] S.
            - injection HIn as <- <-. right. apply in_or_app. left. auto.
            - right. apply in_or_app. apply in_app_iff in HIn. destruct HIn as [HIn|HIn];
                [left; eapply C1|right; eapply C2]; eauto. }
          intros R RP RS.
          assert (S1 : tstep c l c').
          { exists e. split; [assumption|]. split; [apply Hls; left; reflexivity|].
            split; [assumption|congruence]. }
          intros p d [HIn|HIn]; [injection HIn as <- <-; eauto|].
          apply in_app_iff in HIn. destruct HIn as [HIn|HIn]; [eapply D1|eapply D2]; eauto. }
    destruct (HL (entry_links e) (st_dest e t st) (fun l H => H) H) as (W & A & B & C & D).
    exists W. split; [|split; [|split]]; auto.
    - destruct A as (V & R & F & G & N). rewrite SV in V. rewrite SF in F. rewrite SV in N.
      split; [assumption|]. split; [|auto]. intro d. rewrite R, SR. cbn [app]. split.
      + intros [[H0|H0]|(p & q & HIn & HT)]; auto.
        * right. exists P, c. split; [left; reflexivity|assumption].
        * right. exists p, q. split; [right; assumption|assumption].
      + intros [H0|(p & q & [HIn|HIn] & HT)]; auto.
        * injection HIn as <- <-. auto.
        * right. exists p, q. auto.
    - intros l d' S. apply B; [|assumption]. destruct S as (e0 & L0 & HIn & _).
      now rewrite (located_fun _ _ _ L L0).
  Qed.

  (** ** The depth of a trace *)
  Definition table_chips : list xy := map (fun t => (t_x t, t_y t)) tables.

  Lemma has_table_chip : forall c t, get_table tables (fst c) (snd c) = Some t -> In c table_chips.
  Proof.
    intros c t H. apply get_table_Some in H. destruct H as (H & H1 & H2).
    apply in_map_iff. exists t. split; [|assumption]. rewrite H1, H2. symmetry. apply surjective_pairing.
  Qed.

  Lemma locate_loop_err : forall es found ex, locate_loop key n_atoms found es = Err ex ->
    ex = RoutingException \/ ex = ConfigurationException.
  Proof.
    induction es as [|x es IH]; intros found ex H; cbn [locate_loop] in H.
    - destruct found; [discriminate|]. injection H as <-. auto.
    - destruct (N.land (e_mask x) key =? e_key x)%N.
      + destruct (in_range_masks (e_mask x)); [|eauto].
        destruct (entry_last_key x <? _)%Z; [|eauto]. injection H as <-. auto.
      + destruct (in_range_masks (e_mask x)); [|eauto].
        destruct (_ >? 0)%Z; [|eauto]. injection H as <-. auto.
  Qed.

  Lemma trace_err : forall fuel e t c st ex,
    trace fuel e t c st = Err ex -> get_table tables (fst c) (snd c) = Some t -> located c e ->
    NoDup (tr_visited st) -> incl (tr_visited st) table_chips ->
    length tables + 1 <= fuel + length (tr_visited st) ->
    ex = RoutingException \/ ex = ConfigurationException.
  Proof.
    induction fuel as [|fuel IH]; intros e t c st ex H T L ND INC LEN.
    { exfalso. pose proof (NoDup_incl_length ND INC) as X. unfold table_chips in X.
      rewrite map_length in X. lia. }
    rewrite trace_S in H.
    destruct (st_dest_spec e t st c L T) as (SV & SF & SR).
    rewrite <- SV in ND, INC, LEN. revert H ND INC LEN. generalize (st_dest e t st). clear SV SF SR st.
    induction (entry_links e) as [|l ls IHl]; intros s H ND INC LEN; cbn [foldM] in H; [discriminate|].
    unfold bind in H. destruct (body fuel c s l) as [s1|ex1] eqn:EB.
    - assert (A : NoDup (tr_visited s1) /\ incl (tr_visited s1) table_chips /\
                  length (tr_visited s) <= length (tr_visited s1)).
      { unfold body in EB. destruct (link c l) as [c'|] eqn:EL; [|injection EB as <-; auto].
        destruct (get_table tables (fst c') (snd c')) as [t'|] eqn:ET; [|injection EB as <-; auto].
        destruct (existsb (xy_eqb c') (tr_visited s)) eqn:EV; [discriminate|].
        apply bind_Ok_inv in EB. destruct EB as (e' & E' & H1).
        assert (L' : located c' e') by (exists t'; auto).
        destruct (trace_spec _ _ _ _ _ _ [] H1 ET L') as (W & (V & _ & _ & G & N) & _).
        cbn [tr_visited] in *. split; [|split].
        - apply N. apply NoDup_snoc; [assumption|]. intro X.
          enough (existsb (xy_eqb c') (tr_visited s) = true) by congruence.
          apply existsb_exists. exists c'. split; [assumption|]. now apply xy_eqb_eq.
        - rewrite V. intros x Hx. apply in_app_iff in Hx. destruct Hx as [Hx|Hx].
          + apply in_app_iff in Hx. destruct Hx as [Hx|[<-|[]]]; [auto|]. eapply has_table_chip; eauto.
          + apply in_map_iff in Hx. destruct Hx as ((p & q) & <- & Hq).
            destruct (G _ _ Hq) as (e0 & t0 & T0 & _). eapply has_table_chip; eauto.
        - rewrite V, !app_length. lia. }
      destruct A as (A1 & A2 & A3). eapply IHl; eauto. lia.
    - injection H as <-. unfold body in EB.
      destruct (link c l) as [c'|] eqn:EL; [|discriminate].
      destruct (get_table tables (fst c') (snd c')) as [t'|] eqn:ET; [|discriminate].
      destruct (existsb (xy_eqb c') (tr_visited s)) eqn:EV; [injection EB as <-; auto|].
      unfold bind in EB. destruct (locate_entry t' key n_atoms) as [e'|ex'] eqn:E'.
      + assert (L' : located c' e') by (exists t'; auto).
        eapply IH; [exact EB|assumption|assumption| | |].
        * cbn [tr_visited]. apply NoDup_snoc; [assumption|]. intro X.
          enough (existsb (xy_eqb c') (tr_visited s) = true) by congruence.
          apply existsb_exists. exists c'. split; [assumption|]. now apply xy_eqb_eq.
        * cbn [tr_visited]. intros x Hx. apply in_app_iff in Hx. destruct Hx as [Hx|[<-|[]]]; [auto|].
          eapply has_table_chip; eauto.
        * cbn [tr_visited]. rewrite app_length. cbn [length]. lia.
      + injection EB as <-. eapply locate_loop_err. exact E'.
  Qed.

  (** ** The trace ends well if each router is met once *)
  Inductive twalk (src : xy) : list nat -> xy -> Prop :=
  | tw_nil : twalk src [] src
  | tw_step : forall p d l d', twalk src p d -> tstep d l d' -> twalk src (l :: p) d'.

  Lemma trace_ok : forall src,
    (forall p p' d, twalk src p d -> twalk src p' d -> p = p') ->
    (forall p d, twalk src p d -> exists e, located d e) ->
    forall fuel e t c st P V,
    twalk src P c -> get_table tables (fst c) (snd c) = Some t -> located c e ->
    tr_visited st = map snd V ->
    (forall p d, In (p, d) V -> twalk src p d /\ forall q l, p <> q ++ l :: P) ->
    (exists st', trace fuel e t c st = Ok st') \/ trace fuel e t c st = Err OutOfFuel.
  Proof.
    intros src U G. induction fuel as [|fuel IH]; intros e t c st P V TW T L EV HV; [right; reflexivity|].
    rewrite trace_S.
    destruct (st_dest_spec e t st c L T) as (SV & SF & SR). rewrite <- SV in EV.
    revert EV. generalize (st_dest e t st). clear SV SF SR st.
    assert (HL : forall ls s V, NoDup ls -> (forall l, In l ls -> In l (entry_links e)) ->
      tr_visited s = map snd V ->
      (forall p d, In (p, d) V -> twalk src p d /\ forall q l, In l ls -> p <> q ++ l :: P) ->
      (exists st', foldM (body fuel c) s ls = Ok st') \/ foldM (body fuel c) s ls = Err OutOfFuel).
    { clear V HV. induction ls as [|l ls IHl]; intros s V ND Hls EV HV; [left; eexists; reflexivity|].
      cbn [foldM]. inversion ND as [|? ? Nl ND']; subst.
      assert (HT : forall p d, In (p, d) V -> twalk src p d /\ forall q l, In l ls -> p <> q ++ l :: P).
      { intros p d HIn. destruct (HV p d HIn) as (A & B). split; [assumption|].
        intros q l' Hl'. apply B. right. assumption. }
      unfold body at 1 3. destruct (link c l) as [c'|] eqn:EL; [|cbn [bind]; eapply IHl; eauto;
        intros; apply Hls; right; assumption].
      destruct (get_table tables (fst c') (snd c')) as [t'|] eqn:ET; [|cbn [bind]; eapply IHl; eauto;
        intros; apply Hls; right; assumption].
      assert (ST : tstep c l c').
      { exists e. split; [assumption|]. split; [apply Hls; left; reflexivity|]. split; [assumption|congruence]. }
      assert (TW' : twalk src (l :: P) c') by (econstructor; eauto).
      destruct (existsb (xy_eqb c') (tr_visited s)) eqn:EX.
      { exfalso. apply existsb_exists in EX. destruct EX as (x & Hx & E). apply xy_eqb_eq in E. subst x.
        rewrite EV in Hx. apply in_map_iff in Hx. destruct Hx as ((p & q) & <- & Hp). cbn [snd] in *.
        destruct (HV _ _ Hp) as (A & B). apply (B [] l (or_introl eq_refl)).
        rewrite (U _ _ _ A TW'). reflexivity. }
      destruct (G _ _ TW') as (e' & L'). pose proof L' as (t'' & T'' & E').
      assert (t'' = t') by congruence. subst t''. rewrite E'. cbn [bind].
      remember (mkTrace (tr_visited s ++ [c']) (tr_reached s) (match bad_keys e' n_atoms key with
        | [] => tr_failed s | bad => tr_failed s ++ [(c', bad)] end)) as s0.
      destruct (IH e' t' c' s0 (l :: P) (V ++ [(l :: P, c')]) TW' ET L') as [(s1 & H1)|H1].
      - subst s0. cbn [tr_visited]. rewrite EV, map_app. reflexivity.
      - intros p d HIn. apply in_app_iff in HIn. destruct HIn as [HIn|[HIn|[]]].
        + destruct (HV _ _ HIn) as (A & B). split; [assumption|]. intros q l' E0.
          apply (B (q ++ [l']) l (or_introl eq_refl)). rewrite E0, <- app_assoc. reflexivity.
        + injection HIn as <- <-. split; [assumption|]. intros q l' E0.
          apply (f_equal (@length nat)) in E0. rewrite app_length in E0. cbn [length] in E0. lia.
      - rewrite H1. cbn [bind].
        destruct (trace_spec _ _ _ _ _ _ (l :: P) H1 ET L') as (W & (AV & _) & _ & _ & D).
        apply (IHl s1 ((V ++ [(l :: P, c')]) ++ W)); auto.
        + intros; apply Hls; right; assumption.
        + rewrite AV. subst s0. cbn [tr_visited]. rewrite EV, !map_app. reflexivity.
        + intros p d HIn.
          assert (HE : In (p, d) V \/ twalk src p d /\ exists q, p = q ++ l :: P).
          { apply in_app_iff in HIn. destruct HIn as [HIn|HIn].
            - apply in_app_iff in HIn. destruct HIn as [HIn|[HIn|[]]]; [auto|]. injection HIn as <- <-.
              right. split; [assumption|]. exists []. reflexivity.
            - right. apply (D (fun p d => twalk src p d /\ exists q, p = q ++ l :: P)); auto.
              + split; [assumption|]. exists []. reflexivity.
              + intros p0 d0 l0 d' (A & q & ->) S0. split; [econstructor; eauto|]. exists (l0 :: q). reflexivity. }
          destruct HE as [HE|(A & q & ->)]; [apply HT; assumption|]. split; [assumption|].
          intros q' l' Hl' E0.
          assert (l = l').
          { apply (f_equal (@rev nat)) in E0. rewrite !rev_app_distr in E0. cbn [rev] in E0.
            rewrite <- !app_assoc in E0. apply app_inv_head in E0. cbn in E0. congruence. }
          subst l'. contradiction.
      - rewrite H1. cbn [bind]. right. reflexivity. }
    intros s EV. apply (HL (entry_links e) s V); auto.
    - apply entry_links_NoDup.
    - intros p d HIn. destruct (HV p d HIn) as (A & B). split; [assumption|]. auto.
  Qed.
End TraceProofs.

(** * _search_route *)
Definition remove_dest := fun '((located, missed) : list (xy * nat) * list (xy * nat)) (d : xy * nat) =>
  if existsb (core_eqb d) located
  then (filter (fun c => negb (core_eqb d c)) located, missed)
  else (located, missed ++ [d]).

Lemma existsb_core : forall d l, existsb (core_eqb d) l = true <-> In d l.
Proof.
  intros d l. rewrite existsb_exists. split.
  - intros (x & Hx & E). apply core_eqb_spec in E. now subst x.
  - intro H. exists d. split; [assumption|]. now apply core_eqb_spec.
Qed.

Lemma remove_dests : forall dests located missed,
  fold_left remove_dest dests (located, missed) = ([], []) <->
  missed = [] /\ NoDup dests /\ (forall d, In d located <-> In d dests).
Proof.
  induction dests as [|d ds IH]; intros located missed; cbn [fold_left].
  - split.
    + intros [= -> ->]. split; [reflexivity|]. split; [constructor|reflexivity].
    + intros (-> & _ & H). destruct located as [|x l]; [reflexivity|]. destruct (proj1 (H x) (or_introl eq_refl)).
  - unfold remove_dest at 2. destruct (existsb (core_eqb d) located) eqn:E.
    + apply existsb_core in E. rewrite IH.
      assert (HF : forall x, In x (filter (fun c => negb (core_eqb d c)) located) <-> In x located /\ x <> d).
      { intro x. rewrite filter_In, negb_true_iff. split; intros (H1 & H2); split; auto.
        - intros ->. assert (core_eqb d d = true) by now apply core_eqb_spec. congruence.
        - apply not_true_is_false. rewrite core_eqb_spec. congruence. }
      split.
      * intros (Hm & ND & H). split; [assumption|].
        assert (Nd : ~ In d ds) by (rewrite <- H, HF; tauto).
        split; [constructor; assumption|]. intro x. split.
        -- intro Hx. destruct (core_eqb d x) eqn:Ex; [left; now apply core_eqb_spec|].
           right. apply H. apply HF. split; [assumption|]. intros ->.
           assert (core_eqb d d = true) by now apply core_eqb_spec. congruence.
        -- intros [<-|Hx]; [assumption|]. apply H in Hx. apply HF in Hx. tauto.
      * intros (Hm & ND & H). inversion ND; subst. split; [reflexivity|]. split; [assumption|].
        intro x. rewrite HF, H. simpl. split; [intros ([<-|Hx] & Hn); [contradiction|assumption]|].
        intro Hx. split; [auto|]. intros ->. contradiction.
    + rewrite IH. split.
      * intros (Hm & _). destruct missed; discriminate.
      * intros (-> & _ & H). enough (existsb (core_eqb d) located = true) by congruence.
        apply existsb_core. apply H. left. reflexivity.
Qed.

Lemma search_route_iff : forall link tables key n src dests,
  search_route link tables key n src dests = Ok tt <->
  exists st, start_trace link tables key n src = Ok st /\ tr_failed st = [] /\ NoDup dests /\
    forall d, In d (tr_reached st) <-> In d dests.
Proof.
  intros. unfold search_route. change (fun '(located, missed) d => if existsb (core_eqb d) located
     then (filter (fun c => negb (core_eqb d c)) located, missed)
     else (located, missed ++ [d])) with remove_dest.
  split.
  - intro H. apply bind_Ok_inv in H. destruct H as (st & HS & H).
    exists st. split; [assumption|].
    destruct (fold_left remove_dest dests (tr_reached st, [])) as (loc, mis) eqn:E.
    destruct mis; [|discriminate]. destruct loc; [|discriminate].
    destruct (tr_failed st); [|discriminate]. split; [reflexivity|].
    apply remove_dests in E. tauto.
  - intros (st & HS & HF & ND & H). rewrite HS. cbn [bind].
    replace (fold_left remove_dest dests (tr_reached st, [])) with (@nil (xy * nat), @nil (xy * nat)).
    + rewrite HF. reflexivity.
    + symmetry. apply remove_dests. auto.
Qed.

Section Search.
  Variable link : xy -> nat -> option xy.
  Variable tables : list table.
  Hypothesis entries_ok : forall t, In t tables -> Forall entry_ok (t_entries t).

  (** The routers a packet can be sent to have a table. *)
  Definition tables_closed : Prop :=
    forall t e l c, In t tables -> In e (t_entries t) ->
      l < 6 -> N.testbit (e_route e) (N.of_nat l) = true ->
      link (t_x t, t_y t) l = Some c -> exists t', In t' tables /\ (t_x t', t_y t') = c.

  Lemma get_table_In : forall t, In t tables -> exists t', get_table tables (t_x t) (t_y t) = Some t'.
  Proof.
    intros t H. destruct (get_table tables (t_x t) (t_y t)) eqn:E; [eauto|].
    unfold get_table in E. apply find_none with (x := t) in E; [|assumption].
    rewrite !Z.eqb_refl in E. discriminate.
  Qed.

  Lemma search_sound : forall key n src dests i,
    search_route link tables key n src dests = Ok tt ->
    tables_closed -> i < n ->
    i = 0 \/ (forall t, In t tables -> Forall contiguous (t_entries t) \/
                 (orthogonal (t_entries t) /\ (t_x t, t_y t) <> src)) ->
    visits_once link tables (key + N.of_nat i) src /\
    forall d, delivered link tables (key + N.of_nat i) src d <-> In d dests.
  Proof.
    intros key n src dests i H CL Hi HM. apply search_route_iff in H.
    destruct H as (st & HS & HF & ND & HD). unfold start_trace in HS.
    set (k := (key + N.of_nat i)%N).
    destruct (get_table tables (fst src) (snd src)) as [t|] eqn:T.
    2:{ injection HS as <-. cbn [tr_reached tr_failed] in *.
        assert (HN : entry_at tables src k = None) by (unfold entry_at; rewrite T; reflexivity).
        assert (HW : forall way c, walk link tables k src way c -> way = [] /\ c = src).
        { intros way c W. induction W as [|way c e l c' W (-> & ->) E|way c l c' W (X & _)];
            [auto|congruence|discriminate]. }
        split.
        - intros w w' c W W'. apply HW in W, W'. destruct W, W'. congruence.
        - intro d. rewrite <- HD. split; [|intros []]. intros (w & e & W & E & _).
          apply HW in W. destruct W as (_ & X). rewrite X in E. congruence. }
    apply bind_Ok_inv in HS. destruct HS as (e & E & HS).
    assert (L : located tables key n src e) by (exists t; auto).
    destruct (trace_spec link tables key n _ _ _ _ _ _ [] HS T L) as (W & (V & R & F & G & N) & B & C & D).
    cbn [tr_visited tr_reached tr_failed] in *.
    assert (FW : forall p c e, In (p, c) W -> located tables key n c e -> bad_keys e n key = [])
      by (apply F; assumption).
    assert (ND' : NoDup (map snd (([], src) :: W))).
    { cbn [map snd]. rewrite V in N. apply N. constructor; [intros []|constructor]. }
    assert (LA : forall p c, In (p, c) (([], src) :: W) -> exists e, located tables key n c e).
    { intros p c [X|X]; [injection X as <- <-; eauto|eauto]. }
    assert (EA : forall p c e, In (p, c) (([], src) :: W) -> located tables key n c e ->
                 entry_at tables c k = Some e).
    { intros p c e0 HIn L0. pose proof L0 as (t0 & T0 & E0). unfold entry_at. rewrite T0. unfold locate_entry in E0.
      pose proof (get_table_Some _ _ _ _ T0) as (It & Hx & Hy).
      destruct HM as [->|HM].
      - unfold k. rewrite N.add_0_r. eapply locate_first; eauto.
      - destruct (HM t0 It) as [HC|(HO & HNs)]; [eapply locate_all_keys; eauto|].
        destruct HIn as [X|X].
        + injection X as <- <-. exfalso. apply HNs. rewrite Hx, Hy. symmetry. apply surjective_pairing.
        + pose proof (FW _ _ _ X L0) as BK. rewrite bad_keys_nil in BK.
          pose proof (BK i Hi) as M. fold k in M.
          apply locate_first in E0; [|auto]. apply first_match_Some in E0. destruct E0 as (I0 & _).
          destruct (first_match_exists _ _ _ I0 M) as (e1 & E1). rewrite E1. f_equal.
          apply first_match_Some in E1. destruct E1 as (I1 & M1).
          eapply orthogonal_unique; eauto. }
    assert (STEP : forall p c l c', In (p, c) (([], src) :: W) -> tstep link tables key n c l c' ->
              In (l :: p, c') (([], src) :: W)).
    { intros p c l c' [X|X] S; right; [injection X as <- <-; auto|eapply C; eauto]. }
    assert (WA : forall way c, walk link tables k src way c <-> In (way, c) (([], src) :: W)).
    { intros way c. split.
      - intro HW. induction HW as [|way c e0 l c' HW IH E0 Hl Hb Hk|way c l c' HW IH E0 Hk].
        + left. reflexivity.
        + destruct (LA _ _ IH) as (e1 & L1). pose proof (EA _ _ _ IH L1) as E1.
          assert (e1 = e0) by congruence. subst e1.
          eapply STEP; [exact IH|]. exists e0. split; [assumption|]. split; [apply entry_links_In; auto|].
          split; [assumption|]. pose proof L1 as (t1 & T1 & EE).
          pose proof (get_table_Some _ _ _ _ T1) as (It & Hx & Hy).
          unfold entry_at in E1. rewrite T1 in E1. apply first_match_Some in E1.
          destruct (CL t1 e0 l c' It (proj1 E1) Hl Hb) as (t2 & It2 & <-).
          { rewrite Hx, Hy, <- surjective_pairing. assumption. }
          cbn [fst snd]. destruct (get_table_In t2 It2) as (t3 & ->). discriminate.
        + destruct (LA _ _ IH) as (e1 & L1). pose proof (EA _ _ _ IH L1). congruence.
      - intros HIn. assert (ST : walk link tables k src way c /\ In (way, c) (([], src) :: W)); [|tauto].
        destruct HIn as [X|X]; [injection X as <- <-; split; [constructor|left; reflexivity]|].
        apply (D (fun p d => walk link tables k src p d /\ In (p, d) (([], src) :: W))); auto.
        + split; [constructor|left; reflexivity].
        + intros p d l d' (HW & HIn) S. split; [|eapply STEP; eauto].
          destruct S as (e0 & L0 & HL0 & Hk & _). apply entry_links_In in HL0.
          eapply w_route; [exact HW|eapply EA; eauto|apply HL0|apply HL0|assumption]. }
    split.
    - intros w w' c H1 H2. apply WA in H1, H2. clear - ND' H1 H2.
      revert ND' H1 H2. generalize (([] : list nat, src) :: W). induction l as [|(p, q) l IHl]; intros ND' H1 H2; [destruct H1|].
      cbn [map snd] in ND'. inversion ND' as [|? ? X Y]; subst.
      destruct H1 as [H1|H1], H2 as [H2|H2].
      + congruence.
      + injection H1 as <- <-. exfalso. apply X. apply in_map_iff. exists (w', q). auto.
      + injection H2 as <- <-. exfalso. apply X. apply in_map_iff. exists (w, q). auto.
      + auto.
    - intro d. rewrite <- HD, R. split.
      + intros (w & e0 & HW & E0 & Hb). right. apply WA in HW. exists w, (fst d). split; [assumption|].
        destruct (LA _ _ HW) as (e1 & L1). pose proof (EA _ _ _ HW L1). exists e1.
        assert (e1 = e0) by congruence. subst e1. split; [assumption|]. split; [reflexivity|].
        now apply entry_procs_In.
      + intros [[]|(p & c & HIn & (e0 & L0 & Hc & Hp))]. exists p, e0. rewrite Hc.
        split; [apply WA; assumption|]. split; [eapply EA; eauto|]. now apply entry_procs_In.
  Qed.

  Lemma start_trace_err : forall key n src ex, start_trace link tables key n src = Err ex ->
    ex = RoutingException \/ ex = ConfigurationException.
  Proof.
    intros key n src ex H. clear entries_ok. unfold start_trace in H.
    destruct (get_table tables (fst src) (snd src)) as [t|] eqn:T; [|discriminate].
    unfold bind in H. destruct (locate_entry t key n) as [e|ex'] eqn:E.
    - eapply trace_err; [exact H|assumption| | | |].
      + exists t. auto.
      + constructor; [intros []|constructor].
      + intros x [<-|[]]. eapply has_table_chip; eauto.
      + cbn [tr_visited length]. lia.
    - injection H as <-. eapply locate_loop_err. exact E.
  Qed.

  Lemma search_err : forall key n src dests ex, search_route link tables key n src dests = Err ex ->
    ex = RoutingException \/ ex = ConfigurationException.
  Proof.
    intros key n src dests ex H. unfold search_route in H. unfold bind in H.
    destruct (start_trace link tables key n src) as [st|ex'] eqn:E.
    - destruct (fold_left _ dests (tr_reached st, [])) as (loc, mis).
      destruct mis, loc, (tr_failed st); try discriminate; injection H as <-; auto.
    - injection H as <-. eapply start_trace_err; eauto.
  Qed.

  Lemma search_complete : forall key n src dests,
    1 <= n -> (key + N.of_nat n <= 2 ^ 32)%N ->
    visits_once link tables key src ->
    NoDup dests -> (forall d, delivered link tables key src d <-> In d dests) ->
    (forall way c, walk link tables key src way c ->
       exists t e, get_table tables (fst c) (snd c) = Some t /\
         first_match (t_entries t) key = Some e /\
         (forall i, i < n -> entry_matches (key + N.of_nat i) e) /\
         forall e', In e' (t_entries t) -> contiguous e' ->
           (forall i, i < n -> entry_matches (key + N.of_nat i) e') \/
           (forall i, i <= n -> (key + N.of_nat i < 2 ^ 32)%N -> ~ entry_matches (key + N.of_nat i) e')) ->
    search_route link tables key n src dests = Ok tt.
  Proof.
    intros key n src dests Hn HB HU ND HD HT.
    assert (HL : forall way c, walk link tables key src way c ->
      exists e, located tables key n c e /\ entry_at tables c key = Some e /\ bad_keys e n key = []).
    { intros way c W. destruct (HT way c W) as (t & e & T & E & M & O). exists e.
      pose proof (get_table_Some _ _ _ _ T) as (It & _). split; [|split].
      - exists t. split; [assumption|]. unfold locate_entry.
        apply locate_loop_iff; [auto|]. split; [assumption|].
        apply Forall_forall. intros e' He'. apply covers_or_misses_iff; [|assumption|lia|].
        + specialize (entries_ok t It). rewrite Forall_forall in entries_ok. auto.
        + intros C. destruct (O e' He' C) as [X|X]; auto.
      - unfold entry_at. now rewrite T.
      - now apply bad_keys_nil. }
    assert (TW : forall p d, twalk link tables key n src p d -> walk link tables key src p d).
    { intros p d X. induction X as [|p d l d' X IH (e & L & Hl & Hk & _)]; [constructor|].
      destruct (HL _ _ IH) as (e' & L' & E' & _). rewrite (located_fun _ _ _ _ _ _ L L') in *.
      apply entry_links_In in Hl. eapply w_route; eauto; apply Hl. }
    assert (WT : forall p d, walk link tables key src p d -> twalk link tables key n src p d).
    { intros p d X. induction X as [|way c e l c' X IH E Hl Hb Hk|way c l c' X IH E Hk].
      - constructor.
      - econstructor; [exact IH|]. destruct (HL _ _ X) as (e' & L' & E' & _).
        assert (e' = e) by congruence. subst e'. exists e. split; [assumption|].
        split; [apply entry_links_In; auto|]. split; [assumption|].
        destruct (HT (l :: way) c') as (t' & _ & T' & _); [|congruence]. eapply w_route; eauto.
      - destruct (HL _ _ X) as (e' & _ & E' & _). congruence. }
    destruct (HT [] src (w_source _ _ _ _)) as (t & _ & T & _).
    destruct (HL [] src (w_source _ _ _ _)) as (e & L & E & _).
    apply search_route_iff.
    assert (HS : exists st, start_trace link tables key n src = Ok st).
    { destruct (start_trace link tables key n src) as [st|ex] eqn:ES; [eauto|]. exfalso.
      pose proof (start_trace_err _ _ _ _ ES) as EX. unfold start_trace in ES. rewrite T in ES.
      pose proof L as (t' & T' & E'). assert (t' = t) by congruence. subst t'. rewrite E' in ES. cbn [bind] in ES.
      destruct (trace_ok link tables key n src) with (fuel := S (length tables)) (e := e) (t := t) (c := src)
        (st := mkTrace [src] [] []) (P := @nil nat) (V := [(@nil nat, src)]) as [(st' & X)|X].
      - intros p p' d A A'. eapply HU; eauto.
      - intros p d A. destruct (HL p d (TW _ _ A)) as (e0 & L0 & _). eauto.
      - constructor.
      - assumption.
      - assumption.
      - reflexivity.
      - intros p d [X|[]]. injection X as <- <-. split; [constructor|]. intros q l X.
        destruct q; discriminate.
      - congruence.
      - rewrite ES in X. injection X as ->. destruct EX; discriminate. }
    destruct HS as (st & HS). exists st. split; [assumption|].
    unfold start_trace in HS. rewrite T in HS.
    pose proof L as (t' & T' & E'). assert (t' = t) by congruence. subst t'. rewrite E' in HS. cbn [bind] in HS.
    destruct (trace_spec link tables key n _ _ _ _ _ _ [] HS T L) as (W & (V & R & F & G & N) & B & C & D).
    cbn [tr_visited tr_reached tr_failed] in *.
    assert (WA : forall p c, In (p, c) (([], src) :: W) <-> twalk link tables key n src p c).
    { intros p c. split.
      - intros [X|X]; [injection X as <- <-; constructor|].
        apply (D (twalk link tables key n src)); auto; [constructor|]. intros; econstructor; eauto.
      - intro X. induction X as [|p d l d' X IH S]; [left; reflexivity|]. right.
        destruct IH as [IH|IH]; [injection IH as <- <-; auto|]. eapply C; eauto. }
    split; [|split; [assumption|]].
    - apply F. split; [reflexivity|]. intros p c e0 HIn L0.
      destruct (HL p c) as (e1 & L1 & _ & BK); [apply TW, WA; right; assumption|].
      now rewrite (located_fun _ _ _ _ _ _ L0 L1).
    - intro d. rewrite <- HD, R. split.
      + intros [[]|(p & c & HIn & (e0 & L0 & Hc & Hp))]. apply WA, TW in HIn.
        destruct (HL p c HIn) as (e1 & L1 & E1 & _). rewrite (located_fun _ _ _ _ _ _ L0 L1) in Hp.
        exists p, e1. rewrite Hc. split; [assumption|]. split; [assumption|]. now apply entry_procs_In.
      + intros (w & e0 & HW & E0 & Hb). right. exists w, (fst d). split; [apply WA, WT; assumption|].
        destruct (HL _ _ HW) as (e1 & L1 & E1 & _). exists e1. assert (e1 = e0) by congruence. subst e1.
        split; [assumption|]. split; [reflexivity|]. now apply entry_procs_In.
  Qed.
End Search.

(** * validate_routes *)
Notation dl d m := (match dget Nat.eqb d m with Some l => l | None => [] end) (only parsing).

Lemma dest_add_In : forall d s c m x,
  In x (dl (dest_add d s c) m) <-> In x (dl d m) \/ (m = s /\ x = c).
Proof.
  intros d s c m x. unfold dest_add. destruct (Nat.eq_dec m s) as [->|NE].
  - rewrite (dget_dset_eq _ Nat.eqb_eq). rewrite core_add_In. intuition.
  - rewrite (dget_dset_neq _ Nat.eqb_eq) by congruence. intuition.
Qed.

Lemma core_add_NoDup : forall l c, NoDup l -> NoDup (core_add l c).
Proof.
  intros l c H. unfold core_add. destruct (existsb (core_eqb c) l) eqn:E; [assumption|].
  apply NoDup_snoc; [assumption|]. rewrite <- existsb_core, E. discriminate.
Qed.

Lemma dest_add_NoDup : forall d s c, (forall m, NoDup (dl d m)) -> forall m, NoDup (dl (dest_add d s c) m).
Proof.
  intros d s c H m. unfold dest_add. destruct (Nat.eq_dec m s) as [->|NE].
  - rewrite (dget_dset_eq _ Nat.eqb_eq). apply core_add_NoDup. apply H.
  - rewrite (dget_dset_neq _ Nat.eqb_eq) by congruence. apply H.
Qed.

Lemma nat_add_In : forall l x y, In y (nat_add l x) <-> In y l \/ y = x.
Proof.
  intros l x y. unfold nat_add. destruct (existsb (Nat.eqb x) l) eqn:E.
  - apply existsb_exists in E. destruct E as (z & Hz & Ez). apply Nat.eqb_eq in Ez. subst z.
    split; [auto|]. intros [H| ->]; assumption.
  - rewrite in_app_iff. simpl. intuition.
Qed.

Section ValidateProofs.
  Variable env : valid_env.

  Lemma outgoing_fold : forall l (d : list (nat * list (xy * nat))) c m x,
    In x (dl (fold_left (fun d s => dest_add d s c) l d) m) <-> In x (dl d m) \/ (In m l /\ x = c).
  Proof.
    induction l as [|s l IH]; intros d c m x; cbn [fold_left]; [simpl; tauto|].
    rewrite IH, dest_add_In. simpl. intuition.
  Qed.

  Lemma outgoing_fold_NoDup : forall l (d : list (nat * list (xy * nat))) c, (forall m, NoDup (dl d m)) ->
    forall m, NoDup (dl (fold_left (fun d s => dest_add d s c) l d) m).
  Proof.
    induction l as [|s l IH]; intros d c H m; cbn [fold_left]; [apply H|].
    apply IH. apply dest_add_NoDup. exact H.
  Qed.

  Definition from_srcs (id : nat) (srcs : list vertex) (m : nat) : Prop :=
    In (Mac m) srcs \/ exists a, In (App a) srcs /\ In m (ve_outgoing env a id).

  Definition srcs_fold (id : nat) (c : xy * nat) := fun (d : list (nat * list (xy * nat))) src =>
    match src with
    | App a => fold_left (fun d s => dest_add d s c) (ve_outgoing env a id) d
    | Mac m => dest_add d m c
    end.

  Lemma srcs_fold_In : forall id c srcs d m x,
    In x (dl (fold_left (srcs_fold id c) srcs d) m) <-> In x (dl d m) \/ (from_srcs id srcs m /\ x = c).
  Proof.
    intros id c. unfold from_srcs. induction srcs as [|s srcs IH]; intros d m x; cbn [fold_left].
    - simpl. split; [auto|]. intros [H|([[]|(a & [] & _)] & _)]; auto.
    - rewrite IH. unfold srcs_fold at 1. destruct s as [a|m'].
      + rewrite outgoing_fold. split.
        * intros [[H|(H & ->)]|([H|(a' & H1 & H2)] & ->)]; auto.
          -- right. split; [|reflexivity]. right. exists a. simpl. auto.
          -- right. split; [|reflexivity]. left. right. assumption.
          -- right. split; [|reflexivity]. right. exists a'. simpl. auto.
        * intros [H|([[H|H]|(a' & [H1|H1] & H2)] & ->)]; auto.
          -- discriminate.
          -- injection H1 as <-. auto.
          -- right. split; [|reflexivity]. right. exists a'. auto.
      + rewrite dest_add_In. split.
        * intros [[H|(-> & ->)]|([H|(a' & H1 & H2)] & ->)]; auto.
          -- right. split; [|reflexivity]. left. left. reflexivity.
          -- right. split; [|reflexivity]. left. right. assumption.
          -- right. split; [|reflexivity]. right. exists a'. simpl. auto.
        * intros [H|([[H|H]|(a' & [H1|H1] & H2)] & ->)]; auto.
          -- injection H as ->. auto.
          -- discriminate.
          -- right. split; [|reflexivity]. right. exists a'. auto.
  Qed.

  Lemma srcs_fold_NoDup : forall id c srcs d, (forall m, NoDup (dl d m)) ->
    forall m, NoDup (dl (fold_left (srcs_fold id c) srcs d) m).
  Proof.
    intros id c. induction srcs as [|s srcs IH]; intros d H m; cbn [fold_left]; [apply H|].
    apply IH. intro m'. unfold srcs_fold. destruct s; [apply outgoing_fold_NoDup|apply dest_add_NoDup]; assumption.
  Qed.

  Definition inc_step (id : nat) := fun (d : list (nat * list (xy * nat))) '((tgt, srcs) : nat * list vertex) =>
    let* place := ve_place env tgt in Ok (fold_left (srcs_fold id place) srcs d).

  Lemma inc_fold : forall id l d d', foldM (inc_step id) d l = Ok d' ->
    (forall m x, In x (dl d' m) <-> In x (dl d m) \/
       exists tgt srcs, In (tgt, srcs) l /\ from_srcs id srcs m /\ ve_place env tgt = Ok x) /\
    ((forall m, NoDup (dl d m)) -> forall m, NoDup (dl d' m)).
  Proof.
    intros id. induction l as [|(tgt, srcs) l IH]; intros d d' H; cbn [foldM] in H.
    - injection H as <-. split; [|auto]. intros m x. split; [auto|]. intros [H|(? & ? & [] & _)]; auto.
    - apply bind_Ok_inv in H. destruct H as (d1 & H1 & H2). unfold inc_step in H1.
      apply bind_Ok_inv in H1. destruct H1 as (pl & HP & H1). injection H1 as <-.
      destruct (IH _ _ H2) as (A & B). split.
      + intros m x. rewrite A, srcs_fold_In. split.
        * intros [[H|(H & ->)]|(t & s & H & HF & HQ)]; auto.
          -- right. exists tgt, srcs. simpl. auto.
          -- right. exists t, s. simpl. auto.
        * intros [H|(t & s & [H|H] & HF & HQ)]; auto.
          -- injection H as <- <-. left. right. split; [assumption|]. congruence.
          -- right. exists t, s. auto.
      + intros ND m. apply B. apply srcs_fold_NoDup. assumption.
  Qed.

  Lemma edge_dests_spec : forall p d, edge_dests env p = Ok d ->
    (forall m x, In x (dl d m) <->
       exists target tgt srcs, In target (vp_targets p) /\
         In (tgt, srcs) (ve_incoming env target (vp_source p) (vp_id p)) /\
         from_srcs (vp_id p) srcs m /\ ve_place env tgt = Ok x) /\
    forall m, NoDup (dl d m).
  Proof.
    intros p d H. unfold edge_dests in H.
    assert (HL : forall l d0, foldM (fun d target =>
      foldM (inc_step (vp_id p)) d (ve_incoming env target (vp_source p) (vp_id p))) d0 l = Ok d ->
      (forall m x, In x (dl d m) <-> In x (dl d0 m) \/
       exists target tgt srcs, In target l /\
         In (tgt, srcs) (ve_incoming env target (vp_source p) (vp_id p)) /\
         from_srcs (vp_id p) srcs m /\ ve_place env tgt = Ok x) /\
      ((forall m, NoDup (dl d0 m)) -> forall m, NoDup (dl d m))).
    { induction l as [|tv l IH]; intros d0 HF; cbn [foldM] in HF.
      - injection HF as <-. split; [|auto]. intros m x. split; [auto|]. intros [X|(? & ? & ? & [] & _)]; auto.
      - apply bind_Ok_inv in HF. destruct HF as (d1 & H1 & H2).
        destruct (IH _ H2) as (A & B). destruct (inc_fold _ _ _ _ H1) as (A1 & B1). split.
        + intros m x. rewrite A, A1. split.
          * intros [[X|(t & s & X)]|(tv' & t & s & X & Y)]; auto.
            -- right. exists tv, t, s. simpl. tauto.
            -- right. exists tv', t, s. simpl. tauto.
          * intros [X|(tv' & t & s & [<-|X] & Y)]; auto.
            -- left. right. exists t, s. tauto.
            -- right. exists tv', t, s. tauto.
        + intros ND. apply B, B1. assumption. }
    destruct (HL (vp_targets p) [] H) as (A & B). split.
    - intros m x. rewrite A. cbn [dget]. split; [intros [[]|X]; auto|auto].
    - apply B. intro m. cbn [dget]. constructor.
  Qed.

  Lemma posts_fold : forall pre posts (d d' : list (nat * list (xy * nat))),
    foldM (fun d post => let* place := ve_place env post in Ok (dest_add d pre place)) d posts = Ok d' ->
    (forall m x, In x (dl d' m) <-> In x (dl d m) \/
       (m = pre /\ exists post, In post posts /\ ve_place env post = Ok x)) /\
    ((forall m, NoDup (dl d m)) -> forall m, NoDup (dl d' m)).
  Proof.
    intros pre. induction posts as [|q posts IH]; intros d d' H; cbn [foldM] in H.
    - injection H as <-. split; [|auto]. intros m x. split; [auto|]. intros [X|(_ & ? & [] & _)]; auto.
    - apply bind_Ok_inv in H. destruct H as (d1 & H1 & H2). apply bind_Ok_inv in H1.
      destruct H1 as (pl & HP & H1). injection H1 as <-. destruct (IH _ _ H2) as (A & B). split.
      + intros m x. rewrite A, dest_add_In. split.
        * intros [[X|(-> & ->)]|(-> & po & X & Y)]; auto.
          -- right. split; [reflexivity|]. exists q. simpl. auto.
          -- right. split; [reflexivity|]. exists po. simpl. auto.
        * intros [X|(-> & po & [<-|X] & Y)]; auto.
          -- left. right. split; congruence.
          -- right. split; [reflexivity|]. exists po. auto.
      + intros ND. apply B. apply dest_add_NoDup. assumption.
  Qed.

  Lemma internal_dests_spec : forall p d out d', internal_dests env p d = Ok (out, d') ->
    (forall m, In m out <-> In m (ve_outgoing env (vp_source p) (vp_id p)) \/
       exists posts, In (m, vp_id p, posts) (ve_internal env (vp_source p))) /\
    (forall m x, In x (dl d' m) <-> In x (dl d m) \/
       exists posts post, In (m, vp_id p, posts) (ve_internal env (vp_source p)) /\
         In post posts /\ ve_place env post = Ok x) /\
    ((forall m, NoDup (dl d m)) -> forall m, NoDup (dl d' m)).
  Proof.
    intros p d out d' H. unfold internal_dests in H.
    assert (HO : forall l acc m, In m (fold_left nat_add l acc) <-> In m acc \/ In m l).
    { induction l as [|x l IH]; intros acc m; cbn [fold_left]; [simpl; tauto|].
      rewrite IH, nat_add_In. simpl. intuition. }
    revert H. remember (fold_left nat_add (ve_outgoing env (vp_source p) (vp_id p)) []) as o0 eqn:E0. intro H.
    assert (HL : forall l o0 d0, foldM (fun '(out, d) '(pre, ident, posts) =>
        if ident =? vp_id p
        then let* d' := foldM (fun d post => let* place := ve_place env post in Ok (dest_add d pre place)) d posts in
             Ok (nat_add out pre, d')
        else Ok (out, d)) (o0, d0) l = Ok (out, d') ->
      (forall m, In m out <-> In m o0 \/ exists posts, In (m, vp_id p, posts) l) /\
      (forall m x, In x (dl d' m) <-> In x (dl d0 m) \/
         exists posts post, In (m, vp_id p, posts) l /\ In post posts /\ ve_place env post = Ok x) /\
      ((forall m, NoDup (dl d0 m)) -> forall m, NoDup (dl d' m))).
    { clear H E0 o0. induction l as [|((pre, ident), posts) l IH]; intros o0 d0 H; cbn [foldM] in H.
      - injection H as <- <-. repeat split; auto.
        + intros [X|(? & [])]; auto.
        + intros [X|(? & ? & [] & _)]; auto.
      - apply bind_Ok_inv in H. destruct H as ((o1, d1) & H1 & H2).
        destruct (IH _ _ H2) as (A & B & C). destruct (Nat.eqb_spec ident (vp_id p)) as [->|NE].
        + apply bind_Ok_inv in H1. destruct H1 as (d2 & H1 & H3). injection H3 as <- <-.
          destruct (posts_fold _ _ _ _ H1) as (A1 & B1). split; [|split].
          * intro m. rewrite A, nat_add_In. split.
            -- intros [[X| ->]|(ps & X)]; auto; right; [exists posts|exists ps]; simpl; auto.
            -- intros [X|(ps & [X|X])]; auto; [injection X as <- <-; auto|]. right. exists ps. auto.
          * intros m x. rewrite B, A1. split.
            -- intros [[X|(-> & po & X & Y)]|(ps & po & X & Y)]; auto.
               ++ right. exists posts, po. simpl. auto.
               ++ right. exists ps, po. simpl. tauto.
            -- intros [X|(ps & po & [X|X] & Y)]; auto.
               ++ injection X as -> ->. left. right. split; [reflexivity|]. exists po. tauto.
               ++ right. exists ps, po. tauto.
          * intro ND. apply C, B1. assumption.
        + injection H1 as <- <-. split; [|split]; auto.
          * intro m. rewrite A. split; (intros [X|(ps & X)]; [auto|]); right; exists ps.
            -- right. assumption.
            -- destruct X as [X|X]; [congruence|assumption].
          * intros m x. rewrite B. split; (intros [X|(ps & po & X & Y)]; [auto|]); right; exists ps, po.
            -- simpl. tauto.
            -- destruct X as [X|X]; [congruence|tauto]. }
    destruct (HL _ _ _ H) as (A & B & C). split; [|split]; auto.
    intro m. rewrite A, E0, HO. simpl. intuition.
  Qed.

  Lemma foldM_unit_iff : forall {A} (f : A -> res unit) l,
    foldM (fun (_ : unit) x => f x) tt l = Ok tt <-> forall x, In x l -> f x = Ok tt.
  Proof.
    intros A f. induction l as [|x l IH]; cbn [foldM].
    - split; [intros _ x []|reflexivity].
    - destruct (f x) as [[]|ex] eqn:E; cbn [bind].
      + rewrite IH. split; [intros H y [<-|Hy]; auto | intros H y Hy; apply H; right; assumption].
      + split; [discriminate|]. intros H. rewrite <- (H x (or_introl eq_refl)), E. reflexivity.
  Qed.

  (** The partitions that are walked. *)
  Lemma app_partitions_In : forall p, In p (get_app_partitions env) <->
    In p (ve_parts env) \/
    (vp_targets p = [] /\ In (vp_source p) (ve_vertices env) /\
     (exists pre posts, In (pre, vp_id p, posts) (ve_internal env (vp_source p))) /\
     ~ exists q, In q (ve_parts env) /\ vp_source q = vp_source p /\ vp_id q = vp_id p).
  Proof.
    intro p. unfold get_app_partitions.
    set (keyof := fun q => (vp_source q, vp_id q)).
    set (inner := fun (v : nat) '((parts, sources) : list vpart * list (nat * nat)) '((_, ident, _) : nat * nat * list nat) =>
      if existsb (pair_eqb Nat.eqb Nat.eqb (v, ident)) sources then (parts, sources)
      else (parts ++ [mkVPart v ident []], sources ++ [(v, ident)])).
    assert (EX : forall k l, existsb (pair_eqb Nat.eqb Nat.eqb k) l = true <-> In k l).
    { intros k l. rewrite existsb_exists. split.
      - intros (x & Hx & E). apply (pair_eqb_spec _ _ Nat.eqb_eq Nat.eqb_eq) in E. now subst.
      - intro H. exists k. split; [assumption|]. now apply (pair_eqb_spec _ _ Nat.eqb_eq Nat.eqb_eq). }
    assert (IN : forall v l acc, snd acc = map keyof (fst acc) ->
      snd (fold_left (inner v) l acc) = map keyof (fst (fold_left (inner v) l acc)) /\
      forall q, In q (fst (fold_left (inner v) l acc)) <-> In q (fst acc) \/
        (vp_targets q = [] /\ vp_source q = v /\ (exists pre posts, In (pre, vp_id q, posts) l) /\
         ~ In (keyof q) (snd acc))).
    { intros v. induction l as [|((pre, ident), posts) l IH]; intros acc HA; cbn [fold_left].
      - split; [assumption|]. intro q. split; [auto|]. intros [X|(_ & _ & (? & ? & []) & _)]; auto.
      - destruct acc as (parts, sources). cbn [fst snd] in HA. 
        assert (EI : inner v (parts, sources) (pre, ident, posts) =
          if existsb (pair_eqb Nat.eqb Nat.eqb (v, ident)) sources then (parts, sources)
          else (parts ++ [mkVPart v ident []], sources ++ [(v, ident)])) by reflexivity.
        rewrite EI.
        destruct (existsb (pair_eqb Nat.eqb Nat.eqb (v, ident)) sources) eqn:E.
        + destruct (IH (parts, sources) HA) as (A & B). split; [assumption|]. intro q. rewrite B. cbn [fst snd].
          split; (intros [X|(X1 & X2 & (pr & po & X3) & X4)]; [auto|]); right.
          * repeat split; auto. exists pr, po. right. assumption.
          * repeat split; auto. destruct X3 as [X3|X3]; [|eauto]. exfalso. apply X4.
            injection X3 as _ E3 _. apply EX in E. unfold keyof. rewrite X2, <- E3. assumption.
        + assert (HA' : snd (parts ++ [mkVPart v ident []], sources ++ [(v, ident)]) =
                        map keyof (fst (parts ++ [mkVPart v ident []], sources ++ [(v, ident)]))).
          { cbn [fst snd]. rewrite map_app, HA. reflexivity. }
          destruct (IH _ HA') as (A & B). split; [assumption|]. intro q. rewrite B. cbn [fst snd]. split.
          * intros [X|(X1 & X2 & (pr & po & X3) & X4)].
            -- apply in_app_iff in X. destruct X as [X|[<-|[]]]; [auto|]. right. cbn [vp_targets vp_source vp_id].
               repeat split; auto; [exists pre, posts; left; reflexivity|].
               unfold keyof. cbn [vp_source vp_id]. intro X. apply EX in X. congruence.
            -- right. repeat split; auto; [exists pr, po; right; assumption|].
               intro X. apply X4. apply in_or_app. auto.
          * intros [X|(X1 & X2 & (pr & po & X3) & X4)]; [left; apply in_or_app; auto|].
            destruct (Nat.eq_dec (vp_id q) ident) as [EID|NI].
            -- left. apply in_or_app. right. left. destruct q as [qs qi qt]. cbn [vp_source vp_id vp_targets] in *. congruence.
            -- right. repeat split; auto.
               ++ destruct X3 as [X3|X3]; [congruence|eauto].
               ++ intro X. apply in_app_iff in X. destruct X as [X|[X|[]]]; [auto|].
                  unfold keyof in X. congruence. }
    assert (OUT : forall l acc, snd acc = map keyof (fst acc) ->
      forall q, In q (fst (fold_left (fun acc v => fold_left (inner v) (ve_internal env v) acc) l acc)) <->
        In q (fst acc) \/
        (vp_targets q = [] /\ In (vp_source q) l /\
         (exists pre posts, In (pre, vp_id q, posts) (ve_internal env (vp_source q))) /\
         ~ In (keyof q) (snd acc))).
    { induction l as [|v l IH]; intros acc HA q; cbn [fold_left].
      - split; [auto|]. intros [X|(_ & [] & _)]; auto.
      - destruct (IN v (ve_internal env v) acc HA) as (A & B). rewrite (IH _ A), B. split.
        + intros [[X|(X1 & X2 & X3 & X4)]|(X1 & X2 & X3 & X4)]; auto.
          * right. rewrite X2. repeat split; auto. left. reflexivity.
          * right. repeat split; auto; [right; assumption|]. intro X. apply X4. rewrite A.
            rewrite HA in X. apply in_map_iff in X. destruct X as (q' & EQ & Hq'). apply in_map_iff.
            exists q'. split; [assumption|]. apply B. auto.
        + intros [X|(X1 & [X2|X2] & X3 & X4)]; auto.
          * left. right. repeat split; auto. rewrite X2. assumption.
          * destruct (Nat.eq_dec (vp_source q) v) as [EV|NV].
            -- left. right. repeat split; auto. rewrite <- EV. assumption.
            -- right. repeat split; auto. rewrite A. intro X. apply in_map_iff in X.
               destruct X as (q' & EQ & Hq'). apply B in Hq'. destruct Hq' as [Y|(_ & Y & _)].
               ++ apply X4. rewrite HA, <- EQ. apply in_map. assumption.
               ++ unfold keyof in EQ. congruence. }
    pose proof (OUT (ve_vertices env) (ve_parts env, map keyof (ve_parts env)) eq_refl p) as Q.
    cbn [fst snd] in Q. unfold inner in Q. rewrite Q. clear.
    split; (intros [X|(X1 & X2 & X3 & X4)]; [auto|]); right; repeat split; auto.
    - intros (q & H1 & H2 & H3). apply X4. apply in_map_iff. exists q. unfold keyof. split; congruence.
    - intro X. apply in_map_iff in X. destruct X as (q & E & H). unfold keyof in E. injection E as E1 E2. eauto.
  Qed.

  Lemma app_partitions_NoDup : NoDup (map (fun p => (vp_source p, vp_id p)) (ve_parts env)) ->
    NoDup (map (fun p => (vp_source p, vp_id p)) (get_app_partitions env)).
  Proof.
    intro U. unfold get_app_partitions.
    set (keyof := fun q => (vp_source q, vp_id q)) in *.
    set (Inv := fun acc : list vpart * list (nat * nat) => snd acc = map keyof (fst acc) /\ NoDup (snd acc)).
    assert (IN : forall v l acc, Inv acc -> Inv (fold_left (fun '(parts, sources) '((_, ident, _) : nat * nat * list nat) =>
      if existsb (pair_eqb Nat.eqb Nat.eqb (v, ident)) sources then (parts, sources)
      else (parts ++ [mkVPart v ident []], sources ++ [(v, ident)])) (l : list (nat * nat * list nat)) acc)).
    { intros v. induction l as [|((pre, ident), posts) l IH]; intros (parts, sources) (A & B); cbn [fold_left].
      - split; assumption.
      - apply IH. cbn [fst snd] in *.
        destruct (existsb (pair_eqb Nat.eqb Nat.eqb (v, ident)) sources) eqn:E; [split; assumption|].
        split; cbn [fst snd]; [rewrite map_app, A; reflexivity|]. apply NoDup_snoc; [assumption|].
        intro X. enough (existsb (pair_eqb Nat.eqb Nat.eqb (v, ident)) sources = true) by congruence.
        apply existsb_exists. exists (v, ident). split; [assumption|].
        now apply (pair_eqb_spec _ _ Nat.eqb_eq Nat.eqb_eq). }
    assert (OUT : forall l acc, Inv acc -> Inv (fold_left (fun acc v =>
       fold_left (fun '(parts, sources) '((_, ident, _) : nat * nat * list nat) =>
      if existsb (pair_eqb Nat.eqb Nat.eqb (v, ident)) sources then (parts, sources)
      else (parts ++ [mkVPart v ident []], sources ++ [(v, ident)])) (ve_internal env v) acc) l acc)).
    { induction l as [|v l IH]; intros acc H; cbn [fold_left]; [assumption|]. apply IH, IN. assumption. }
    destruct (OUT (ve_vertices env) (ve_parts env, map keyof (ve_parts env))) as (A & B).
    { split; [reflexivity|assumption]. }
    rewrite A in B. exact B.
  Qed.

  (** The machine vertices that send in partition [id] of application vertex [a]. *)
  Definition sends (a id m : nat) : Prop :=
    ((exists p, In p (ve_parts env) /\ vp_source p = a /\ vp_id p = id) \/
     (In a (ve_vertices env) /\ exists pre posts, In (pre, id, posts) (ve_internal env a))) /\
    (In m (ve_outgoing env a id) \/ exists posts, In (m, id, posts) (ve_internal env a)).

  (** The cores that are to receive what [m] sends. *)
  Definition required (a id m : nat) (x : xy * nat) : Prop :=
    (exists p target tgt srcs, In p (ve_parts env) /\ vp_source p = a /\ vp_id p = id /\
       In target (vp_targets p) /\ In (tgt, srcs) (ve_incoming env target a id) /\
       (In (Mac m) srcs \/ exists a', In (App a') srcs /\ In m (ve_outgoing env a' id)) /\
       ve_place env tgt = Ok x) \/
    (exists posts post, In (m, id, posts) (ve_internal env a) /\ In post posts /\
       ve_place env post = Ok x).

  Definition unique_parts : Prop := NoDup (map (fun p => (vp_source p, vp_id p)) (ve_parts env)).

  Lemma unique_part : unique_parts -> forall p q, In p (ve_parts env) -> In q (ve_parts env) ->
    vp_source p = vp_source q -> vp_id p = vp_id q -> p = q.
  Proof.
    unfold unique_parts. intros U p q Hp Hq E1 E2. induction (ve_parts env) as [|x l IH]; [destruct Hp|].
    cbn [map] in U. inversion U as [|? ? X Y]; subst. destruct Hp as [<-|Hp], Hq as [<-|Hq]; auto.
    - exfalso. apply X. apply in_map_iff. exists q. split; [congruence|assumption].
    - exfalso. apply X. apply in_map_iff. exists p. split; [congruence|assumption].
  Qed.

  Lemma validate_part_dests : forall p d out d', In p (get_app_partitions env) -> unique_parts ->
    edge_dests env p = Ok d -> internal_dests env p d = Ok (out, d') ->
    (forall m, In m out <-> sends (vp_source p) (vp_id p) m) /\
    forall m, NoDup (dl d' m) /\ forall x, In x (dl d' m) <-> required (vp_source p) (vp_id p) m x.
  Proof.
    intros p d out d' HP U HE HI.
    destruct (edge_dests_spec p d HE) as (E1 & E2).
    destruct (internal_dests_spec p d out d' HI) as (I1 & I2 & I3).
    apply app_partitions_In in HP. split.
    - intro m. rewrite I1. unfold sends. split; [|tauto]. intro H. split; [|assumption].
      destruct HP as [HP|(_ & HV & HX & _)]; [left; exists p; auto|right; auto].
    - intro m. split; [apply I3, E2|]. intro x. rewrite I2, E1. unfold required.
      split; (intros [X|X]; [left|right]); auto.
      + destruct X as (target & tgt & srcs & X1 & X2 & X3 & X4).
        destruct HP as [HP|(HT & _)]; [|rewrite HT in X1; destruct X1].
        exists p, target, tgt, srcs. repeat split; auto.
      + destruct X as (p' & target & tgt & srcs & X0 & Xs & Xi & X1 & X2 & X3 & X4).
        destruct HP as [HP|(HT & _ & _ & HN)].
        * rewrite (unique_part U p' p X0 HP Xs Xi) in X1. exists target, tgt, srcs. repeat split; auto.
        * exfalso. apply HN. exists p'. auto.
  Qed.

  Lemma sends_part : forall a id m, sends a id m ->
    exists p, In p (get_app_partitions env) /\ vp_source p = a /\ vp_id p = id.
  Proof.
    intros a id m ([(p & H1 & H2 & H3)|(HV & HX)] & _).
    - exists p. split; [apply app_partitions_In; auto|auto].
    - destruct (in_dec (fun x y : nat * nat => ltac:(decide equality; apply Nat.eq_dec)) (a, id)
                  (map (fun p => (vp_source p, vp_id p)) (ve_parts env))) as [HI|HN].
      + apply in_map_iff in HI. destruct HI as (p & E & Hp). injection E as E1 E2.
        exists p. split; [apply app_partitions_In; auto|auto].
      + exists (mkVPart a id []). split; [|auto]. apply app_partitions_In. right. cbn [vp_source vp_id vp_targets].
        repeat split; auto. intros (q & Hq & E1 & E2). apply HN. apply in_map_iff. exists q.
        split; [congruence|assumption].
  Qed.

  Variable link : xy -> nat -> option xy.
  Variable tables : list table.
  Variable infos : list info.

  Lemma edge_dests_iff : forall p, (exists d, edge_dests env p = Ok d) <->
    forall target tgt srcs, In target (vp_targets p) ->
      In (tgt, srcs) (ve_incoming env target (vp_source p) (vp_id p)) -> exists x, ve_place env tgt = Ok x.
  Proof.
    intro p. unfold edge_dests.
      assert (HI : forall id l d, (exists d', foldM (inc_step id) d l = Ok d') <->
        forall tgt srcs, In (tgt, srcs) l -> exists x, ve_place env tgt = Ok x).
      { intros id. induction l as [|(tgt, srcs) l IH]; intro d; cbn [foldM].
        - split; [intros _ tgt srcs []|eauto].
        - unfold inc_step at 1. destruct (ve_place env tgt) as [x|ex] eqn:E; cbn [bind].
          + rewrite IH. split; [|intros H t s Ht; apply (H t s); right; assumption].
            intros H t s [X|X]; [injection X as <- <-; eauto|eauto].
          + split; [intros (d' & X); discriminate|]. intros H. destruct (H tgt srcs (or_introl eq_refl)). congruence. }
      generalize (@nil (nat * list (xy * nat))). induction (vp_targets p) as [|tv l IH]; intro d; cbn [foldM].
      - split; [intros _ ? ? ? []|eauto].
      - change (fun (d : list (nat * list (xy * nat))) '(tgt, srcs) => let* place := ve_place env tgt in
            Ok (fold_left (fun d src => match src with
              | App a => fold_left (fun d s => dest_add d s place) (ve_outgoing env a (vp_id p)) d
              | Mac m => dest_add d m place end) srcs d)) with (inc_step (vp_id p)) in *.
        destruct (foldM (inc_step (vp_id p)) d (ve_incoming env tv (vp_source p) (vp_id p))) as [d1|ex] eqn:E; cbn [bind].
        + rewrite IH. split; [|intros H t g s Ht; apply (H t g s); right; assumption].
          intros H t g s [<-|Ht]; [|apply H; assumption].
          apply (proj1 (HI (vp_id p) _ d)). eauto.
        + split; [intros (d' & X); discriminate|]. intro H. exfalso.
          destruct (proj2 (HI (vp_id p) (ve_incoming env tv (vp_source p) (vp_id p)) d)) as (d' & X); [|congruence].
          intros g s Hg. apply (H tv g s); [left; reflexivity|assumption].
  Qed.
  Lemma internal_dests_iff : forall p d, (exists r, internal_dests env p d = Ok r) <->
    forall m posts post, In (m, vp_id p, posts) (ve_internal env (vp_source p)) -> In post posts ->
      exists x, ve_place env post = Ok x.
  Proof.
    intros p. intro d. unfold internal_dests.
      assert (HPF : forall pre posts (d : list (nat * list (xy * nat))),
        (exists d', foldM (fun d post => let* place := ve_place env post in Ok (dest_add d pre place)) d posts = Ok d') <->
        forall post, In post posts -> exists x, ve_place env post = Ok x).
      { intros pre. induction posts as [|q posts IH]; intro d0; cbn [foldM].
        - split; [intros _ ? []|eauto].
        - destruct (ve_place env q) as [x|ex] eqn:E; cbn [bind].
          + rewrite IH. split; [intros H po [<-|X]; eauto|]. intros H po X. apply H. right. assumption.
          + split; [intros (? & X); discriminate|]. intros H. destruct (H q (or_introl eq_refl)). congruence. }
      generalize (fold_left nat_add (ve_outgoing env (vp_source p) (vp_id p)) []). revert d.
      induction (ve_internal env (vp_source p)) as [|((pre, ident), posts) l IH]; intros d o; cbn [foldM].
      - split; [intros _ ? ? ? []|eauto].
      - destruct (Nat.eqb_spec ident (vp_id p)) as [->|NE].
        + destruct (foldM (fun d post => let* place := ve_place env post in Ok (dest_add d pre place)) d posts)
            as [d1|ex] eqn:E; cbn [bind].
          * rewrite IH. split; [|intros H m ps po X; apply (H m ps po); right; assumption].
            intros H m ps po [X|X]; [|apply (H m ps po); assumption]. injection X as <- <-.
            apply (proj1 (HPF pre posts d)). eauto.
          * split; [intros (? & X); discriminate|]. intro H. exfalso.
            destruct (proj2 (HPF pre posts d)) as (? & X); [|congruence].
            intros po Hp. apply (H pre posts po); [left; reflexivity|assumption].
        + cbn [bind]. rewrite IH. split; [|intros H m ps po X; apply (H m ps po); right; assumption].
          intros H m ps po [X|X]; [congruence|apply (H m ps po); assumption].
  Qed.
  (** The cores to receive what [m] sends, as a list. *)
  Lemma required_list : forall p, In p (get_app_partitions env) -> unique_parts ->
    (forall target tgt srcs, In target (vp_targets p) ->
       In (tgt, srcs) (ve_incoming env target (vp_source p) (vp_id p)) -> exists x, ve_place env tgt = Ok x) ->
    (forall m posts post, In (m, vp_id p, posts) (ve_internal env (vp_source p)) -> In post posts ->
       exists x, ve_place env post = Ok x) ->
    forall m, exists dests, NoDup dests /\ forall x, In x dests <-> required (vp_source p) (vp_id p) m x.
  Proof.
    intros p HP U H1 H2 m. apply edge_dests_iff in H1. destruct H1 as (d & HE).
    destruct (proj2 (internal_dests_iff p d) H2) as ((out, d') & HI).
    exists (dl d' m). exact (proj2 (validate_part_dests p d out d' HP U HE HI) m).
  Qed.

  Lemma validate_part_iff : forall p, In p (get_app_partitions env) -> unique_parts ->
    (validate_part env link tables infos p = Ok tt <->
     (forall target tgt srcs, In target (vp_targets p) ->
        In (tgt, srcs) (ve_incoming env target (vp_source p) (vp_id p)) -> exists x, ve_place env tgt = Ok x) /\
     (forall m posts post, In (m, vp_id p, posts) (ve_internal env (vp_source p)) -> In post posts ->
        exists x, ve_place env post = Ok x) /\
     forall m, sends (vp_source p) (vp_id p) m -> ve_virtual env m = false ->
       exists chip q i dests, ve_place env m = Ok (chip, q) /\ get_info infos (Mac m) (vp_id p) = Ok i /\
         NoDup dests /\ (forall x, In x dests <-> required (vp_source p) (vp_id p) m x) /\
         search_route link tables (km_key (i_km i)) (ve_n_atoms env m) chip dests = Ok tt).
  Proof.
    intros p HP U.
    unfold validate_part. split.
    - intro H. apply bind_Ok_inv in H. destruct H as (d & HE & H). apply bind_Ok_inv in H.
      destruct H as ((out, d') & HI & H). destruct (validate_part_dests p d out d' HP U HE HI) as (S & R).
      split; [apply edge_dests_iff; eauto|]. split; [apply (internal_dests_iff p d); eauto|].
      intros m Hm Vm. apply S in Hm.
      pose proof (proj1 (foldM_unit_iff (fun m => if ve_virtual env m then Ok tt else
        let* (chip, _) := ve_place env m in
        let* i := get_info infos (Mac m) (vp_id p) in
        search_route link tables (km_key (i_km i)) (ve_n_atoms env m) chip (dl d' m)) out) H m Hm) as X.
      cbn beta in X. rewrite Vm in X. apply bind_Ok_inv in X. destruct X as ((chip, q) & X1 & X).
      apply bind_Ok_inv in X. destruct X as (i & X2 & X). exists chip, q, i, (dl d' m).
      destruct (R m) as (R1 & R2). auto.
    - intros (H1 & H2 & H3). apply edge_dests_iff in H1. destruct H1 as (d & HE). rewrite HE. cbn [bind].
      destruct (proj2 (internal_dests_iff p d) H2) as ((out, d') & HI). rewrite HI. cbn [bind].
      destruct (validate_part_dests p d out d' HP U HE HI) as (S & R).
      apply (foldM_unit_iff (fun m => if ve_virtual env m then Ok tt else
        let* (chip, _) := ve_place env m in
        let* i := get_info infos (Mac m) (vp_id p) in
        search_route link tables (km_key (i_km i)) (ve_n_atoms env m) chip (dl d' m)) out).
      intros m Hm. destruct (ve_virtual env m) eqn:Vm; [reflexivity|]. apply S in Hm.
      destruct (H3 m Hm Vm) as (chip & q & i & ds & X1 & X2 & X3 & X4 & X5).
      rewrite X1. cbn [bind]. rewrite X2. cbn [bind]. destruct (R m) as (R1 & R2).
      apply search_route_iff in X5. apply search_route_iff.
      destruct X5 as (st & Y1 & Y2 & Y3 & Y4). exists st. repeat split; auto.
      + intro Z. apply R2, X4, Y4. assumption.
      + intro Z. apply Y4, X4, R2. assumption.
  Qed.

  Lemma validate_iff : unique_parts ->
    (validate_routes env link tables infos = Ok tt <->
     forall p, In p (get_app_partitions env) -> validate_part env link tables infos p = Ok tt).
  Proof. intro U. unfold validate_routes. apply (foldM_unit_iff (validate_part env link tables infos)). Qed.
End ValidateProofs.
