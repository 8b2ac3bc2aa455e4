(** Proofs about tables whose keys are partly fixed by the user. *)
From Coq Require Import List Arith NArith ZArith Bool Lia.
From Verif Require Import Base Dict RouteSpec KeyMask AllocModel AllocProofs KeyOrder TablesModel GenModel GenProofs.
Import ListNotations.
Local Open Scope N_scope.

(** * What the user has to keep to *)
(** [R]: the partitions that are routed.  In a partition with a fixed key, the keys
    are those of [mac_key]: what is fixed for the machine vertex, or else for the
    partition. *)
Record fixed_ok (flexible : bool) (e : graph_env) (parts : list (nat * nat)) (R : nat -> nat -> Prop) : Prop := mkFixedOk {
  fx_mode : forall a p x, R a p -> ae_app_fixed e a p = Some x ->
    flexible = true \/ one_largest e parts \/ (forall b q, In (b, q) parts -> ae_app_fixed e b q <> None);
  fx_app : forall a p x, R a p -> ae_app_fixed e a p = Some x -> km_ok x;
  fx_mac : forall a p m y, R a p -> In m (ae_outgoing e a p) -> mac_key e a p m = Some y -> km_ok y;
  fx_within : forall a p x m y k, R a p -> ae_app_fixed e a p = Some x -> In m (ae_outgoing e a p) -> mac_key e a p m = Some y ->
    k < 2 ^ 32 -> km_matches k y -> km_matches k x;
  fx_apart : forall a p x b q y, R a p -> R b q -> ae_app_fixed e a p = Some x -> ae_app_fixed e b q = Some y ->
    (a, p) <> (b, q) -> km_disjoint x y;
  fx_each : forall a p m n y z, R a p -> In m (ae_outgoing e a p) -> In n (ae_outgoing e a p) -> m <> n ->
    mac_key e a p m = Some y -> mac_key e a p n = Some z -> km_disjoint y z }.

(** For the merging generator the fixed keys of a partition must not look like
    those the allocator chooses: their masks are not those of blocks of as many keys
    as a vertex of the partition asks for (or, when global, of more). *)
Definition own_masks (flexible : bool) (e : graph_env) (a p : nat) : Prop :=
  forall m y b, In m (ae_outgoing e a p) -> mac_key e a p m = Some y ->
    (if flexible then just_enough e a p b else enough_bits e a p b) -> km_mask y <> 2 ^ 32 - 2 ^ b.

(** Or they are laid out as the allocator would: blocks of [2 ^ b] keys in the order
    of the machine vertices in a block of [2 ^ (b + B)]. *)
Definition laid_out (e : graph_env) (a p : nat) : Prop :=
  exists K b B, ae_app_fixed e a p = Some (mkKM K (2 ^ 32 - 2 ^ (b + B))) /\ b + B <= 32 /\ enough_bits e a p 32 /\
    N.of_nat (length (ae_outgoing e a p)) <= ae_n_machine e a /\ ae_n_machine e a <= 2 ^ B /\
    forall n m, comes_nth e (ae_outgoing e a p) m n ->
      ae_index e m = N.of_nat n /\ mac_key e a p m = Some (mkKM (K + N.of_nat n * 2 ^ b) (2 ^ 32 - 2 ^ b)).
Definition mergeable (flexible : bool) (e : graph_env) (R : nat -> nat -> Prop) : Prop :=
  forall a p, R a p -> ae_app_fixed e a p <> None -> own_masks flexible e a p \/ laid_out e a p.

(** * What the allocator notes beside the keys *)
Definition kind_ok (i : info) : Prop :=
  match i_vertex i with
  | App _ => exists mm b mx, i_extra i = IApp mm b mx
  | Mac _ => exists idx, i_extra i = IMac idx
  end.

Lemma alloc_kinds : forall flexible e parts infos, allocate flexible e parts = Ok infos -> Forall kind_ok infos.
Proof.
  intros flexible e parts infos H. unfold allocate in H.
  apply bind_Ok_inv in H. destruct H as ([fixed allf] & _ & H).
  apply bind_Ok_inv in H. destruct H as ([z used] & _ & H).
  assert (ADD : forall l i l', add_info l i = Ok l' -> Forall kind_ok l -> kind_ok i -> Forall kind_ok l').
  { intros l i l' A F K. apply add_info_Ok in A. destruct A as [-> _]. apply Forall_app. split; auto. }
  destruct allf.
  - unfold allocate_all_fixed in H. revert H. assert (F : Forall kind_ok []) by constructor. revert F. generalize (@nil info).
    induction fixed as [|[[k v] x] d IH]; intros l F H; cbn [foldM] in H; [inversion H; subst; exact F|].
    apply bind_Ok_inv in H. destruct H as (l1 & H1 & H). apply (IH l1); [|exact H]. destruct v as [a|m].
    + apply bind_Ok_inv in H1. destruct H1 as (nb & _ & H1). apply (ADD _ _ _ H1 F). unfold kind_ok. cbn. eauto.
    + apply (ADD _ _ _ H1 F). unfold kind_ok. cbn. eauto.
  - revert H. assert (F : Forall kind_ok []) by constructor. revert F. generalize (@nil info), 0.
    generalize (ordered_set parts). induction l as [|[a p] l IH]; intros acc idx F H; cbn [allocate_loop] in H; [inversion H; subst; exact F|].
    apply bind_Ok_inv in H. destruct H as (idx1 & _ & H). destruct (ae_outgoing e a p) as [|m0 ms]; [apply (IH acc idx1 F H)|].
    apply bind_Ok_inv in H. destruct H as (bits & _ & H). destruct (field_sizes flexible z bits) as [nba nbm].
    apply bind_Ok_inv in H. destruct H as (acc1 & H1 & H). apply bind_Ok_inv in H. destruct H as (k & _ & H).
    apply bind_Ok_inv in H. destruct H as (acc2 & H2 & H). apply (IH acc2 (idx1 + 1)); [|exact H].
    apply (ADD _ _ _ H2); [|unfold kind_ok; cbn; eauto]. clear - H1 F ADD. revert H1 F. generalize 0, acc.
    induction (sort_lo e (m0 :: ms)) as [|m mvs IH]; intros mi l H F; cbn [alloc_machines] in H; [inversion H; subst; exact F|].
    apply bind_Ok_inv in H. destruct H as (k & _ & H). apply bind_Ok_inv in H. destruct H as (l1 & H1 & H).
    apply (IH (mi + 1) l1 H). apply (ADD _ _ _ H1 F). unfold kind_ok. cbn. eauto.
Qed.

(** Either there is a partition without a fixed key, or the result lists the fixed
    keys. *)
Lemma alloc_cases : forall flexible e parts infos, env_ok e parts -> allocate flexible e parts = Ok infos ->
  (exists a p, free_part e parts a p) \/
  ((forall a p, In (a, p) parts -> ae_app_fixed e a p <> None) /\
   (forall a p j, is_app infos a p j -> In (a, p) parts -> ae_outgoing e a p <> [] ->
      i_extra j = IApp (mask_of (atom_bits e a p)) (atom_bits e a p) (ae_n_machine e a - 1)) /\
   (forall i m, In i infos -> i_vertex i = Mac m -> i_extra i = IMac (ae_index e m))).
Proof.
  intros flexible e parts infos EO H. destruct (ordered_set_spec parts) as [ND I].
  destruct (forallb (fun ap => match ae_app_fixed e (fst ap) (snd ap) with Some _ => true | None => false end) (ordered_set parts)) eqn:ALL.
  - right. assert (AF : forall a p, In (a, p) parts -> ae_app_fixed e a p <> None).
    { intros a p J. rewrite forallb_forall in ALL. specialize (ALL (a, p)). rewrite I in ALL. specialize (ALL J). cbn [fst snd] in ALL.
      destruct (ae_app_fixed e a p); congruence. }
    split; [exact AF|]. unfold allocate in H.
    apply bind_Ok_inv in H. destruct H as ([fixed allf] & H1 & H).
    apply find_fixed_spec in H1; auto using env_ok_set. destruct H1 as [_ A]. rewrite ALL in A. subst allf.
    apply bind_Ok_inv in H. destruct H as ([z' used] & H2 & H).
    destruct (calculate_zones_spec e fixed (ordered_set parts) ND) as (S & _ & _ & B & _).
    pose proof (check_zones_spec _ _ _ _ _ S H2) as (_ & EB & _).
    unfold allocate_all_fixed in H.
    assert (G : forall d l l', foldM (fun infos p =>
           match p with
           | ((ident, App a), k) =>
               let* nb := dgetE ap_eqb (z_bits z') (a, ident) in
               add_info infos (mkInfo (App a) ident k (IApp (mask_of nb) nb (ae_n_machine e a - 1)))
           | ((ident, Mac m), k) => add_info infos (mkInfo (Mac m) ident k (IMac (ae_index e m)))
           end) l d = Ok l' ->
      forall P : info -> Prop, (forall i, In i l -> P i) ->
        (forall a p k nb, dget ap_eqb (z_bits z') (a, p) = Some nb -> P (mkInfo (App a) p k (IApp (mask_of nb) nb (ae_n_machine e a - 1)))) ->
        (forall m p k, P (mkInfo (Mac m) p k (IMac (ae_index e m)))) -> forall i, In i l' -> P i).
    { clear. induction d as [|[[k v] x] d IH]; intros l l' H P P0 PA PM i Hi; cbn [foldM] in H; [inversion H; subst; auto|].
      apply bind_Ok_inv in H. destruct H as (l1 & H1 & H). refine (IH l1 l' H P _ PA PM i Hi). intros j Hj. destruct v as [a|m].
      - apply bind_Ok_inv in H1. destruct H1 as (nb & Hb & H1). apply add_info_Ok in H1. destruct H1 as [-> _].
        apply in_app_iff in Hj. destruct Hj as [Hj|[<-|[]]]; [auto|]. apply PA.
        unfold dgetE in Hb. destruct (dget ap_eqb (z_bits z') (a, k)); congruence.
      - apply add_info_Ok in H1. destruct H1 as [-> _]. apply in_app_iff in Hj. destruct Hj as [Hj|[<-|[]]]; auto. }
    specialize (G _ _ _ H). split.
    + intros a p j (J1 & J2 & J3) J NE.
      apply (G (fun j => forall a p, In (a, p) parts -> ae_outgoing e a p <> [] -> i_vertex j = App a -> i_part j = p ->
        i_extra j = IApp (mask_of (atom_bits e a p)) (atom_bits e a p) (ae_n_machine e a - 1))); auto; [intros ? []| |discriminate].
      clear - B EB I. intros a p k nb Hb a' p' J NE E1 E2. cbn in *. inversion E1; subst a' p'.
      rewrite EB in Hb. rewrite B in Hb; [|apply I; exact J|exact NE]. inversion Hb. reflexivity.
    + intros i m Hi. apply (G (fun i => i_vertex i = Mac m -> i_extra i = IMac (ae_index e m))); auto; [intros ? []|discriminate|].
      cbn. intros m' p k [= ->]. reflexivity.
  - left.
    assert (W : existsb (fun ap => match ae_app_fixed e (fst ap) (snd ap) with Some _ => false | None => true end) (ordered_set parts) = true).
    { revert ALL. generalize (ordered_set parts). clear. induction l as [|[a p] l IH]; simpl; [discriminate|]. destruct (ae_app_fixed e a p); auto. }
    apply existsb_exists in W. destruct W as ([a0 p0] & W1 & W2). simpl in W2.
    exists a0, p0. split; [now apply I|]. destruct (ae_app_fixed e a0 p0); congruence.
Qed.

(** * The keys of the routed partitions *)
Section Keyed.
Variables (flexible : bool) (e : graph_env) (parts : list (nat * nat)) (infos : list info) (R : nat -> nat -> Prop).
Hypothesis EO : env_ok e parts.
Hypothesis ALLOC : allocate flexible e parts = Ok infos.
Hypothesis FX : fixed_ok flexible e parts R.
Hypothesis RP : forall a p, R a p -> In (a, p) parts.
Hypothesis CT : forall a p, R a p -> ae_app_fixed e a p = None -> ae_outgoing e a p <> [] -> counted e a p.

Lemma fk_unique : forall i j, In i infos -> In j infos -> i_vertex i = i_vertex j -> i_part i = i_part j -> i = j.
Proof. intros. eapply alloc_unique; eauto. Qed.
Lemma fk_some : forall a p m, In m (ae_outgoing e a p) -> ae_outgoing e a p <> [].
Proof. intros a p m I E. rewrite E in I. destruct I. Qed.
Lemma fk_free : forall a p, R a p -> ae_app_fixed e a p = None -> free_part e parts a p.
Proof. intros a p H F. split; auto. Qed.

Lemma fk_mac : forall a p m, R a p -> In m (ae_outgoing e a p) -> exists i, get_info infos (Mac m) p = Ok i /\ is_mac infos e a p m i /\
  km_ok (i_km i) /\ (exists idx, i_extra i = IMac idx) /\ (forall x, ae_app_fixed e a p = Some x -> mac_key e a p m = Some (i_km i)).
Proof.
  intros a p m H M.
  assert (G : exists i, is_mac infos e a p m i /\ km_ok (i_km i) /\ (forall x, ae_app_fixed e a p = Some x -> mac_key e a p m = Some (i_km i))).
  { destruct (ae_app_fixed e a p) as [x|] eqn:F.
    - destruct (alloc_respects_fixed _ _ _ _ _ _ _ EO ALLOC (RP a p H) F) as [_ A]. destruct (A m M) as (i & IM & E). exists i. split; [exact IM|].
      assert (K : mac_key e a p m = Some (i_km i)) by (unfold mac_key; rewrite F, E; destruct (ae_mac_fixed e a m p); reflexivity).
      split; [exact (fx_mac _ _ _ _ FX a p m _ H M K)|]. intros x' _. exact K.
    - pose proof (CT a p H F (fk_some _ _ _ M)) as C. pose proof (fk_free a p H F) as FP.
      destruct (alloc_machine_block _ _ _ _ _ _ _ EO ALLOC FP C M) as (i & j & b & IM & _).
      destruct (allocate_shape _ _ _ _ _ _ EO FP ALLOC) as (fixed & z' & used & aps & news & SH).
      destruct (sh_free_mac _ _ _ _ _ _ _ _ _ EO SH a p m i FP C IM) as (idx & x & nba & nb & I1 & I2 & I3 & I4 & I5 & _ & IX & EK & _).
      destruct (sh_index_bound _ _ _ _ _ _ _ _ _ SH a p idx I1) as [_ IB].
      pose proof (sh_am32 _ _ _ _ _ _ _ _ _ SH) as A32.
      assert (KB : N.lor (N.shiftl idx nb) (N.of_nat x) < 2 ^ (32 - nba)).
      { rewrite lor_shiftl_add by auto.
        assert (E : 2 ^ (32 - nba) = 2 ^ (32 - z_atoms_mac z') * 2 ^ nb) by (rewrite <- N.pow_add_r; f_equal; lia).
        rewrite E. pose proof (pow2_pos nb). nia. }
      exists i. split; [exact IM|]. split; [|discriminate]. rewrite EK. unfold km_ok. cbn [km_key km_mask].
      assert (A33 : nba <= 32) by lia. destruct (block_key_ok nba _ A33 KB). auto using mask_of_lt. }
  destruct G as (i & IM & K & F). exists i. assert (IM' := IM). destruct IM' as (I1 & I2 & I3 & _).
  split; [apply get_info_In; auto using fk_unique|]. split; [exact IM|]. split; [exact K|]. split; [|exact F].
  pose proof (alloc_kinds _ _ _ _ ALLOC) as KI. rewrite Forall_forall in KI. specialize (KI i I1). unfold kind_ok in KI. rewrite I2 in KI. exact KI.
Qed.

Lemma fk_app : forall a p, R a p -> ae_outgoing e a p <> [] -> exists j, get_info infos (App a) p = Ok j /\ is_app infos a p j /\
  km_ok (i_km j) /\ (forall x, ae_app_fixed e a p = Some x -> i_km j = x).
Proof.
  intros a p H NE.
  assert (G : exists j, is_app infos a p j /\ km_ok (i_km j) /\ (forall x, ae_app_fixed e a p = Some x -> i_km j = x)).
  { destruct (ae_app_fixed e a p) as [x|] eqn:F.
    - destruct (alloc_respects_fixed _ _ _ _ _ _ _ EO ALLOC (RP a p H) F) as [(j & J & E) _]. exists j. split; [exact J|].
      rewrite E. split; [exact (fx_app _ _ _ _ FX a p x H F)|]. congruence.
    - pose proof (fk_free a p H F) as FP.
      destruct (allocate_shape _ _ _ _ _ _ EO FP ALLOC) as (fixed & z' & used & aps & news & SH).
      destruct (sh_app_exists _ _ _ _ _ _ _ _ _ SH a p (proj1 FP) NE) as [j J]. exists j. split; [exact J|]. split; [|discriminate].
      destruct (sh_free_app _ _ _ _ _ _ _ _ _ SH a p j FP J) as (idx & J1 & J2 & _).
      pose proof (sh_am32 _ _ _ _ _ _ _ _ _ SH) as A32. destruct (sh_index_bound _ _ _ _ _ _ _ _ _ SH a p idx J1) as [_ IB].
      rewrite J2. unfold km_ok. cbn [km_key km_mask]. destruct (block_key_ok (z_atoms_mac z') idx A32 IB). auto using mask_of_lt. }
  destruct G as (j & J & K & F). exists j. assert (J' := J). destruct J' as (J1 & J2 & J3).
  split; [apply get_info_In; auto using fk_unique|]. auto.
Qed.

(** The keys of a machine vertex are keys of its partition. *)
Lemma fk_sub : forall a p m i j k, R a p -> is_mac infos e a p m i -> is_app infos a p j -> k < 2 ^ 32 -> km_matches k (i_km i) -> km_matches k (i_km j).
Proof.
  intros a p m i j k H IM J K M. assert (O : In m (ae_outgoing e a p)) by apply IM.
  destruct IM as (I1 & I2 & I3 & _). destruct J as (J1 & J2 & J3). destruct (ae_app_fixed e a p) as [x|] eqn:F.
  - destruct (fk_mac a p m H O) as (i' & _ & (X1 & X2 & X3 & _) & _ & _ & X). assert (i' = i) by (apply fk_unique; congruence). subst i'.
    destruct (fk_app a p H (fk_some _ _ _ O)) as (j' & _ & (Y1 & Y2 & Y3) & _ & Y). assert (j' = j) by (apply fk_unique; congruence). subst j'.
    rewrite (Y x F). exact (fx_within _ _ _ _ FX a p x m _ k H F O (X x F) K M).
  - destruct (alloc_machine_block _ _ _ _ _ _ _ EO ALLOC (fk_free a p H F) (CT a p H F (fk_some _ _ _ O)) O)
      as (i' & j' & b & (X1 & X2 & X3 & _) & (Y1 & Y2 & Y3) & _ & _ & _ & _ & _ & S).
    assert (i' = i) by (apply fk_unique; congruence). assert (j' = j) by (apply fk_unique; congruence). subst. auto.
Qed.

Lemma fk_mode : forall a p x, R a p -> ae_app_fixed e a p = Some x -> (exists b q, free_part e parts b q) -> flexible = true \/ one_largest e parts.
Proof.
  intros a p x H F [b [q [B1 B2]]]. destruct (fx_mode _ _ _ _ FX a p x H F) as [M|[M|M]]; [auto|auto|]. destruct (M b q B1 B2).
Qed.

Lemma fk_apps : forall a p j a' p' j', R a p -> R a' p' -> ae_outgoing e a p <> [] -> ae_outgoing e a' p' <> [] ->
  is_app infos a p j -> is_app infos a' p' j' -> (a, p) <> (a', p') -> km_disjoint (i_km j) (i_km j').
Proof.
  assert (ONE : forall a p j a' p' j' x, R a p -> R a' p' -> ae_outgoing e a' p' <> [] ->
    is_app infos a p j -> is_app infos a' p' j' -> ae_app_fixed e a p = None -> ae_app_fixed e a' p' = Some x -> km_disjoint (i_km j) (i_km j')).
  { intros a p j a' p' j' x H H' NE J J' F F'.
    destruct (fk_app a' p' H' NE) as (j2 & _ & (Y1 & Y2 & Y3) & _ & Y). destruct J' as (J1 & J2 & J3).
    assert (j2 = j') by (apply fk_unique; congruence). subst j2. rewrite (Y x F').
    apply (alloc_avoids_fixed_app flexible e parts infos a p j x EO ALLOC); auto using fk_free.
    - apply (fk_mode a' p' x H' F'). exists a, p. auto using fk_free.
    - exists a', p'. split; [auto|]. left. exact F'.
    - exact (fx_app _ _ _ _ FX a' p' x H' F'). }
  intros a p j a' p' j' H H' NE NE' J J' D. destruct (ae_app_fixed e a p) as [x|] eqn:F, (ae_app_fixed e a' p') as [y|] eqn:F'.
  - destruct (fk_app a p H NE) as (j1 & _ & (X1 & X2 & X3) & _ & X). destruct (fk_app a' p' H' NE') as (j2 & _ & (Y1 & Y2 & Y3) & _ & Y).
    destruct J as (J1 & J2 & J3), J' as (K1 & K2 & K3).
    assert (j1 = j) by (apply fk_unique; congruence). assert (j2 = j') by (apply fk_unique; congruence). subst j1 j2.
    rewrite (X x F), (Y y F'). exact (fx_apart _ _ _ _ FX a p x a' p' y H H' F F' D).
  - intros k K [M1 M2]. apply (ONE a' p' j' a p j x H' H NE J' J F' F k K). auto.
  - exact (ONE a p j a' p' j' y H H' NE' J J' F F').
  - exact (alloc_apps_disjoint _ _ _ _ _ _ _ _ _ _ EO ALLOC (fk_free a p H F) J (fk_free a' p' H' F') J' D).
Qed.

Lemma fk_macs : forall a p m i m' i', R a p -> is_mac infos e a p m i -> is_mac infos e a p m' i' -> m <> m' -> km_disjoint (i_km i) (i_km i').
Proof.
  intros a p m i m' i' H I I' D. assert (O : In m (ae_outgoing e a p)) by apply I. assert (O' : In m' (ae_outgoing e a p)) by apply I'.
  destruct (ae_app_fixed e a p) as [x|] eqn:F.
  - destruct (fk_mac a p m H O) as (i1 & _ & (X1 & X2 & X3 & _) & _ & _ & X). destruct (fk_mac a p m' H O') as (i2 & _ & (Y1 & Y2 & Y3 & _) & _ & _ & Y).
    destruct I as (I1 & I2 & I3 & _), I' as (I1' & I2' & I3' & _).
    assert (i1 = i) by (apply fk_unique; congruence). assert (i2 = i') by (apply fk_unique; congruence). subst i1 i2.
    exact (fx_each _ _ _ _ FX a p m m' _ _ H O O' D (X x F) (Y x F)).
  - pose proof (fk_free a p H F) as FP. pose proof (CT a p H F (fk_some _ _ _ O)) as C.
    apply (alloc_machines_disjoint _ _ _ _ _ _ _ _ _ _ _ _ EO ALLOC FP C I FP C I'). congruence.
Qed.

(** * Well keyed tables *)
Variables (app_of : nat -> option nat) (items : list ((vertex * nat) * rent)).
Hypothesis ND : NoDup (map fst items).
(** [owner]: the application vertex of a machine vertex, whether or not the generator asks for it. *)
Variable owner : nat -> option nat.
Hypothesis TM : forall m p en, In ((Mac m, p), en) items -> exists a, owner m = Some a /\ R a p /\ In m (ae_outgoing e a p).
Hypothesis TA : forall a p en, In ((App a, p), en) items -> R a p /\ ae_outgoing e a p <> [].
Hypothesis TX : forall a p en m en', In ((App a, p), en) items -> In ((Mac m, p), en') items -> owner m <> Some a.
Hypothesis MG : (forall m, app_of m = None) \/ (forall m, app_of m = owner m) /\ mergeable flexible e R.

Lemma tk_owner : forall m a, app_of m = Some a -> owner m = Some a.
Proof. intros m a E. destruct MG as [NO|[S _]]; [rewrite NO in E; discriminate | rewrite <- S; exact E]. Qed.

Lemma tk_mac : forall m p en i, In ((Mac m, p), en) items -> get_info infos (Mac m) p = Ok i ->
  exists a, owner m = Some a /\ R a p /\ is_mac infos e a p m i.
Proof.
  intros m p en i I G. destruct (TM m p en I) as (a & A & H & O). exists a. split; [exact A|]. split; [exact H|].
  apply get_info_spec in G. destruct G as (G1 & G2 & G3). split; auto.
Qed.
(** Sources of different partitions. *)
Lemma tk_cross : forall m p en i a' p' j', In ((Mac m, p), en) items -> get_info infos (Mac m) p = Ok i -> R a' p' -> ae_outgoing e a' p' <> [] ->
  is_app infos a' p' j' -> (owner m <> Some a' \/ p <> p') -> km_disjoint (i_km i) (i_km j').
Proof.
  intros m p en i a' p' j' I G H' NE' J' D k K [M1 M2]. destruct (tk_mac m p en i I G) as (a & A & H & IM).
  assert (O : ae_outgoing e a p <> []) by (apply (fk_some a p m); apply IM). destruct (fk_app a p H O) as (j & _ & J & _).
  apply (fk_apps a p j a' p' j' H H' O NE' J J') with k; [intros [= -> ->]; destruct D; congruence | exact K|].
  split; [exact (fk_sub a p m i j k H IM J K M1) | exact M2].
Qed.

(** A block is aligned. *)
Lemma land_mask_mod : forall K n, n <= 32 -> N.land K (mask_of n) = K -> K mod 2 ^ n = 0.
Proof.
  intros K n L E. rewrite <- N.land_ones. apply N.bits_inj. intro i. rewrite N.land_spec, N.bits_0.
  destruct (N.ltb_spec i n) as [I|I]; [|rewrite N.ones_spec_high by exact I; apply andb_false_r].
  rewrite <- E, N.land_spec, mask_of_bit by exact L. destruct (N.leb_spec n i); [lia|]. rewrite andb_false_r. reflexivity.
Qed.

Lemma mask_of_inj : forall a b, a <= 32 -> b <= 32 -> mask_of a = mask_of b -> a = b.
Proof.
  intros a b A B E. unfold mask_of in E.
  assert (2 ^ a <= 2 ^ 32) by (apply N.pow_le_mono_r; lia). assert (2 ^ b <= 2 ^ 32) by (apply N.pow_le_mono_r; lia).
  change (2 ^ 32) with 4294967296 in *. pose proof (pow2_pos a). pose proof (pow2_pos b).
  assert (2 ^ a = 2 ^ b) by lia. apply (N.pow_inj_r 2); [lia | assumption].
Qed.

(** What is noted for a fixed partition. *)
Lemma fk_notes : forall a p j x, R a p -> ae_outgoing e a p <> [] -> ae_app_fixed e a p = Some x -> is_app infos a p j ->
  exists b mx, i_extra j = IApp (mask_of b) b mx /\ atom_bits e a p <= b /\ (flexible = true -> b = atom_bits e a p) /\ (b <= 32 \/ b = atom_bits e a p) /\
    ((forall m i, is_mac infos e a p m i -> exists n, nth_error (sort_lo e (ae_outgoing e a p)) n = Some m /\ i_extra i = IMac (N.of_nat n)) /\
       mx = N.of_nat (length (ae_outgoing e a p)) - 1 \/
     (forall m i, is_mac infos e a p m i -> i_extra i = IMac (ae_index e m)) /\ mx = ae_n_machine e a - 1).
Proof.
  intros a p j x H NE F J. destruct (alloc_cases _ _ _ _ EO ALLOC) as [(a0 & p0 & FP)|(_ & A & B)].
  - destruct (allocate_shape _ _ _ _ _ _ EO FP ALLOC) as (fixed & z' & used & aps & news & SH).
    destruct (sh_app _ _ _ _ _ _ _ _ _ SH a p j J) as (idx & nba & nbm & L1 & L2 & L3 & _).
    exists nba, (N.of_nat (length (ae_outgoing e a p)) - 1). split; [exact L3|].
    assert (Z32 : flexible = false -> z_atoms z' <= 32).
    { intros E. pose proof (sh_sum _ _ _ _ _ _ _ _ _ SH E). pose proof (sh_am32 _ _ _ _ _ _ _ _ _ SH). lia. }
    assert (X : atom_bits e a p <= nba /\ (flexible = true -> nba = atom_bits e a p) /\ (nba <= 32 \/ nba = atom_bits e a p)).
    { unfold field_sizes in L2. destruct flexible.
      - inversion L2; subst. split; [lia|]. auto.
      - destruct (N.leb_spec (atom_bits e a p) (z_atoms z')); inversion L2; subst; (split; [lia|]); (split; [discriminate|]); auto. }
    split; [apply X|]. split; [apply X|]. split; [apply X|]. left. split; [|reflexivity]. intros m i IM.
    destruct (sh_mac _ _ _ _ _ _ _ _ _ EO SH a p m i (RP a p H) IM) as (idx' & nba' & nbm' & n & _ & _ & M1 & M2 & _). eauto.
  - exists (atom_bits e a p), (ae_n_machine e a - 1). split; [exact (A a p j J (RP a p H) NE)|]. split; [lia|]. split; [auto|]. split; [auto|].
    right. split; [|reflexivity]. intros m i (I1 & I2 & _). exact (B i m I1 I2).
Qed.

Lemma fixed_well_keyed : well_keyed infos app_of items.
Proof.
  assert (SND : forall a p m i, sender infos app_of items a p m i -> R a p /\ is_mac infos e a p m i).
  { intros a p m i ((en & S1) & S2 & S3). destruct (tk_mac m p en i S1 S3) as (a' & A & H & IM). apply tk_owner in S2. assert (a' = a) by congruence. subst a'. auto. }
  constructor.
  - exact ND.
  - intros [a|m] p en I.
    + destruct (TA a p en I) as [H NE]. destruct (fk_app a p H NE) as (j & G & _ & K & _). exists j. split; [auto|]. split; [auto|]. discriminate.
    + destruct (TM m p en I) as (a & _ & H & O). destruct (fk_mac a p m H O) as (i & G & _ & K & X & _). exists i. split; [auto|]. split; [auto|].
      intros m' [= <-]. exact X.
  - intros v p en i v' p' en' i' I I' G G' D. destruct v as [a|m], v' as [a'|m'].
    + destruct (TA a p en I) as [H NE], (TA a' p' en' I') as [H' NE']. apply get_info_spec in G. apply get_info_spec in G'.
      apply (fk_apps a p i a' p' i' H H' NE NE' G G'). congruence.
    + destruct (TA a p en I) as [H NE]. apply get_info_spec in G. intros k K [M1 M2].
      apply (tk_cross m' p' en' i' a p i I' G' H NE G) with k; auto.
      destruct (Nat.eq_dec p' p) as [->|]; [left|right; auto]. exact (TX a p en m' en' I I').
    + destruct (TA a' p' en' I') as [H' NE']. apply get_info_spec in G'. apply (tk_cross m p en i a' p' i' I G H' NE' G').
      destruct (Nat.eq_dec p p') as [->|]; [left|right; auto]. exact (TX a' p' en' m en I' I).
    + destruct (tk_mac m p en i I G) as (a & A & H & IM). destruct (tk_mac m' p' en' i' I' G') as (a' & A' & H' & IM').
      assert (DEC : (a, p) = (a', p') \/ (a, p) <> (a', p')).
      { destruct (Nat.eq_dec a a') as [->|]; [|right; congruence]. destruct (Nat.eq_dec p p') as [->|]; [left; reflexivity | right; congruence]. }
      destruct DEC as [[= <- <-]|NE].
      * apply (fk_macs a p m i m' i' H IM IM'). congruence.
      * assert (O' : ae_outgoing e a' p' <> []) by (apply (fk_some a' p' m'); apply IM'). destruct (fk_app a' p' H' O') as (j' & _ & J' & _).
        intros k K [M1 M2]. apply (tk_cross m p en i a' p' j' I G H' O' J') with k; [|exact K|].
        -- destruct (Nat.eq_dec p p') as [->|]; [left; congruence | right; auto].
        -- split; [exact M1|]. exact (fk_sub a' p' m' i' j' k H' IM' J' K M2).
  - intros m p en a I A. destruct MG as [NO|[SAME MER]]; [rewrite NO in A; discriminate|].
    destruct (TM m p en I) as (a' & A' & H & O). assert (a' = a) by (apply tk_owner in A; congruence). subst a'.
    pose proof (fk_some a p m O) as NE. destruct (fk_app a p H NE) as (j & GJ & J & KJ & XJ).
    destruct (fk_mac a p m H O) as (i & G & IM & KI & _ & XI). destruct (ae_app_fixed e a p) as [x|] eqn:F.
    + destruct (fk_notes a p j x H NE F J) as (b & mx & EX & B1 & B2 & B3 & NOTE).
      exists j, (mask_of b), b, mx. split; [exact GJ|]. split; [exact EX|].
      assert (OWN : (forall m y, In m (ae_outgoing e a p) -> mac_key e a p m = Some y -> km_mask y <> mask_of b) -> plain infos app_of items a p (mask_of b)).
      { intros OM m' i' S. destruct (SND a p m' i' S) as [_ IM']. assert (O' : In m' (ae_outgoing e a p)) by apply IM'.
        destruct (fk_mac a p m' H O') as (i2 & _ & (Y1 & Y2 & Y3 & _) & _ & _ & Y). destruct IM' as (Z1 & Z2 & Z3 & _).
        assert (i2 = i') by (apply fk_unique; congruence). subst i2. exact (OM m' _ O' (Y x F)). }
      destruct (MER a p H) as [OM|(K & c & C & L1 & L2 & L3 & L4 & L5 & L6')]; [congruence| |].
      { left. apply OWN. intros m' y O' Y. rewrite mask_of_pow. apply (OM m' y b O' Y). destruct flexible.
        - rewrite (B2 eq_refl). apply just_atom_bits.
        - now apply enough_atom_bits. }
      apply enough_atom_bits in L3. rewrite <- mask_of_pow in L1.
      assert (L6 : forall n m, nth_error (sort_lo e (ae_outgoing e a p)) n = Some m ->
        ae_index e m = N.of_nat n /\ mac_key e a p m = Some (mkKM (K + N.of_nat n * 2 ^ c) (mask_of c))).
      { intros n m' N. rewrite mask_of_pow. apply L6'. now apply sort_lo_nth. }
      assert (B32 : b <= 32) by (destruct B3 as [B3|B3]; [exact B3 | rewrite B3; exact L3]).
      destruct (N.eq_dec c b) as [->|NB].
      2:{ left. apply OWN. intros m' y O' Y E. apply NB. apply mask_of_inj; [lia | exact B32|].
          apply (sort_lo_In e) in O'. apply In_nth_error in O'. destruct O' as [n N]. destruct (L6 n m' N) as [_ L7]. rewrite L7 in Y. injection Y as <-. exact E. }
      assert (XK : i_km j = mkKM K (mask_of (b + C))) by (apply XJ; congruence).
      assert (LEN : 0 < N.of_nat (length (ae_outgoing e a p))).
      { destruct (ae_outgoing e a p); [contradiction | cbn [length]; lia]. }
      right. exists K, C. split; [exact XK|]. split; [reflexivity|]. split; [exact L2|].
      rewrite XK in KJ. destruct KJ as (KJ1 & _ & KJ2). cbn [km_key km_mask] in KJ1, KJ2.
      split; [exact (land_mask_mod K (b + C) L2 KJ2)|]. split; [exact KJ1|]. split.
      { destruct NOTE as [[_ ->]|[_ ->]]; lia. }
      split.
      * intros m' i' S. destruct (SND a p m' i' S) as [_ IM']. assert (O' : In m' (ae_outgoing e a p)) by apply IM'.
        destruct (fk_mac a p m' H O') as (i2 & _ & (Y1 & Y2 & Y3 & _) & _ & _ & Y). assert (Z := IM'). destruct Z as (Z1 & Z2 & Z3 & _).
        assert (i2 = i') by (apply fk_unique; congruence). subst i2. specialize (Y x F).
        assert (POS : exists n, nth_error (sort_lo e (ae_outgoing e a p)) n = Some m' /\ i_extra i' = IMac (N.of_nat n)).
        { destruct NOTE as [[NT _]|[NT _]]; [exact (NT m' i' IM')|]. assert (O2 := O'). apply (sort_lo_In e) in O2. apply In_nth_error in O2.
          destruct O2 as [n N]. exists n. split; [exact N|]. rewrite (NT m' i' IM'). f_equal. apply (L6 n m' N). }
        destruct POS as (n & N & E). exists (N.of_nat n). split.
        { assert (LN : (n < length (ae_outgoing e a p))%nat) by (rewrite <- (sort_lo_length e); apply nth_error_Some; congruence).
          destruct NOTE as [[_ ->]|[_ ->]]; lia. }
        split; [exact E|]. destruct (L6 n m' N) as [_ L7]. congruence.
      * intros v p' en' i' I' G' NS. destruct v as [a'|m'].
        -- destruct (TA a' p' en' I') as [H' NE']. apply get_info_spec in G'. apply (fk_apps a' p' i' a p j H' H NE' NE G' J).
           intros [= -> ->]. apply (TX a p en' m en I' I). auto.
        -- apply (tk_cross m' p' en' i' a p j I' G' H NE J). destruct (Nat.eq_dec p' p) as [->|]; [|right; auto]. left. intros C'.
           apply (NS m' eq_refl); [rewrite SAME; exact C' | reflexivity].
    + pose proof (fk_free a p H F) as FP. pose proof (CT a p H F NE) as C.
      destruct (allocate_shape _ _ _ _ _ _ EO FP ALLOC) as (fixed & z' & used & aps & news & SH).
      destruct (sh_free_mac _ _ _ _ _ _ _ _ _ EO SH a p m i FP C IM) as (idx & x & nba & nb & I1 & I2 & I3 & I4 & I5 & IF & IX & EK & _).
      destruct (sh_free_app _ _ _ _ _ _ _ _ _ SH a p j FP J) as (idx' & J1 & J2 & _).
      assert (idx' = idx) by (eapply sh_index_fun; eauto). subst idx'.
      destruct (sh_app _ _ _ _ _ _ _ _ _ SH a p j J) as (idx' & nba' & nbm' & L1 & L2 & L3 & _).
      rewrite IF in L2. inversion L2; subst nba' nbm'. clear L2.
      destruct (sh_index_bound _ _ _ _ _ _ _ _ _ SH a p idx I1) as [_ IB].
      pose proof (sh_am32 _ _ _ _ _ _ _ _ _ SH) as A32.
      destruct (sh_fields _ _ _ _ _ _ _ _ _ SH a p nba (Some nb) FP C IF) as (nb' & EN & _ & _ & LEN).
      inversion EN; subst nb'. clear EN.
      assert (LO : (0 < length (ae_outgoing e a p))%nat) by (destruct (ae_outgoing e a p); [contradiction | cbn [length]; lia]).
      exists j, (mask_of nba), nba, (N.of_nat (length (ae_outgoing e a p)) - 1).
      split; [auto|]. split; [auto|]. right. exists (N.shiftl idx (z_atoms_mac z')), nb.
      split; [rewrite I3; auto|]. split; [auto|]. split; [lia|].
      destruct (block_key_ok (z_atoms_mac z') idx A32 IB) as [_ K32].
      split; [rewrite I3, N.shiftl_mul_pow2; apply N.mod_mul; pose proof (pow2_pos (z_atoms_mac z')); lia|].
      split; [auto|]. split; [lia|]. split.
      * intros m' i' S. destruct (SND a p m' i' S) as [_ IM'].
        destruct (sh_free_mac _ _ _ _ _ _ _ _ _ EO SH a p m' i' FP C IM') as (idx2 & x2 & nba2 & nb2 & Y1 & Y2 & Y3 & Y4 & Y5 & YF & YX & YK & _).
        rewrite IF in YF. inversion YF; subst nba2 nb2.
        assert (idx2 = idx) by (eapply sh_index_fun; eauto). subst idx2.
        exists (N.of_nat x2). split.
        { assert ((x2 < length (ae_outgoing e a p))%nat) by (rewrite <- (sort_lo_length e); apply nth_error_Some; congruence). lia. }
        split; [auto|]. rewrite YK. f_equal. rewrite lor_shiftl_add by auto. rewrite !N.shiftl_mul_pow2, <- I3, N.pow_add_r. nia.
      * intros v p' en' i' I' G' NS. destruct v as [a'|m'].
        -- destruct (TA a' p' en' I') as [H' NE']. apply get_info_spec in G'. apply (fk_apps a' p' i' a p j H' H NE' NE G' J).
           intros [= -> ->]. apply (TX a p en' m en I' I). auto.
        -- apply (tk_cross m' p' en' i' a p j I' G' H NE J). destruct (Nat.eq_dec p' p) as [->|]; [|right; auto]. left. intros C'.
           apply (NS m' eq_refl); [rewrite SAME; exact C' | reflexivity].
  - intros a p j b mx K B a' p' j' b' mx' K' B' m i m' i' Z Z' S S' NE.
    destruct (SND a p m i S) as [H IM]. destruct (SND a' p' m' i' S') as [H' IM'].
    destruct Z as (G & _), Z' as (G' & _). apply get_info_spec in G. apply get_info_spec in G'.
    apply (fk_apps a p j a' p' j' H H'); auto; [apply (fk_some a p m); apply IM | apply (fk_some a' p' m'); apply IM'].
Qed.
End Keyed.
