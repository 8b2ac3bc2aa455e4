(** Generated tables have the shape that the compressors need: each has an entry, and
    the masks are blocks where those fixed by the user are. So compression returns. *)
From Coq Require Import List Arith NArith ZArith Bool Lia Permutation.
From Verif Require Import Base Dict RouteSpec KeyMask AllocModel AllocProofs TablesModel TablesProofs GenModel GenProofs
  PairModel PairProofs PairSort RangeModel RangeProofs OrderedModel OrderedProofs
  TreeModel TreeProofs MachModel LdfModel LdfProofs PathModel PathProofs
  RPartModel RPartProofs BfsModel BfsProofs TargetsModel TargetsProofs ConvModel ConvProofs RouterModel RouterProofs RouterTables RouterPlan RouterFinal
  RouterSuccess ChainModel ChainProofs FixProofs FixChain.
Import ListNotations.
Local Open Scope nat_scope.

(** The mask of a block of [2 ^ s] keys. *)
Definition block (m : N) : Prop := exists s : nat, s <= 32 /\ Z.of_N m = (2 ^ 32 - 2 ^ Z.of_nat s)%Z.

Lemma mask_of_block : forall b, block (mask_of b).
Proof.
  intros b. unfold block, mask_of. destruct (N.le_gt_cases b 32) as [L|L].
  - exists (N.to_nat b). split; [lia|]. assert (P : (2 ^ b <= 2 ^ 32)%N) by (apply N.pow_le_mono_r; lia). pose proof (pow2_pos b) as Q.
    rewrite N2Z.inj_sub by (change (0xFFFFFFFF)%N with (2 ^ 32 - 1)%N; lia). rewrite N2Z.inj_sub by lia. rewrite N2Z.inj_pow. rewrite N_nat_Z. change (Z.of_N 0xFFFFFFFF) with (2 ^ 32 - 1)%Z. change (Z.of_N 2) with 2%Z. lia.
  - exists 32. split; [lia|]. assert (P : (2 ^ 32 <= 2 ^ b)%N) by (apply N.pow_le_mono_r; lia).
    replace (0xFFFFFFFF - (2 ^ b - 1))%N with 0%N; [reflexivity|]. change (0xFFFFFFFF)%N with (2 ^ 32 - 1)%N. lia.
Qed.

(** * Masks of the allocator *)
Lemma dset_vals : forall {K V} (eqb : K -> K -> bool) (P : V -> Prop) (d : list (K * V)) k v,
  (forall x, In x d -> P (snd x)) -> P v -> forall x, In x (dset eqb d k v) -> P (snd x).
Proof.
  intros K V eqb P. induction d as [|[k0 v0] d IH]; intros k v D V0 x I; cbn [dset] in I.
  - destruct I as [<-|[]]. exact V0.
  - destruct (eqb k0 k).
    + destruct I as [<-|I]; [exact V0 | apply D; right; exact I].
    + destruct I as [<-|I]; [apply (D (k0, v0)); left; reflexivity|]. apply (IH k v); [intros y Y; apply D; right; exact Y | exact V0 | exact I].
Qed.
Lemma dget_val : forall {K V} (eqb : K -> K -> bool) (P : V -> Prop) (d : list (K * V)) k v,
  (forall x, In x d -> P (snd x)) -> dget eqb d k = Some v -> P v.
Proof.
  intros K V eqb P. induction d as [|[k0 v0] d IH]; intros k v D E; cbn [dget] in E; [discriminate|].
  destruct (eqb k0 k); [injection E as <-; apply (D (k0, v0)); left; reflexivity|]. apply (IH k v); [intros y Y; apply D; right; exact Y | exact E].
Qed.

Lemma fixed_user : forall e parts d allf, find_fixed e parts = Ok (d, allf) -> forall x, In x d -> user_key e parts (snd x).
Proof.
  intros e parts d allf H.
  assert (INNER : forall pre ident app verts d isf isu vert d' isf' vert', In (pre, ident) parts -> (forall v, In v verts -> In v (ae_outgoing e pre ident)) ->
    find_fixed_inner e pre ident app verts d isf isu vert = Ok (d', isf', vert') -> (forall x, In x d -> user_key e parts (snd x)) -> forall x, In x d' -> user_key e parts (snd x)).
  { intros pre ident app verts. induction verts as [|v verts IH]; intros d0 isf isu vert d' isf' vert' PI SUB E D; cbn [find_fixed_inner] in E; [injection E as <- _ _; exact D|].
    destruct (ae_mac_fixed e pre v ident) as [k|] eqn:F.
    - destruct isu; [discriminate|]. destruct app as [a|]; [|discriminate]. destruct (negb _); [discriminate|].
      refine (IH _ _ _ _ _ _ _ PI (fun w W => SUB w (or_intror W)) E _). apply dset_vals; [exact D|]. exists pre, ident. split; [exact PI|]. right. exists v.
      split; [apply SUB; left; reflexivity | exact F].
    - destruct isf; [discriminate|]. exact (IH _ _ _ _ _ _ _ PI (fun w W => SUB w (or_intror W)) E D). }
  assert (LOOP : forall todo d0 al vert, (forall x, In x todo -> In x parts) -> (forall x, In x d0 -> user_key e parts (snd x)) ->
    find_fixed_loop e todo d0 al vert = Ok (d, allf) -> forall x, In x d -> user_key e parts (snd x)).
  { induction todo as [|[pre ident] todo IH]; intros d0 al vert SUB D E; cbn [find_fixed_loop] in E; [injection E as <- _; exact D|].
    apply bind_Ok_inv in E. destruct E as ([[d1 isf] vert1] & E1 & E). assert (PI : In (pre, ident) parts) by (apply SUB; left; reflexivity).
    pose proof (INNER _ _ _ _ _ _ _ _ _ _ _ PI (fun v V => V) E1 D) as D1.
    assert (SUB' : forall x, In x todo -> In x parts) by (intros x X; apply SUB; right; exact X).
    destruct (ae_app_fixed e pre ident) as [a|] eqn:F; [|exact (IH _ _ _ SUB' D1 E)]. assert (U : user_key e parts a) by (exists pre, ident; auto).
    apply bind_Ok_inv in E. destruct E as (d2 & E2 & E). refine (IH _ _ _ SUB' _ E). apply dset_vals; [|exact U].
    destruct isf; [injection E2 as <-; exact D1|]. destruct (Nat.ltb _ _); [discriminate|]. destruct vert1 as [v|]; [|discriminate]. injection E2 as <-.
    apply dset_vals; [exact D1 | exact U]. }
  unfold find_fixed in H. refine (LOOP parts [] true None _ _ H); [auto | intros x []].
Qed.

Definition info_masks (i : info) : Prop := block (km_mask (i_km i)) /\ forall mm b mx, i_extra i = IApp mm b mx -> mm = mask_of b.

Lemma alloc_masks : forall flexible e parts infos, (forall x, user_key e parts x -> block (km_mask x)) ->
  allocate flexible e parts = Ok infos -> Forall info_masks infos.
Proof.
  intros flexible e parts infos U H. unfold allocate in H.
  apply bind_Ok_inv in H. destruct H as ([fixed allf] & H0 & H). apply bind_Ok_inv in H. destruct H as ([z used] & _ & H).
  assert (FX : forall x, In x fixed -> block (km_mask (snd x))).
  { intros x X. apply U. pose proof (fixed_user _ _ _ _ H0 x X) as (a & p & I & R). exists a, p. split; [|exact R].
    apply (proj2 (ordered_set_spec parts)). exact I. }
  assert (ADD : forall l i l', add_info l i = Ok l' -> Forall info_masks l -> info_masks i -> Forall info_masks l').
  { intros l i l' A F K. apply add_info_Ok in A. destruct A as [-> _]. apply Forall_app. split; auto. }
  destruct allf.
  - unfold allocate_all_fixed in H. revert H FX. assert (F : Forall info_masks []) by constructor. revert F. generalize (@nil info). clear H0 U.
    induction fixed as [|[[k v] x] d IH]; intros l F H FX; cbn [foldM] in H; [inversion H; subst; exact F|].
    apply bind_Ok_inv in H. destruct H as (l1 & H1 & H). apply (IH l1); [|exact H | intros y Y; apply FX; right; exact Y].
    assert (X : block (km_mask x)) by (apply (FX (k, v, x)); left; reflexivity). destruct v as [a|m].
    + apply bind_Ok_inv in H1. destruct H1 as (nb & _ & H1). apply (ADD _ _ _ H1 F). split; [exact X|]. cbn. intros mm b mx E. injection E as <- <- _. reflexivity.
    + apply (ADD _ _ _ H1 F). split; [exact X|]. cbn. discriminate.
  - revert H. assert (F : Forall info_masks []) by constructor. revert F. generalize (@nil info), 0%N.
    clear H0. generalize (ordered_set parts). induction l as [|[a p] l IH]; intros acc idx F H; cbn [allocate_loop] in H; [inversion H; subst; exact F|].
    apply bind_Ok_inv in H. destruct H as (idx1 & _ & H). destruct (ae_outgoing e a p) as [|m0 ms]; [apply (IH acc idx1 F H)|].
    apply bind_Ok_inv in H. destruct H as (bits & _ & H). destruct (field_sizes flexible z bits) as [nba nbm].
    apply bind_Ok_inv in H. destruct H as (acc1 & H1 & H). apply bind_Ok_inv in H. destruct H as (k & HK & H).
    apply bind_Ok_inv in H. destruct H as (acc2 & H2 & H). apply (IH acc2 (idx1 + 1)%N); [|exact H].
    apply (ADD _ _ _ H2).
    + clear - H1 F ADD FX. revert H1 F. generalize 0%N, acc.
      induction (sort_lo e (m0 :: ms)) as [|m mvs IH]; intros mi l H F; cbn [alloc_machines] in H; [inversion H; subst; exact F|].
      apply bind_Ok_inv in H. destruct H as (k & HK & H). apply bind_Ok_inv in H. destruct H as (l1 & H1 & H).
      apply (IH (mi + 1)%N l1 H). apply (ADD _ _ _ H1 F). split; [|cbn; discriminate]. cbn [i_km].
      destruct (dget fk_eqb fixed (p, AllocModel.Mac m)) as [y|] eqn:G; [injection HK as <-; exact (dget_val fk_eqb (fun y => block (km_mask y)) _ _ _ FX G)|].
      destruct nbm as [nb|]; [|discriminate]. apply make_km_Ok in HK. destruct HK as [_ ->]. apply mask_of_block.
    + split; [|cbn; intros mm b mx E; injection E as <- <- _; reflexivity]. cbn [i_km].
      destruct (dget fk_eqb fixed (p, AllocModel.App a)) as [y|] eqn:G; [injection HK as <-; exact (dget_val fk_eqb (fun y => block (km_mask y)) _ _ _ FX G)|].
      apply make_km_Ok in HK. destruct HK as [_ ->]. apply mask_of_block.
Qed.

(** * Entries of the generators *)
Definition block_out (o : out) : Prop := block (o_mask o).
Definition block_table (t : table) : Prop := Forall (fun e => block (e_mask e)) (t_entries t).

Lemma break_down_blocks : forall fuel b rest outs, break_down fuel (mask_of b) b rest = Ok outs -> Forall block_out outs /\ (rest <> [] -> outs <> []).
Proof.
  induction fuel as [|fuel IH]; intros b [|e rest] outs H; cbn [break_down] in H; try discriminate; try (injection H as <-; split; [constructor | congruence]).
  apply bind_Ok_inv in H. destruct H as (o2 & H1 & H2). injection H2 as <-. split; [|discriminate]. constructor; [|exact (proj1 (IH _ _ _ H1))].
  unfold block_out. cbn [o_mask]. rewrite group_mask_spec. apply mask_of_block.
Qed.
Lemma n_sequential_pow : forall i n, exists l, n_sequential i n = (2 ^ l)%N.
Proof.
  intros i n. unfold n_sequential. destruct (N.ltb 0 i) eqn:E; [|eauto]. apply N.ltb_lt in E. destruct (low_bit_spec i E) as [l [L _]]. eauto.
Qed.
Lemma merge_loop_blocks : forall fuel b is_last n rest outs, merge_loop fuel (mask_of b) b is_last n rest = Ok outs -> Forall block_out outs /\ (rest <> [] -> outs <> []).
Proof.
  induction fuel as [|fuel IH]; intros b is_last n [|e rest] outs H; cbn [merge_loop] in H; try discriminate; try (injection H as <-; split; [constructor | congruence]).
  destruct (N.leb _ _ || is_last)%bool; [|exact (break_down_blocks _ _ _ _ H)].
  apply bind_Ok_inv in H. destruct H as (o2 & H1 & H2). injection H2 as <-. split; [|discriminate]. constructor; [|exact (proj1 (IH _ _ _ _ _ H1))].
  unfold block_out. cbn [o_mask]. destruct (n_sequential_pow (me_index e) n) as [l ->]. rewrite group_mask_spec. apply mask_of_block.
Qed.
Lemma merged_keys_blocks : forall b mx mask es outs, block mask -> es <> [] -> merged_keys_and_masks (mask_of b) b mx mask es = Ok outs -> Forall block_out outs /\ outs <> [].
Proof.
  intros b mx mask es outs B NE H. destruct es as [|x [|y es]]; [contradiction | |]; cbn [merged_keys_and_masks] in H.
  - injection H as <-. split; [constructor; [exact B | constructor] | discriminate].
  - unfold merge_machine_entries in H. destruct (rev (x :: y :: es)); [discriminate|]. apply merge_loop_blocks in H. destruct H as [H1 H2]. split; [exact H1 | apply H2; discriminate].
Qed.

Lemma add_out_blocks : forall entry_eq t o t', add_out entry_eq t o = Ok t' -> (block_out o -> block_table t -> block_table t') /\ t_entries t' <> [].
Proof.
  intros entry_eq t o t' H. unfold add_out in H. destruct (N.eqb _ _); [|discriminate]. unfold unc_add in H.
  match type of H with match ?f with Some _ => _ | None => _ end = _ => destruct f as [old|] eqn:E end.
  - destruct (entry_eq old _); [|discriminate]. injection H as <-. split; [auto|]. destruct (t_entries t); [discriminate | congruence].
  - injection H as <-. unfold block_table. cbn [t_entries]. split; [|destruct (t_entries t); discriminate]. intros B BT. apply Forall_app. split; [exact BT|]. constructor; [exact B | constructor].
Qed.
Lemma add_outs_blocks : forall entry_eq outs t t', foldM (add_out entry_eq) t outs = Ok t' -> Forall block_out outs -> block_table t ->
  block_table t' /\ (outs <> [] \/ t_entries t <> [] -> t_entries t' <> []).
Proof.
  intros entry_eq. induction outs as [|o outs IH]; intros t t' H F B; cbn [foldM] in H; [injection H as <-; split; [exact B | intros [X|X]; [congruence | exact X]]|].
  apply bind_Ok_inv in H. destruct H as (t1 & H1 & H2). inversion F as [|? ? F1 F2]; subst. apply add_out_blocks in H1. destruct H1 as [H1 NE].
  destruct (IH t1 t' H2 F2 (H1 F1 B)) as [R1 R2]. split; [exact R1|]. intros _. apply R2. right. exact NE.
Qed.

Lemma get_info_masks : forall infos v p i, Forall info_masks infos -> get_info infos v p = Ok i -> info_masks i.
Proof.
  intros infos v p i F H. unfold get_info in H. destruct (find (same_info v p) infos) as [j|] eqn:E; [|discriminate]. injection H as ->.
  apply find_some in E. rewrite Forall_forall in F. apply F. tauto.
Qed.

Lemma basic_blocks : forall entry_eq infos items seen t t', Forall info_masks infos -> basic_loop entry_eq infos items seen t = Ok t' -> block_table t ->
  block_table t' /\ (items <> [] \/ t_entries t <> [] -> t_entries t' <> []).
Proof.
  intros entry_eq infos items. induction items as [|[[v p] en] items IH]; intros seen t t' F H B; cbn [basic_loop] in H.
  - injection H as <-. split; [exact B | intros [X|X]; [congruence | exact X]].
  - apply bind_Ok_inv in H. destruct H as (i & H1 & H). apply bind_Ok_inv in H. destruct H as (seen' & _ & H). apply bind_Ok_inv in H. destruct H as (t1 & H2 & H).
    apply (get_info_masks _ _ _ _ F) in H1. apply add_out_blocks in H2. destruct H2 as [H2 NE].
    destruct (IH _ _ _ F H (H2 (proj1 H1) B)) as [R1 R2]. split; [exact R1|]. intros _. apply R2. right. exact NE.
Qed.
Lemma merged_blocks : forall entry_eq infos app_of fuel items seen t t', Forall info_masks infos -> merged_loop entry_eq infos app_of fuel items seen t = Ok t' -> block_table t ->
  block_table t' /\ (items <> [] \/ t_entries t <> [] -> t_entries t' <> []).
Proof.
  intros entry_eq infos app_of. induction fuel as [|fuel IH]; intros items seen t t' F H B; destruct items as [|[[v p] en] items]; cbn [merged_loop] in H;
    try discriminate; try (injection H as <-; split; [exact B | intros [X|X]; [congruence | exact X]]).
  apply bind_Ok_inv in H. destruct H as (i & H1 & H). apply bind_Ok_inv in H. destruct H as (seen' & _ & H). apply (get_info_masks _ _ _ _ F) in H1. destruct H1 as [H1 _].
  assert (ONE : forall rest t1, add_out entry_eq t (mkOut (km_key (i_km i)) (km_mask (i_km i)) en) = Ok t1 -> merged_loop entry_eq infos app_of fuel rest seen' t1 = Ok t' ->
    block_table t' /\ ((v, p, en) :: items <> [] \/ t_entries t <> [] -> t_entries t' <> [])).
  { intros rest t1 A R. apply add_out_blocks in A. destruct A as [A NE]. destruct (IH _ _ _ _ F R (A H1 B)) as [R1 R2]. split; [exact R1|]. intros _. apply R2. right. exact NE. }
  destruct v as [a|m].
  - apply bind_Ok_inv in H. destruct H as (t1 & H2 & H). exact (ONE _ _ H2 H).
  - destruct (i_extra i) as [index|? ? ?]; [|discriminate]. destruct (app_of m) as [a|].
    + apply bind_Ok_inv in H. destruct H as (ai & H2 & H). apply (get_info_masks _ _ _ _ F) in H2. destruct H2 as [_ H2]. destruct (i_extra ai) as [|mm b mx]; [discriminate|].
      specialize (H2 mm b mx eq_refl). subst mm. apply bind_Ok_inv in H. destruct H as ([g lft] & _ & H). apply bind_Ok_inv in H. destruct H as (outs & H3 & H).
      apply bind_Ok_inv in H. destruct H as (t1 & H4 & H). apply merged_keys_blocks in H3; [|exact H1 | discriminate]. destruct H3 as [H3 NE].
      destruct (add_outs_blocks _ _ _ _ H4 H3 B) as [B1 NE1]. destruct (IH _ _ _ _ F H B1) as [R1 R2]. split; [exact R1|]. intros _. apply R2. right. apply NE1. left. exact NE.
    + apply bind_Ok_inv in H. destruct H as (t1 & H2 & H). exact (ONE _ _ H2 H).
Qed.

Lemma generate_each : forall (P : table -> Prop) make routers ts, generate make routers = Ok ts ->
  (forall r t, In r routers -> make (fst (fst r)) (snd (fst r)) (snd r) = Ok t -> P t) -> Forall P ts.
Proof.
  intros P make routers ts. unfold generate. assert (F : Forall P []) by constructor. revert F. generalize (@nil table).
  induction routers as [|r routers IH]; intros acc F H M; cbn [foldM] in H; [injection H as <-; exact F|].
  apply bind_Ok_inv in H. destruct H as (acc' & H1 & H). apply bind_Ok_inv in H1. destruct H1 as (t & H1 & H2).
  apply (IH acc'); [|exact H | intros r' t' R; apply M; right; exact R].
  unfold add_table in H2. destruct (existsb _ acc); [discriminate|]. injection H2 as <-. apply Forall_app. split; [exact F|]. constructor; [|constructor].
  apply (M r t); [left; reflexivity | exact H1].
Qed.

(** Every chip of the table by partition has an entry. *)
Lemma router_nonempty : forall i vs ps t, route_application_graph i vs ps = Ok t -> forall q d, In (q, d) t -> d <> [].
Proof.
  intros i vs ps t. apply (router_keeps (fun t => forall q d, In (q, d) t -> d <> [])); [|intros q d []].
  intros t0 e p src part t' D H q d I. unfold add_path_entry in H.
  match type of H with (if ?c then _ else _) = _ => destruct c end; [discriminate|]. injection H as <-.
  apply (dset_In _ xy_eqb_eq) in I. destruct I as [[-> ->]|I]; [|exact (D q d I)].
  match goal with |- dset _ ?l _ _ <> [] => destruct l as [|[? ?] ?] end; cbn [dset]; [discriminate|].
  match goal with |- (if ?c then _ else _) <> [] => destruct c end; discriminate.
Qed.

Lemma made_blocks : forall merged entry_eq flexible i vs ps extra e infos ts, make_tables merged entry_eq flexible i vs ps extra e = Ok (infos, ts) ->
  (forall x, user_key e (keyed_parts i vs ps extra) x -> block (km_mask x)) ->
  Forall (fun t => block_table t /\ t_entries t <> []) ts.
Proof.
  intros merged entry_eq flexible i vs ps extra e infos ts H U. destruct (chain_split _ _ _ _ _ _ _ _ _ _ H) as [t [R [A G]]].
  pose proof (alloc_masks _ _ _ _ U A) as F. refine (generate_each _ _ _ _ G _). intros r tb I M.
  assert (NE : snd r <> []).
  { unfold routers_of in I. apply in_map_iff in I. destruct I as [[q d] [<- I]]. cbn [fst snd]. apply (router_nonempty _ _ _ _ R) in I. destruct d; [contradiction | discriminate]. }
  assert (B0 : block_table (empty_table (fst (fst r)) (snd (fst r)))) by constructor.
  destruct merged.
  - unfold merged_table in M. destruct (merged_blocks _ _ _ _ _ _ _ _ F M B0) as [R1 R2]. auto.
  - unfold basic_table in M. destruct (basic_blocks _ _ _ _ _ _ F M B0) as [R1 R2]. auto.
Qed.
(** Without a condition on the masks. *)
Lemma made_nonempty : forall entry_eq infos app_of items x y t, items <> [] ->
  basic_table entry_eq infos x y items = Ok t \/ merged_table entry_eq infos app_of x y items = Ok t -> t_entries t <> [].
Proof.
  assert (KEEP : forall entry_eq outs t t', foldM (add_out entry_eq) t outs = Ok t' -> (outs <> [] \/ t_entries t <> [] -> t_entries t' <> [])).
  { intros entry_eq. induction outs as [|o outs IH]; intros t t' H; cbn [foldM] in H; [injection H as <-; intros [X|X]; [congruence | exact X]|].
    apply bind_Ok_inv in H. destruct H as (t1 & H1 & H2). apply add_out_blocks in H1. intros _. apply (IH _ _ H2). right. tauto. }
  intros entry_eq infos app_of items x y t NE [H|H].
  - unfold basic_table in H. enough (X : forall items seen t t', basic_loop entry_eq infos items seen t = Ok t' -> (items <> [] \/ t_entries t <> [] -> t_entries t' <> [])) by (apply (X _ _ _ _ H); auto).
    clear - KEEP. induction items as [|[[v p] en] items IH]; intros seen t t' H; cbn [basic_loop] in H; [injection H as <-; intros [X|X]; [congruence | exact X]|].
    apply bind_Ok_inv in H. destruct H as (i & _ & H). apply bind_Ok_inv in H. destruct H as (seen' & _ & H). apply bind_Ok_inv in H. destruct H as (t1 & H2 & H).
    apply add_out_blocks in H2. intros _. apply (IH _ _ _ H). right. tauto.
  - unfold merged_table in H. enough (X : forall fuel items seen t t', merged_loop entry_eq infos app_of fuel items seen t = Ok t' -> (items <> [] \/ t_entries t <> [] -> t_entries t' <> [])) by (apply (X _ _ _ _ _ H); auto).
    clear - KEEP. induction fuel as [|fuel IH]; intros items seen t t' H; destruct items as [|[[v p] en] items]; cbn [merged_loop] in H; try discriminate;
      try (injection H as <-; intros [X|X]; [congruence | exact X]).
    apply bind_Ok_inv in H. destruct H as (i & _ & H). apply bind_Ok_inv in H. destruct H as (seen' & _ & H).
    assert (ONE : forall t1, add_out entry_eq t (mkOut (km_key (i_km i)) (km_mask (i_km i)) en) = Ok t1 -> merged_loop entry_eq infos app_of fuel items seen' t1 = Ok t' -> t_entries t' <> []).
    { intros t1 A R. apply add_out_blocks in A. apply (IH _ _ _ _ R). right. tauto. }
    destruct v as [a|m].
    + apply bind_Ok_inv in H. destruct H as (t1 & H2 & H). intros _. exact (ONE _ H2 H).
    + destruct (i_extra i) as [index|? ? ?]; [|discriminate]. destruct (app_of m) as [a|].
      * apply bind_Ok_inv in H. destruct H as (ai & _ & H). destruct (i_extra ai) as [|mm b mx]; [discriminate|].
        apply bind_Ok_inv in H. destruct H as ([g lft] & _ & H). apply bind_Ok_inv in H. destruct H as (outs & H3 & H).
        apply bind_Ok_inv in H. destruct H as (t1 & H4 & H). intros _. apply (IH _ _ _ _ H). right. apply (KEEP _ _ _ _ H4). left.
        intros ->. destruct g as [|y g]; cbn [merged_keys_and_masks] in H3; [discriminate|]. unfold merge_machine_entries in H3. destruct (rev _) as [|last ?]; [discriminate|].
        cbn [length merge_loop] in H3. destruct (N.leb _ _ || _)%bool.
        -- apply bind_Ok_inv in H3. destruct H3 as (o2 & _ & X). discriminate X.
        -- cbn [length break_down] in H3. apply bind_Ok_inv in H3. destruct H3 as (o2 & _ & X). discriminate X.
      * apply bind_Ok_inv in H. destruct H as (t1 & H2 & H). intros _. exact (ONE _ H2 H).
Qed.
Lemma made_entries : forall merged entry_eq flexible i vs ps extra e infos ts, make_tables merged entry_eq flexible i vs ps extra e = Ok (infos, ts) ->
  Forall (fun t => t_entries t <> []) ts.
Proof.
  intros merged entry_eq flexible i vs ps extra e infos ts H. destruct (chain_split _ _ _ _ _ _ _ _ _ _ H) as [t [R [A G]]].
  refine (generate_each _ _ _ _ G _). intros r tb I M.
  assert (NE : snd r <> []).
  { unfold routers_of in I. apply in_map_iff in I. destruct I as [[q d] [<- I]]. cbn [fst snd]. apply (router_nonempty _ _ _ _ R) in I. destruct d; [contradiction | discriminate]. }
  apply (made_nonempty entry_eq infos (ve_app (ri_venv i)) (snd r) (fst (fst r)) (snd (fst r)) tb NE). destruct merged; [right | left]; exact M.
Qed.

(** * The compressors return *)
(** At the same chip, with no more entries. *)
Definition no_longer (tb tb' : table) : Prop := where_is tb tb' /\ length (t_entries tb') <= length (t_entries tb).

Section Driver.
Variable compress : table -> res (list entry).
Variable target : Z -> Z -> nat.
Variables as_needed ordered accept_overflow : bool.

Lemma driver_loop : forall todo done problems,
  (forall t, In t todo -> (as_needed = true /\ fits target t) \/ compress t = Err MinimisationFailed \/ exists es, compress t = Ok es) ->
  NoDup (map (fun t => (t_x t, t_y t)) (done ++ todo)) ->
  (exists r, TablesModel.compress_loop compress target as_needed todo done problems = Ok r) \/
  TablesModel.compress_loop compress target as_needed todo done problems = Err MinimisationFailed /\ exists t, In t todo /\ ~ (as_needed = true /\ fits target t) /\ compress t = Err MinimisationFailed.
Proof.
  induction todo as [|t todo IH]; intros done problems C ND; cbn [TablesModel.compress_loop]; [left; eauto|].
  assert (NEW : forall t', t_x t' = t_x t -> t_y t' = t_y t -> add_table done t' = Ok (done ++ [t']) /\ NoDup (map (fun t => (t_x t, t_y t)) ((done ++ [t']) ++ todo))).
  { intros t' X Y. rewrite map_app in ND. cbn [map] in ND. split.
    - apply add_table_new. rewrite X, Y. intros I. apply NoDup_remove_2 in ND. apply ND, in_or_app. left. exact I.
    - rewrite <- app_assoc, map_app. cbn [map app]. rewrite X, Y. exact ND. }
  assert (C' : forall u, In u todo -> (as_needed = true /\ fits target u) \/ compress u = Err MinimisationFailed \/ exists es, compress u = Ok es) by (intros u U; apply C; right; exact U).
  assert (GO : forall t' pr, t_x t' = t_x t -> t_y t' = t_y t ->
    let r := (let* done' := add_table done t' in TablesModel.compress_loop compress target as_needed todo done' pr) in
    (exists x, r = Ok x) \/ r = Err MinimisationFailed /\ exists u, In u (t :: todo) /\ ~ (as_needed = true /\ fits target u) /\ compress u = Err MinimisationFailed).
  { intros t' pr X Y. destruct (NEW t' X Y) as [-> N]. cbn [bind]. destruct (IH _ pr C' N) as [R|[R [u [U V]]]]; [left; exact R | right]. split; [exact R|].
    exists u. split; [right; exact U | exact V]. }
  destruct (as_needed && _)%bool eqn:A; [exact (GO t problems eq_refl eq_refl)|].
  assert (NF : ~ (as_needed = true /\ fits target t)).
  { intros [E F]. rewrite E in A. cbn [andb] in A. apply Nat.leb_gt in A. unfold fits in F. lia. }
  destruct (C t (or_introl eq_refl)) as [F|[E|[es E]]]; [contradiction | |].
  - rewrite E. right. split; [reflexivity|]. exists t. split; [left; reflexivity|]. auto.
  - rewrite E. cbn [bind]. destruct (fold_com_add es (empty_table (t_x t) (t_y t))) as (_ & X & Y). apply GO; assumption.
Qed.

Lemma driver_total : forall ts, NoDup (map (fun t => (t_x t, t_y t)) ts) ->
  (forall t, In t ts -> (as_needed = true /\ fits target t) \/ compress t = Err MinimisationFailed \/ exists es, compress t = Ok es) ->
  (forall t es, In t ts -> compress t = Ok es -> length es <= length (t_entries t)) ->
  (exists out, compress_tables compress target as_needed ordered accept_overflow ts [] = Ok out /\ Forall2 no_longer ts out) \/
  compress_tables compress target as_needed ordered accept_overflow ts [] = Err MinimisationFailed /\
    ((exists t, In t ts /\ ~ (as_needed = true /\ fits target t) /\ compress t = Err MinimisationFailed) \/ (ordered = true /\ accept_overflow = false /\ ~ Forall (fits target) ts)).
Proof.
  intros ts ND C S.
  assert (SH : forall out, Forall2 (one_result compress target as_needed) ts out -> Forall2 no_longer ts out).
  { intros out F. clear ND C. induction F as [|t t' l l' (X & Y & R) F IH]; constructor.
    - split; [split; assumption|]. destruct R as [(_ & _ & ->)|R]; [lia|]. apply (S t); [left; reflexivity | exact R].
    - apply IH. intros u es U. apply S. right. exact U. }
  destruct (driver_loop ts [] [] C ND) as [[[done pr] L]|[L E]].
  - destruct (TablesProofs.loop_spec _ _ _ _ _ _ _ _ L) as (new & E & F & ex & Ep & Ef). cbn [app] in E, Ep. subst done ex.
    unfold compress_tables. rewrite L. cbn [bind]. apply SH in F. destruct pr as [|q pr]; [left; eauto|].
    destruct (ordered && negb accept_overflow)%bool eqn:O; [|left; eauto]. right. split; [reflexivity|]. right.
    apply andb_true_iff in O. destruct O as [-> O]. apply negb_true_iff in O. split; [reflexivity|]. split; [exact O|].
    intros FT. enough (X : q :: pr = []) by discriminate X. apply Ef. clear - F FT.
    induction F as [|t t' l l' [[X Y] LE] F IH]; [constructor|]. inversion_clear FT as [|? ? F1 F2]. constructor; [|exact (IH F2)].
    unfold fits in *. rewrite X, Y. lia.
  - right. unfold compress_tables. rewrite L. split; [reflexivity | left; exact E].
Qed.
End Driver.

Section Shrink.
Variables (merged flexible : bool) (entry_eq : entry -> entry -> bool) (i : rinput) (vs : list nat) (ps : list apart)
  (extra : list (nat * nat)) (e : graph_env) (infos : list info) (ts : list table).
Hypothesis GO : graph_ok i vs ps.
Hypothesis UO : user_keys_ok flexible i vs ps extra e.
Hypothesis MG : merged = true -> mergeable flexible e (is_routed i vs ps).
Hypothesis MT : make_tables merged entry_eq flexible i vs ps extra e = Ok (infos, ts).

Lemma made_shape : NoDup (map (fun t => (t_x t, t_y t)) ts) /\ forall t, In t ts -> Forall entry32 (t_entries t) /\ orthogonal (t_entries t) /\ t_entries t <> [].
Proof.
  destruct (chain_split _ _ _ _ _ _ _ _ _ _ MT) as [t [R [A G]]]. destruct (user_good _ _ _ _ _ _ _ _ _ GO UO MG R A) as [KT KW].
  destruct (made_holds merged i vs ps t infos entry_eq R KT ts G) as [ND [FI _]]. split; [exact ND|]. intros u U.
  pose proof (made_entries _ _ _ _ _ _ _ _ _ _ MT) as NE. rewrite Forall_forall in FI, NE. destruct (FI u U). auto.
Qed.

Lemma shrink_range : forall as_far target accept_overflow, (forall x, user_key e (keyed_parts i vs ps extra) x -> block (km_mask x)) ->
  accept_overflow = true \/ Forall (fits target) ts ->
  exists out, range_compressor as_far target accept_overflow ts = Ok out /\ Forall2 no_longer ts out.
Proof.
  intros as_far target accept_overflow U OV. destruct made_shape as [ND SH]. pose proof (made_blocks _ _ _ _ _ _ _ _ _ _ MT U) as BL. rewrite Forall_forall in BL.
  assert (ONE : forall tb, In tb ts -> exists es, range_compress (length (t_entries tb)) as_far (target (t_x tb) (t_y tb)) (t_entries tb) = Ok es /\ length es <= length (t_entries tb)).
  { intros tb I. destruct (SH tb I) as [E [_ NE]]. destruct (BL tb I) as [B _]. apply range_terminates; [exact E | exact B | lia | exact NE]. }
  destruct (ranged_made as_far target accept_overflow ts ND) as [out C].
  { intros tb I. destruct (ONE tb I) as [es [C L]]. exists es. split; [exact C|]. intros N. destruct OV as [O|O]; [congruence|]. rewrite Forall_forall in O. specialize (O tb I). unfold fits in O. lia. }
  exists out. split; [exact C|]. clear ND SH BL OV U. unfold range_compressor in C.
  enough (X : exists l, out = [] ++ l /\ Forall2 no_longer ts l) by (destruct X as [l [-> X]]; exact X).
  clear MT. revert ONE C. generalize (@nil table). revert out. induction ts as [|tb l IH]; intros out done ONE C; cbn [foldM] in C.
  - injection C as <-. exists []. rewrite app_nil_r. split; [reflexivity | constructor].
  - apply bind_Ok_inv in C. destruct C as [done' [C1 C]]. apply bind_Ok_inv in C1. destruct C1 as [new [R C1]]. destruct (_ && _)%bool; [discriminate|].
    unfold add_table in C1. destruct (existsb _ done); [discriminate|]. injection C1 as <-.
    destruct (IH _ _ (fun u U => ONE u (or_intror U)) C) as [l' [-> F]]. eexists. rewrite <- app_assoc. split; [reflexivity|]. constructor; [|exact F].
    split; [split; reflexivity|]. cbn [t_entries]. destruct (ONE tb (or_introl eq_refl)) as [es [E L]]. assert (es = new) by congruence. subst. exact L.
Qed.

Lemma shrink_pair : forall c_sort n_routes target as_needed (ordered accept_overflow : bool), 0 < n_routes ->
  (forall t, In t ts -> length (nodup N.eq_dec (map e_route (t_entries t))) <= n_routes) ->
  accept_overflow = true \/ ordered = false \/ Forall (fits target) ts ->
  exists out, compress_tables (fun t => compress_table ordered c_sort n_routes (t_entries t)) target as_needed ordered accept_overflow ts [] = Ok out /\ Forall2 no_longer ts out.
Proof.
  intros c_sort n_routes target as_needed ordered accept_overflow P N OV. destruct made_shape as [ND SH].
  assert (ONE : forall tb, In tb ts -> exists es, compress_table ordered c_sort n_routes (t_entries tb) = Ok es /\ length es <= length (t_entries tb)).
  { intros tb I. destruct (SH tb I) as [E [O NE]]. destruct (pair_total_and_shrinks ordered c_sort n_routes (t_entries tb)) as [es [C [L _]]]; [ | | exact P | exact (N tb I) | eauto].
    - eapply Forall_impl; [|exact E]. intros x [X _]. exact X.
    - intros a b k A B MA MB. f_equal. exact (orthogonal_unique _ _ _ _ O A B MA MB). }
  destruct (driver_total (fun t => compress_table ordered c_sort n_routes (t_entries t)) target as_needed ordered accept_overflow ts ND) as [R|[_ [[t [I [_ X]]]|(A & B & C)]]].
  - intros t I. right. right. destruct (ONE t I) as [es [C _]]. eauto.
  - intros t es I C. destruct (ONE t I) as [es' [C' L]]. assert (es' = es) by congruence. subst. exact L.
  - exact R.
  - destruct (ONE t I) as [es' [C' _]]. congruence.
  - destruct OV as [O|[O|O]]; [congruence | congruence | contradiction].
Qed.

Lemma shrink_covering : forall target (as_needed accept_overflow : bool),
  let r := compress_tables (fun t => oc_compress_table (t_entries t) (if as_needed then Some (target (t_x t) (t_y t)) else None)) target as_needed true accept_overflow ts [] in
  ((exists out, r = Ok out /\ Forall2 no_longer ts out) \/ r = Err MinimisationFailed) /\
  (Forall (fits target) ts \/ as_needed = false /\ accept_overflow = true -> exists out, r = Ok out /\ Forall2 no_longer ts out).
Proof.
  intros target as_needed accept_overflow r. destruct made_shape as [ND SH]. set (cmp := fun t => oc_compress_table (t_entries t) (if as_needed then Some (target (t_x t) (t_y t)) else None)).
  assert (ONE : forall tb, In tb ts -> (exists es, cmp tb = Ok es /\ length es <= length (t_entries tb)) \/ as_needed = true /\ cmp tb = Err MinimisationFailed).
  { intros tb I. destruct (SH tb I) as [E [O NE]]. unfold cmp. assert (EO : Forall entry_ok (t_entries tb)) by (eapply Forall_impl; [|exact E]; intros x [X _]; exact X).
    destruct (oc_compress_total (t_entries tb) (if as_needed then Some (target (t_x tb) (t_y tb)) else None) EO O (or_introl NE)) as [[es [C [L _]]]|C]; [left; eauto|].
    destruct as_needed; [auto|]. exfalso. destruct (ordered_covering_spec (t_entries tb) None true EO O (or_introl NE)) as [t' [a' [_ [_ [_ [_ X]]]]]].
    unfold oc_compress_table in C. rewrite X in C. discriminate C. }
  destruct (driver_total cmp target as_needed true accept_overflow ts ND) as [R|[R D]].
  - intros t I. right. destruct (ONE t I) as [[es [C _]]|[_ C]]; [right; eauto | left; exact C].
  - intros t es I C. destruct (ONE t I) as [[es' [C' L]]|[_ C']]; [|congruence]. assert (es' = es) by congruence. subst. exact L.
  - split; [left; exact R | intros _; exact R].
  - split; [right; exact R|]. intros OV. exfalso. destruct D as [[t [I [NF C]]]|[_ [A F]]].
    + destruct (ONE t I) as [[es [C' _]]|[AN _]]; [congruence|]. destruct OV as [OV|[OV _]]; [|congruence]. apply NF. split; [exact AN|]. rewrite Forall_forall in OV. exact (OV t I).
    + destruct OV as [OV|[_ OV]]; [contradiction | congruence].
Qed.
End Shrink.
