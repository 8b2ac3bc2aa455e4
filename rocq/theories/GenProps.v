(** Properties C18, C19, C74, C75, C104 and C105: merging machine entries and the routing
    table generators. *)
From Coq Require Import List Arith NArith ZArith Bool Lia.
From Verif Require Import Base Dict RouteSpec UtilModel AllocModel AllocProofs TablesModel DefaultModel DefaultProofs GenModel GenProofs.
Import ListNotations.
Local Open Scope N_scope.

(** C18.  [K] is the application key, [b] the atom bits, [B] the machine bits and
    [mx] the last machine index; [run K b i0 es] says that the entries are those
    of machine indexes [i0], [i0 + 1], ... with the keys [K + index * 2^b].  The
    result covers every key of the group and nothing else but, when the group
    ends with the last machine vertex, keys of the application vertex above it. *)
Theorem C18_merge_exact : forall K b B mx i0 es,
  b + B <= 32 -> K mod 2 ^ (b + B) = 0 -> K < 2 ^ 32 -> mx < 2 ^ B ->
  es <> [] -> run K b i0 es -> i0 + N.of_nat (length es) <= mx + 1 ->
  exists os, merge_machine_entries (mask_of b) b mx es = Ok os /\
    (length os <= length es)%nat /\
    (forall o, In o os -> N.land (o_key o) (o_mask o) = o_key o /\ o_key o < 2 ^ 32 /\ o_mask o < 2 ^ 32 /\
       exists m, In m es /\ o_key o = me_key m /\ o_rent o = me_rent m) /\
    (forall m, In m es -> exists o, In o os /\
       forall k, me_key m <= k < me_key m + 2 ^ b -> N.land k (o_mask o) = o_key o) /\
    (forall o k, In o os -> k < 2 ^ 32 -> N.land k (o_mask o) = o_key o ->
       K <= k < K + 2 ^ (b + B) /\
       ((exists m, In m es /\ me_key m <= k < me_key m + 2 ^ b) \/
        K + (mx + 1) * 2 ^ b <= k /\ i0 + N.of_nat (length es) = mx + 1)) /\
    ForallOrdPairs (fun o o' => forall k, k < 2 ^ 32 ->
      ~ (N.land k (o_mask o) = o_key o /\ N.land k (o_mask o') = o_key o')) os.
Proof. exact merge_spec. Qed.
Print Assumptions C18_merge_exact.

(** Indexes 3 to 6 of 0 to 10, with 4 atom bits: 3, 4-5, 6. *)
Example C18_example :
  let es := map (fun i => mkMent (mkRent i false) (0x100 + i * 16) i) [3; 4; 5; 6] in
  run 0x100 4 3 es /\
  merge_machine_entries (mask_of 4) 4 10 es =
    Ok [mkOut 0x130 0xFFFFFFF0 (mkRent 3 false); mkOut 0x140 0xFFFFFFE0 (mkRent 4 false);
        mkOut 0x160 0xFFFFFFF0 (mkRent 6 false)].
Proof. split; [cbn; repeat split|vm_compute; reflexivity]. Qed.
(** The group of 8 to 10 ends with the last index, so the block 8-15 is taken. *)
Example C18_last_example :
  merge_machine_entries (mask_of 4) 4 10
    (map (fun i => mkMent (mkRent i false) (0x100 + i * 16) i) [7; 8; 9; 10]) =
    Ok [mkOut 0x170 0xFFFFFFF0 (mkRent 7 false); mkOut 0x180 0xFFFFFF80 (mkRent 8 false)].
Proof. vm_compute. reflexivity. Qed.

(** C19.  For keys from the zoned allocator both generators succeed on every
    router; in both tables no key has two entries, every key of every source gets
    the source's route, and the merged table is no longer. *)
Theorem C19_merged_like_basic : forall entry_eq flexible e parts infos app_of routers,
  env_ok e parts -> allocate flexible e parts = Ok infos ->
  NoDup (map fst routers) -> (forall r, In r routers -> table_sources e parts app_of (snd r)) ->
  exists tbs tms,
    generate (basic_table entry_eq infos) routers = Ok tbs /\
    generate (merged_table entry_eq infos app_of) routers = Ok tms /\
    Forall2 (fun r t => fst r = (t_x t, t_y t)) routers tbs /\
    Forall2 (fun r t => fst r = (t_x t, t_y t)) routers tms /\
    (forall n r tb tm, nth_error routers n = Some r -> nth_error tbs n = Some tb ->
       nth_error tms n = Some tm ->
       orthogonal (t_entries tb) /\ orthogonal (t_entries tm) /\
       length (t_entries tb) = length (snd r) /\ (length (t_entries tm) <= length (snd r))%nat /\
       (forall v p en i k, In ((v, p), en) (snd r) -> get_info infos v p = Ok i -> k < 2 ^ 32 ->
          km_matches k (i_km i) ->
          routes_to (t_entries tb) k (re_route en) /\ routes_to (t_entries tm) k (re_route en))).
Proof. exact whole_agree. Qed.
Print Assumptions C19_merged_like_basic.

(** C19.  One router, with fixed keys allowed as long as no machine vertex of
    their partition has the machine mask; nothing is matched but keys of sources
    and keys of application vertices with a source in the table. *)
Theorem C19_merged_table : forall entry_eq infos app_of items x y,
  well_keyed infos app_of items -> exists tb tm,
    basic_table entry_eq infos x y items = Ok tb /\ merged_table entry_eq infos app_of x y items = Ok tm /\
    t_x tb = x /\ t_y tb = y /\ t_x tm = x /\ t_y tm = y /\
    orthogonal (t_entries tb) /\ orthogonal (t_entries tm) /\
    length (t_entries tb) = length items /\ (length (t_entries tm) <= length items)%nat /\
    (forall v p en i k, In ((v, p), en) items -> get_info infos v p = Ok i -> k < 2 ^ 32 ->
       km_matches k (i_km i) ->
       routes_to (t_entries tb) k (re_route en) /\ routes_to (t_entries tm) k (re_route en)) /\
    (forall e k, In e (t_entries tm) -> k < 2 ^ 32 -> entry_matches k e ->
       (exists v p en i, In ((v, p), en) items /\ get_info infos v p = Ok i /\ km_matches k (i_km i)) \/
       (exists m p en a j, In ((Mac m, p), en) items /\ app_of m = Some a /\
          get_info infos (App a) p = Ok j /\ km_matches k (i_km j))).
Proof. exact (fun eq infos app_of items x y W => generators_agree eq infos app_of items W x y). Qed.
Print Assumptions C19_merged_table.

(** C19.  In both tables all keys of a source are in one entry: no entry is split. *)
Theorem C19_one_entry : forall entry_eq infos app_of items x y tb tm v p en i,
  well_keyed infos app_of items ->
  basic_table entry_eq infos x y items = Ok tb -> merged_table entry_eq infos app_of x y items = Ok tm ->
  In ((v, p), en) items -> get_info infos v p = Ok i ->
  exists ob om, In ob (t_entries tb) /\ In om (t_entries tm) /\ e_route ob = re_route en /\ e_route om = re_route en /\
    forall k, k < 2 ^ 32 -> km_matches k (i_km i) -> entry_matches k ob /\ entry_matches k om.
Proof.
  intros entry_eq infos app_of items x y tb tm v p en i W B M I G.
  destruct (basic_whole _ _ _ _ _ _ _ _ _ _ _ W B I G) as (ob & B1 & B2 & B3).
  destruct (merged_whole _ _ _ _ _ _ _ _ _ _ _ W M I G) as (om & M1 & M2 & M3).
  exists ob, om. auto 7.
Qed.
Print Assumptions C19_one_entry.

(** ** Examples *)

Definition gx_env : graph_env := mkEnv
  (fun _ _ => None)
  (fun a _ => match a with 0%nat => [0; 1; 2; 3; 4]%nat | 1%nat => [5; 6]%nat | _ => [] end)
  (fun _ _ _ => None) (fun _ _ => 16) N.of_nat N.of_nat (fun _ => 1).
Definition gx_parts : list (nat * nat) := [(0, 0); (1, 0)]%nat.
Definition gx_app (m : nat) : option nat := Some (if Nat.ltb m 5 then 0 else 1)%nat.
Definition gx_items : list ((vertex * nat) * rent) :=
  [((Mac 1, 0%nat), mkRent 1 false); ((Mac 2, 0%nat), mkRent 1 false); ((Mac 3, 0%nat), mkRent 1 false);
   ((Mac 4, 0%nat), mkRent 1 false); ((App 1, 0%nat), mkRent 2 false)].
Definition eqe (a b : entry) : bool :=
  (N.eqb (e_key a) (e_key b) && N.eqb (e_mask a) (e_mask b) && N.eqb (e_route a) (e_route b))%bool.
Definition entries_of (r : res table) : list (N * N * N * bool) :=
  match r with Ok t => map (fun e => (e_key e, e_mask e, e_route e, e_def e)) (t_entries t) | Err _ => [] end.

Example C19_example : exists infos,
  env_ok gx_env gx_parts /\ allocate true gx_env gx_parts = Ok infos /\
  table_sources gx_env gx_parts gx_app gx_items /\
  entries_of (merged_table eqe infos gx_app 0 0 gx_items) =
    [(0x10, 0xFFFFFFF0, 1, false); (0x20, 0xFFFFFFE0, 1, false); (0x40, 0xFFFFFFC0, 1, false);
     (0x80, 0xFFFFFF80, 2, false)].
Proof.
  eexists. split; [|split; [vm_compute; reflexivity|split; [|vm_compute; reflexivity]]].
  - split; [intros a p H C; exfalso; now apply C|].
    intros a a' p m H H' Hm Hm'. simpl in H, H'.
    destruct H as [H|[H|[]]], H' as [H'|[H'|[]]]; inversion H; inversion H'; subst;
      auto; exfalso; simpl in Hm, Hm'; lia.
  - split; [|split; [|split]].
    + cbn [map fst gx_items]. repeat constructor; cbn [In]; intuition discriminate.
    + intros m p en H. unfold gx_items in H. cbn [In] in H.
      assert (X : (m < 5)%nat /\ p = 0%nat).
      { destruct H as [H|[H|[H|[H|[H|[]]]]]]; inversion H; subst; split; auto; lia. }
      destruct X as [X ->]. exists 0%nat. unfold gx_app. destruct (Nat.ltb_spec m 5); [|lia].
      split; [auto|]. split; [split; [left; auto|reflexivity]|].
      split; [right; exists 0%nat; split; [left; auto|reflexivity]|].
      cbn [ae_outgoing gx_env In]. lia.
    + intros a p en H. unfold gx_items in H. cbn [In] in H.
      destruct H as [H|[H|[H|[H|[H|[]]]]]]; inversion H; subst.
      split; [split; [right; left; auto|reflexivity]|discriminate].
    + intros a p en m en' H H'. unfold gx_items in H, H'. cbn [In] in H, H'.
      destruct H as [H|[H|[H|[H|[H|[]]]]]]; inversion H; subst.
      destruct H' as [H'|[H'|[H'|[H'|[H'|[]]]]]]; inversion H'; subst; discriminate.
Qed.

(** A partition with fixed keys whose machine masks are not the machine mask. *)
Example C19_plain_example : let infos :=
    [mkInfo (Mac 0) 0 (mkKM 0x20 0xFFFFFFE0) (IMac 0); mkInfo (Mac 1) 0 (mkKM 0x60 0xFFFFFFE0) (IMac 1);
     mkInfo (App 0) 0 (mkKM 0 0xFFFFFF00) (IApp (mask_of 4) 4 1)] in
  let items := [((Mac 0, 0%nat), mkRent 1 false); ((Mac 1, 0%nat), mkRent 1 false)] in
  well_keyed infos (fun _ => Some 0%nat) items /\
  entries_of (merged_table eqe infos (fun _ => Some 0%nat) 0 0 items) =
    [(0x20, 0xFFFFFFE0, 1, false); (0x60, 0xFFFFFFE0, 1, false)].
Proof.
  intros infos items. split; [|vm_compute; reflexivity].
  assert (IT : forall v p en, In ((v, p), en) items -> (v = Mac 0 \/ v = Mac 1) /\ p = 0%nat).
  { intros v p en H. cbn [In items] in H. destruct H as [H|[H|[]]]; inversion H; subst; auto. }
  constructor.
  - cbn. repeat constructor; cbn [In]; intuition discriminate.
  - intros v p en H. destruct (IT v p en H) as [[-> | ->] ->];
      (eexists; split; [vm_compute; reflexivity|]; split;
       [repeat split; vm_compute; reflexivity|intros; cbn [i_extra]; eauto]).
  - intros v p en i v' p' en' i' H H' G G' NE k Hk [M M'].
    assert (E : forall k, N.land k 0xFFFFFFE0 = 0x20 -> N.land k 0xFFFFFFE0 = 0x60 -> False)
      by (intros; congruence).
    destruct (IT v p en H) as [[-> | ->] ->], (IT v' p' en' H') as [[-> | ->] ->];
      try (now apply NE); vm_compute in G, G'; injection G as <-; injection G' as <-;
      unfold km_matches in M, M'; cbn [i_km km_mask km_key] in M, M'; eauto.
  - intros m p en a H A. injection A as <-. destruct (IT (Mac m) p en H) as [_ ->].
    eexists. exists (mask_of 4), 4, 1. split; [vm_compute; reflexivity|]. split; [reflexivity|].
    left. intros m' i ((en' & S1) & _ & S3). destruct (IT (Mac m') _ en' S1) as [[E|E] _];
      injection E as ->; vm_compute in S3; injection S3 as <-; vm_compute; discriminate.
  - intros a p j b mx K B a' p' j' b' mx' K' B' m i m' i' Z Z' S S' NE.
    destruct S as ((en & S1) & S2 & _), S' as ((en' & S1') & S2' & _). injection S2 as <-.
    injection S2' as <-. destruct (IT _ _ _ S1) as [_ ->], (IT _ _ _ S1') as [_ ->]. now destruct NE.
Qed.

(** ** C74: fixed machine keys with the machine mask *)

(** Two machine vertices with the fixed keys 0x20 and 0x50, both accepted by the
    allocator: the merged table has one entry for 0x20-0x3F, so packets of the
    second machine vertex are lost, and packets of no vertex are routed. *)
Definition fx_env : graph_env := mkEnv
  (fun _ _ => Some (mkKM 0 0xFFFFFF00))
  (fun _ _ => [0; 1]%nat)
  (fun _ m _ => Some (mkKM (match m with 0%nat => 0x20 | _ => 0x50 end) 0xFFFFFFF0))
  (fun _ _ => 16) N.of_nat N.of_nat (fun _ => 2).
Theorem C74_fixed_machine_keys_lost_refuted : exists e infos items tb tm,
  env_ok e [(0, 0)]%nat /\ allocate true e [(0, 0)]%nat = Ok infos /\ NoDup (map fst items) /\
  (forall v p en i v' p' en' i', In ((v, p), en) items -> In ((v', p'), en') items ->
     get_info infos v p = Ok i -> get_info infos v' p' = Ok i' -> (v, p) <> (v', p') ->
     km_disjoint (i_km i) (i_km i')) /\
  basic_table eqe infos 0 0 items = Ok tb /\
  merged_table eqe infos (fun _ => Some 0%nat) 0 0 items = Ok tm /\
  (exists m en i, In ((Mac m, 0%nat), en) items /\ get_info infos (Mac m) 0 = Ok i /\
     km_matches 0x50 (i_km i) /\ routes_to (t_entries tb) 0x50 (re_route en)) /\
  first_match (t_entries tm) 0x50 = None /\
  first_match (t_entries tb) 0x30 = None /\ routes_to (t_entries tm) 0x30 1.
Proof.
  exists fx_env. eexists. exists [((Mac 0, 0%nat), mkRent 1 false); ((Mac 1, 0%nat), mkRent 1 false)].
  eexists. eexists.
  split; [split; [intros; discriminate|]|].
  { intros a a' p m [H|[]] [H'|[]] _ _. inversion H; inversion H'; auto. }
  split; [vm_compute; reflexivity|].
  split; [cbn; repeat constructor; cbn [In]; intuition discriminate|].
  split; [|split; [vm_compute; reflexivity|split; [vm_compute; reflexivity|]]].
  - assert (E : forall k, N.land k 0xFFFFFFF0 = 0x20 -> N.land k 0xFFFFFFF0 = 0x50 -> False)
      by (intros; congruence).
    intros v p en i v' p' en' i' H H' G G' NE k Hk [M M'].
    destruct H as [H|[H|[]]], H' as [H'|[H'|[]]]; inversion H; inversion H'; subst;
      try (now apply NE); vm_compute in G, G'; injection G as <-; injection G' as <-;
      unfold km_matches in M, M'; cbn [i_km km_mask km_key] in M, M'; eauto.
  - split; [|split; [|split]].
    + exists 1%nat. eexists. eexists. split; [right; left; reflexivity|].
      split; [vm_compute; reflexivity|]. split; [vm_compute; reflexivity|].
      eexists. split; vm_compute; reflexivity.
    + vm_compute. reflexivity.
    + vm_compute. reflexivity.
    + eexists. split; vm_compute; reflexivity.
Qed.
Print Assumptions C74_fixed_machine_keys_lost_refuted.

(** ** C75: the merged entry is defaultable when its first member is *)

(** Keys from the allocator.  The first machine vertex's packets cross the chip
    in a straight line, the second machine vertex is on the chip: its packets
    must be sent out, but after removing default routes they are not. *)
Theorem C75_merged_default_refuted : exists e infos items tb tm,
  env_ok e [(0, 0)]%nat /\ allocate true e [(0, 0)]%nat = Ok infos /\
  table_sources e [(0, 0)]%nat (fun _ => Some 0%nat) items /\
  basic_table eqe infos 0 0 items = Ok tb /\
  merged_table eqe infos (fun _ => Some 0%nat) 0 0 items = Ok tm /\
  (exists m en i k rb rm, In ((Mac m, 0%nat), en) items /\ re_def en = false /\
     get_info infos (Mac m) 0 = Ok i /\ km_matches k (i_km i) /\
     remove_default_routes (t_entries tb) None true = Ok rb /\
     remove_default_routes (t_entries tm) None true = Ok rm /\
     routes_to rb k (re_route en) /\ first_match rm k = None).
Proof.
  exists (mkEnv (fun _ _ => None) (fun _ _ => [0; 1]%nat) (fun _ _ _ => None) (fun _ _ => 16)
            N.of_nat N.of_nat (fun _ => 2)).
  eexists. exists [((Mac 0, 0%nat), mkRent 1 true); ((Mac 1, 0%nat), mkRent 1 false)].
  eexists. eexists.
  split; [split; [intros a p H C; exfalso; now apply C|]|].
  { intros a a' p m [H|[]] [H'|[]] _ _. inversion H; inversion H'; auto. }
  split; [vm_compute; reflexivity|].
  split; [|split; [vm_compute; reflexivity|split; [vm_compute; reflexivity|]]].
  - split; [cbn; repeat constructor; cbn [In]; intuition discriminate|].
    split; [|split].
    + intros m p en H. exists 0%nat. split; [auto|].
      cbn [In] in H. destruct H as [H|[H|[]]]; inversion H; subst.
      all: split; [split; [left; auto|reflexivity]|];
        split; [right; exists 0%nat; split; [left; auto|reflexivity]|cbn; auto].
    + intros a p en H. cbn [In] in H. destruct H as [H|[H|[]]]; inversion H.
    + intros a p en m en' H. cbn [In] in H. destruct H as [H|[H|[]]]; inversion H.
  - exists 1%nat. eexists. eexists. exists 16. eexists. eexists.
    split; [right; left; reflexivity|]. split; [reflexivity|]. split; [vm_compute; reflexivity|].
    split; [vm_compute; reflexivity|]. split; [vm_compute; reflexivity|]. split; [vm_compute; reflexivity|].
    split; [eexists; split; vm_compute; reflexivity|vm_compute; reflexivity].
Qed.
Print Assumptions C75_merged_default_refuted.

(** What does hold: a key of a source is matched in the merged table by an entry
    with the source's route, whose flag is that of the source itself or of another
    machine vertex of the same application vertex and partition with the same
    route. *)
Theorem C75_flag_of_sibling : forall entry_eq flexible e parts infos app_of items x y tm v p en i k,
  env_ok e parts -> allocate flexible e parts = Ok infos -> table_sources e parts app_of items ->
  merged_table entry_eq infos app_of x y items = Ok tm ->
  In ((v, p), en) items -> get_info infos v p = Ok i -> k < 2 ^ 32 -> km_matches k (i_km i) ->
  exists o, first_match (t_entries tm) k = Some o /\ e_route o = re_route en /\
    (e_def o = re_def en \/
     exists m m' a en', v = Mac m /\ app_of m = Some a /\ app_of m' = Some a /\ In ((Mac m', p), en') items /\
       re_route en' = re_route en /\ e_def o = re_def en').
Proof.
  intros eq fl e parts infos app_of items x y tm v p en i k HE HA HT HM I G Hk M.
  pose proof (alloc_well_keyed _ _ _ _ _ _ HE HA HT) as WK.
  destruct (merged_flag _ _ _ _ _ _ _ _ _ _ _ _ WK HM I G Hk M) as (o & s' & en' & H1 & H2 & KN & H3 & H4 & H5).
  exists o. split; [exact H1|]. split; [exact H2|].
  destruct KN as [<- |(m & m' & q & a & E1 & E2 & A1 & A2)].
  - left. rewrite H5. pose proof (wk_nodup _ _ _ WK) as ND. f_equal. clear - ND I H3.
    induction items as [|[s z] l IH]; [destruct I|]. cbn [map fst] in ND. inversion_clear ND as [|? ? N1 N2].
    assert (OUT : forall z, In ((v, p), z) l -> s <> (v, p))
      by (intros z' Z ->; apply N1; apply in_map_iff; exists ((v, p), z'); auto).
    destruct I as [I|I], H3 as [H3|H3]; [congruence| | |exact (IH I H3 N2)];
      exfalso; eapply OUT; eauto; congruence.
  - right. injection E1 as -> ->. subst s'. exists m, m', a, en'. auto 7.
Qed.
Print Assumptions C75_flag_of_sibling.

(** So the property holds of the sources for which the siblings with the same route
    have the same flag; without this it is refuted above. *)
Theorem C75_same_flags_partial : forall entry_eq flexible e parts infos app_of items x y tm rm v p en i k,
  env_ok e parts -> allocate flexible e parts = Ok infos -> table_sources e parts app_of items ->
  merged_table entry_eq infos app_of x y items = Ok tm ->
  remove_default_routes (t_entries tm) None true = Ok rm ->
  In ((v, p), en) items -> get_info infos v p = Ok i -> k < 2 ^ 32 -> km_matches k (i_km i) ->
  re_def en = false ->
  (forall m m' a en', v = Mac m -> app_of m = Some a -> app_of m' = Some a -> In ((Mac m', p), en') items ->
     re_route en' = re_route en -> re_def en' = false) ->
  routes_to rm k (re_route en).
Proof.
  intros eq fl e parts infos app_of items x y tm rm v p en i k HE HA HT HM HR I G Hk M D AG.
  destruct (C75_flag_of_sibling _ _ _ _ _ _ _ _ _ _ _ _ _ _ _ HE HA HT HM I G Hk M) as (o & H1 & H2 & H3).
  assert (F : e_def o = false).
  { destruct H3 as [-> |(m & m' & a & en' & E & A1 & A2 & I' & R & ->)]; [exact D|]. exact (AG m m' a en' E A1 A2 I' R). }
  pose proof (alloc_well_keyed _ _ _ _ _ _ HE HA HT) as WK.
  destruct (generators_agree eq infos app_of items WK x y) as (tb & tm' & B & HM' & _).
  destruct (generators_words eq infos app_of items x y tb tm WK B HM) as [_ W].
  assert (W' : Forall entry_ok (t_entries tm)) by (eapply Forall_impl; [|exact W]; intros z Z; apply Z).
  destruct (remove_default_safe (t_entries tm) None true rm W' (or_introl eq_refl) HR) as [_ S].
  specialize (S k). rewrite H1 in S. exists o. destruct S as [S|[S _]]; [split; auto|congruence].
Qed.
Print Assumptions C75_same_flags_partial.

(** The example of C19 with a defaultable source of another route: the second
    source of application vertex 0 keeps its keys when the first loses them. *)
Example C75_same_flags_example : exists infos tm rm,
  allocate true gx_env gx_parts = Ok infos /\
  (let items := [((Mac 1, 0%nat), mkRent 2 true); ((Mac 2, 0%nat), mkRent 1 false); ((Mac 3, 0%nat), mkRent 1 false)] in
   merged_table eqe infos gx_app 0 0 items = Ok tm /\ remove_default_routes (t_entries tm) None true = Ok rm) /\
  map (fun e => (e_key e, e_mask e, e_route e, e_def e)) rm = [(0x20, 0xFFFFFFE0, 1, false)].
Proof. do 3 eexists. split; [vm_compute; reflexivity|]. split; [split; vm_compute; reflexivity|vm_compute; reflexivity]. Qed.

(** ** C104: sources with one key *)

(** C104.  Different sources of one router with the same key and mask are refused
    by the basic generator with KeyError, whatever their routes, and nothing else
    is refused. *)
Theorem C104_basic_refuses_clash : forall entry_eq infos x y items, NoDup (map fst items) ->
  (forall v p en, In ((v, p), en) items ->
     exists i, get_info infos v p = Ok i /\ N.land (km_key (i_km i)) (km_mask (i_km i)) = km_key (i_km i)) ->
  let distinct := forall v p en i v' p' en' i', In ((v, p), en) items -> In ((v', p'), en') items ->
    get_info infos v p = Ok i -> get_info infos v' p' = Ok i' -> i_km i = i_km i' -> (v, p) = (v', p') in
  (distinct /\ exists t, basic_table entry_eq infos x y items = Ok t /\ length (t_entries t) = length items) \/
  (~ distinct /\ basic_table entry_eq infos x y items = Err KeyError).
Proof. exact basic_clash. Qed.
Print Assumptions C104_basic_refuses_clash.

Definition clash_infos : list info :=
  [mkInfo (Mac 0) 0 (mkKM 0 0xFFFFFFF0) (IMac 0); mkInfo (Mac 1) 0 (mkKM 0x10 0xFFFFFFF0) (IMac 1);
   mkInfo (App 0) 0 (mkKM 0 0xFFFFFFE0) (IApp (mask_of 4) 4 1); mkInfo (App 5) 0 (mkKM 0x10 0xFFFFFFF0) (IApp (mask_of 4) 4 0)].
Definition clash_items : list ((vertex * nat) * rent) :=
  [((Mac 0, 0%nat), mkRent 1 false); ((Mac 1, 0%nat), mkRent 1 false); ((App 5, 0%nat), mkRent 2 false)].
Example C104_example :
  NoDup (map fst clash_items) /\
  (forall v p en, In ((v, p), en) clash_items ->
     exists i, get_info clash_infos v p = Ok i /\ N.land (km_key (i_km i)) (km_mask (i_km i)) = km_key (i_km i)) /\
  basic_table eqe clash_infos 0 0 clash_items = Err KeyError /\
  entries_of (basic_table eqe clash_infos 0 0 (firstn 2 clash_items)) = [(0, 0xFFFFFFF0, 1, false); (0x10, 0xFFFFFFF0, 1, false)].
Proof.
  split; [cbn; repeat constructor; cbn [In]; intuition discriminate|]. split; [|split; vm_compute; reflexivity].
  intros v p en H. cbn [In clash_items] in H.
  destruct H as [H|[H|[H|[]]]]; injection H as <- <- <-; (eexists; split; vm_compute; reflexivity).
Qed.

(** C105.  The merging generator checks only the first member of each group: the
    same router is accepted, and packets of the application vertex 5 go where the
    machine vertex 1 sends. *)
Theorem C105_merged_accepts_clash_refuted : exists infos app_of items tm,
  NoDup (map fst items) /\ basic_table eqe infos 0 0 items = Err KeyError /\
  merged_table eqe infos app_of 0 0 items = Ok tm /\
  exists v en i k, In ((v, 0%nat), en) items /\ get_info infos v 0 = Ok i /\ km_matches k (i_km i) /\
    ~ routes_to (t_entries tm) k (re_route en).
Proof.
  exists clash_infos, (fun _ => Some 0%nat), clash_items. eexists.
  split; [cbn; repeat constructor; cbn [In]; intuition discriminate|].
  split; [vm_compute; reflexivity|]. split; [vm_compute; reflexivity|].
  exists (App 5). eexists. eexists. exists 0x10. split; [right; right; left; reflexivity|].
  split; [vm_compute; reflexivity|]. split; [vm_compute; reflexivity|].
  intros [e [F R]]. vm_compute in F. injection F as <-. discriminate R.
Qed.
Print Assumptions C105_merged_accepts_clash_refuted.
