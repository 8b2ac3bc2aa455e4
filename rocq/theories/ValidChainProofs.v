(** The route validity checker on the tables of a routed graph. *)
From Coq Require Import List Arith NArith ZArith Bool Lia Permutation.
From Verif Require Import Base Dict RouteSpec KeyMask AllocModel AllocProofs TablesModel TablesProofs GenModel GenProofs
  ValidModel ValidProofs PairModel PairSort RangeModel RangeProofs OrderedModel OrderedProofs
  TreeModel TreeProofs MachModel LdfModel LdfProofs PathModel PathProofs
  RPartModel RPartProofs BfsModel BfsProofs TargetsModel TargetsProofs ConvModel ConvProofs RouterModel RouterProofs RouterTables RouterPlan RouterFinal RouterSuccess
  ChainModel ChainProofs FixProofs FixChain ValidChainModel.
Import ListNotations.
Local Open Scope nat_scope.

(** * One source *)
(** If the packets go where they should, each through one entry, then only a
    contiguous entry that matches some but not all of the keys and the next one
    makes the checker refuse. *)
Section Search.
Variables (link : xy -> nat -> option xy) (ts : list table).
Hypothesis entries_ok : forall t, In t ts -> Forall entry_ok (t_entries t).
Variables (key : N) (n : nat) (src : xy) (dests : list (xy * nat)).
Hypothesis N1 : 1 <= n.
Hypothesis K32 : (key + N.of_nat n <= 2 ^ 32)%N.
Hypothesis ONCE : visits_once link ts key src.
Hypothesis ND : NoDup dests.
Hypothesis DEST : forall d, ValidProofs.delivered link ts key src d <-> In d dests.
Hypothesis FOUND : forall way c, ValidProofs.walk link ts key src way c ->
  exists t e, get_table ts (fst c) (snd c) = Some t /\ first_match (t_entries t) key = Some e /\
    forall i, i < n -> entry_matches (key + N.of_nat i) e.

Definition whole_or_none (e : entry) : Prop := contiguous e ->
  (forall i, i < n -> entry_matches (key + N.of_nat i) e) \/
  (forall i, i <= n -> (key + N.of_nat i < 2 ^ 32)%N -> ~ entry_matches (key + N.of_nat i) e).

Lemma located_whole : forall c e t e', ValidProofs.located ts key n c e -> get_table ts (fst c) (snd c) = Some t -> In e' (t_entries t) -> whole_or_none e'.
Proof.
  intros c e t e' (t' & T & L) T' I C. assert (t' = t) by congruence. subst t'. unfold locate_entry in L.
  pose proof (get_table_Some _ _ _ _ T) as (It & _). specialize (entries_ok t It).
  apply locate_loop_iff in L; [|exact entries_ok]. destruct L as [_ F]. rewrite Forall_forall in F, entries_ok. specialize (F e' I).
  pose proof (proj1 (covers_or_misses_iff key n e' (entries_ok e' I) K32 ltac:(lia)) F) as G.
  destruct (G C) as [X|[[_ X]|X]]; [left; exact X | lia | right; exact X].
Qed.

Lemma search_exact : search_route link ts key n src dests = Ok tt <->
  forall way c t e', ValidProofs.walk link ts key src way c -> get_table ts (fst c) (snd c) = Some t -> In e' (t_entries t) -> whole_or_none e'.
Proof.
  split.
  - intros H. apply search_route_iff in H. destruct H as (st & HS & _ & _ & _). unfold start_trace in HS.
    destruct (FOUND [] src (ValidProofs.w_source _ _ _ _)) as (t & _ & T & _). rewrite T in HS.
    apply bind_Ok_inv in HS. destruct HS as (e & E & HS).
    assert (L : ValidProofs.located ts key n src e) by (exists t; auto).
    destruct (trace_spec link ts key n _ _ _ _ _ _ [] HS T L) as (W & (_ & _ & _ & G & _) & B & C & _).
    assert (LA : forall p c, In (p, c) (([], src) :: W) -> exists e, ValidProofs.located ts key n c e).
    { intros p c [X|X]; [injection X as <- <-; eauto | eauto]. }
    assert (IN : forall way c, ValidProofs.walk link ts key src way c -> In (way, c) (([], src) :: W)).
    { intros way c HW. pose proof HW as HW0. induction HW as [|way c e0 l c' HW IH E0 Hl Hb Hk|way c l c' HW IH E0 Hk]; [left; reflexivity| |].
      - specialize (IH HW). destruct (LA _ _ IH) as (e1 & L1). pose proof L1 as (t1 & T1 & EE).
        assert (e1 = e0).
        { unfold entry_at in E0. rewrite T1 in E0. unfold locate_entry in EE.
          apply locate_first in EE; [congruence|]. apply entries_ok. exact (proj1 (get_table_Some _ _ _ _ T1)). }
        subst e1. assert (S : tstep link ts key n c l c').
        { exists e0. split; [exact L1|]. split; [apply entry_links_In; auto|]. split; [exact Hk|].
          destruct (FOUND _ _ HW0) as (t2 & _ & T2 & _). congruence. }
        right. destruct IH as [X|X]; [injection X as <- <-; exact (B _ _ S) | exact (C _ _ _ _ X S)].
      - exfalso. destruct (FOUND _ _ HW) as (t2 & e2 & T2 & F2 & _). unfold entry_at in E0. rewrite T2 in E0. congruence. }
    intros way c t' e' HW T' I. destruct (LA _ _ (IN way c HW)) as (e1 & L1). exact (located_whole c e1 t' e' L1 T' I).
  - intros H. apply (search_complete link ts entries_ok); auto. intros way c HW. destruct (FOUND way c HW) as (t & e & T & F & M).
    exists t, e. split; [exact T|]. split; [exact F|]. split; [exact M|]. intros e' I C. exact (H way c t e' HW T I C).
Qed.
End Search.

(** * Links *)
Lemma machine_link_works : forall m c l q, machine_link m c l = Some q <-> works m c (l, q).
Proof.
  intros m c l q. unfold machine_link, works. cbn [fst snd]. destruct (Nat.ltb_spec l 6) as [L|L]; cbn [andb].
  2:{ split; [discriminate | lia]. }
  destruct (is_link m c l); cbn [andb]; [|split; [discriminate | intros (_ & X & _); discriminate X]].
  destruct (is_chip m (over_link m c l)) eqn:C.
  - split; [intros E; injection E as <-; auto | intros (_ & _ & -> & _); reflexivity].
  - split; [discriminate|]. intros (_ & _ & -> & X). congruence.
Qed.

(** * One entry for all keys of a source *)
Definition holds_whole (infos : list info) (t : rtable) (ts : list table) : Prop := forall w k q e, get_entry t w k q = Some e ->
  exists i tb o, get_info infos (vertex_of w) k = Ok i /\ get_table ts (fst q) (snd q) = Some tb /\ In o (t_entries tb) /\
    e_route o = RPartModel.re_route e /\ forall key, (key < 2 ^ 32)%N -> km_matches key (i_km i) -> entry_matches key o.

Lemma made_whole : forall merged i vs ps t infos entry_eq ts, route_application_graph i vs ps = Ok t -> keyed_tables merged i t infos ->
  generate (if merged then merged_table entry_eq infos (ve_app (ri_venv i)) else basic_table entry_eq infos) (routers_of t) = Ok ts ->
  holds_whole infos t ts.
Proof.
  intros merged i vs ps t infos entry_eq ts ROUTE KT H. destruct (tables_made merged i vs ps t infos entry_eq ROUTE KT) as [ts' [H' F]].
  destruct (made_holds merged i vs ps t infos entry_eq ROUTE KT ts H) as [ND _].
  destruct KT as [app_of [AO well]]. assert (ts' = ts) by congruence. subst ts'.
  intros w k q x G. unfold get_entry in G. destruct (dget xy_eqb t q) as [d|] eqn:D; [|discriminate].
  apply (dget_In _ xy_eqb_eq) in D. apply (dget_In _ skey_eqb_eq) in G.
  set (r := (q, items_of d)). assert (IR : In r (routers_of t)) by (apply in_map_iff; exists (q, d); auto).
  assert (II : In ((vertex_of w, k), rent_of x) (snd r)) by (apply items_In; eauto).
  destruct (wk_info _ _ _ (well r IR) _ _ _ II) as [j [J _]].
  destruct (ChainProofs.Forall2_In _ _ _ r F IR) as [tb [T1 [T2 T3]]]. cbn [fst r] in T2.
  assert (W : exists o, In o (t_entries tb) /\ e_route o = GenModel.re_route (rent_of x) /\
    forall key, (key < 2 ^ 32)%N -> km_matches key (i_km j) -> entry_matches key o).
  { destruct merged; [|exact (basic_whole _ _ _ _ _ _ _ _ _ _ _ (well r IR) T3 II J)].
    rewrite <- (AO eq_refl) in T3. exact (merged_whole _ _ _ _ _ _ _ _ _ _ _ (well r IR) T3 II J). }
  destruct W as (o & O1 & O2 & O3). exists j, tb, o. split; [exact J|].
  split; [apply (get_table_pos ts (fst q) (snd q) tb ND T1); rewrite T2; reflexivity|]. split; [exact O1|]. split; [exact O2 | exact O3].
Qed.

(** * The packets of one source *)
Section Packets.
Variables (i : rinput) (vs : list nat) (ps : list apart) (t : rtable) (pt : apart) (v : nat) (infos : list info) (ts : list table).
Hypothesis GO : graph_ok i vs ps.
Hypothesis ROUTE : route_application_graph i vs ps = Ok t.
Hypothesis RP : routed_part i vs ps pt.
Hypothesis OUT : In v (ri_out i (ap_pre pt) (ap_id pt)).
Hypothesis KEEPS : keeps infos t ts.
Hypothesis WHOLE : holds_whole infos t ts.
Hypothesis FINE : Forall fine_table ts.
Hypothesis KW : keys_within i vs ps infos.
Variable j : info.
Hypothesis MY : get_info infos (AllocModel.Mac v) (ap_id pt) = Ok j.
Hypothesis CORE : link_of (snd (ri_at i v)) = None.
Let m := ri_mach i.
Let root := chip_of i v.

Lemma mine : forall key, (key < 2 ^ 32)%N -> km_matches key (i_km j) ->
  forall w j', w = Mac v \/ w = App (ap_pre pt) -> get_info infos (vertex_of w) (ap_id pt) = Ok j' -> km_matches key (i_km j').
Proof. destruct (KW pt v RP OUT) as [j' [J M]]. assert (j' = j) by congruence. subst j'. exact M. Qed.

(** The chips a packet comes to have an entry for all the keys of the source. *)
Lemma flown_whole : forall key q inn, (key < 2 ^ 32)%N -> km_matches key (i_km j) -> flies m ts key root None q inn ->
  exists tb o, get_table ts (fst q) (snd q) = Some tb /\ In o (t_entries tb) /\ first_match (t_entries tb) key = Some o /\
    sends ts key q inn = e_route o /\ forall key', (key' < 2 ^ 32)%N -> km_matches key' (i_km j) -> entry_matches key' o.
Proof.
  intros key q inn K KM F. rewrite <- CORE in F.
  destruct (flies_travels i vs ps t pt v infos ts key GO ROUTE RP OUT KEEPS K (mine key K KM) q inn F) as [T _].
  destruct (router_entry i vs ps t pt v GO ROUTE RP OUT q T) as [e [E _]].
  assert (X : exists w, (w = Mac v \/ w = App (ap_pre pt)) /\ get_entry t w (ap_id pt) q = Some e).
  { unfold route_for in E. destruct (get_entry t (Mac v) (ap_id pt) q) eqn:EM; [exists (Mac v); split; [auto | congruence] | exists (App (ap_pre pt)); auto]. }
  destruct X as [w [W X]]. destruct (WHOLE w _ q e X) as (j' & tb & o & J & TB & O1 & O2 & O3). exists tb, o. split; [exact TB|]. split; [exact O1|].
  assert (A : forall key', (key' < 2 ^ 32)%N -> km_matches key' (i_km j) -> entry_matches key' o).
  { intros key' K' M'. apply O3; [exact K'|]. exact (mine key' K' M' w j' W J). }
  assert (FM : first_match (t_entries tb) key = Some o).
  { pose proof (A key K KM) as MO. destruct (first_match_exists _ _ _ O1 MO) as [o' O']. rewrite O'. f_equal.
    destruct (first_match_Some _ _ _ O') as [I' M']. rewrite Forall_forall in FINE.
    destruct (FINE tb (proj1 (get_table_Some _ _ _ _ TB))) as [_ OR]. exact (orthogonal_unique _ _ _ _ OR I' O1 M' MO). }
  split; [exact FM|]. split; [|exact A]. unfold sends, found. rewrite TB, FM. reflexivity.
Qed.

Definition in_of (way : list nat) : option nat := match way with [] => None | l :: _ => Some ((l + 3) mod 6) end.
Lemma walk_flies : forall key way c, (key < 2 ^ 32)%N -> km_matches key (i_km j) ->
  ValidProofs.walk (machine_link m) ts key root way c -> flies m ts key root None c (in_of way).
Proof.
  intros key way c K KM W. induction W as [|way c e l c' W IH E L B LK|way c l c' W IH E LK]; [constructor| |].
  - destruct (flown_whole key c _ K KM IH) as (tb & o & TB & _ & FM & SE & _).
    unfold entry_at in E. rewrite TB in E. assert (o = e) by congruence. subst o.
    cbn [in_of]. apply (fl_hop _ _ _ _ _ c (in_of way)); [exact IH | rewrite SE; exact B | apply machine_link_works; exact LK].
  - exfalso. destruct (flown_whole key c _ K KM IH) as (tb & o & TB & _ & FM & _). unfold entry_at in E. rewrite TB in E. congruence.
Qed.
Lemma flies_walk : forall key q inn, (key < 2 ^ 32)%N -> km_matches key (i_km j) -> flies m ts key root None q inn ->
  exists way, ValidProofs.walk (machine_link m) ts key root way q /\ inn = in_of way.
Proof.
  intros key q inn K KM F. induction F as [|p inn l q F (way & W & ->) B WK]; [exists []; split; [constructor | reflexivity]|].
  exists (l :: way). split; [|reflexivity]. destruct (flown_whole key p _ K KM F) as (tb & o & TB & _ & FM & SE & _).
  rewrite SE in B. apply (w_route _ _ _ _ way p o l q W); [unfold entry_at; rewrite TB; exact FM | exact (proj1 WK) | exact B | apply machine_link_works; exact WK].
Qed.

Lemma packets_once : forall key, (key < 2 ^ 32)%N -> km_matches key (i_km j) -> visits_once (machine_link m) ts key root.
Proof.
  intros key K KM.
  assert (ONE : forall p inn l q p' inn' l', flies m ts key root None p inn -> has_link (sends ts key p inn) l = true -> works m p (l, q) ->
    q <> root /\ (flies m ts key root None p' inn' -> has_link (sends ts key p' inn') l' = true -> works m p' (l', q) -> p' = p /\ inn' = inn /\ l' = l)).
  { rewrite <- CORE. exact (flies_once i vs ps t pt v infos ts key GO ROUTE RP OUT KEEPS K (mine key K KM)). }
  assert (STEP : forall l way c', ValidProofs.walk (machine_link m) ts key root (l :: way) c' -> exists c, ValidProofs.walk (machine_link m) ts key root way c /\
    has_link (sends ts key c (in_of way)) l = true /\ works m c (l, c')).
  { intros l way c' W. inversion W as [|? c e ? ? W' E L B LK|way' c ? ? W' E LK]; subst.
    - exists c. split; [exact W'|]. pose proof (walk_flies key way c K KM W') as F. destruct (flown_whole key c _ K KM F) as (tb & o & TB & _ & FM & SE & _).
      unfold entry_at in E. rewrite TB in E. assert (o = e) by congruence. subst o. split; [rewrite SE; exact B | apply machine_link_works; exact LK].
    - exfalso. pose proof (walk_flies key _ c K KM W') as F. destruct (flown_whole key c _ K KM F) as (tb & o & TB & _ & FM & _).
      unfold entry_at in E. rewrite TB in E. congruence. }
  assert (TOP : forall l way, ~ ValidProofs.walk (machine_link m) ts key root (l :: way) root).
  { intros l way W. destruct (STEP l way root W) as (c & W' & B & WK).
    destruct (ONE c _ l root c (in_of way) l (walk_flies key way c K KM W') B WK) as [X _]. apply X. reflexivity. }
  intros way. induction way as [|l way IH]; intros way' c W W'.
  - inversion W; subst. destruct way' as [|l' way']; [reflexivity|]. destruct (TOP _ _ W').
  - destruct way' as [|l' way']; [inversion W'; subst; destruct (TOP _ _ W)|].
    destruct (STEP l way c W) as (p & W1 & B1 & K1). destruct (STEP l' way' c W') as (p' & W2 & B2 & K2).
    destruct (ONE p _ l c p' (in_of way') l' (walk_flies key way p K KM W1) B1 K1) as [_ X].
    destruct (X (walk_flies key way' p' K KM W2) B2 K2) as (-> & _ & ->). f_equal. exact (IH way' p W1 W2).
Qed.

Lemma packets_arrive : forall key q n, (key < 2 ^ 32)%N -> km_matches key (i_km j) ->
  (ValidProofs.delivered (machine_link m) ts key root (q, n) <-> arrives m ts key root None q (OnCore n)).
Proof.
  intros key q n K KM. unfold ValidProofs.delivered, arrives. cbn [fst snd]. split.
  - intros (way & e & W & E & B). pose proof (walk_flies key way q K KM W) as F. exists (in_of way). split; [exact F|].
    destruct (flown_whole key q _ K KM F) as (tb & o & TB & _ & FM & SE & _). unfold entry_at in E. rewrite TB in E. assert (o = e) by congruence. subst o.
    rewrite SE. exact B.
  - intros (inn & F & B). destruct (flies_walk key q inn K KM F) as (way & W & ->).
    destruct (flown_whole key q _ K KM F) as (tb & o & TB & _ & FM & SE & _). exists way, o. split; [exact W|].
    split; [unfold entry_at; rewrite TB; exact FM|]. rewrite SE in B. exact B.
Qed.

(** The checker on this source: what can go wrong is an entry for the key after the last. *)
Variable n : nat.
Let key := km_key (i_km j).
Hypothesis N1 : 1 <= n.
Hypothesis K32 : (key + N.of_nat n <= 2 ^ 32)%N.
Hypothesis OWN : forall x, x < n -> km_matches (key + N.of_nat x) (i_km j).

Lemma own_key : (key < 2 ^ 32)%N /\ km_matches key (i_km j).
Proof. split; [lia|]. specialize (OWN 0 ltac:(lia)). cbn in OWN. rewrite N.add_0_r in OWN. exact OWN. Qed.

Lemma checked_source : forall dests, NoDup dests ->
  (forall q p, In (q, p) dests <-> arrives m ts key root None q (OnCore p)) ->
  (search_route (machine_link m) ts key n root dests = Ok tt <->
   forall q inn tb o, flies m ts key root None q inn -> get_table ts (fst q) (snd q) = Some tb -> In o (t_entries tb) -> contiguous o ->
     e_key o <> (key + N.of_nat n)%N).
Proof.
  intros dests ND DE. destruct own_key as [K KM].
  assert (EO : forall tb, In tb ts -> Forall entry32 (t_entries tb) /\ orthogonal (t_entries tb)) by (rewrite Forall_forall in FINE; exact FINE).
  assert (EOK : forall tb, In tb ts -> Forall entry_ok (t_entries tb)).
  { intros tb I. eapply Forall_impl; [|exact (proj1 (EO tb I))]. intros x X. exact (proj1 X). }
  assert (FO : forall way c, ValidProofs.walk (machine_link m) ts key root way c ->
    exists tb o, get_table ts (fst c) (snd c) = Some tb /\ first_match (t_entries tb) key = Some o /\
      forall x, x < n -> entry_matches (key + N.of_nat x) o).
  { intros way c W. pose proof (walk_flies key way c K KM W) as F. destruct (flown_whole key c _ K KM F) as (tb & o & TB & _ & FM & _ & A).
    exists tb, o. split; [exact TB|]. split; [exact FM|]. intros x X. apply A; [lia | apply OWN; exact X]. }
  rewrite (search_exact (machine_link m) ts EOK key n root dests N1 K32 (packets_once key K KM) ND); [|intros [q p]; rewrite (packets_arrive key q p K KM); symmetry; apply DE | exact FO].
  split.
  - intros H q inn tb o F TB I C E. destruct (flies_walk key q inn K KM F) as (way & W & _).
    pose proof (proj1 (get_table_Some _ _ _ _ TB)) as IT. destruct (EO tb IT) as [E3 OR]. rewrite Forall_forall in E3. destruct (E3 o I) as (OKO & O32 & _).
    assert (MO : entry_matches (key + N.of_nat n) o) by (rewrite <- E; unfold entry_matches; exact OKO).
    destruct (H way q tb o W TB I C) as [X|X].
    + specialize (X 0 N1). cbn in X. rewrite N.add_0_r in X.
      apply (contiguous_matches o key C OKO K) in X. lia.
    + apply (X n (le_n _)); [lia | exact MO].
  - intros H way c tb o W TB I C. destruct (FO way c W) as (tb' & o' & TB' & FM & A). assert (tb' = tb) by congruence. subst tb'.
    pose proof (proj1 (get_table_Some _ _ _ _ TB)) as IT. destruct (EO tb IT) as [E3 OR]. rewrite Forall_forall in E3. destruct (E3 o I) as (OKO & O32 & _).
    destruct (first_match_Some _ _ _ FM) as [I' _].
    destruct (N.eq_dec (N.land key (e_mask o)) (e_key o)) as [MO|NO].
    + left. assert (o' = o) by exact (orthogonal_unique _ _ _ _ OR I' I (eq_trans (f_equal (fun k => N.land k (e_mask o')) (eq_sym (N.add_0_r key))) (A 0 N1)) MO). subst o'. exact A.
    + right. intros x X KX MX.
      assert (ALL : forall y, y < n -> ~ entry_matches (key + N.of_nat y) o).
      { intros y Y MY'. assert (o' = o) by exact (orthogonal_unique _ _ _ _ OR I' I (A y Y) MY'). subst o'. apply NO.
        specialize (A 0 N1). cbn in A. rewrite N.add_0_r in A. exact A. }
      destruct (Nat.eq_dec x n) as [->|NE]; [|apply (ALL x); [lia | exact MX]].
      apply (H c (in_of way) tb o (walk_flies key way c K KM W) TB I C).
      apply (contiguous_matches o _ C OKO KX) in MX. specialize (ALL (n - 1) ltac:(lia)).
      rewrite (contiguous_matches o _ C OKO) in ALL by lia. lia.
Qed.
End Packets.

(** * The whole graph *)
(** Every vertex that receives anything is on a core. *)
Definition all_placed (i : rinput) (vs : list nat) (ps : list apart) : Prop :=
  (forall pt target x, routed_part i vs ps pt -> In target (ap_posts pt) -> In x (ri_in i target (ap_pre pt) (ap_id pt)) ->
     exists n, snd (ri_at i (fst x)) = OnCore n) /\
  (forall pt ip w, routed_part i vs ps pt -> In ip (ri_internal i (ap_pre pt)) -> in_id ip = ap_id pt -> In w (in_posts ip) ->
     exists n, snd (ri_at i w) = OnCore n).
(** No chip that packets of [v] come to has an entry for a range of keys that begins
    right after the keys of the atoms of [v]. *)
Definition no_entry_after (i : rinput) (vs : list nat) (ps : list apart) (atoms : nat -> nat) (infos : list info) (ts : list table) : Prop :=
  forall pt v n j q inn tb o, routed_part i vs ps pt -> In v (ri_out i (ap_pre pt) (ap_id pt)) -> snd (ri_at i v) = OnCore n ->
    get_info infos (AllocModel.Mac v) (ap_id pt) = Ok j ->
    flies (ri_mach i) ts (km_key (i_km j)) (chip_of i v) None q inn ->
    get_table ts (fst q) (snd q) = Some tb -> In o (t_entries tb) -> contiguous o -> e_key o <> (km_key (i_km j) + N.of_nat (atoms v))%N.
(** The atoms have keys. *)
Definition atoms_keyed (i : rinput) (vs : list nat) (ps : list apart) (atoms : nat -> nat) (infos : list info) : Prop :=
  forall pt v n j, routed_part i vs ps pt -> In v (ri_out i (ap_pre pt) (ap_id pt)) -> snd (ri_at i v) = OnCore n ->
    get_info infos (AllocModel.Mac v) (ap_id pt) = Ok j -> 1 <= atoms v /\ (km_key (i_km j) + N.of_nat (atoms v) <= 2 ^ 32)%N /\
    forall x, x < atoms v -> km_matches (km_key (i_km j) + N.of_nat x) (i_km j).

Section Graph.
Variables (i : rinput) (vs : list nat) (ps : list apart) (atoms : nat -> nat) (t : rtable) (infos : list info) (ts : list table).
Hypothesis GO : graph_ok i vs ps.
Hypothesis ROUTE : route_application_graph i vs ps = Ok t.
Hypothesis KEEPS : keeps infos t ts.
Hypothesis WHOLE : holds_whole infos t ts.
Hypothesis FINE : Forall fine_table ts.
Hypothesis KW : keys_within i vs ps infos.
Hypothesis ONLY : only_outgoing i vs ps.
Hypothesis UNMIXED : forall pt, routed_part i vs ps pt -> unmixed i pt.
Hypothesis ATOMS : atoms_keyed i vs ps atoms infos.
Let env := valid_input i vs ps atoms.

Definition as_vpart (pt : apart) : vpart := mkVPart (ap_pre pt) (ap_id pt) (ap_posts pt).
Lemma checked_parts : forall p, In p (get_app_partitions env) <-> exists pt, routed_part i vs ps pt /\ p = as_vpart pt.
Proof.
  intros p. rewrite app_partitions_In. subst env. cbn [valid_input ve_parts ve_vertices ve_internal]. fold as_vpart. split.
  - intros [H|(T & V & (pre & posts & X) & N)].
    + apply in_map_iff in H. destruct H as (pt & <- & H). exists pt. split; [left; exact H | reflexivity].
    + apply in_map_iff in X. destruct X as (ip & X & I). injection X as X1 X2 X3.
      exists (mkPart (vp_source p) (vp_id p) []). split; [|destruct p; cbn in *; subst; reflexivity]. right. cbn [ap_pre ap_id]. split.
      * intros Y. apply in_map_iff in Y. destruct Y as (pt & E & Y). injection E as E1 E2. apply N. exists (as_vpart pt).
        split; [apply in_map; exact Y|]. split; [exact E1 | exact E2].
      * exists (vp_source p), ip. split; [exact V|]. split; [exact I|]. rewrite X2. reflexivity.
  - intros (pt & [H|(N & v & ip & V & I & ->)] & ->).
    + left. apply in_map. exact H.
    + right. cbn [as_vpart vp_targets vp_source vp_id ap_pre ap_id ap_posts] in *. split; [reflexivity|]. split; [exact V|]. split.
      * exists (in_pre ip), (in_posts ip). apply in_map_iff. exists ip. auto.
      * intros (q & Q & E1 & E2). apply N. apply in_map_iff in Q. destruct Q as (pt & <- & Q). apply in_map_iff. exists pt.
        split; [cbn in E1, E2; congruence | exact Q].
Qed.
Lemma checked_unique : unique_parts env.
Proof.
  unfold unique_parts. subst env. cbn [valid_input ve_parts]. rewrite map_map. cbn [vp_source vp_id]. exact (go_distinct _ _ _ GO).
Qed.

Lemma placed_at : forall w x, placement_of i w = Ok x <-> ri_at i w = (fst x, OnCore (snd x)).
Proof.
  intros w [c n]. unfold placement_of, chip_of. destruct (ri_at i w) as [c' [n'|l]]; cbn [fst snd]; split; intros H; try discriminate H.
  - injection H as -> ->. reflexivity.
  - injection H as -> ->. reflexivity.
Qed.
Lemma placed_core : forall w, (exists x, placement_of i w = Ok x) <-> exists n, snd (ri_at i w) = OnCore n.
Proof.
  intros w. unfold placement_of. destruct (snd (ri_at i w)) as [n|l].
  - split; intros _; eauto.
  - split; intros [x H]; discriminate H.
Qed.

Lemma required_target : forall pt m x, routed_part i vs ps pt ->
  (required env (ap_pre pt) (ap_id pt) m x <-> exists w, target_of i pt m w /\ ri_at i w = (fst x, OnCore (snd x))).
Proof.
  intros pt m x RP. unfold required, target_of. subst env. cbn [valid_input ve_parts ve_incoming ve_outgoing ve_internal ve_place]. split.
  - intros [(p & target & tgt & srcs & P & E1 & E2 & T & I & S & PL)|(posts & post & I & PO & PL)]; apply placed_at in PL.
    + exists tgt. split; [|exact PL]. left. apply in_map_iff in P. destruct P as (pt' & <- & P). cbn [vp_source vp_id vp_targets] in *.
      assert (pt' = pt).
      { destruct RP as [RP|(N & _)].
        - apply (f_equal (fun _ => 0)) in PL. pose proof (go_distinct _ _ _ GO) as ND.
          clear - ND P RP E1 E2. induction ps as [|y l IH]; [destruct P|]. cbn [map] in ND. inversion ND as [|? ? NI ND']; subst.
          destruct P as [<-|P], RP as [<-|RP]; auto.
          + destruct NI. apply in_map_iff. exists pt. split; [congruence | exact RP].
          + destruct NI. apply in_map_iff. exists pt'. split; [congruence | exact P].
        - destruct N. apply in_map_iff. exists pt'. split; [congruence | exact P]. }
      subst pt'. apply in_map_iff in I. destruct I as (y & I1 & I2). injection I1 as <- <-.
      destruct S as [S|(a & S & O)]; apply in_map_iff in S; destruct S as (src & S1 & S2); destruct src as [b|b]; cbn [vertex_of] in S1; try discriminate S1; injection S1 as ->.
      * exists target, y, (Mac m). auto 10.
      * exists target, y, (App a). repeat (split; [assumption || reflexivity|]). right. exists a. auto.
    + exists post. split; [|exact PL]. right. apply in_map_iff in I. destruct I as (ip & I1 & I2). injection I1 as I3 I4 I5.
      exists ip. rewrite I5. auto.
  - intros (w & [(target & y & src & T & I & F & S & C)|(ip & I & E & P & W)] & PL).
    + left. exists (as_vpart pt), target, w, (map vertex_of (snd y)). subst w.
      destruct RP as [RP|(_ & v & ip & _ & _ & ->)]; [|destruct T].
      split; [apply in_map; exact RP|]. split; [reflexivity|]. split; [reflexivity|]. split; [exact T|].
      split; [apply in_map_iff; exists y; auto|]. split; [|apply placed_at; exact PL].
      destruct C as [->|(b & -> & O)]; [left; exact (in_map vertex_of _ _ S) | right; exists b; split; [exact (in_map vertex_of _ _ S) | exact O]].
    + right. exists (in_posts ip), w. split; [apply in_map_iff; exists ip; split; [congruence | exact I]|]. split; [exact W | apply placed_at; exact PL].
Qed.

Lemma sends_out : forall pt m, routed_part i vs ps pt ->
  (ValidProofs.sends env (ap_pre pt) (ap_id pt) m <-> In m (ri_out i (ap_pre pt) (ap_id pt))).
Proof.
  intros pt m RP. unfold ValidProofs.sends. subst env. cbn [valid_input ve_parts ve_vertices ve_internal ve_outgoing]. split.
  - intros [_ [O|(posts & I)]]; [exact O|]. apply in_map_iff in I. destruct I as (ip & E & I). injection E as E1 E2 E3. subst m.
    exact (proj2 ONLY pt ip RP I E2).
  - intros O. split; [|left; exact O]. destruct RP as [RP|(N & v & ip & V & I & ->)].
    + left. exists (as_vpart pt). split; [apply in_map; exact RP | split; reflexivity].
    + right. cbn [ap_pre ap_id]. split; [exact V|]. exists (in_pre ip), (in_posts ip). apply in_map_iff. exists ip. auto.
Qed.

Lemma graph_checked : validate i vs ps atoms infos ts = Ok tt <-> all_placed i vs ps /\ no_entry_after i vs ps atoms infos ts.
Proof.
  pose proof (keeps_delivers i vs ps t infos ts GO ROUTE KW KEEPS) as DEL.
  assert (ONE : forall pt v n j dests, routed_part i vs ps pt -> In v (ri_out i (ap_pre pt) (ap_id pt)) -> snd (ri_at i v) = OnCore n ->
    get_info infos (AllocModel.Mac v) (ap_id pt) = Ok j -> NoDup dests -> (forall x, In x dests <-> required env (ap_pre pt) (ap_id pt) v x) ->
    (search_route (machine_link (ri_mach i)) ts (km_key (i_km j)) (atoms v) (chip_of i v) dests = Ok tt <->
     forall q inn tb o, flies (ri_mach i) ts (km_key (i_km j)) (chip_of i v) None q inn ->
       get_table ts (fst q) (snd q) = Some tb -> In o (t_entries tb) -> contiguous o -> e_key o <> (km_key (i_km j) + N.of_nat (atoms v))%N)).
  { intros pt v n j dests RP V C J ND R. destruct (ATOMS pt v n j RP V C J) as (A1 & A2 & A3).
    assert (CORE : link_of (snd (ri_at i v)) = None) by (rewrite C; reflexivity).
    apply (checked_source i vs ps t pt v infos ts GO ROUTE RP V KEEPS WHOLE FINE KW j J CORE (atoms v) A1 A2 A3 dests ND).
    intros q p. rewrite R, (required_target pt v (q, p) RP). cbn [fst snd].
    destruct (own_key j (atoms v) A1 A2 A3) as [K KM]. destruct (DEL pt v RP V) as (j' & J' & D). assert (j' = j) by congruence. subst j'.
    specialize (D _ K KM). cbv zeta in D. rewrite CORE in D. destruct D as (D1 & D2 & _). split.
    - intros (w & T & AT). exact (D1 w q (OnCore p) T AT).
    - intros AR. exact (D2 (UNMIXED pt RP) q (OnCore p) I AR). }
  unfold validate. fold env. rewrite (validate_iff env _ ts infos checked_unique). split.
  - intros H.
    assert (P : forall pt, routed_part i vs ps pt -> validate_part env (machine_link (ri_mach i)) ts infos (as_vpart pt) = Ok tt).
    { intros pt RP. apply H. apply checked_parts. eauto. }
    assert (IN : forall pt, routed_part i vs ps pt -> In (as_vpart pt) (get_app_partitions env)) by (intros pt RP; apply checked_parts; eauto).
    split; [split|].
    + intros pt target x RP T X. apply placed_core.
      destruct (proj1 (validate_part_iff env _ ts infos _ (IN pt RP) checked_unique) (P pt RP)) as (A & _ & _).
      apply (A target (fst x) (map vertex_of (snd x)) T). subst env. cbn [valid_input ve_incoming as_vpart vp_source vp_id]. apply in_map_iff. exists x. auto.
    + intros pt ip w RP X E W. apply placed_core.
      destruct (proj1 (validate_part_iff env _ ts infos _ (IN pt RP) checked_unique) (P pt RP)) as (_ & A & _).
      apply (A (in_pre ip) (in_posts ip) w); [|exact W]. subst env. cbn [valid_input ve_internal as_vpart vp_source vp_id]. apply in_map_iff. exists ip. rewrite <- E. auto.
    + intros pt v n j q inn tb o RP V C J.
      destruct (proj1 (validate_part_iff env _ ts infos _ (IN pt RP) checked_unique) (P pt RP)) as (_ & _ & A).
      destruct (A v) as (chip & n' & j' & dests & PL & J' & ND & R & SE).
      * apply sends_out; [exact RP | exact V].
      * subst env. cbn [valid_input ve_virtual]. unfold is_virtual. rewrite C. reflexivity.
      * cbn [as_vpart vp_id vp_source] in J', R. assert (j' = j) by congruence. subst j'.
        assert (chip = chip_of i v) as -> by (apply placed_at in PL; unfold chip_of; rewrite PL; reflexivity).
        exact (proj1 (ONE pt v n j dests RP V C J ND R) SE q inn tb o).
  - intros [[A B] C] p HP. apply checked_parts in HP as HP'. destruct HP' as (pt & RP & ->).
    assert (A' : forall target tgt srcs, In target (vp_targets (as_vpart pt)) ->
      In (tgt, srcs) (ve_incoming env target (vp_source (as_vpart pt)) (vp_id (as_vpart pt))) -> exists x, ve_place env tgt = Ok x).
    { intros target tgt srcs T X. subst env. cbn [valid_input ve_incoming as_vpart vp_source vp_id ve_place] in *. apply in_map_iff in X. destruct X as (x & X1 & X2).
      injection X1 as <- _. apply placed_core. exact (A pt target x RP T X2). }
    assert (B' : forall m posts post, In (m, vp_id (as_vpart pt), posts) (ve_internal env (vp_source (as_vpart pt))) -> In post posts -> exists x, ve_place env post = Ok x).
    { intros m posts post X W. subst env. cbn [valid_input ve_internal as_vpart vp_source vp_id ve_place] in *. apply in_map_iff in X. destruct X as (ip & X1 & X2).
      injection X1 as _ X3 X4. subst posts. apply placed_core. exact (B pt ip post RP X2 X3 W). }
    apply (validate_part_iff env _ ts infos _ HP checked_unique). split; [exact A'|]. split; [exact B'|].
    intros m S V. apply (sends_out pt m RP) in S. destruct (required_list env _ HP checked_unique A' B' m) as (dests & ND & R).
    cbn [as_vpart vp_source vp_id] in *. destruct (DEL pt m RP S) as (j & J & _).
    assert (CO : exists n, snd (ri_at i m) = OnCore n).
    { subst env. cbn [valid_input ve_virtual] in V. unfold is_virtual in V. destruct (snd (ri_at i m)) as [n|l]; [eauto | discriminate]. }
    destruct CO as (n & CO). exists (chip_of i m), n, j, dests. subst env. cbn [valid_input ve_place ve_n_atoms].
    split; [unfold placement_of; rewrite CO; reflexivity|]. split; [exact J|]. split; [exact ND|]. split; [exact R|].
    apply (ONE pt m n j dests RP S CO J ND R). intros q inn tb o. exact (C pt m n j q inn tb o RP S CO J).
Qed.
End Graph.

(** * Tables that were made for a graph *)
Lemma good_checked : forall merged entry_eq flexible i vs ps extra e infos ts atoms, graph_ok i vs ps ->
  (forall t, route_application_graph i vs ps = Ok t -> allocate flexible e (keyed_parts i vs ps extra) = Ok infos -> good_keys merged i vs ps t infos) ->
  only_outgoing i vs ps -> (forall pt, routed_part i vs ps pt -> unmixed i pt) -> atoms_keyed i vs ps atoms infos ->
  make_tables merged entry_eq flexible i vs ps extra e = Ok (infos, ts) ->
  (validate i vs ps atoms infos ts = Ok tt <-> all_placed i vs ps /\ no_entry_after i vs ps atoms infos ts).
Proof.
  intros merged entry_eq flexible i vs ps extra e infos ts atoms GO GK ONLY UN AT H.
  destruct (chain_split _ _ _ _ _ _ _ _ _ _ H) as [t [R [A G]]]. destruct (GK t R A) as [KT KW].
  destruct (made_holds merged i vs ps t infos entry_eq R KT ts G) as [_ [FI HO]].
  exact (graph_checked i vs ps atoms t infos ts GO R (holds_keeps _ _ _ _ HO) (made_whole _ _ _ _ _ _ _ _ R KT G) FI KW ONLY UN AT).
Qed.

(** Keys that were allocated: enough for the atoms. *)
Lemma atoms_allocated : forall flexible i vs ps extra e infos atoms, graph_ok i vs ps -> keys_ok i vs ps extra e ->
  allocate flexible e (keyed_parts i vs ps extra) = Ok infos ->
  (forall pt v n, routed_part i vs ps pt -> In v (ri_out i (ap_pre pt) (ap_id pt)) -> snd (ri_at i v) = OnCore n ->
     1 <= atoms v /\ (N.of_nat (atoms v) <= ae_n_keys e v (ap_id pt))%N) ->
  atoms_keyed i vs ps atoms infos.
Proof.
  intros flexible i vs ps extra e infos atoms GO KO ALLOC AT pt v n j RP V C J. destruct (AT pt v n RP V C) as [A1 A2].
  pose proof (keys_env i vs ps extra e GO KO) as EO.
  assert (F : free_part e (keyed_parts i vs ps extra) (ap_pre pt) (ap_id pt)) by (split; [exact (keyed_In i vs ps extra pt GO RP) | exact (ko_free _ _ _ _ _ KO pt RP)]).
  assert (CO : counted e (ap_pre pt) (ap_id pt)) by (apply (ko_counted _ _ _ _ _ KO pt RP); intros Z; rewrite Z in V; destruct V).
  assert (O : In v (ae_outgoing e (ap_pre pt) (ap_id pt))) by (rewrite (ko_out _ _ _ _ _ KO); exact V).
  destruct (alloc_machine_block _ _ _ _ _ _ _ EO ALLOC F CO O) as (j' & ja & b & (J1 & J2 & J3 & _) & _ & _ & BN & _ & BB & M & _).
  apply get_info_spec in J. destruct J as (G1 & G2 & G3).
  assert (j' = j) by (eapply (alloc_unique flexible); eauto; congruence). subst j'.
  split; [exact A1|]. split; [lia|]. intros x X. apply M; lia.
Qed.

Lemma chain_checked : forall merged entry_eq flexible i vs ps extra e infos ts atoms, graph_ok i vs ps -> keys_ok i vs ps extra e ->
  (forall pt, routed_part i vs ps pt -> unmixed i pt) ->
  (forall pt v n, routed_part i vs ps pt -> In v (ri_out i (ap_pre pt) (ap_id pt)) -> snd (ri_at i v) = OnCore n ->
     1 <= atoms v /\ (N.of_nat (atoms v) <= ae_n_keys e v (ap_id pt))%N) ->
  make_tables merged entry_eq flexible i vs ps extra e = Ok (infos, ts) ->
  (validate i vs ps atoms infos ts = Ok tt <-> all_placed i vs ps /\ no_entry_after i vs ps atoms infos ts).
Proof.
  intros merged entry_eq flexible i vs ps extra e infos ts atoms GO KO UN AT H.
  destruct (chain_split _ _ _ _ _ _ _ _ _ _ H) as [t [R [A G]]].
  refine (good_checked _ _ _ _ _ _ _ _ _ _ _ GO _ (keys_only _ _ _ _ _ KO) UN (atoms_allocated _ _ _ _ _ _ _ _ GO KO A AT) H).
  intros t' R' A'. exact (keys_good _ _ _ _ _ _ _ _ _ GO KO R' A').
Qed.
Lemma user_checked : forall merged entry_eq flexible i vs ps extra e infos ts atoms, graph_ok i vs ps -> user_keys_ok flexible i vs ps extra e ->
  (merged = true -> mergeable flexible e (is_routed i vs ps)) -> (forall pt, routed_part i vs ps pt -> unmixed i pt) ->
  make_tables merged entry_eq flexible i vs ps extra e = Ok (infos, ts) -> atoms_keyed i vs ps atoms infos ->
  (validate i vs ps atoms infos ts = Ok tt <-> all_placed i vs ps /\ no_entry_after i vs ps atoms infos ts).
Proof.
  intros merged entry_eq flexible i vs ps extra e infos ts atoms GO UO MG UN H AT.
  refine (good_checked _ _ _ _ _ _ _ _ _ _ _ GO _ (uo_only _ _ _ _ _ _ UO) UN AT H).
  intros t' R' A'. exact (user_good _ _ _ _ _ _ _ _ _ GO UO MG R' A').
Qed.

(** An allocated block with a key to spare. *)
Lemma spare_keys : forall merged entry_eq flexible i vs ps extra e infos ts atoms, graph_ok i vs ps ->
  (forall t, route_application_graph i vs ps = Ok t -> allocate flexible e (keyed_parts i vs ps extra) = Ok infos -> good_keys merged i vs ps t infos) ->
  make_tables merged entry_eq flexible i vs ps extra e = Ok (infos, ts) -> atoms_keyed i vs ps atoms infos ->
  (forall pt v n j, routed_part i vs ps pt -> In v (ri_out i (ap_pre pt) (ap_id pt)) -> snd (ri_at i v) = OnCore n ->
     get_info infos (AllocModel.Mac v) (ap_id pt) = Ok j ->
     (km_key (i_km j) + N.of_nat (atoms v) < 2 ^ 32)%N /\ km_matches (km_key (i_km j) + N.of_nat (atoms v)) (i_km j)) ->
  no_entry_after i vs ps atoms infos ts.
Proof.
  intros merged entry_eq flexible i vs ps extra e infos ts atoms GO GK H AT SP pt v n j q inn tb o RP V C J F TB I CO E.
  destruct (chain_split _ _ _ _ _ _ _ _ _ _ H) as [t [R [A G]]]. destruct (GK t R A) as [KT KW].
  destruct (made_holds merged i vs ps t infos entry_eq R KT ts G) as [_ [FI HO]].
  destruct (AT pt v n j RP V C J) as (A1 & A2 & A3). destruct (SP pt v n j RP V C J) as [S1 S2].
  assert (CORE : link_of (snd (ri_at i v)) = None) by (rewrite C; reflexivity).
  destruct (own_key j (atoms v) A1 A2 A3) as [K KM].
  destruct (flown_whole i vs ps t pt v infos ts GO R RP V (holds_keeps _ _ _ _ HO) (made_whole _ _ _ _ _ _ _ _ R KT G) FI KW j J CORE _ q inn K KM F)
    as (tb' & o' & TB' & I' & _ & _ & AL).
  assert (tb' = tb) by congruence. subst tb'. rewrite Forall_forall in FI. destruct (FI tb (proj1 (get_table_Some _ _ _ _ TB))) as [E3 OR].
  rewrite Forall_forall in E3. destruct (E3 o I) as (OKO & _).
  assert (MO : entry_matches (km_key (i_km j) + N.of_nat (atoms v)) o) by (rewrite <- E; exact OKO).
  pose proof (orthogonal_unique _ _ _ _ OR I I' MO (AL _ S1 S2)) as <-. pose proof (AL _ K KM) as M0.
  apply (contiguous_matches o _ CO OKO K) in M0. lia.
Qed.
Lemma chain_spare : forall merged entry_eq flexible i vs ps extra e infos ts atoms, graph_ok i vs ps -> keys_ok i vs ps extra e ->
  (forall pt, routed_part i vs ps pt -> unmixed i pt) -> all_placed i vs ps ->
  (forall pt v n, routed_part i vs ps pt -> In v (ri_out i (ap_pre pt) (ap_id pt)) -> snd (ri_at i v) = OnCore n ->
     1 <= atoms v /\ (N.of_nat (atoms v) < ae_n_keys e v (ap_id pt))%N) ->
  make_tables merged entry_eq flexible i vs ps extra e = Ok (infos, ts) -> validate i vs ps atoms infos ts = Ok tt.
Proof.
  intros merged entry_eq flexible i vs ps extra e infos ts atoms GO KO UN AP AT H.
  assert (AT' : forall pt v n, routed_part i vs ps pt -> In v (ri_out i (ap_pre pt) (ap_id pt)) -> snd (ri_at i v) = OnCore n ->
     1 <= atoms v /\ (N.of_nat (atoms v) <= ae_n_keys e v (ap_id pt))%N).
  { intros pt v n RP V C. destruct (AT pt v n RP V C). split; [assumption | lia]. }
  apply (chain_checked _ _ _ _ _ _ _ _ _ _ _ GO KO UN AT' H). split; [exact AP|].
  destruct (chain_split _ _ _ _ _ _ _ _ _ _ H) as [t [R [A G]]].
  refine (spare_keys _ _ _ _ _ _ _ _ _ _ _ GO _ H (atoms_allocated _ _ _ _ _ _ _ _ GO KO A AT') _).
  { intros t' R' A'. exact (keys_good _ _ _ _ _ _ _ _ _ GO KO R' A'). }
  intros pt v n j RP V C J. destruct (AT pt v n RP V C) as [A1 A2].
  assert (M : atoms_keyed i vs ps (fun v => S (atoms v)) infos).
  { apply (atoms_allocated _ _ _ _ _ _ _ _ GO KO A). intros pt' v' n' RP' V' C'. destruct (AT pt' v' n' RP' V' C') as [B1 B2]. lia. }
  destruct (M pt v n j RP V C J) as (_ & M1 & M2). split; [lia | apply M2; lia].
Qed.
