(** The mapping of a whole graph: the placements meet what the router needs. *)
From Coq Require Import List Arith NArith ZArith QArith Bool Lia Permutation.
From Verif Require Import Base Dict PlacementsModel PlacementsProofs PlacerModel PlacerProofs PlacerFinal.
From Verif Require Import RouteSpec KeyMask AllocModel AllocProofs TablesModel TablesProofs GenModel GenProofs
  PairModel RangeModel OrderedModel
  TreeModel TreeProofs MachModel LdfModel LdfProofs PathModel PathProofs
  RPartModel RPartProofs BfsModel BfsProofs TargetsModel TargetsProofs ConvModel ConvProofs RouterModel RouterProofs RouterTables RouterPlan RouterFinal
  RouterSuccess ChainModel ChainProofs MapModel.
Import ListNotations.
Local Open Scope nat_scope.

(** * What is assumed *)
(** The two views of the machine agree; every working link has one back; the
    vectors lead to their destinations, and the repaired paths do not come back to
    a chip inside a loop. *)
Record machines_ok (i : mapin) : Prop := mkMachinesOk {
  mo_chip : forall c d, m_chip (pe_machine (mi_env i)) c = Some d -> is_chip (mi_mach i) (zxy c) = true;
  mo_link : forall a b, PlacerProofs.linked (mi_env i) a b -> m_chip (pe_machine (mi_env i)) b <> None -> exists l, works (mi_mach i) (zxy a) (l, zxy b);
  mo_back : forall p l q, is_chip (mi_mach i) p = true -> works (mi_mach i) p (l, q) -> exists l', works (mi_mach i) q (l', p);
  mo_first : is_chip (mi_mach i) (0, 0)%Z = true;
  mo_inside : forall p, is_chip (mi_mach i) p = true -> inside (mi_mach i) p;
  mo_vec : forall p q, is_chip (mi_mach i) p = true -> is_chip (mi_mach i) q = true ->
    let '(x, y, z) := mi_vec i p q in LdfProofs.place (mi_mach i) (fst p + x - z, snd p + y - z)%Z = q;
  mo_paths : forall p q l, is_chip (mi_mach i) p = true -> is_chip (mi_mach i) q = true ->
    repaired (mi_mach i) p (longest_dimension_first (mi_mach i) (mi_vec i p q) p) = Ok l -> no_return p l;
  mo_order : forall l, Permutation (mi_order i l) l }.

(** A vertex on the machine: not fixed, not placed before, all its machine vertices
    send and receive. *)
Definition on_machine (i : mapin) (l : list placement) (a : nat) : Prop :=
  let av := mi_av i a in
  not_fixed (mi_env i) av /\ not_system l av /\
  (forall v, In v (a_vertices av) <-> In v (flat_map fst (a_groups av))) /\
  (forall v, In v (a_vertices av) -> pe_virtual (mi_env i) v = false /\ mi_dev i v = None) /\
  mi_out i a = a_vertices av /\ mi_in i a = a_vertices av.
(** A device behind links of one chip: some of its machine vertices send, some
    receive. *)
Definition device (i : mapin) (a : nat) : Prop :=
  (exists c, forall v, In v (a_vertices (mi_av i a)) -> exists l, mi_dev i v = Some (c, l)) /\
  incl (mi_out i a) (a_vertices (mi_av i a)) /\ incl (mi_in i a) (a_vertices (mi_av i a)).

Record map_ok (i : mapin) (l : list placement) (vs : list nat) (ps : list apart) : Prop := mkMapOk {
  ma_env : wf_machine (mi_env i) /\ set_ok (mi_env i) /\ made l (mi_sys i);
  ma_sys : forall pl, In pl l -> m_chip (pe_machine (mi_env i)) (pl_x pl, pl_y pl) <> None;
  ma_machines : machines_ok i;
  ma_separate : separate (map (mi_av i) vs);
  ma_owner : forall a v, In v (a_vertices (mi_av i a)) <-> mi_app i v = Some a;
  ma_dev : forall v c n, mi_dev i v = Some (c, n) -> is_chip (mi_mach i) c = true /\ off_chip (mi_mach i) c (OnLink n);
  ma_out : forall a v, In v (mi_out i a) -> In v (a_vertices (mi_av i a));
  ma_vertices : forall a, In a vs -> on_machine i l a \/ device i a;
  ma_parts : NoDup (map (fun p => (ap_pre p, ap_id p)) ps);
  ma_ends : forall pt, In pt ps -> In (ap_pre pt) vs /\ mi_out i (ap_pre pt) <> [] /\ ap_posts pt <> [] /\
    forall a, In a (ap_posts pt) -> In a vs /\ mi_in i a <> [] }.

(** * Where vertices are *)
(** A machine vertex behind a link, or on the core it was placed on. *)
Definition sits (i : mapin) (p : placements) (v : nat) (q : Z * Z) (pl : place) : Prop :=
  (exists n, mi_dev i v = Some (q, n) /\ pl = OnLink n) \/
  (mi_dev i v = None /\ exists x, In x (abs p) /\ pl_v x = v /\ q = zxy (pl_x x, pl_y x) /\ pl = OnCore (pl_p x)).

Lemma verts_abs : forall p v pl, ok p -> (dget Nat.eqb (ps_verts p) v = Some pl <-> In pl (abs p) /\ pl_v pl = v).
Proof.
  intros p v pl O. pose proof (ok_vertices p O) as ND. destruct O as (cs & R). rewrite (r_verts _ _ _ R), dget_verts. split.
  - intros F. apply find_some in F. destruct F as [F1 F2]. unfold has_vertex in F2. apply Nat.eqb_eq in F2. auto.
  - intros [I <-]. revert I ND. generalize (abs p). induction l as [|x l IH]; intros I ND; [destruct I|]. cbn [find]. unfold has_vertex at 1.
    cbn [map] in ND. inversion ND as [|? ? N1 N2]; subst. destruct I as [->|I]; [now rewrite Nat.eqb_refl|].
    destruct (Nat.eqb (pl_v pl) (pl_v x)) eqn:E; [|auto]. apply Nat.eqb_eq in E. exfalso. apply N1. rewrite <- E. now apply in_map.
Qed.

Section Mapped.
Variables (i : mapin) (l : list placement) (vs : list nat) (ps : list apart) (p : placements).
Hypothesis OK : map_ok i l vs ps.
Hypothesis PLACED : place_graph (mi_env i) (mi_sys i) (map (mi_av i) vs) = Ok p.
Let e := mi_env i.
Let m := mi_mach i.

Lemma mapped_ok : ok p.
Proof.
  destruct (ma_env _ _ _ _ OK) as (W & S & M). exact (proj1 (graph_result e (mi_sys i) l W S M False _ p PLACED ltac:(intros []))).
Qed.
Lemma sits_located : forall v q pl, sits i p v q pl -> located i p v = (q, pl).
Proof.
  intros v q pl [[n [D ->]]|[D [x [I [V [-> ->]]]]]]; unfold located; rewrite D; [reflexivity|].
  rewrite (proj2 (verts_abs p v x mapped_ok) (conj I V)). reflexivity.
Qed.
Lemma placed_chip : forall x, In x (abs p) -> exists d, m_chip (pe_machine e) (pl_x x, pl_y x) = Some d.
Proof.
  intros x I. destruct (ma_env _ _ _ _ OK) as (W & S & M). destruct (place_cores e (mi_sys i) l W S M _ p PLACED) as (_ & _ & m0 & E & P).
  rewrite E in I. apply in_app_iff in I. destruct I as [I|I].
  - pose proof (ma_sys _ _ _ _ OK x I) as X. unfold e. destruct (m_chip (pe_machine (mi_env i)) (pl_x x, pl_y x)); [eauto | congruence].
  - destruct (P x I) as (d & D & _). eauto.
Qed.
Lemma located_chip : forall v, is_chip m (fst (located i p v)) = true.
Proof.
  intros v. pose proof (ma_machines _ _ _ _ OK) as MO. unfold located. destruct (mi_dev i v) as [[c n]|] eqn:D; [exact (proj1 (ma_dev _ _ _ _ OK v c n D))|].
  destruct (dget Nat.eqb (ps_verts p) v) as [x|] eqn:G; [|exact (mo_first i MO)]. cbn [fst].
  apply (verts_abs p v x mapped_ok) in G. destruct (placed_chip x (proj1 G)) as [d C]. exact (mo_chip i MO _ d C).
Qed.
Lemma vertex_sits : forall a v, In a vs -> In v (a_vertices (mi_av i a)) -> exists q pl, sits i p v q pl.
Proof.
  intros a v A V. destruct (ma_vertices _ _ _ _ OK a A) as [(HF & NS & G & R & _)|((c & D) & _)].
  - destruct (R v V) as [VR VD]. apply G in V. apply in_flat_map in V. destruct V as [g [G1 G2]].
    destruct (ma_env _ _ _ _ OK) as (W & S & M).
    destruct (place_all e (mi_sys i) l W S M _ p PLACED (mi_av i a) g v (in_map _ _ _ A) G1 G2 VR) as (x & X1 & X2).
    eexists. eexists. right. split; [exact VD|]. exists x. auto.
  - destruct (D v V) as [n E]. eexists. eexists. left. exists n. split; [exact E | reflexivity].
Qed.
Lemma vertex_at : forall a v q pl, In a vs -> In v (a_vertices (mi_av i a)) -> (located i p v = (q, pl) <-> sits i p v q pl).
Proof.
  intros a v q pl A V. split; [|apply sits_located]. intros L. destruct (vertex_sits a v A V) as [q' [pl' X]]. pose proof (sits_located v q' pl' X) as Y.
  rewrite L in Y. injection Y as -> ->. exact X.
Qed.

(** * The chips of an application vertex *)
Lemma chips_joined : forall a vl, In a vs -> (forall v, In v vl -> In v (a_vertices (mi_av i a))) ->
  (on_machine i l a -> vl = a_vertices (mi_av i a)) -> joined m (map (fun v => fst (located i p v)) vl).
Proof.
  intros a vl A SUB ALL. pose proof (ma_machines _ _ _ _ OK) as MO.
  destruct (ma_vertices _ _ _ _ OK a A) as [OM|((c & D) & _)].
  - specialize (ALL OM). subst vl. clear SUB. destruct OM as (HF & NS & G & R & _). apply has_fixed_not in HF.
    destruct (ma_env _ _ _ _ OK) as (W & S & M).
    destruct (place_connected e (mi_sys i) l W S M _ p PLACED (ma_separate _ _ _ _ OK) (mi_av i a) (in_map _ _ _ A) HF NS) as (start & ST).
    set (L := map (fun v => fst (located i p v)) (a_vertices (mi_av i a))).
    assert (CH : forall q, In q L -> exists c, q = zxy c /\ PlacerFinal.chip_of p (mi_av i a) c).
    { intros q Q. apply in_map_iff in Q. destruct Q as [v [<- V]]. destruct (R v V) as [VR VD].
      destruct (vertex_sits a v A V) as [q' [pl X]]. pose proof (sits_located _ _ _ X) as Y.
      destruct X as [[n [X _]]|[_ [x [X1 [X2 [-> ->]]]]]]; [congruence|].
      rewrite Y. exists (pl_x x, pl_y x). split; [reflexivity|]. exists x. split; [exact X1|]. split; [|reflexivity]. rewrite X2. apply G. exact V. }
    assert (HC : forall c, PlacerFinal.chip_of p (mi_av i a) c -> In (zxy c) L /\ is_chip m (zxy c) = true /\ m_chip (pe_machine e) c <> None).
    { intros c (x & X1 & X2 & <-). apply G in X2. destruct (R _ X2) as [VR VD]. split; [|split].
      - apply in_map_iff. exists (pl_v x). split; [|exact X2].
        assert (Y : sits i p (pl_v x) (zxy (pl_x x, pl_y x)) (OnCore (pl_p x))) by (right; split; [exact VD|]; exists x; auto).
        rewrite (sits_located _ _ _ Y). reflexivity.
      - destruct (placed_chip x X1) as [d C]. exact (mo_chip i MO _ d C).
      - destruct (placed_chip x X1) as [d C]. congruence. }
    assert (TO : forall c, PlacerFinal.chip_of p (mi_av i a) start -> reach e (PlacerFinal.chip_of p (mi_av i a)) start c ->
      (exists w, rwalk m L (zxy start) w /\ last_xy (zxy start) w = zxy c) /\ (exists w, rwalk m L (zxy c) w /\ last_xy (zxy c) w = zxy start) /\
      PlacerFinal.chip_of p (mi_av i a) c).
    { clear ST. intros c SC RC. revert SC. induction RC as [x|x b c RC IH LK US]; intros SC.
      - split; [exists []; repeat constructor|]. split; [exists []; repeat constructor | exact SC].
      - destruct (IH SC) as [[w1 [[W1 F1] L1]] [[w2 [[W2 F2] L2]] BC]]. destruct (HC b BC) as [B1 [B2 B3]]. destruct (HC c US) as [C1 [C2 C3]].
        destruct (mo_link i MO b c LK C3) as [n WK]. destruct (mo_back i MO _ n _ B2 WK) as [n' WK'].
        split; [|split; [|exact US]].
        + exists (w1 ++ [(n, zxy c)]). split; [split|].
          * apply walk_app. split; [exact W1|]. rewrite L1. split; [exact WK | exact I].
          * apply Forall_app. split; [exact F1|]. constructor; [exact C1 | constructor].
          * rewrite last_xy_app, L1. reflexivity.
        + exists ((n', zxy b) :: w2). split; [split|].
          * split; [exact WK' | exact W2].
          * constructor; [exact B1 | exact F2].
          * rewrite last_cons. exact L2. }
    intros q1 q2 Q1 Q2. destruct (CH q1 Q1) as [c1 [-> C1]]. destruct (CH q2 Q2) as [c2 [-> C2]].
    destruct (ST c1 C1) as [SC R1]. destruct (ST c2 C2) as [_ R2].
    destruct (TO c1 SC R1) as [_ [[w1 [[W1 F1] L1]] _]]. destruct (TO c2 SC R2) as [[w2 [[W2 F2] L2]] _].
    exists (w1 ++ w2). split; [split|].
    + apply walk_app. split; [exact W1|]. rewrite L1. exact W2.
    + apply Forall_app. auto.
    + rewrite last_xy_app, L1. exact L2.
  - intros q1 q2 Q1 Q2. apply in_map_iff in Q1, Q2. destruct Q1 as [v1 [<- V1]], Q2 as [v2 [<- V2]].
    destruct (D v1 (SUB v1 V1)) as [n1 E1], (D v2 (SUB v2 V2)) as [n2 E2]. exists []. split; [repeat constructor|].
    unfold located. rewrite E1, E2. reflexivity.
Qed.

(** * The router's assumptions *)
Let r := router_input i p.
Lemma only_parts : app_partitions r vs ps = ps.
Proof.
  unfold app_partitions, r, router_input. cbn [ri_internal fold_left].
  enough (X : forall vs st, fold_left (fun (st : list apart * list (nat * nat)) (v : nat) => st) vs st = st) by (rewrite X; reflexivity).
  clear. intros us; induction us as [|v us IH]; intros st; [reflexivity|]. exact (IH st).
Qed.
Lemma routed_in : forall pt, routed_part r vs ps pt <-> In pt ps.
Proof. intros pt. split; [|left; assumption]. intros [H|[_ [v [ip [_ [[] _]]]]]]. exact H. Qed.

Lemma mapped_graph : graph_ok r vs ps.
Proof.
  pose proof (ma_machines _ _ _ _ OK) as MO. constructor; [constructor| |].
  - exact (ma_owner _ _ _ _ OK).
  - intros b k v V. apply (ma_owner _ _ _ _ OK). exact (ma_out _ _ _ _ OK b v V).
  - intros v. unfold RouterModel.chip_of, r, router_input. cbn [ri_mach ri_at]. unfold located.
    destruct (mi_dev i v) as [[c n]|] eqn:D; [exact (proj2 (ma_dev _ _ _ _ OK v c n D))|].
    destruct (dget Nat.eqb (ps_verts p) v); exact I.
  - intros v. apply (mo_inside i MO). apply located_chip.
  - intros v w. apply (mo_vec i MO); apply located_chip.
  - intros v w l'. apply (mo_paths i MO); apply located_chip.
  - exact (mo_order i MO).
  - exact (ma_parts _ _ _ _ OK).
  - intros pt RP. apply routed_in in RP. destruct (ma_ends _ _ _ _ OK pt RP) as (A & NE & _). constructor.
    + intros v V. destruct (ma_vertices _ _ _ _ OK _ A) as [(_ & _ & _ & _ & O & _)|((c & D) & SO & _)].
      * exists v. split; [left|reflexivity]. cbn [r router_input ri_out]. rewrite O. exact V.
      * cbn [r router_input ri_out]. destruct (mi_out i (ap_pre pt)) as [|v' rest] eqn:E; [congruence|]. exists v'. split; [left; left; reflexivity|].
        unfold RouterModel.chip_of. cbn [ri_at]. destruct (D v V) as [n1 E1].
        destruct (D v') as [n2 E2]; [apply SO; left; reflexivity|]. cbn [r router_input ri_at]. unfold located. rewrite E1, E2. reflexivity.
    + intros ip [].
    + intros target x src _ X S. cbn [r router_input ri_in] in X. apply in_map_iff in X. destruct X as [w [<- _]]. cbn [snd] in S.
      destruct S as [<-|[]]. left. reflexivity.
Qed.
Lemma in_vertices : forall a v, In a vs -> In v (mi_in i a) -> In v (a_vertices (mi_av i a)).
Proof.
  intros a v A V. destruct (ma_vertices _ _ _ _ OK a A) as [(_ & _ & _ & _ & _ & E)|(_ & _ & S)]; [rewrite <- E; exact V | exact (S v V)].
Qed.
Lemma mapped_fits : forall pt, routed_part r vs ps pt -> part_fit r pt.
Proof.
  intros pt RP. apply routed_in in RP. destruct (ma_ends _ _ _ _ OK pt RP) as (A & NE & PN & PA). constructor.
  - left. exact PN.
  - intros target T. destruct (PA target T) as [_ N]. cbn [r router_input ri_in]. intros X. apply map_eq_nil in X. contradiction.
  - intros v _. apply located_chip.
  - intros target x _ _. apply located_chip.
  - apply (chips_joined (ap_pre pt)); auto.
  - intros target T _. destruct (PA target T) as [TV _]. cbn [r router_input ri_in]. rewrite map_map. cbn [fst].
    apply (chips_joined target); [exact TV| |].
    + intros v. apply in_vertices. exact TV.
    + intros (_ & _ & _ & _ & _ & E). exact E.
  - intros x T X. cbn [r router_input ri_in] in X. apply in_map_iff in X. destruct X as [w [<- X]]. exists w. split; [|reflexivity].
    apply in_vertices; assumption.
  - intros ip w [].
  - intros t1 x1 t2 x2 w _ _ _ _ X2 S. cbn [r router_input ri_in] in X2. apply in_map_iff in X2. destruct X2 as [u [<- _]]. cbn [snd] in S.
    destruct S as [S|[]]. discriminate S.
Qed.
Lemma mapped_unmixed : forall pt, unmixed r pt.
Proof.
  intros pt t1 x1 t2 x2 w _ _ _ _ X2 S. cbn [r router_input ri_in] in X2. apply in_map_iff in X2. destruct X2 as [u [<- _]]. cbn [snd] in S.
  destruct S as [S|[]]. discriminate S.
Qed.

(** The targets of a machine vertex are the incoming vertices of the partition's
    target vertices. *)
Lemma mapped_target : forall pt v w, In v (mi_out i (ap_pre pt)) ->
  (target_of r pt v w <-> exists a, In a (ap_posts pt) /\ In w (mi_in i a)).
Proof.
  intros pt v w V. split.
  - intros [[target [x [src [T [X [E [S O]]]]]]]|[ip [[] _]]]. cbn [r router_input ri_in] in X. apply in_map_iff in X. destruct X as [u [<- X]].
    exists target. cbn [fst] in E. subst u. auto.
  - intros [a [A W]]. left. exists a, (w, [RPartModel.App (ap_pre pt)]), (RPartModel.App (ap_pre pt)). split; [exact A|].
    split; [apply (in_map (fun v => (v, [RPartModel.App (ap_pre pt)]))); exact W|]. split; [reflexivity|]. split; [left; reflexivity|].
    right. exists (ap_pre pt). auto.
Qed.
End Mapped.

(** * The keys *)
Record map_keys (i : mapin) (ps : list apart) (extra : list (nat * nat)) (e : graph_env) : Prop := mkMapKeys {
  mk_out : forall a k, ae_outgoing e a k = mi_out i a;
  mk_free : forall pt, In pt ps -> ae_app_fixed e (ap_pre pt) (ap_id pt) = None;
  mk_counted : forall pt, In pt ps -> counted e (ap_pre pt) (ap_id pt);
  mk_extra : forall a k, In (a, k) extra -> ae_app_fixed e a k <> None -> mi_out i a <> [] }.

Lemma mapped_keys : forall i l vs ps extra e p, map_ok i l vs ps -> map_keys i ps extra e -> keys_ok (router_input i p) vs ps extra e.
Proof.
  intros i l vs ps extra e p OK MK. constructor.
  - exact (mk_out _ _ _ _ MK).
  - intros pt RP. apply routed_in in RP. exact (mk_free _ _ _ _ MK pt RP).
  - intros pt RP _. apply routed_in in RP. exact (mk_counted _ _ _ _ MK pt RP).
  - intros pt target x v _ _ X S. cbn [router_input ri_in] in X. apply in_map_iff in X. destruct X as [u [<- _]]. cbn [snd] in S.
    destruct S as [S|[]]. discriminate S.
  - intros pt ip _ [].
  - exact (mk_extra _ _ _ _ MK).
Qed.

(** * The result *)
(** The packets that a machine vertex sends with a key it was given for a partition
    arrive at the places of the incoming vertices of the partition's targets, and
    at no other core or device; no chip gets one twice. *)
Definition all_delivered (i : mapin) (ps : list apart) (p : placements) (infos : list info) (ts : list table) : Prop :=
  forall pt v, In pt ps -> In v (mi_out i (ap_pre pt)) ->
  exists home from j, sits i p v home from /\ get_info infos (AllocModel.Mac v) (ap_id pt) = Ok j /\
    forall key, (key < 2 ^ 32)%N -> km_matches key (i_km j) ->
      (forall q pl, off_chip (mi_mach i) q pl ->
        (arrives (mi_mach i) ts key home (link_of from) q pl <-> exists a w, In a (ap_posts pt) /\ In w (mi_in i a) /\ sits i p w q pl)) /\
      (forall c inn n q c' inn' n', let here := flies (mi_mach i) ts key home (link_of from) in
        here c inn -> has_link (sends ts key c inn) n = true -> works (mi_mach i) c (n, q) ->
        q <> home /\ (here c' inn' -> has_link (sends ts key c' inn') n' = true -> works (mi_mach i) c' (n', q) ->
          c' = c /\ inn' = inn /\ n' = n)).

Lemma exact_all : forall i l vs ps p infos ts, map_ok i l vs ps -> place_graph (mi_env i) (mi_sys i) (map (mi_av i) vs) = Ok p ->
  exact_delivery (router_input i p) vs ps infos ts -> all_delivered i ps p infos ts.
Proof.
  intros i l vs ps p infos ts OK PL ED pt v P V. destruct (ma_ends _ _ _ _ OK pt P) as (A & _ & _ & PA).
  pose proof (ma_out _ _ _ _ OK _ v V) as VA. destruct (vertex_sits i l vs ps p OK PL _ v A VA) as [home [from S]]. exists home, from.
  destruct (ED pt v (proj2 (routed_in i vs ps p pt) P) V) as [j [J D]]. exists j. split; [exact S|]. split; [exact J|].
  pose proof (sits_located i l vs ps p OK PL v home from S) as L. intros key K M. destruct (D key K M) as [D1 [D2 D3]].
  unfold RouterModel.chip_of in D1, D2, D3. cbn [router_input ri_at ri_mach] in D1, D2, D3. rewrite L in D1, D2, D3. cbn [fst snd] in D1, D2, D3. split.
  - intros q pl O. split.
    + intros X. destruct (D2 (mapped_unmixed i p pt) q pl O X) as [w [T E]]. apply mapped_target in T; [|exact V]. destruct T as [a [T1 T2]].
      exists a, w. split; [exact T1|]. split; [exact T2|]. destruct (PA a T1) as [AV _].
      apply (vertex_at i l vs ps p OK PL a); [exact AV | exact (in_vertices i l vs ps OK a w AV T2) | exact E].
    + intros [a [w [T1 [T2 E]]]]. apply (D1 w q pl); [apply mapped_target; eauto | apply (sits_located i l vs ps p OK PL); exact E].
  - exact D3.
Qed.

Lemma map_split : forall merged entry_eq flexible i vs ps extra e p infos ts, map_graph merged entry_eq flexible i vs ps extra e = Ok (p, infos, ts) ->
  place_graph (mi_env i) (mi_sys i) (map (mi_av i) vs) = Ok p /\ make_tables merged entry_eq flexible (router_input i p) vs ps extra e = Ok (infos, ts).
Proof.
  intros merged entry_eq flexible i vs ps extra e p infos ts H. unfold map_graph in H. apply bind_Ok_inv in H. destruct H as [p' [P H]].
  apply bind_Ok_inv in H. destruct H as [[a b] [M H]]. cbn [fst snd] in H. injection H as -> -> ->. auto.
Qed.

Lemma map_delivers : forall merged entry_eq flexible i l vs ps extra e p infos ts, map_ok i l vs ps -> map_keys i ps extra e ->
  map_graph merged entry_eq flexible i vs ps extra e = Ok (p, infos, ts) -> all_delivered i ps p infos ts.
Proof.
  intros merged entry_eq flexible i l vs ps extra e p infos ts OK MK H. apply map_split in H. destruct H as [PL MT].
  apply (exact_all i l vs); [exact OK | exact PL|]. pose proof (mapped_graph i l vs ps p OK PL) as GO. pose proof (mapped_keys i l vs ps extra e p OK MK) as KO.
  destruct (chain_split _ _ _ _ _ _ _ _ _ _ MT) as [t [R [AL G]]].
  destruct (chain_delivers merged entry_eq flexible _ vs ps extra e t infos GO KO R AL) as [ts' [T D]]. assert (ts' = ts) by congruence. subst ts'. exact D.
Qed.

Lemma map_pair : forall merged entry_eq flexible i l vs ps extra e p infos ts c_sort n_routes target as_needed ordered accept_overflow out,
  map_ok i l vs ps -> map_keys i ps extra e -> map_graph merged entry_eq flexible i vs ps extra e = Ok (p, infos, ts) ->
  compress_tables (fun t => compress_table ordered c_sort n_routes (t_entries t)) target as_needed ordered accept_overflow ts [] = Ok out ->
  all_delivered i ps p infos out.
Proof.
  intros merged entry_eq flexible i l vs ps extra e p infos ts c_sort n_routes target as_needed ordered accept_overflow out OK MK H C.
  apply map_split in H. destruct H as [PL MT]. apply (exact_all i l vs); [exact OK | exact PL|].
  exact (chain_pair _ _ _ _ _ _ _ _ _ _ _ _ _ _ _ _ _ (mapped_graph i l vs ps p OK PL) (mapped_keys i l vs ps extra e p OK MK) MT C).
Qed.
Lemma map_range : forall merged entry_eq flexible i l vs ps extra e p infos ts as_far target accept_overflow out,
  map_ok i l vs ps -> map_keys i ps extra e -> map_graph merged entry_eq flexible i vs ps extra e = Ok (p, infos, ts) ->
  range_compressor as_far target accept_overflow ts = Ok out -> all_delivered i ps p infos out.
Proof.
  intros merged entry_eq flexible i l vs ps extra e p infos ts as_far target accept_overflow out OK MK H C.
  apply map_split in H. destruct H as [PL MT]. apply (exact_all i l vs); [exact OK | exact PL|].
  exact (chain_range _ _ _ _ _ _ _ _ _ _ _ _ _ _ (mapped_graph i l vs ps p OK PL) (mapped_keys i l vs ps extra e p OK MK) MT C).
Qed.
Lemma map_covering : forall entry_eq flexible i l vs ps extra e p infos ts target (as_needed accept_overflow : bool) out,
  map_ok i l vs ps -> map_keys i ps extra e -> map_graph false entry_eq flexible i vs ps extra e = Ok (p, infos, ts) ->
  compress_tables (fun t => oc_compress_table (t_entries t) (if as_needed then Some (target (t_x t) (t_y t)) else None))
    target as_needed true accept_overflow ts [] = Ok out ->
  all_delivered i ps p infos out.
Proof.
  intros entry_eq flexible i l vs ps extra e p infos ts target as_needed accept_overflow out OK MK H C.
  apply map_split in H. destruct H as [PL MT]. apply (exact_all i l vs); [exact OK | exact PL|].
  exact (chain_covering _ _ _ _ _ _ _ _ _ _ _ _ _ (mapped_graph i l vs ps p OK PL) (mapped_keys i l vs ps extra e p OK MK) MT C).
Qed.

(** When the placer finds room, and the keys fit into 32 bits, everything is made. *)
Lemma map_succeeds : forall merged entry_eq flexible i l vs ps extra e p, map_ok i l vs ps -> map_keys i ps extra e ->
  connected (mi_mach i) -> (forall a, NoDup (mi_out i a)) ->
  let parts := map (fun p => (ap_pre p, ap_id p)) ps ++ extra in
  no_fixed e parts -> fields_fit e parts -> (forall a k, In (a, k) extra -> mi_out i a <> [] -> counted e a k) ->
  place_graph (mi_env i) (mi_sys i) (map (mi_av i) vs) = Ok p ->
  exists infos ts, map_graph merged entry_eq flexible i vs ps extra e = Ok (p, infos, ts).
Proof.
  intros merged entry_eq flexible i l vs ps extra e p OK MK CO ND parts NF FF CX PL.
  assert (KP : keyed_parts (router_input i p) vs ps extra = parts) by (unfold keyed_parts, parts; rewrite only_parts; reflexivity).
  destruct (chain_succeeds merged entry_eq flexible (router_input i p) vs ps extra e) as [infos [ts T]].
  - exact (mapped_graph i l vs ps p OK PL).
  - exact (mapped_keys i l vs ps extra e p OK MK).
  - exact CO.
  - exact (mapped_fits i l vs ps p OK PL).
  - rewrite KP. exact NF.
  - rewrite KP. exact FF.
  - intros a k _. exact (ND a).
  - exact CX.
  - exists infos, ts. unfold map_graph. rewrite PL. cbn [bind]. rewrite T. reflexivity.
Qed.

(** A machine vertex on a core gets the packets it is a target of, and no others. *)
Lemma delivered_placed : forall i ps p infos ts, ok p -> all_delivered i ps p infos ts ->
  forall pt v, In pt ps -> In v (mi_out i (ap_pre pt)) ->
  exists home from j, sits i p v home from /\ get_info infos (AllocModel.Mac v) (ap_id pt) = Ok j /\
    forall key x, (key < 2 ^ 32)%N -> km_matches key (i_km j) -> In x (abs p) -> mi_dev i (pl_v x) = None ->
      (arrives (mi_mach i) ts key home (link_of from) (zxy (pl_x x, pl_y x)) (OnCore (pl_p x)) <->
       exists a, In a (ap_posts pt) /\ In (pl_v x) (mi_in i a)).
Proof.
  intros i ps p infos ts O AD pt v P V. destruct (AD pt v P V) as [home [from [j [S [J D]]]]]. exists home, from, j. split; [exact S|]. split; [exact J|].
  intros key x K M X DX. destruct (D key K M) as [D1 _]. rewrite (D1 _ (OnCore (pl_p x)) I). split.
  - intros [a [w [A [W [[n [_ E]]|[_ [y [Y1 [Y2 [Y3 Y4]]]]]]]]]]; [discriminate E|]. exists a. split; [exact A|].
    assert (y = x).
    { unfold zxy in Y3. cbn [fst snd] in Y3. injection Y3 as E1 E2. injection Y4 as E3. apply Nat2Z.inj in E1, E2.
      pose proof (ok_cores p O) as ND. assert (T : triple x = triple y) by (unfold triple; congruence). revert X Y1 ND T. clear. generalize (abs p).
      induction l as [|z l IH]; intros X Y ND T; [destruct X|]. cbn [map] in ND. inversion ND as [|? ? N1 N2]; subst. destruct X as [->|X], Y as [->|Y]; auto.
      - exfalso. apply N1. rewrite T. now apply in_map.
      - exfalso. apply N1. rewrite <- T. now apply in_map. }
    subst y. rewrite Y2. exact W.
  - intros [a [A W]]. exists a, (pl_v x). split; [exact A|]. split; [exact W|]. right. split; [exact DX|]. exists x. auto.
Qed.
Lemma map_placed : forall merged entry_eq flexible i l vs ps extra e p infos ts, map_ok i l vs ps ->
  map_graph merged entry_eq flexible i vs ps extra e = Ok (p, infos, ts) -> ok p.
Proof.
  intros merged entry_eq flexible i l vs ps extra e p infos ts OK H. apply map_split in H. exact (mapped_ok i l vs ps p OK (proj1 H)).
Qed.
