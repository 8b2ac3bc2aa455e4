(** Properties of the route validity checker: C46, C47, C76-C79. *)
From Coq Require Import List Arith NArith ZArith Bool Lia.
From Verif Require Import Base RouteSpec KeyMask TablesModel AllocModel GenModel TreeModel MachModel
  ValidModel ValidProofs.
Import ListNotations.

(** C46: a source that passes the check.  Packets are copied by the hardware as
    [walk] says; all the keys whose entry was checked reach the destinations and
    nothing else, and no router is entered twice.  The key of the first atom needs
    no condition on the masks. *)
Theorem C46_search_sound : forall link tables key n src dests i,
  search_route link tables key n src dests = Ok tt ->
  (forall t, In t tables -> Forall entry_ok (t_entries t)) ->
  tables_closed link tables ->
  i < n ->
  i = 0 \/ (forall t, In t tables -> Forall contiguous (t_entries t) \/
               (orthogonal (t_entries t) /\ (t_x t, t_y t) <> src)) ->
  visits_once link tables (key + N.of_nat i) src /\
  forall d, delivered link tables (key + N.of_nat i) src d <-> In d dests.
Proof. intros. eapply search_sound; eauto. Qed.
Print Assumptions C46_search_sound.

(** C46: the whole check. *)
Theorem C46_validate_sound : forall env link tables infos,
  validate_routes env link tables infos = Ok tt ->
  unique_parts env ->
  (forall t, In t tables -> Forall entry_ok (t_entries t)) ->
  tables_closed link tables ->
  forall a id m, sends env a id m -> ve_virtual env m = false ->
  exists chip core i, ve_place env m = Ok (chip, core) /\ get_info infos (Mac m) id = Ok i /\
    forall j, j < ve_n_atoms env m ->
      j = 0 \/ (forall t, In t tables -> Forall contiguous (t_entries t)) ->
      visits_once link tables (km_key (i_km i) + N.of_nat j) chip /\
      forall d, delivered link tables (km_key (i_km i) + N.of_nat j) chip d <-> required env a id m d.
Proof.
  intros env link tables infos H U OK CL a id m S V.
  destruct (sends_part env a id m S) as (p & HP & <- & <-).
  pose proof (proj1 (validate_iff env link tables infos U) H p HP) as HV.
  apply (validate_part_iff env link tables infos p HP U) in HV. destruct HV as (_ & _ & HV).
  destruct (HV m S V) as (chip & q & i & ds & H1 & H2 & H3 & H4 & H5).
  exists chip, q, i. split; [assumption|]. split; [assumption|]. intros j Hj HC.
  destruct (search_sound link tables OK _ _ _ _ j H5 CL Hj) as (A & B).
  { destruct HC as [HC|HC]; [auto|right; auto]. }
  split; [assumption|]. intro d. rewrite B. apply H4.
Qed.
Print Assumptions C46_validate_sound.

(** C46: a trace ends, also in tables with cycles. *)
Theorem C46_search_ends : forall link tables key n src dests,
  search_route link tables key n src dests = Ok tt \/
  search_route link tables key n src dests = Err RoutingException \/
  search_route link tables key n src dests = Err ConfigurationException.
Proof.
  intros. destruct (search_route link tables key n src dests) as [[]|ex] eqn:E; [auto|].
  apply search_err in E. destruct E as [-> | ->]; auto.
Qed.
Print Assumptions C46_search_ends.

(** C47: the entry that is located is the one the router uses; the search
    refuses exactly if an entry with a contiguous mask matches some but not all
    of the keys [key] to [key + n], the last being one too far. *)
Theorem C47_locate_exact : forall t key n e,
  Forall entry_ok (t_entries t) -> 1 <= n -> (key + N.of_nat n <= 2 ^ 32)%N ->
  (locate_entry t key n = Ok e <->
   first_match (t_entries t) key = Some e /\
   forall e', In e' (t_entries t) -> contiguous e' ->
     (forall i, i < n -> entry_matches (key + N.of_nat i) e') \/
     (forall i, i <= n -> (key + N.of_nat i < 2 ^ 32)%N -> ~ entry_matches (key + N.of_nat i) e')).
Proof.
  intros t key n e OK Hn HB. unfold locate_entry. rewrite locate_loop_iff by assumption.
  rewrite Forall_forall in *. split; intros (H1 & H2); split; auto.
  - intros e' He' C. destruct (proj1 (covers_or_misses_iff key n e' (OK e' He') HB ltac:(lia)) (H2 e' He') C)
      as [X|[(_ & X)|X]]; auto. lia.
  - intros e' He'. apply covers_or_misses_iff; auto; [lia|]. intro C.
    destruct (H2 e' He' C); auto.
Qed.
Print Assumptions C47_locate_exact.

(** C47: correct tables are accepted if no entry for other sources matches the key
    that follows the keys of the source. *)
Theorem C47_search_accepts : forall link tables key n src dests,
  (forall t, In t tables -> Forall entry_ok (t_entries t)) ->
  1 <= n -> (key + N.of_nat n <= 2 ^ 32)%N ->
  visits_once link tables key src ->
  NoDup dests -> (forall d, delivered link tables key src d <-> In d dests) ->
  (forall way c, walk link tables key src way c ->
     exists t e, get_table tables (fst c) (snd c) = Some t /\
       first_match (t_entries t) key = Some e /\
       (forall i, i < n -> entry_matches (key + N.of_nat i) e) /\
       forall e', In e' (t_entries t) -> contiguous e' ->
         (forall i, i < n -> entry_matches (key + N.of_nat i) e') \/
         (forall i, i <= n -> (key + N.of_nat i < 2 ^ 32)%N -> ~ entry_matches (key + N.of_nat i) e')) ->
  search_route link tables key n src dests = Ok tt.
Proof. intros. apply search_complete; auto. Qed.
Print Assumptions C47_search_accepts.

(** C47: the whole check accepts, too. *)
Theorem C47_validate_accepts : forall env link tables infos,
  unique_parts env ->
  (forall t, In t tables -> Forall entry_ok (t_entries t)) ->
  (forall p target tgt srcs, In p (ve_parts env) -> In target (vp_targets p) ->
     In (tgt, srcs) (ve_incoming env target (vp_source p) (vp_id p)) -> exists x, ve_place env tgt = Ok x) ->
  (forall a m id posts post, In (m, id, posts) (ve_internal env a) -> In post posts ->
     exists x, ve_place env post = Ok x) ->
  (forall a id m, sends env a id m -> ve_virtual env m = false ->
     exists chip core i dests, ve_place env m = Ok (chip, core) /\ get_info infos (Mac m) id = Ok i /\
       let key := km_key (i_km i) in let n := ve_n_atoms env m in
       NoDup dests /\ (forall d, In d dests <-> required env a id m d) /\
       1 <= n /\ (key + N.of_nat n <= 2 ^ 32)%N /\
       visits_once link tables key chip /\
       (forall d, delivered link tables key chip d <-> required env a id m d) /\
       forall way c, walk link tables key chip way c ->
         exists t e, get_table tables (fst c) (snd c) = Some t /\
           first_match (t_entries t) key = Some e /\
           (forall i, i < n -> entry_matches (key + N.of_nat i) e) /\
           forall e', In e' (t_entries t) -> contiguous e' ->
             (forall i, i < n -> entry_matches (key + N.of_nat i) e') \/
             (forall i, i <= n -> (key + N.of_nat i < 2 ^ 32)%N -> ~ entry_matches (key + N.of_nat i) e')) ->
  validate_routes env link tables infos = Ok tt.
Proof.
  intros env link tables infos U OK P1 P2 H. apply validate_iff; [assumption|]. intros p HP.
  apply validate_part_iff; auto. split; [|split].
  - intros target tgt srcs Ht Hi. apply app_partitions_In in HP. destruct HP as [HP|(HT & _)]; [eauto|].
    rewrite HT in Ht. destruct Ht.
  - intros m posts post. apply P2.
  - intros m S V. destruct (H _ _ m S V) as (chip & q & i & ds & A1 & A2 & A3 & A4 & A5 & A6 & A7 & A8 & A9).
    exists chip, q, i, ds. split; [assumption|]. split; [assumption|]. split; [assumption|]. split; [assumption|].
    apply search_complete; auto. intro d. rewrite A8, A4. reflexivity.
Qed.
Print Assumptions C47_validate_accepts.

(** C79: the partitions that are walked: each partition of the graph, and one
    without edges for each identifier that is only used internally. *)
Theorem C79_app_partitions : forall env p, In p (get_app_partitions env) <->
  In p (ve_parts env) \/
  (vp_targets p = [] /\ In (vp_source p) (ve_vertices env) /\
   (exists pre posts, In (pre, vp_id p, posts) (ve_internal env (vp_source p))) /\
   ~ exists q, In q (ve_parts env) /\ vp_source q = vp_source p /\ vp_id q = vp_id p).
Proof. exact app_partitions_In. Qed.
Print Assumptions C79_app_partitions.

Theorem C79_once : forall env, unique_parts env ->
  NoDup (map (fun p => (vp_source p, vp_id p)) (get_app_partitions env)).
Proof. exact app_partitions_NoDup. Qed.
Print Assumptions C79_once.

(** * Examples *)
(** Three chips in a row, link 0 leading east. *)
Definition row_link (c : xy) (l : nat) : option xy :=
  match l with
  | 0 => if ((0 <=? fst c) && (fst c <? 2) && (snd c =? 0))%Z then Some (fst c + 1, snd c)%Z else None
  | _ => None
  end.
Definition four : N := 4294967292.   (* 0xFFFFFFFC *)
Definition good_tables : list table :=
  [ mkTable 0 0 [mkEntry 0 four 1 false; mkEntry 8 four 128 false] 0;
    mkTable 1 0 [mkEntry 0 four 129 false] 0;
    mkTable 2 0 [mkEntry 8 four 64 false; mkEntry 0 four 192 false] 0 ].
Definition good_dests : list (xy * nat) := [((1, 0)%Z, 1); ((2, 0)%Z, 0); ((2, 0)%Z, 1)].

Lemma check_entries : forall ts,
  forallb (fun t => forallb (fun e => N.eqb (N.land (e_key e) (e_mask e)) (e_key e)) (t_entries t)) ts = true ->
  forall t, In t ts -> Forall entry_ok (t_entries t).
Proof.
  intros ts H t Ht. rewrite forallb_forall in H. specialize (H t Ht). rewrite forallb_forall in H.
  apply Forall_forall. intros e He. now apply N.eqb_eq, H.
Qed.

Lemma check_contiguous : forall ts,
  forallb (fun t => forallb (fun e => in_range_masks (e_mask e)) (t_entries t)) ts = true ->
  forall t, In t ts -> Forall contiguous (t_entries t).
Proof.
  intros ts H t Ht. rewrite forallb_forall in H. specialize (H t Ht). rewrite forallb_forall in H.
  apply Forall_forall. intros e He. now apply in_range_masks_iff, H.
Qed.

Lemma check_closed : forall link ts,
  forallb (fun t => forallb (fun e => forallb (fun l =>
    match link (t_x t, t_y t) l with
    | None => true
    | Some c => existsb (fun t' => xy_eqb (t_x t', t_y t') c) ts
    end) (entry_links e)) (t_entries t)) ts = true -> tables_closed link ts.
Proof.
  intros link ts H t e l c Ht He Hl Hb Hk. rewrite forallb_forall in H. specialize (H t Ht).
  rewrite forallb_forall in H. specialize (H e He). rewrite forallb_forall in H.
  specialize (H l (proj2 (entry_links_In e l) (conj Hl Hb))). rewrite Hk in H.
  apply existsb_exists in H. destruct H as (t' & Ht' & E). apply PathProofs.xy_eqb_eq in E. eauto.
Qed.

Example C46_example :
  search_route row_link good_tables 0 4 (0, 0)%Z good_dests = Ok tt /\
  (forall t, In t good_tables -> Forall entry_ok (t_entries t)) /\
  tables_closed row_link good_tables /\
  (forall t, In t good_tables -> Forall contiguous (t_entries t)) /\
  (forall i, i < 4 -> forall d,
     delivered row_link good_tables (0 + N.of_nat i) (0, 0)%Z d <-> In d good_dests).
Proof.
  assert (A : search_route row_link good_tables 0 4 (0, 0)%Z good_dests = Ok tt) by (vm_compute; reflexivity).
  assert (B : forall t, In t good_tables -> Forall entry_ok (t_entries t))
    by (apply check_entries; vm_compute; reflexivity).
  assert (C : tables_closed row_link good_tables) by (apply check_closed; vm_compute; reflexivity).
  assert (D : forall t, In t good_tables -> Forall contiguous (t_entries t))
    by (apply check_contiguous; vm_compute; reflexivity).
  split; [assumption|]. split; [assumption|]. split; [assumption|]. split; [assumption|].
  intros i Hi. apply (C46_search_sound _ _ _ _ _ _ i A B C Hi). right. auto.
Qed.

(** A graph with an edge and an internal partition: vertex 0 sends in partition 7
    from its machine vertices 10 and 11 to vertex 1 (machine vertex 20 on chip
    (2,0)), and vertex 11 also to vertex 10. *)
Definition good_env : valid_env :=
  mkVEnv [mkVPart 0 7 [1]] [0; 1]
    (fun t s p => if Nat.eqb t 1 then [(20, [App 0])] else [])
    (fun a p => if Nat.eqb a 0 then [10; 11] else [])
    (fun a => if Nat.eqb a 0 then [(11, 7, [10])] else [])
    (fun m => match m with 10 => Ok ((0, 0)%Z, 1) | 11 => Ok ((1, 0)%Z, 1) | 20 => Ok ((2, 0)%Z, 3)
              | _ => Err NotPlaced end)
    (fun _ => false) (fun _ => 4).
Definition two_way (c : xy) (l : nat) : option xy :=
  match l with
  | 3 => if ((0 <? fst c) && (fst c <=? 2) && (snd c =? 0))%Z then Some (fst c - 1, snd c)%Z else None
  | _ => row_link c l
  end.
Definition env_tables : list table :=
  [ mkTable 0 0 [mkEntry 0 four 1 false; mkEntry 16 four 128 false] 0;
    mkTable 1 0 [mkEntry 0 four 1 false; mkEntry 16 four 9 false] 0;
    mkTable 2 0 [mkEntry 0 four 512 false; mkEntry 16 four 512 false] 0 ].
Definition env_infos : list info :=
  [mkInfo (Mac 10) 7 (mkKM 0 four) (IMac 0); mkInfo (Mac 11) 7 (mkKM 16 four) (IMac 1)].

Example C46_validate_example :
  validate_routes good_env two_way env_tables env_infos = Ok tt /\
  unique_parts good_env /\
  (forall t, In t env_tables -> Forall entry_ok (t_entries t)) /\
  tables_closed two_way env_tables /\
  (forall t, In t env_tables -> Forall contiguous (t_entries t)) /\
  sends good_env 0 7 11 /\
  required good_env 0 7 11 ((0, 0)%Z, 1) /\ required good_env 0 7 11 ((2, 0)%Z, 3).
Proof.
  split; [vm_compute; reflexivity|].
  split; [repeat constructor; intros []|].
  split; [apply check_entries; vm_compute; reflexivity|].
  split; [apply check_closed; vm_compute; reflexivity|].
  split; [apply check_contiguous; vm_compute; reflexivity|].
  split; [split; [left; eexists; split; [left; reflexivity|auto]|left; right; left; reflexivity]|].
  split.
  - right. exists [10], 10. split; [left; reflexivity|]. split; [left; reflexivity|]. reflexivity.
  - left. exists (mkVPart 0 7 [1]), 1, 20, [App 0].
    split; [left; reflexivity|]. split; [reflexivity|]. split; [reflexivity|].
    split; [left; reflexivity|]. split; [left; reflexivity|]. split; [|reflexivity].
    right. exists 0. split; [left; reflexivity|]. right. left. reflexivity.
Qed.

Example C47_example :
  locate_entry (mkTable 1 0 [mkEntry 8 four 64 false; mkEntry 0 four 129 false] 0) 0 4
    = Ok (mkEntry 0 four 129 false) /\
  locate_entry (mkTable 1 0 [mkEntry 0 four 129 false; mkEntry 2 4294967294 64 false] 0) 0 4
    = Err ConfigurationException.
Proof. vm_compute. auto. Qed.

Example C79_example :
  get_app_partitions (mkVEnv [mkVPart 0 7 [1]] [0; 1] (fun _ _ _ => []) (fun _ _ => [])
    (fun a => [(10 + a, 7, [3]); (20 + a, 7, [4]); (10 + a, 8, [])]) (fun _ => Err NotPlaced)
    (fun _ => false) (fun _ => 1))
  = [mkVPart 0 7 [1]; mkVPart 0 8 []; mkVPart 1 7 []; mkVPart 1 8 []].
Proof. vm_compute. reflexivity. Qed.

(** * What the check gets wrong *)
(** C76: an entry for the keys that follow directly makes the checker refuse
    correct tables: each entry matches all or none of the keys of the source, and
    each key reaches the destinations. *)
Definition adjacent_tables : list table :=
  [ mkTable 0 0 [mkEntry 0 four 1 false] 0;
    mkTable 1 0 [mkEntry 0 four 128 false; mkEntry 4 four 64 false] 0 ].
Definition adjacent_base : list table :=
  [ mkTable 0 0 [mkEntry 0 four 1 false] 0;
    mkTable 1 0 [mkEntry 0 four 128 false] 0 ].

Lemma walk_ext : forall link ts ts' k src, (forall c, entry_at ts c k = entry_at ts' c k) ->
  forall way c, walk link ts k src way c -> walk link ts' k src way c.
Proof.
  intros link ts ts' k src E way c W. induction W as [|way c e l c' W IH H1 H2 H3 H4|way c l c' W IH H1 H2].
  - constructor.
  - eapply w_route; eauto. now rewrite <- E.
  - eapply w_default; eauto. now rewrite <- E.
Qed.

Theorem C76_adjacent_keys_refuted : exists link tables key n src dests,
  (forall t, In t tables -> Forall entry_ok (t_entries t) /\ orthogonal (t_entries t)) /\
  tables_closed link tables /\ NoDup dests /\
  (forall t e, In t tables -> In e (t_entries t) ->
     (forall i, i < n -> entry_matches (key + N.of_nat i) e) \/
     (forall i, i < n -> ~ entry_matches (key + N.of_nat i) e)) /\
  (forall i, i < n -> visits_once link tables (key + N.of_nat i) src /\
     forall d, delivered link tables (key + N.of_nat i) src d <-> In d dests) /\
  search_route link tables key n src dests = Err ConfigurationException.
Proof.
  exists row_link, adjacent_tables, 0%N, 4, (0, 0)%Z, [((1, 0)%Z, 1)].
  assert (HI : forall i, i < 4 -> i = 0 \/ i = 1 \/ i = 2 \/ i = 3) by lia.
  split; [|split; [|split; [|split; [|split]]]].
  - intros t [<-|[<-|[]]]; (split; [repeat constructor|]); cbn [t_entries].
    + repeat constructor.
    + constructor; [|repeat constructor]. constructor; [|constructor].
      apply entry_intersect_false_iff; vm_compute; reflexivity.
  - apply check_closed. vm_compute. reflexivity.
  - repeat constructor. intros [].
  - intros t e [<-|[<-|[]]]; cbn [t_entries].
    + intros [<-|[]]. left. intros i Hi. destruct (HI i Hi) as [-> |[-> |[-> | ->]]]; reflexivity.
    + intros [<-|[<-|[]]].
      * left. intros i Hi. destruct (HI i Hi) as [-> |[-> |[-> | ->]]]; reflexivity.
      * right. intros i Hi. destruct (HI i Hi) as [-> |[-> |[-> | ->]]]; discriminate.
  - intros i Hi.
    assert (E : forall c, entry_at adjacent_tables c (0 + N.of_nat i) = entry_at adjacent_base c (0 + N.of_nat i)).
    { intros (x, y). unfold entry_at, get_table, adjacent_tables, adjacent_base. cbn [find fst snd t_x t_y].
      destruct ((0 =? x) && (0 =? y))%Z; [reflexivity|]. destruct ((1 =? x) && (0 =? y))%Z; [|reflexivity].
      cbn [t_entries first_match]. destruct (HI i Hi) as [-> |[-> |[-> | ->]]]; reflexivity. }
    destruct (C46_search_sound row_link adjacent_base 0 4 (0, 0)%Z [((1, 0)%Z, 1)] i) as (A & B).
    + vm_compute. reflexivity.
    + apply check_entries. vm_compute. reflexivity.
    + apply check_closed. vm_compute. reflexivity.
    + assumption.
    + right. intros t Ht. left. revert t Ht. apply check_contiguous. vm_compute. reflexivity.
    + split.
      * intros w w' c W W'. apply (A w w' c); eapply walk_ext; eauto.
      * intro d. rewrite <- B. unfold delivered. split; intros (w & e & W & H1 & H2); exists w, e.
        -- split; [eapply walk_ext; eauto|]. split; [now rewrite <- E|assumption].
        -- split; [eapply walk_ext; [|exact W]; intro; symmetry; apply E|]. split; [now rewrite E|assumption].
  - vm_compute. reflexivity.
Qed.
Print Assumptions C76_adjacent_keys_refuted.

(** C77: on the chip of the source the located entry need not match all keys. *)
Definition hole : N := 4294967293.   (* 0xFFFFFFFD *)
Theorem C77_source_entry_refuted : exists link tables key n src dests,
  (forall t, In t tables -> Forall entry_ok (t_entries t) /\ orthogonal (t_entries t)) /\
  tables_closed link tables /\
  search_route link tables key n src dests = Ok tt /\
  exists i d, i < n /\ In d dests /\ ~ delivered link tables (key + N.of_nat i) src d.
Proof.
  exists row_link, [mkTable 0 0 [mkEntry 0 hole 1 false] 0; mkTable 1 0 [mkEntry 0 four 128 false] 0],
    0%N, 2, (0, 0)%Z, [((1, 0)%Z, 1)].
  split; [|split; [|split]].
  - intros t [<-|[<-|[]]]; (split; repeat constructor).
  - apply check_closed. vm_compute. reflexivity.
  - vm_compute. reflexivity.
  - exists 1, ((1, 0)%Z, 1). split; [lia|]. split; [left; reflexivity|].
    intros (way & e & W & _). cbn [fst] in W.
    assert (HW : forall way c, walk row_link
      [mkTable 0 0 [mkEntry 0 hole 1 false] 0; mkTable 1 0 [mkEntry 0 four 128 false] 0]
      (0 + N.of_nat 1) (0, 0)%Z way c -> way = [] /\ c = (0, 0)%Z).
    { clear. intros way c W. induction W as [|way c e l c' W (-> & ->) H|way c l c' W (X & _)];
        [auto|discriminate|discriminate]. }
    apply HW in W. destruct W as (_ & W). discriminate.
Qed.
Print Assumptions C77_source_entry_refuted.

(** C77: on other chips an earlier entry that does not match the first key may
    take other keys. *)
Theorem C77_shadowed_key_refuted : exists link tables key n src dests,
  (forall t, In t tables -> Forall entry_ok (t_entries t)) /\
  tables_closed link tables /\
  search_route link tables key n src dests = Ok tt /\
  exists i d, i < n /\ ~ In d dests /\ delivered link tables (key + N.of_nat i) src d.
Proof.
  exists row_link, [mkTable 0 0 [mkEntry 0 four 1 false] 0;
                    mkTable 1 0 [mkEntry 1 hole 256 false; mkEntry 0 four 128 false] 0],
    0%N, 2, (0, 0)%Z, [((1, 0)%Z, 1)].
  split; [|split; [|split]].
  - apply check_entries. vm_compute. reflexivity.
  - apply check_closed. vm_compute. reflexivity.
  - vm_compute. reflexivity.
  - exists 1, ((1, 0)%Z, 2). split; [lia|]. split; [intros [H|[]]; discriminate|].
    exists [0], (mkEntry 1 hole 256 false). split; [|split; reflexivity].
    eapply w_route with (c := (0, 0)%Z) (e := mkEntry 0 four 1 false); [constructor|reflexivity|lia|reflexivity|reflexivity].
Qed.
Print Assumptions C77_shadowed_key_refuted.

(** C78: a link to a chip without a table is taken as the end of the route; the
    router there passes the packet straight on, to a core that should not get it. *)
Theorem C78_chip_without_table_refuted : exists link tables key n src dests,
  (forall t, In t tables -> Forall entry_ok (t_entries t) /\ Forall contiguous (t_entries t) /\
     orthogonal (t_entries t)) /\
  search_route link tables key n src dests = Ok tt /\
  exists d, ~ In d dests /\ delivered link tables key src d.
Proof.
  exists row_link, [mkTable 0 0 [mkEntry 0 four 129 false] 0; mkTable 2 0 [mkEntry 0 four 256 false] 0],
    0%N, 4, (0, 0)%Z, [((0, 0)%Z, 1)].
  split; [|split].
  - intros t [<-|[<-|[]]]; (split; [repeat constructor|]); (split; [|repeat constructor]);
      (constructor; [|constructor]); exists 2%N; (split; [lia|reflexivity]).
  - vm_compute. reflexivity.
  - exists ((2, 0)%Z, 2). split; [intros [H|[]]; discriminate|].
    exists [0; 0], (mkEntry 0 four 256 false). split; [|split; reflexivity].
    eapply w_default with (c := (1, 0)%Z); [|reflexivity|reflexivity].
    eapply w_route with (c := (0, 0)%Z) (e := mkEntry 0 four 129 false); [constructor|reflexivity|lia|reflexivity|reflexivity].
Qed.
Print Assumptions C78_chip_without_table_refuted.
