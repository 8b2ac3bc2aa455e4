(** Proofs about the routing information. *)
From Coq Require Import List Arith NArith Bool Lia Permutation Sorted Sorting.
From Verif Require Import Base Dict UtilModel UtilProofs AllocModel AllocProofs InfoModel.
Import ListNotations.
Local Open Scope nat_scope.

(** ** What has been added *)

(** The routing information accepted by a series of calls, in order: an item is
    refused when one of its vertex and partition is there already. *)
Definition given (cs : list icall) : list info :=
  fold_left (fun L c => match c with
                        | AddRoutingInfo i =>
                            if existsb (same_info (i_vertex i) (i_part i)) L then L else L ++ [i]
                        | _ => L end) cs [].

(** The answer to a call after some others. *)
Definition answer_after (cs : list icall) (c : icall) : ianswer :=
  snd (istep (fst (irun no_infos cs)) c).

(** The calls that make an entry for a vertex. *)
Definition opens (c : icall) (v : vertex) : Prop :=
  match c with
  | AddRoutingInfo i => i_vertex i = v
  | RoutingInfoFromPreVertex w _ | GetInfoFrom w _ | GetKeyFrom w _ | GetPartitionsFrom w => w = v
  | _ => False
  end.

Definition from (v : vertex) (L : list info) : list info :=
  filter (fun i => vertex_eqb (i_vertex i) v) L.
Definition entry (v : vertex) (L : list info) : list (nat * info) :=
  map (fun i => (i_part i, i)) (from v L).
Definition vp (i : info) : vertex * nat := (i_vertex i, i_part i).

Record holds (s : rinfos) (L : list info) : Prop := {
  h_nodup : NoDup (map fst s);
  h_some : forall v d, dget vertex_eqb s v = Some d -> d = entry v L;
  h_none : forall v, dget vertex_eqb s v = None -> from v L = [];
  h_dist : NoDup (map vp L) }.

Lemma same_info_iff : forall v p i, same_info v p i = true <-> i_vertex i = v /\ i_part i = p.
Proof.
  intros. unfold same_info. rewrite andb_true_iff, vertex_eqb_spec, Nat.eqb_eq. tauto.
Qed.

Lemma same_info_In : forall v p L,
  existsb (same_info v p) L = true <-> exists j, In j L /\ i_vertex j = v /\ i_part j = p.
Proof.
  intros. rewrite existsb_exists. split; intros (j & Hj & E); exists j; split; auto;
    now apply same_info_iff.
Qed.

Lemma from_In : forall v L i, In i (from v L) <-> In i L /\ i_vertex i = v.
Proof. intros. unfold from. now rewrite filter_In, vertex_eqb_spec. Qed.

Lemma entry_get : forall v p L, NoDup (map vp L) ->
  forall i, dget Nat.eqb (entry v L) p = Some i <-> In i L /\ i_vertex i = v /\ i_part i = p.
Proof.
  induction L as [|j L IH]; intros ND i; [cbn; split; [discriminate|tauto]|].
  apply NoDup_cons_iff in ND. destruct ND as [N1 N2]. specialize (IH N2 i).
  unfold entry, from in *. cbn [filter]. destruct (vertex_eqb (i_vertex j) v) eqn:E.
  - apply vertex_eqb_spec in E. cbn [map dget]. destruct (Nat.eqb (i_part j) p) eqn:Ep.
    + apply Nat.eqb_eq in Ep. split.
      * intros [= ->]. cbn. auto.
      * intros ([-> | Hi] & E1 & E2); [reflexivity|]. exfalso. apply N1.
        apply in_map_iff. exists i. split; [unfold vp; congruence|auto].
    + apply Nat.eqb_neq in Ep. rewrite IH. cbn [In]. split; [tauto|].
      intros ([-> | Hi] & E1 & E2); [congruence|auto].
  - rewrite IH. cbn [In]. split; [tauto|]. intros ([-> | Hi] & E1 & E2); [|auto].
    exfalso. apply (vertex_eqb_spec (i_vertex i) v) in E1. congruence.
Qed.

Lemma entry_none : forall v p L, NoDup (map vp L) ->
  (dget Nat.eqb (entry v L) p = None <-> forall i, In i L -> ~ (i_vertex i = v /\ i_part i = p)).
Proof.
  intros v p L ND. split.
  - intros E i Hi [H1 H2]. assert (H := proj2 (entry_get v p L ND i) (conj Hi (conj H1 H2))). congruence.
  - intros H. destruct (dget Nat.eqb (entry v L) p) eqn:E; [|reflexivity].
    apply entry_get in E; auto. exfalso. apply (H i); tauto.
Qed.

(** Looking a vertex up leaves what is held alone. *)
Lemma open_holds : forall s L v, holds s L ->
  holds (fst (open_vertex s v)) L /\ snd (open_vertex s v) = entry v L /\
  dget vertex_eqb (fst (open_vertex s v)) v = Some (entry v L).
Proof.
  intros s L v H. unfold open_vertex. destruct (dget vertex_eqb s v) as [d|] eqn:E.
  - cbn. rewrite E. pose proof (h_some _ _ H _ _ E). subst. auto.
  - pose proof (h_none _ _ H _ E) as F. cbn.
    assert (EE : entry v L = []) by (unfold entry; now rewrite F).
    rewrite EE. repeat split; auto.
    + apply dset_NoDup; [apply vertex_eqb_spec|]. apply (h_nodup _ _ H).
    + intros w d. rewrite (dget_dset _ vertex_eqb_spec). destruct (vertex_eqb v w) eqn:Ev.
      * apply vertex_eqb_spec in Ev. subst w. congruence.
      * apply (h_some _ _ H).
    + intros w. rewrite (dget_dset _ vertex_eqb_spec). destruct (vertex_eqb v w) eqn:Ev; [discriminate|].
      apply (h_none _ _ H).
    + apply (h_dist _ _ H).
    + rewrite (dget_dset _ vertex_eqb_spec). now rewrite (proj2 (vertex_eqb_spec v v) eq_refl).
Qed.

Lemma present_iff : forall s L i, holds s L ->
  match dget vertex_eqb s (i_vertex i) with Some d => dmem Nat.eqb d (i_part i) | None => false end =
  existsb (same_info (i_vertex i) (i_part i)) L.
Proof.
  intros s L i H. pose proof (h_dist _ _ H) as ND.
  destruct (existsb (same_info (i_vertex i) (i_part i)) L) eqn:E.
  - apply same_info_In in E. destruct E as (j & Hj & E1 & E2).
    destruct (dget vertex_eqb s (i_vertex i)) as [d|] eqn:G.
    + apply (h_some _ _ H) in G. subst d. unfold dmem.
      rewrite (proj2 (entry_get (i_vertex i) (i_part i) L ND j)); auto.
    + apply (h_none _ _ H) in G. assert (In j (from (i_vertex i) L)) by (apply from_In; auto).
      rewrite G in *. contradiction.
  - destruct (dget vertex_eqb s (i_vertex i)) as [d|] eqn:G; [|reflexivity].
    apply (h_some _ _ H) in G. subst d. unfold dmem.
    destruct (dget Nat.eqb (entry (i_vertex i) L) (i_part i)) as [j|] eqn:D; [|reflexivity].
    apply entry_get in D; auto. exfalso. enough (true = false) by discriminate.
    rewrite <- E. symmetry. apply same_info_In. exists j. tauto.
Qed.

Lemma dset_absent : forall (d : list (nat * info)) p i, dget Nat.eqb d p = None ->
  dset Nat.eqb d p i = d ++ [(p, i)].
Proof.
  induction d as [|[q j] d IH]; intros p i; cbn; [reflexivity|].
  destruct (Nat.eqb q p) eqn:E; [discriminate|]. intros H. now rewrite IH.
Qed.

Definition given1 (L : list info) (c : icall) : list info :=
  match c with
  | AddRoutingInfo i => if existsb (same_info (i_vertex i) (i_part i)) L then L else L ++ [i]
  | _ => L
  end.

Lemma istep_holds : forall s L c, holds s L -> holds (fst (istep s c)) (given1 L c).
Proof.
  intros s L c H. destruct c; cbn [istep given1];
    try (destruct (open_holds s L v H) as [O _]; destruct (open_vertex s v); exact O); try exact H.
  rewrite (present_iff s L i H).
  destruct (existsb (same_info (i_vertex i) (i_part i)) L) eqn:E; [exact H|].
  destruct (open_holds s L (i_vertex i) H) as (O & O1 & O2).
  destruct (open_vertex s (i_vertex i)) as [s' d]. cbn [fst snd] in *. subst d.
  assert (AB : forall j, In j L -> ~ (i_vertex j = i_vertex i /\ i_part j = i_part i)).
  { intros j Hj C. enough (true = false) by discriminate. rewrite <- E. symmetry.
    apply same_info_In. exists j. tauto. }
  pose proof (h_dist _ _ H) as ND.
  rewrite dset_absent by (apply entry_none; auto).
  assert (EF : forall v, from v (L ++ [i]) = from v L ++ (if vertex_eqb (i_vertex i) v then [i] else [])).
  { intros v. unfold from. rewrite filter_app. cbn. now destruct (vertex_eqb (i_vertex i) v). }
  constructor.
  - apply dset_NoDup; [apply vertex_eqb_spec|]. apply (h_nodup _ _ O).
  - intros v d. rewrite (dget_dset _ vertex_eqb_spec). unfold entry. rewrite EF.
    destruct (vertex_eqb (i_vertex i) v) eqn:Ev.
    + apply vertex_eqb_spec in Ev. subst v. intros [= <-]. now rewrite map_app.
    + rewrite app_nil_r. apply (h_some _ _ O).
  - intros v. rewrite (dget_dset _ vertex_eqb_spec), EF. destruct (vertex_eqb (i_vertex i) v); [discriminate|].
    rewrite app_nil_r. apply (h_none _ _ O).
  - rewrite map_app. cbn. apply (Permutation_NoDup (Permutation_cons_append (map vp L) (vp i))).
    constructor; [|exact ND]. rewrite in_map_iff. intros (j & Ej & Hj). apply (AB j Hj).
    unfold vp in Ej. inversion Ej. auto.
Qed.

Lemma irun_holds : forall cs s L, holds s L ->
  holds (fst (irun s cs)) (fold_left given1 cs L).
Proof.
  induction cs as [|c cs IH]; intros s L H; cbn [irun fold_left]; [exact H|].
  pose proof (istep_holds s L c H) as S. destruct (istep s c) as [s1 a]. cbn [fst] in S.
  specialize (IH s1 _ S). destruct (irun s1 cs). exact IH.
Qed.

Lemma no_infos_holds : holds no_infos [].
Proof. constructor; cbn; try constructor; try discriminate; auto. Qed.

Lemma run_holds : forall cs, holds (fst (irun no_infos cs)) (given cs).
Proof. intros. apply (irun_holds cs no_infos [] no_infos_holds). Qed.

(** ** The answers *)

Lemma given_distinct : forall cs i j, In i (given cs) -> In j (given cs) ->
  i_vertex i = i_vertex j -> i_part i = i_part j -> i = j.
Proof.
  intros cs i j Hi Hj E1 E2. pose proof (h_dist _ _ (run_holds cs)) as ND.
  pose proof (proj2 (entry_get (i_vertex i) (i_part i) _ ND i) (conj Hi (conj eq_refl eq_refl))).
  pose proof (proj2 (entry_get (i_vertex i) (i_part i) _ ND j) (conj Hj (conj (eq_sym E1) (eq_sym E2)))).
  congruence.
Qed.

Lemma add_answer : forall cs i,
  ((exists j, In j (given cs) /\ i_vertex j = i_vertex i /\ i_part j = i_part i) /\
   answer_after cs (AddRoutingInfo i) = RRaise AlreadyExists /\
   given (cs ++ [AddRoutingInfo i]) = given cs) \/
  ((forall j, In j (given cs) -> i_vertex j = i_vertex i -> i_part j <> i_part i) /\
   answer_after cs (AddRoutingInfo i) = RNone /\
   given (cs ++ [AddRoutingInfo i]) = given cs ++ [i]).
Proof.
  intros cs i. unfold answer_after. cbn [istep]. rewrite (present_iff _ _ i (run_holds cs)).
  assert (G : given (cs ++ [AddRoutingInfo i]) = given1 (given cs) (AddRoutingInfo i))
    by (unfold given; now rewrite fold_left_app).
  rewrite G. cbn [given1].
  destruct (existsb (same_info (i_vertex i) (i_part i)) (given cs)) eqn:E.
  - left. apply same_info_In in E. auto.
  - right. split; [|split; auto].
    + intros j Hj E1 E2. enough (true = false) by discriminate. rewrite <- E. symmetry.
      apply same_info_In. exists j. auto.
    + now destruct (open_vertex (fst (irun no_infos cs)) (i_vertex i)).
Qed.

Lemma lookup_found : forall cs i v p, In i (given cs) -> i_vertex i = v -> i_part i = p ->
  answer_after cs (RoutingInfoFromPreVertex v p) = RInfo i /\
  answer_after cs (GetInfoFrom v p) = RInfo i /\
  answer_after cs (FirstKeyFromPreVertex v p) = RKey (km_key (i_km i)) /\
  answer_after cs (GetKeyFrom v p) = RKey (km_key (i_km i)) /\
  answer_after cs (HasInfoFrom v p) = RBool true.
Proof.
  intros cs i v p Hi E1 E2. pose proof (run_holds cs) as H.
  pose proof (proj2 (entry_get v p _ (h_dist _ _ H) i) (conj Hi (conj E1 E2))) as G.
  destruct (open_holds _ _ v H) as (_ & O1 & _). unfold answer_after. cbn [istep].
  assert (D : dget vertex_eqb (fst (irun no_infos cs)) v = Some (entry v (given cs))).
  { destruct (dget vertex_eqb (fst (irun no_infos cs)) v) eqn:D.
    - f_equal. eapply h_some; eauto.
    - apply (h_none _ _ H) in D. unfold entry in G. rewrite D in G. discriminate. }
  rewrite D. unfold dmem.
  destruct (open_vertex (fst (irun no_infos cs)) v) as [s d]. cbn [snd] in *. subst d.
  rewrite G. auto.
Qed.

Lemma lookup_missing : forall cs v p,
  (forall i, In i (given cs) -> ~ (i_vertex i = v /\ i_part i = p)) ->
  answer_after cs (RoutingInfoFromPreVertex v p) = RNone /\
  answer_after cs (GetInfoFrom v p) = RRaise KeyError /\
  answer_after cs (FirstKeyFromPreVertex v p) = RNone /\
  answer_after cs (GetKeyFrom v p) = RRaise KeyError /\
  answer_after cs (HasInfoFrom v p) = RBool false.
Proof.
  intros cs v p N. pose proof (run_holds cs) as H.
  pose proof (proj2 (entry_none v p _ (h_dist _ _ H)) N) as G.
  destruct (open_holds _ _ v H) as (_ & O1 & _). unfold answer_after. cbn [istep].
  destruct (open_vertex (fst (irun no_infos cs)) v) as [s d]. cbn [snd] in *. subst d.
  rewrite G. destruct (dget vertex_eqb (fst (irun no_infos cs)) v) eqn:D.
  - apply (h_some _ _ H) in D. subst. unfold dmem. rewrite G. auto.
  - auto.
Qed.

Lemma partitions_answer : forall cs v,
  answer_after cs (GetPartitionsFrom v) = RParts (map i_part (from v (given cs))).
Proof.
  intros cs v. destruct (open_holds _ _ v (run_holds cs)) as (_ & O1 & _).
  unfold answer_after. cbn [istep].
  destruct (open_vertex (fst (irun no_infos cs)) v) as [s d]. cbn [snd] in *. subst d.
  unfold entry. now rewrite map_map.
Qed.

Lemma check_answer : forall cs v allowed,
  (answer_after cs (CheckInfoFrom v allowed) = RNone <->
   forall i, In i (given cs) -> i_vertex i = v -> In (i_part i) allowed) /\
  (answer_after cs (CheckInfoFrom v allowed) = RRaise KeyError <->
   exists i, In i (given cs) /\ i_vertex i = v /\ ~ In (i_part i) allowed).
Proof.
  intros cs v allowed. pose proof (run_holds cs) as H. unfold answer_after. cbn [istep snd].
  assert (IN : forall p, existsb (Nat.eqb p) allowed = true <-> In p allowed).
  { intros p. rewrite existsb_exists. split.
    - intros (q & Hq & E). apply Nat.eqb_eq in E. now subst.
    - intros Hp. exists p. split; auto. apply Nat.eqb_refl. }
  destruct (dget vertex_eqb (fst (irun no_infos cs)) v) as [d|] eqn:D.
  - apply (h_some _ _ H) in D. subst d.
    destruct (forallb (fun x => existsb (Nat.eqb (fst x)) allowed) (entry v (given cs))) eqn:F.
    + rewrite forallb_forall in F.
      assert (A : forall i, In i (given cs) -> i_vertex i = v -> In (i_part i) allowed).
      { intros i Hi Ei. apply IN. apply (F (i_part i, i)). unfold entry. apply in_map_iff.
        exists i. split; auto. apply from_In. auto. }
      split; [tauto|]. split; [discriminate|]. intros (i & Hi & Ei & N). exfalso. auto.
    + assert (A : exists i, In i (given cs) /\ i_vertex i = v /\ ~ In (i_part i) allowed).
      { assert (F' : exists x, In x (entry v (given cs)) /\ existsb (Nat.eqb (fst x)) allowed = false).
        { clear - F. induction (entry v (given cs)) as [|x l IH]; [discriminate|]. cbn in F.
          destruct (existsb (Nat.eqb (fst x)) allowed) eqn:E.
          - destruct (IH F) as (y & Hy & Ey). exists y. cbn. auto.
          - exists x. cbn. auto. }
        destruct F' as (x & Hx & Ex). unfold entry in Hx. apply in_map_iff in Hx.
        destruct Hx as (i & <- & Hi). apply from_In in Hi. exists i. cbn in Ex.
        repeat split; try tauto. rewrite <- IN. congruence. }
      split; [|tauto]. split; [discriminate|]. intros B. destruct A as (i & Hi & Ei & N). exfalso. auto.
  - apply (h_none _ _ H) in D.
    assert (A : forall i, In i (given cs) -> i_vertex i <> v).
    { intros i Hi Ei. assert (In i (from v (given cs))) by (apply from_In; auto). rewrite D in *. auto. }
    split; [split; auto; intros _ i Hi Ei; exfalso; eapply A; eauto|].
    split; [discriminate|]. intros (i & Hi & Ei & _). exfalso. eapply A; eauto.
Qed.

(** The vertices with an entry. *)
Lemma istep_keys : forall s c v, In v (map fst (fst (istep s c))) ->
  In v (map fst s) \/ opens c v.
Proof.
  intros s c v.
  assert (O : forall w, In v (map fst (fst (open_vertex s w))) -> In v (map fst s) \/ w = v).
  { intros w. unfold open_vertex. destruct (dget vertex_eqb s w) eqn:E; cbn [fst]; [auto|].
    rewrite dset_keys. destruct (dmem vertex_eqb s w); auto. rewrite in_app_iff. cbn. tauto. }
  destruct c as [i|w p|w p|w p|w p|w|w p|w al|w|w| |]; cbn [istep opens]; auto;
    try (specialize (O w); destruct (open_vertex s w); exact O).
  destruct (match dget vertex_eqb s (i_vertex i) with Some d => dmem Nat.eqb d (i_part i) | None => false end);
    [auto|]. specialize (O (i_vertex i)). destruct (open_vertex s (i_vertex i)) as [s' d]. cbn [fst] in *.
  rewrite dset_keys. destruct (dmem vertex_eqb s' (i_vertex i)); auto.
  rewrite in_app_iff. cbn. tauto.
Qed.

Lemma istep_opens : forall s L c v, holds s L -> In v (map fst s) \/ opens c v ->
  In v (map fst (fst (istep s c))).
Proof.
  intros s L c v H.
  assert (O : forall w, In v (map fst s) \/ w = v -> In v (map fst (fst (open_vertex s w)))).
  { intros w Hw. unfold open_vertex. destruct (dget vertex_eqb s w) eqn:E; cbn [fst].
    - destruct Hw as [Hw | ->]; auto. apply (dmem_true _ vertex_eqb_spec). unfold dmem. now rewrite E.
    - rewrite dset_keys. unfold dmem. rewrite E. rewrite in_app_iff. cbn. tauto. }
  destruct c as [i|w p|w p|w p|w p|w|w p|w al|w|w| |]; cbn [istep opens]; intros Hv;
    try (destruct Hv; [assumption|contradiction]);
    try (specialize (O w Hv); destruct (open_vertex s w); exact O).
  destruct (match dget vertex_eqb s (i_vertex i) with Some d => dmem Nat.eqb d (i_part i) | None => false end) eqn:E.
  - destruct Hv as [Hv | <-]; auto. cbn [fst]. apply (dmem_true _ vertex_eqb_spec).
    unfold dmem. now destruct (dget vertex_eqb s (i_vertex i)).
  - specialize (O (i_vertex i) Hv). destruct (open_vertex s (i_vertex i)) as [s' d]. cbn [fst] in *.
    rewrite dset_keys. destruct (dmem vertex_eqb s' (i_vertex i)); auto. rewrite in_app_iff. auto.
Qed.

Lemma irun_keys : forall cs s L v, holds s L ->
  (In v (map fst (fst (irun s cs))) <-> In v (map fst s) \/ exists c, In c cs /\ opens c v).
Proof.
  induction cs as [|c cs IH]; intros s L v H; cbn [irun].
  - cbn. split; [auto|]. intros [A|(c & [] & _)]; auto.
  - pose proof (istep_holds s L c H) as S. pose proof (istep_keys s c v) as K1.
    pose proof (istep_opens s L c v H) as K2. destruct (istep s c) as [s1 a]. cbn [fst] in *.
    specialize (IH s1 _ v S). destruct (irun s1 cs) as [s2 l]. cbn [fst] in *. rewrite IH. split.
    + intros [A|(c' & H1 & H2)].
      * destruct (K1 A) as [B|B]; [auto|]. right. exists c. cbn. auto.
      * right. exists c'. cbn. auto.
    + intros [A|(c' & [<- | H1] & H2)]; eauto.
Qed.

Lemma single_answer : forall cs v,
  (forall i, from v (given cs) = [i] ->
     answer_after cs (GetSingleInfoFrom v) = RInfo i /\
     answer_after cs (GetSingleKeyFrom v) = RKey (km_key (i_km i))) /\
  (2 <= length (from v (given cs)) ->
     answer_after cs (GetSingleInfoFrom v) = RRaise KeyError /\
     answer_after cs (GetSingleKeyFrom v) = RRaise KeyError) /\
  (from v (given cs) = [] -> (forall c, In c cs -> ~ opens c v) ->
     answer_after cs (GetSingleInfoFrom v) = RNone /\
     answer_after cs (GetSingleKeyFrom v) = RNone) /\
  (from v (given cs) = [] -> (exists c, In c cs /\ opens c v) ->
     answer_after cs (GetSingleInfoFrom v) = RRaise KeyError /\
     answer_after cs (GetSingleKeyFrom v) = RRaise KeyError).
Proof.
  intros cs v. pose proof (run_holds cs) as H.
  pose proof (irun_keys cs no_infos [] v no_infos_holds) as K.
  unfold answer_after. cbn [istep snd]. unfold single_info.
  destruct (dget vertex_eqb (fst (irun no_infos cs)) v) as [d|] eqn:D.
  - pose proof (h_some _ _ H _ _ D) as ->. unfold entry.
    assert (KI : exists c, In c cs /\ opens c v).
    { assert (I : In v (map fst (fst (irun no_infos cs)))).
      { apply (dmem_true _ vertex_eqb_spec). unfold dmem. now rewrite D. }
      apply K in I. destruct I as [[]|I]; exact I. }
    split; [|split; [|split]].
    + intros i ->. cbn. auto.
    + destruct (from v (given cs)) as [|i [|j l]]; cbn; try lia. auto.
    + intros _ N. destruct KI as (c & H1 & H2). exfalso. eapply N; eauto.
    + intros ->. cbn. auto.
  - pose proof (h_none _ _ H _ D) as F. rewrite F. split; [discriminate|].
    split; [cbn; lia|]. split; [auto|]. intros _ I. exfalso.
    apply (dget_None _ vertex_eqb_spec) in D. apply D. apply K. auto.
Qed.

Lemma group_perm : forall L T, NoDup T -> (forall i, In i L -> In (i_vertex i) T) ->
  Permutation (flat_map (fun v => from v L) T) L.
Proof.
  induction L as [|i L IH]; intros T ND C.
  - replace (flat_map (fun v => from v []) T) with (@nil info); [constructor|].
    clear. induction T; cbn; auto.
  - assert (P : Permutation (flat_map (fun v => from v (i :: L)) T)
                  (i :: flat_map (fun v => from v L) T)).
    { assert (Hi : In (i_vertex i) T) by (apply C; cbn; auto). clear C IH.
      assert (NOT : forall T, ~ In (i_vertex i) T ->
        flat_map (fun v => from v (i :: L)) T = flat_map (fun v => from v L) T).
      { clear. induction T as [|w T IT]; intros N; [reflexivity|]. cbn [flat_map]. rewrite IT by (cbn in N; tauto).
        f_equal. unfold from. cbn [filter]. destruct (vertex_eqb (i_vertex i) w) eqn:E; [|reflexivity].
        apply vertex_eqb_spec in E. cbn in N. exfalso. auto. }
      induction T as [|w T IT]; [destruct Hi|]. apply NoDup_cons_iff in ND. destruct ND as [N1 N2].
      cbn [flat_map]. destruct (vertex_eqb (i_vertex i) w) eqn:E.
      - apply vertex_eqb_spec in E. subst w. rewrite NOT by auto. unfold from at 1. cbn [filter].
        rewrite (proj2 (vertex_eqb_spec _ _) eq_refl). apply Permutation_refl.
      - assert (EW : from w (i :: L) = from w L) by (unfold from; cbn [filter]; now rewrite E).
        rewrite EW. destruct Hi as [-> | Hi]; [rewrite (proj2 (vertex_eqb_spec _ _) eq_refl) in E; discriminate|].
        specialize (IT N2 Hi). eapply Permutation_trans; [apply Permutation_app_head; exact IT|].
        apply Permutation_sym, Permutation_middle. }
    eapply Permutation_trans; [exact P|]. constructor. apply IH; auto. intros j Hj. apply C. cbn. auto.
Qed.

Lemma iter_answer : forall cs, exists l,
  answer_after cs IterInfos = RInfos l /\ Permutation l (given cs) /\
  forall v, from v l = from v (given cs).
Proof.
  intros cs. pose proof (run_holds cs) as H. unfold answer_after. cbn [istep snd].
  remember (fst (irun no_infos cs)) as s eqn:ES. clear ES. remember (given cs) as L eqn:EL. clear EL.
  eexists. split; [reflexivity|].
  assert (E : forall t, (forall v d, In (v, d) t -> d = entry v L) ->
    flat_map (fun x => map snd (snd x)) t = flat_map (fun v => from v L) (map fst t)).
  { clear. induction t as [|[v d] t IH]; intros H; [reflexivity|]. cbn [flat_map map fst snd].
    rewrite IH by (intros; apply H; cbn; auto). f_equal. rewrite (H v d) by (cbn; auto).
    unfold entry. rewrite map_map. apply map_id. }
  assert (HE : forall v d, In (v, d) s -> d = entry v L).
  { intros v d Hi. apply (h_some _ _ H). apply (dget_Some_iff _ vertex_eqb_spec); auto. apply (h_nodup _ _ H). }
  assert (COV : forall i, In i L -> In (i_vertex i) (map fst s)).
  { intros i Hi. destruct (dget vertex_eqb s (i_vertex i)) eqn:D.
    - apply (dmem_true _ vertex_eqb_spec). unfold dmem. now rewrite D.
    - apply (h_none _ _ H) in D. assert (F : In i (from (i_vertex i) L)) by (apply from_In; auto).
      rewrite D in F. destruct F. }
  rewrite (E s HE). split.
  - apply group_perm; [apply (h_nodup _ _ H)|exact COV].
  - intros v.
    assert (FF : forall w, from v (from w L) = if vertex_eqb w v then from v L else []).
    { intros w. unfold from. clear. induction L as [|i L IH]; cbn [filter]; [now destruct (vertex_eqb w v)|].
      destruct (vertex_eqb (i_vertex i) w) eqn:E1.
      - apply vertex_eqb_spec in E1. subst w. cbn [filter]. rewrite IH.
        destruct (vertex_eqb (i_vertex i) v); reflexivity.
      - rewrite IH. destruct (vertex_eqb w v) eqn:E2; [|reflexivity].
        apply vertex_eqb_spec in E2. subst w. now rewrite E1. }
    assert (AP : forall a b, from v (a ++ b) = from v a ++ from v b) by (intros; apply filter_app).
    assert (NOT : forall T, ~ In v T -> from v (flat_map (fun w => from w L) T) = []).
    { induction T as [|w T IT]; intros N; [reflexivity|]. cbn [flat_map]. rewrite AP, FF, IT by (cbn in N; tauto).
      destruct (vertex_eqb w v) eqn:E2; [|reflexivity]. apply vertex_eqb_spec in E2. subst. cbn in N. tauto. }
    pose proof (h_nodup _ _ H) as ND.
    destruct (dget vertex_eqb s v) eqn:D.
    + assert (I : In v (map fst s)) by (apply (dmem_true _ vertex_eqb_spec); unfold dmem; now rewrite D).
      clear D COV. induction (map fst s) as [|w T IT]; [destruct I|].
      apply NoDup_cons_iff in ND. destruct ND as [N1 N2]. cbn [flat_map]. rewrite AP, FF.
      destruct I as [-> | I].
      * rewrite (proj2 (vertex_eqb_spec _ _) eq_refl), NOT by auto. apply app_nil_r.
      * destruct (vertex_eqb w v) eqn:E2; [apply vertex_eqb_spec in E2; subst; contradiction|].
        cbn. now apply IT.
    + rewrite (h_none _ _ H _ D). apply NOT. now apply (dget_None _ vertex_eqb_spec).
Qed.

Lemma len_answer : forall cs, exists T,
  answer_after cs LenInfos = RNum (length T) /\ NoDup T /\
  (forall v, In v T <-> exists c, In c cs /\ opens c v).
Proof.
  intros cs. pose proof (run_holds cs) as H. exists (map fst (fst (irun no_infos cs))).
  split; [|split].
  - unfold answer_after. cbn. now rewrite map_length.
  - apply (h_nodup _ _ H).
  - intros v. rewrite (irun_keys cs no_infos [] v no_infos_holds). cbn. tauto.
Qed.

(** Every lookup that is for a vertex with something added opens nothing new. *)
Lemma given_In : forall cs i, In i (given cs) -> In (AddRoutingInfo i) cs.
Proof.
  intros cs i. unfold given.
  assert (G : forall cs L, In i (fold_left (fun L c => match c with
                        | AddRoutingInfo i =>
                            if existsb (same_info (i_vertex i) (i_part i)) L then L else L ++ [i]
                        | _ => L end) cs L) -> In (AddRoutingInfo i) cs \/ In i L).
  { induction cs0 as [|c cs0 IH]; intros L Hi; cbn [fold_left] in Hi; [auto|].
    apply IH in Hi. cbn. destruct Hi as [Hi|Hi]; [auto|]. destruct c; auto.
    destruct (existsb (same_info (i_vertex i0) (i_part i0)) L); auto.
    apply in_app_iff in Hi. destruct Hi as [Hi|[<- |[]]]; auto. }
  intros Hi. destruct (G cs [] Hi) as [A|[]]; exact A.
Qed.

Lemma added_given : forall cs i, In (AddRoutingInfo i) cs ->
  exists j, In j (given cs) /\ i_vertex j = i_vertex i /\ i_part j = i_part i.
Proof.
  intros cs. unfold given. change (fold_left _ cs []) with (fold_left given1 cs []).
  assert (MONO : forall cs L j, In j L -> In j (fold_left given1 cs L)).
  { induction cs0 as [|c cs0 IH]; intros L j Hj; cbn; [auto|]. apply IH. destruct c; cbn; auto.
    destruct (existsb _ L); auto. apply in_app_iff. auto. }
  assert (G : forall cs L i, In (AddRoutingInfo i) cs ->
    exists j, In j (fold_left given1 cs L) /\ i_vertex j = i_vertex i /\ i_part j = i_part i).
  { induction cs0 as [|c cs0 IH]; intros L i Hi; [destruct Hi|]. cbn [fold_left].
    destruct Hi as [-> | Hi]; [|now apply IH]. cbn [given1].
    destruct (existsb (same_info (i_vertex i) (i_part i)) L) eqn:E.
    - apply same_info_In in E. destruct E as (j & Hj & E). exists j. auto.
    - exists i. split; [|auto]. apply MONO. apply in_app_iff. cbn. auto. }
  intros. now apply G.
Qed.

(** Without lookups of unknown vertices the length is the number of vertices. *)
Lemma len_vertices : forall cs,
  (forall c v, In c cs -> opens c v -> exists i, In i (given cs) /\ i_vertex i = v) ->
  exists T, answer_after cs LenInfos = RNum (length T) /\ NoDup T /\
    forall v, In v T <-> exists i, In i (given cs) /\ i_vertex i = v.
Proof.
  intros cs C. destruct (len_answer cs) as (T & A & ND & K). exists T. split; [auto|]. split; [auto|].
  intros v. rewrite K. split.
  - intros (c & H1 & H2). eauto.
  - intros (i & Hi & E). exists (AddRoutingInfo i). split; [now apply given_In|]. exact E.
Qed.

(** Lookups do not matter to what is given. *)
Definition is_add (c : icall) : bool := match c with AddRoutingInfo _ => true | _ => false end.
Lemma given_adds : forall cs, given cs = given (filter is_add cs).
Proof.
  intros cs. unfold given. change (fold_left given1 cs [] = fold_left given1 (filter is_add cs) []).
  generalize (@nil info) as L. induction cs as [|c cs IH]; intros L; [reflexivity|].
  destruct c; cbn [filter is_add fold_left given1]; apply IH.
Qed.

(** Adding the infos of a list without repeats gives the list. *)
Lemma given_all : forall l, NoDup (map vp l) -> given (map AddRoutingInfo l) = l.
Proof.
  intros l ND. unfold given. change (fold_left given1 (map AddRoutingInfo l) [] = l).
  assert (G : forall l L, NoDup (map vp (L ++ l)) -> fold_left given1 (map AddRoutingInfo l) L = L ++ l).
  { induction l0 as [|i l0 IH]; intros L N; cbn [map fold_left]; [now rewrite app_nil_r|].
    cbn [given1]. destruct (existsb (same_info (i_vertex i) (i_part i)) L) eqn:E.
    - apply same_info_In in E. destruct E as (j & Hj & E1 & E2). exfalso.
      rewrite map_app in N. cbn in N. apply NoDup_remove_2 in N. apply N. apply in_app_iff. left.
      apply in_map_iff. exists j. unfold vp. split; [congruence|auto].
    - rewrite IH; rewrite <- app_assoc; [reflexivity|]. exact N. }
  apply (G l []). exact ND.
Qed.

(** ** The keys of a vertex *)
Local Open Scope N_scope.

Lemma vertex_keys_spec : forall k n, km_key k < 2 ^ 32 -> km_mask k < 2 ^ 32 ->
  N.land (km_key k) (km_mask k) = km_key k -> n <= n_keys (km_mask k) -> (n <> 0 \/ n_keys (km_mask k) <> 1) ->
  exists ks, vertex_keys k (Some n) = Ok ks /\ N.of_nat (length ks) = n /\
    StronglySorted N.lt ks /\
    (forall x, In x ks -> x < 2 ^ 32 /\ N.land x (km_mask k) = km_key k) /\
    (forall x y, In x ks -> y < x -> N.land y (km_mask k) = km_key k -> In y ks) /\
    (n = n_keys (km_mask k) -> forall x, x < 2 ^ 32 -> N.land x (km_mask k) = km_key k -> In x ks).
Proof.
  intros [key mask] n HK HM HL Hn H0. cbn [km_key km_mask] in *.
  unfold vertex_keys. cbn [km_key km_mask].
  replace (n_keys mask <? n) with false by (symmetry; apply N.ltb_ge; lia).
  cbn [bind].
  assert (LR : N.of_nat (length (repeat 0 (N.to_nat n))) = n) by (rewrite repeat_length; lia).
  destruct (N.eq_dec (n_keys mask) 1) as [E1|E1].
  - assert (n = 1) by lia. subst n.
    destruct (get_keys_fresh key mask (Some 1) HK HM HL) as (ks & G & L & R); [left; discriminate|].
    assert (Z : zeros_of mask = []).
    { unfold n_keys in E1. destruct (zeros_of mask) eqn:Z; [auto|].
      cbn [length] in E1. rewrite Nat2N.inj_succ, N.pow_succ_r' in E1. lia. }
    assert (KS : ks = [key]).
    { unfold get_keys in G. rewrite Z in G. cbn in G. inversion G. reflexivity. }
    unfold get_keys. rewrite Z. cbn [N.to_nat Pos.to_nat Pos.iter_op repeat set_at aset bind].
    exists [key]. split; [reflexivity|]. subst ks. rewrite L, E1. split; [reflexivity|].
    rewrite E1 in R. exact R.
  - destruct (get_keys_array key mask (repeat 0 (N.to_nat n)) 0 (Some n) E1) as [A _].
    unfold keys_wanted in A. rewrite LR in A. replace (N.min n (N.min (n_keys mask) n)) with n in A by lia.
    destruct A as (ks & G & GA); [right; rewrite repeat_length; lia|].
    rewrite GA. cbn [bind firstn app].
    destruct (get_keys_fresh key mask (Some n) HK HM HL) as (ks' & G' & L & R).
    { right. exact E1. }
    rewrite G in G'. inversion G' as [[E2 E3]]. subst ks'.
    exists ks. split.
    + f_equal. rewrite skipn_all2; [apply app_nil_r|]. rewrite repeat_length. lia.
    + split; [reflexivity|]. exact R.
Qed.

Lemma vertex_keys_none : forall k, vertex_keys k None = vertex_keys k (Some (n_keys (km_mask k))).
Proof. intros k. unfold vertex_keys. now rewrite N.ltb_irrefl. Qed.

Lemma vertex_keys_many : forall k n, vertex_keys k (Some n) = Err ConfigurationException <->
  n_keys (km_mask k) < n.
Proof.
  intros k n. unfold vertex_keys. destruct (n_keys (km_mask k) <? n) eqn:E.
  - apply N.ltb_lt in E. cbn. tauto.
  - apply N.ltb_ge in E. split; [|lia]. cbn [bind]. intros H. exfalso.
    assert (F : forall vs z o a, fill (km_key k) z o vs a <> Err ConfigurationException).
    { clear. induction vs as [|v vs IH]; intros z o a; cbn [fill]; [discriminate|].
      unfold set_at, aset. destruct (_ <? _)%nat; cbn [bind]; [apply IH|discriminate]. }
    unfold get_keys in H. destruct (zeros_of (km_mask k)) eqn:Z.
    + unfold set_at, aset in H. destruct (_ <? _)%nat; cbn in H; discriminate.
    + remember (fill _ _ _ _ _) as r eqn:ER. destruct r as [x|e]; cbn in H; [discriminate|].
      inversion H. subst e. symmetry in ER. now apply F in ER.
Qed.

(** A sorted list of keys that fill a block up from its base is the run of
    numbers from the base. *)
Lemma run_of : forall ks base,
  StronglySorted N.lt ks -> (forall x, In x ks -> base <= x) ->
  (forall x y, In x ks -> base <= y -> y < x -> In y ks) ->
  ks = map (fun j => base + N.of_nat j) (seq 0 (length ks)).
Proof.
  induction ks as [|a ks IH]; intros base S LO DN; [reflexivity|].
  apply StronglySorted_inv in S. destruct S as [S F]. rewrite Forall_forall in F.
  assert (EA : a = base).
  { pose proof (LO a (or_introl eq_refl)) as L. destruct (N.eq_dec a base) as [|NE]; [auto|]. exfalso.
    assert (I : In base (a :: ks)) by (apply (DN a); [cbn; auto|lia|lia]).
    destruct I as [I|I]; [congruence|]. pose proof (F _ I). lia. }
  subst a. cbn [length seq map]. f_equal; [lia|].
  rewrite <- seq_shift, map_map.
  rewrite (IH (base + 1)) at 1; auto.
  - apply map_ext. intros. lia.
  - intros x Hx. pose proof (F x Hx). lia.
  - intros x y Hx L1 L2. assert (I : In y (base :: ks)) by (apply (DN x); [cbn; auto|lia|lia]).
    destruct I as [I|I]; [lia|exact I].
Qed.

Lemma block_n_keys : forall k b, km_key k < 2 ^ 32 -> km_mask k < 2 ^ 32 -> b <= 32 ->
  km_key k + 2 ^ b <= 2 ^ 32 ->
  (forall x, x < 2 ^ 32 -> (km_matches x k <-> km_key k <= x < km_key k + 2 ^ b)) ->
  N.land (km_key k) (km_mask k) = km_key k /\ n_keys (km_mask k) = 2 ^ b /\
  forall n, n <= 2 ^ b -> n <> 0 \/ b <> 0 ->
    vertex_keys k (Some n) = Ok (map (fun j => km_key k + N.of_nat j) (seq 0 (N.to_nat n))).
Proof.
  intros k b HK HM Hb TOP BL.
  assert (P : 0 < 2 ^ b) by (apply N.neq_0_lt_0, N.pow_nonzero; lia).
  assert (LK : N.land (km_key k) (km_mask k) = km_key k).
  { apply (BL (km_key k) HK). lia. }
  assert (RUN : forall n, n <= n_keys (km_mask k) -> n <> 0 \/ n_keys (km_mask k) <> 1 ->
    exists ks, vertex_keys k (Some n) = Ok ks /\ N.of_nat (length ks) = n /\
      ks = map (fun j => km_key k + N.of_nat j) (seq 0 (N.to_nat n)) /\
      (forall x, In x ks -> km_key k <= x < km_key k + 2 ^ b) /\
      (n = n_keys (km_mask k) -> forall x, x < 2 ^ 32 -> N.land x (km_mask k) = km_key k -> In x ks)).
  { intros n Hn H0.
    destruct (vertex_keys_spec k n HK HM LK Hn H0) as (ks & V & L & S & IN & DN & ALL).
    assert (INB : forall x, In x ks -> km_key k <= x < km_key k + 2 ^ b).
    { intros x Hx. destruct (IN x Hx) as [X1 X2]. now apply (BL x X1). }
    exists ks. split; [auto|]. split; [auto|]. split; [|split; auto].
    replace (N.to_nat n) with (length ks) by lia. apply run_of; auto.
    - intros x Hx. apply (INB x Hx).
    - intros x y Hx L1 L2. apply (DN x y Hx L2). destruct (IN x Hx) as [X1 _].
      pose proof (INB x Hx). apply (BL y); lia. }
  assert (NK : n_keys (km_mask k) = 2 ^ b).
  { assert (PN : 0 < n_keys (km_mask k)) by (unfold n_keys; apply N.neq_0_lt_0, N.pow_nonzero; lia).
    destruct (RUN (n_keys (km_mask k))) as (ks & V & L & E & INB & ALL); [lia|lia|].
    remember (n_keys (km_mask k)) as M eqn:EM. clear EM.
    assert (UP : M <= 2 ^ b).
    { assert (I : In (km_key k + N.of_nat (N.to_nat M - 1)) ks).
      { rewrite E. apply in_map_iff. exists (N.to_nat M - 1)%nat. split; [auto|]. apply in_seq. lia. }
      apply INB in I. lia. }
    destruct (N.lt_ge_cases M (2 ^ b)) as [LT|]; [|lia]. exfalso.
    assert (I : In (km_key k + M) ks).
    { apply ALL; [auto|lia|]. apply (BL (km_key k + M)); lia. }
    rewrite E in I. apply in_map_iff in I. destruct I as (j & EJ & HJ). apply in_seq in HJ. lia. }
  split; [auto|]. split; [auto|]. intros n Hn H0. rewrite <- NK in Hn.
  destruct (RUN n Hn) as (ks & V & _ & E & _).
  { destruct H0 as [H0|H0]; [auto|]. right. rewrite NK. intros C.
    apply (N.pow_gt_1 2) in H0; lia. }
  rewrite V. now rewrite <- E.
Qed.

Lemma alloc_vertex_keys : forall flexible e parts infos a p m,
  AllocProofs.env_ok e parts -> allocate flexible e parts = Ok infos ->
  free_part e parts a p -> AllocProofs.counted e a p -> In m (ae_outgoing e a p) ->
  exists i, AllocProofs.is_mac infos e a p m i /\ ae_n_keys e m p <= n_keys (km_mask (i_km i)) /\
    forall n, n <> 0 -> n <= n_keys (km_mask (i_km i)) ->
      vertex_keys (i_km i) (Some n) =
        Ok (map (fun j => km_key (i_km i) + N.of_nat j) (seq 0 (N.to_nat n))).
Proof.
  intros flexible e parts infos a p m EO H HF HC Hm.
  destruct (alloc_machine_block _ _ _ _ _ _ _ EO H HF HC Hm)
    as (i & j & b & IM & IA & Hb & NK & _ & TOP & BL & _).
  assert (P : 0 < 2 ^ b) by (apply N.neq_0_lt_0, N.pow_nonzero; lia).
  assert (HM : km_mask (i_km i) < 2 ^ 32).
  { destruct (allocate_shape _ _ _ _ _ _ EO HF H) as (fixed & z' & used & aps & news & SH).
    destruct (sh_free_mac _ _ _ _ _ _ _ _ _ EO SH a p m i HF HC IM)
      as (idx & x & nba & nb & I1 & I2 & I3 & I4 & I5 & _ & _ & EK & M).
    pose proof (sh_am32 _ _ _ _ _ _ _ _ _ SH) as A32.
    rewrite EK. cbn [km_mask]. apply mask_of_lt. lia. }
  destruct (block_n_keys (i_km i) b) as (LK & NKE & VK); auto; [lia|].
  exists i. split; [auto|]. rewrite NKE. split; [auto|]. intros n N0 Hn. apply VK; auto.
Qed.

Lemma alloc_given : forall flexible e parts infos, allocate flexible e parts = Ok infos ->
  given (map AddRoutingInfo infos) = infos.
Proof.
  intros flexible e parts infos H. apply given_all. change (NoDup (map info_id infos)).
  unfold allocate in H.
  apply bind_Ok_inv in H. destruct H as ([fixed allf] & H1 & H).
  apply bind_Ok_inv in H. destruct H as ([z' used] & H2 & H).
  destruct allf.
  - unfold allocate_all_fixed in H. apply all_fixed_spec in H; [apply H|constructor].
  - eapply allocate_loop_NoDup; eauto. constructor.
Qed.
