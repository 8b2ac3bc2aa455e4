(** Properties C206 and C207: which table compressors may follow which. *)
From Coq Require Import List Arith NArith ZArith Bool Lia Permutation.
From Verif Require Import Base RouteSpec KeyMask PairModel PairProofs PairSort PairFull PairAgain DefaultModel DefaultProofs
  OrderedModel OrderedProofs OrderedAgain RangeCover CoverHolds.
Import ListNotations.
Local Open Scope N_scope.

Lemma sorted_same_route : forall table k o, route_consistent table -> In o table -> entry_matches k o ->
  exists o', first_match (sort_entries table) k = Some o' /\ In o' table /\ entry_matches k o' /\ e_route o' = e_route o.
Proof.
  intros table k o RC Ho M. pose proof (sort_perm table) as P.
  destruct (first_match_exists (sort_entries table) k o) as [o' F].
  - apply (Permutation_in _ (Permutation_sym P)). exact Ho.
  - exact M.
  - destruct (first_match_Some _ _ _ F) as [I' M']. apply (Permutation_in _ P) in I'.
    exists o'. split; [exact F|]. split; [exact I'|]. split; [exact M'|]. apply (RC o' o k); auto.
Qed.

(** C206.  Ordered covering keeps the routing of every table in which entries that
    overlap have one route, if no key and mask come twice. *)
Theorem C206_consistent : forall table target no_raise out al,
  Forall entry_ok table -> route_consistent table -> NoDup (map (fun e => (e_key e, e_mask e)) table) ->
  ordered_covering table target [] no_raise = Ok (out, al) ->
  forall o k, In o table -> entry_matches k o -> routes_to out k (e_route o).
Proof.
  intros table target nr out al F RC N E o k Ho M.
  destruct (covering_sorts table target nr out al F N E) as [_ Kp].
  destruct (sorted_same_route table k o RC Ho M) as (o' & Fo & _ & _ & R).
  destruct (Kp k o' Fo) as (e & Fe & Re & _). exists e. split; [exact Fe|congruence].
Qed.
Print Assumptions C206_consistent.

(** Default routes are left out only for packets all of whose entries were defaultable. *)
Theorem C206_compress_table : forall table target out,
  Forall entry_ok table -> route_consistent table -> NoDup (map (fun e => (e_key e, e_mask e)) table) ->
  oc_compress_table table target = Ok out ->
  forall o k, In o table -> entry_matches k o ->
    routes_to out k (e_route o) \/ (first_match out k = None /\ e_def o = true).
Proof.
  intros table target out F RC N C o k Ho M. pose proof C as C0.
  unfold oc_compress_table in C. apply bind_Ok_inv in C. destruct C as [[t a] [E1 E2]]. cbn [fst] in E2.
  destruct (covering_sorts table target true t a F N E1) as [OKt Kp].
  destruct (sorted_same_route table k o RC Ho M) as (o' & Fo & I' & M' & R).
  destruct (Kp k o' Fo) as (e & Fe & Re & De).
  destruct (remove_default_safe t target true out OKt (or_introl eq_refl) E2) as [_ Sf].
  specialize (Sf k). rewrite Fe in Sf. destruct Sf as [Sf|[S1 S2]].
  - left. exists e. split; [exact Sf|congruence].
  - right. split; [exact S2|]. exact (covering_defaults table target out F N C0 o k Ho M S2).
Qed.
Print Assumptions C206_compress_table.

(** The unordered pair compressor returns such tables. *)
Lemma pair_distinct : forall c_sort n table out, Forall entry_ok table -> route_consistent table ->
  compress_table false c_sort n table = Ok out -> NoDup (map (fun e => (e_key e, e_mask e)) out).
Proof.
  intros c_sort n table out F RC E. destruct (pair_consistent c_sort n table out F RC E) as [Ok1 RCo].
  assert (G : forall l1 l2, out = l1 ++ l2 -> NoDup (map (fun e => (e_key e, e_mask e)) l2)).
  { intros l1 l2. revert l1. induction l2 as [|a l2 IH]; intros l1 H; cbn [map]; [constructor|].
    constructor; [|apply (IH (l1 ++ [a])); rewrite <- app_assoc; exact H].
    intros I. apply in_map_iff in I. destruct I as (b & Eb & Hb). injection Eb as Ek Em.
    apply in_split in Hb. destruct Hb as (l3 & l4 & ->).
    assert (Oa : entry_ok a) by (rewrite Forall_forall in Ok1; apply Ok1; rewrite H; apply in_elt).
    assert (Ma : entry_matches (e_key a) a) by exact Oa.
    assert (SAME : forall k, entry_matches k b -> entry_matches k a) by (intros k; unfold entry_matches; rewrite Ek, Em; auto).
    assert (Ra : e_route a = e_route b).
    { apply (RCo a b (e_key a)).
      - rewrite H. apply in_elt.
      - rewrite H. apply in_or_app. right. right. apply in_elt.
      - exact Ma.
      - unfold entry_matches. rewrite Ek, Em. exact Ma. }
    rewrite H in E. destruct (pair_no_more_merges false c_sort n table l1 a l3 b l4 (e_key a) (e_mask a) F E Ra) as (d & k & Hd & Nd & Md & Mk).
    - intros k [X|X]; [exact X|exact (SAME k X)].
    - apply Nd. apply (RCo d a k); [rewrite H; exact Hd | rewrite H; apply in_elt | exact Md | exact Mk]. }
  exact (G [] out eq_refl).
Qed.

Theorem C206_after_unordered_pair : forall c_sort n table mid target no_raise out al,
  Forall entry_ok table -> route_consistent table ->
  compress_table false c_sort n table = Ok mid ->
  ordered_covering mid target [] no_raise = Ok (out, al) ->
  forall o k, In o table -> entry_matches k o -> routes_to out k (e_route o).
Proof.
  intros c_sort n table mid target nr out al F RC E E' o k Ho M.
  destruct (pair_consistent c_sort n table mid F RC E) as [Okm RCm].
  destruct (pair_preserves_consistent false c_sort n table mid F RC E o k Ho M) as (m & Fm & <-).
  destruct (first_match_Some _ _ _ Fm) as [Im Mm].
  exact (C206_consistent mid target nr out al Okm RCm (pair_distinct c_sort n table mid F RC E) E' m k Im Mm).
Qed.
Print Assumptions C206_after_unordered_pair.

(** Of seven entries the unordered pair compressor leaves five, ordered covering three. *)
Example C206_example :
  let table := [mkEntry 0 15 1 false; mkEntry 3 15 1 false; mkEntry 9 15 1 false;
                mkEntry 4 15 2 true; mkEntry 5 15 2 false; mkEntry 1 15 2 false; mkEntry 14 15 2 true] in
  exists mid out al, Forall entry_ok table /\ orthogonal table /\
    compress_table false false 8 table = Ok mid /\ length mid = 5%nat /\
    ordered_covering mid None [] true = Ok (out, al) /\ length out = 3%nat.
Proof.
  cbv zeta. eexists _, _, _. split; [repeat constructor|]. split; [apply orthogonalb_sound; vm_compute; reflexivity|].
  split; [vm_compute; reflexivity|]. split; [reflexivity|]. split; [vm_compute; reflexivity|]. reflexivity.
Qed.

(** C207.  Ordered covering after the ordered pair compressor sends packets elsewhere:
    it sorts by generality, the pair compressor by how often a route is used. *)
Theorem C207_pair_then_ordered_refuted : exists table mid out o k,
  Forall entry_ok table /\ orthogonal table /\
  compress_table true false 8 table = Ok mid /\ oc_compress_table mid None = Ok out /\
  In o table /\ entry_matches k o /\ routes_to mid k (e_route o) /\
  exists e, first_match out k = Some e /\ e_route e <> e_route o.
Proof.
  exists [mkEntry 0 12 1 false; mkEntry 5 31 2 false; mkEntry 9 31 2 false],
    [mkEntry 0 12 1 false; mkEntry 1 19 2 false], [mkEntry 1 19 2 false; mkEntry 0 12 1 false], (mkEntry 0 12 1 false), 1.
  split; [repeat constructor|]. split; [apply orthogonalb_sound; vm_compute; reflexivity|].
  split; [vm_compute; reflexivity|]. split; [vm_compute; reflexivity|]. split; [now left|]. split; [reflexivity|].
  split; [eexists; split; reflexivity|]. eexists. split; [vm_compute; reflexivity|]. discriminate.
Qed.
Print Assumptions C207_pair_then_ordered_refuted.

(** And so does the pair compressor, in either mode, after ordered covering. *)
Theorem C207_ordered_then_pair_refuted : exists table mid o k,
  Forall entry_ok table /\ orthogonal table /\ oc_compress_table table None = Ok mid /\
  In o table /\ entry_matches k o /\ routes_to mid k (e_route o) /\
  forall ordered, exists out e, compress_table ordered false 8 mid = Ok out /\ first_match out k = Some e /\ e_route e <> e_route o.
Proof.
  exists [ mkEntry 0 15 1 false; mkEntry 4 15 2 false; mkEntry 5 15 2 false; mkEntry 6 15 2 false; mkEntry 7 15 4 true;
           mkEntry 8 12 1 false; mkEntry 12 14 2 true; mkEntry 14 15 4 false ],
    [ mkEntry 7 15 4 true; mkEntry 14 15 4 false; mkEntry 0 4 1 false; mkEntry 4 4 2 false ], (mkEntry 14 15 4 false), 14.
  split; [repeat constructor|]. split; [apply orthogonalb_sound; vm_compute; reflexivity|].
  split; [vm_compute; reflexivity|]. split; [cbn [In]; tauto|]. split; [reflexivity|].
  split; [eexists; split; reflexivity|].
  intros [|]; eexists _, _; (split; [vm_compute; reflexivity|]; split; [vm_compute; reflexivity|]; discriminate).
Qed.
Print Assumptions C207_ordered_then_pair_refuted.

(** In unordered mode the pair compressor may come first, whatever follows: ordered
    covering (C206) or pair compression in any mode. *)
Theorem C207_unordered_first_partial : forall c_sort n table mid, Forall entry_ok table -> route_consistent table ->
  compress_table false c_sort n table = Ok mid ->
  forall o k, In o table -> entry_matches k o ->
    (forall target no_raise out al, ordered_covering mid target [] no_raise = Ok (out, al) -> routes_to out k (e_route o)) /\
    (forall ordered c_sort' n' out, compress_table ordered c_sort' n' mid = Ok out -> routes_to out k (e_route o)).
Proof.
  intros c_sort n table mid F RC E o k Ho M. split.
  - intros target nr out al E'. exact (C206_after_unordered_pair c_sort n table mid target nr out al F RC E E' o k Ho M).
  - intros ordered c_sort' n' out E'. exact (pair_twice ordered c_sort c_sort' n n' table mid out F RC E E' o k Ho M).
Qed.
Print Assumptions C207_unordered_first_partial.
