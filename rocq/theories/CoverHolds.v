(** Ordered covering keeps an entry for every packet that an entry matched, whose flag of
    default routing is not weaker; and the tables of a graph that are compressed by the
    unordered pair compressor and then by ordered covering. *)
From Coq Require Import List Arith NArith ZArith Bool Lia Sorted Permutation.
From Verif Require Import Base Dict RouteSpec KeyMask AllocModel AllocProofs TablesModel TablesProofs GenModel GenProofs
  PairModel PairSort PairAgain CheckedProofs DefaultModel DefaultProofs OrderedModel OrderedProofs OrderedAgain RangeCover
  TreeModel TreeProofs MachModel RPartModel RPartProofs RouterModel RouterProofs RouterTables RouterPlan RouterFinal RouterSuccess
  ChainModel ChainProofs CoverMerged FixProofs FixChain.
Import ListNotations.

(** Some entry matches the packet and is defaultable only if [d]. *)
Definition has_for (t : list entry) (k : N) (d : bool) : Prop :=
  exists y, In y t /\ entry_matches k y /\ (e_def y = true -> d = true).

Lemma apply_holds : forall t a m t' a', NoDup (map km t) -> merge_of t m -> one_route t (mg_entries m) -> mg_entries m <> [] ->
  apply_merge t a m = Ok (t', a') -> forall k d, has_for t k d -> has_for t' k d.
Proof.
  intros t a m t' a' ND M OR Hne E k d (y & Hy & My & Dy).
  destruct (apply_merge_spec t a m M OR Hne ND) as [ne [a2 [E' [EK [EM [ED _]]]]]].
  rewrite E' in E. injection E as <- _.
  destruct (In_nth_error _ _ Hy) as [j Hj]. destruct (in_dec Nat.eq_dec j (mg_entries m)) as [I|I].
  - assert (P : picked t (mg_entries m) y) by (exists j; auto).
    exists ne. split; [apply in_elt|]. split.
    + unfold entry_matches. rewrite EK, EM. apply (mo_cover t m M y); auto.
    + intros X. apply Dy. rewrite ED in X. apply (proj1 (mo_def t m M) X y P).
  - exists y. split; [|auto].
    assert (SPLIT : del (mg_entries m) 0 t = del (mg_entries m) 0 (firstn (mg_ins m) t) ++ del (mg_entries m) (mg_ins m) (skipn (mg_ins m) t)).
    { rewrite <- (firstn_skipn (mg_ins m) t) at 1. rewrite del_app, firstn_length.
      pose proof (mo_ins t m M). replace (0 + Nat.min (mg_ins m) (length t))%nat with (mg_ins m) by lia. reflexivity. }
    assert (X : In y (del (mg_entries m) 0 t)) by (apply del_In; exists j; rewrite Nat.add_0_l; auto).
    rewrite SPLIT in X. apply in_app_or in X. apply in_or_app. cbn [In]. tauto.
Qed.

Lemma oc_loop_holds : forall fuel t a target t' a', oc_base t a -> (t <> [] \/ target <> None) -> (length t < fuel)%nat ->
  oc_loop fuel t a target = Ok (t', a') -> forall k d, has_for t k d -> has_for t' k d.
Proof.
  induction fuel as [|f IH]; intros t a target t' a' I Ht HF E k d H; [lia|].
  cbn [oc_loop] in E. destruct (want_more target t) eqn:W; [|injection E as <- _; exact H].
  assert (Hne : t <> []).
  { destruct Ht as [Ht|Ht]; auto. destruct target as [n|]; [|congruence].
    unfold want_more in W. apply Nat.ltb_lt in W. intro; subst; cbn in W; lia. }
  destruct (best_merge_spec t a Hne (ob_sorted _ _ I)) as [m [Em X]]. rewrite Em in E. cbn [bind] in E.
  destruct (Z.leb_spec (goodness m) 0) as [L|L]; [injection E as <- _; exact H|].
  destruct X as [X|[V [OR G]]]; [rewrite (goodness_empty m X) in L; lia|].
  assert (Hm : mg_entries m <> []) by (intro X; rewrite goodness_empty in G by exact X; lia).
  destruct (apply_keeps t a m I V OR Hm) as [t1 [a1 [E1 [I1 [_ LN]]]]]. rewrite E1 in E. cbn [bind fst snd] in E.
  assert (LM : (length (mg_entries m) <= length t)%nat).
  { destruct V as [M [SS _]]. apply sorted_length_range; auto. apply (mo_range t m M). }
  unfold goodness in G. assert (T1 : t1 <> []) by (intro X; rewrite X in LN; cbn in LN; lia).
  refine (IH t1 a1 target t' a' I1 (or_introl T1) ltac:(lia) E k d _).
  exact (apply_holds t a m t1 a1 (ob_nodup _ _ I) (proj1 V) OR Hm E1 k d H).
Qed.

Lemma covering_holds : forall table target nr out al, Forall entry_ok table -> NoDup (map km table) ->
  ordered_covering table target [] nr = Ok (out, al) -> forall k d, has_for table k d -> has_for out k d.
Proof.
  intros table target nr out al F N E k d (y & Hy & My & Dy). pose proof (sort_perm table) as P.
  assert (Hs : In y (sort_entries table)) by (apply (Permutation_in _ (Permutation_sym P)); exact Hy).
  assert (B : oc_base (sort_entries table) []).
  { constructor.
    - apply sort_sorted.
    - eapply Permutation_NoDup; [|exact N]. apply Permutation_map, Permutation_sym, P.
    - rewrite Forall_forall in *. intros x Hx. apply F. eapply Permutation_in; eauto.
    - intros e He. cbn [alias_get]. split; [eexists; left; reflexivity|]. intros p [<-|[]]. exists (e_key e).
      rewrite Forall_forall in F. assert (X : entry_ok e) by (apply F; eapply Permutation_in; eauto). split; exact X. }
  unfold ordered_covering in E. apply bind_Ok_inv in E. destruct E as ([t' a'] & E1 & E2). cbn [fst] in E2.
  destruct (negb nr && match target with Some n => Nat.ltb n (length t') | None => false end)%bool; [discriminate|]. injection E2 as <- <-.
  refine (oc_loop_holds _ _ _ _ _ _ B (or_introl _) _ E1 k d _).
  - intros X. rewrite X in Hs. destruct Hs.
  - lia.
  - exists y. auto.
Qed.

Lemma dropped_kept : forall {A} (P : A -> Prop) l l', dropped P l l' -> forall x, In x l -> ~ P x -> In x l'.
Proof.
  intros A P l l' H. induction H as [|x l l' H IH|x l l' Px H IH]; intros y Hy N; [exact Hy| |].
  - destruct Hy as [->|Hy]; [now left|right; auto].
  - destruct Hy as [->|Hy]; [contradiction|auto].
Qed.

(** A packet is left without an entry only if every entry that matched it was defaultable. *)
Lemma covering_defaults : forall table target out, Forall entry_ok table -> NoDup (map km table) ->
  oc_compress_table table target = Ok out ->
  forall o k, In o table -> entry_matches k o -> first_match out k = None -> e_def o = true.
Proof.
  intros table target out F N C o k Ho M X.
  unfold oc_compress_table in C. apply bind_Ok_inv in C. destruct C as [[t a] [E1 E2]]. cbn [fst] in E2.
  destruct (covering_sorts table target true t a F N E1) as [OKt _].
  destruct (remove_default_safe t target true out OKt (or_introl eq_refl) E2) as [D _].
  destruct (covering_holds table target true t a F N E1 k (e_def o)) as (y & Hy & My & Dy).
  - exists o. auto.
  - destruct (e_def y) eqn:Y; [auto|]. exfalso.
    assert (I : In y out) by (apply (dropped_kept _ _ _ D); [exact Hy|congruence]).
    destruct (first_match_exists out k y I My) as [z Z]. congruence.
Qed.

(** After the unordered pair compressor. *)
Lemma pair_then_cover : forall c_sort n table mid target out, Forall entry_ok table -> orthogonal table ->
  compress_table false c_sort n table = Ok mid -> oc_compress_table mid target = Ok out ->
  forall o k, In o table -> entry_matches k o ->
    routes_to out k (e_route o) \/ (first_match out k = None /\ e_def o = true).
Proof.
  intros c_sort n table mid target out F O E C o k Ho M.
  pose proof (orthogonal_route_consistent _ O) as RC.
  destruct (pair_consistent c_sort n table mid F RC E) as [Okm RCm].
  destruct (pair_held false c_sort n table mid F O E) as (_ & ND & _ & Hd).
  destruct (Hd o Ho) as (pre & h & post & Eh & Cv & Rh & Dh & _).
  assert (Ih : In h mid) by (rewrite Eh; apply in_elt). pose proof (Cv k M) as Mh.
  unfold oc_compress_table in C. pose proof C as C0. apply bind_Ok_inv in C. destruct C as [[t a] [E1 E2]]. cbn [fst] in E2.
  destruct (covering_sorts mid target true t a Okm ND E1) as [OKt Kp].
  destruct (remove_default_safe t target true out OKt (or_introl eq_refl) E2) as [_ Sf].
  destruct (first_match_exists (sort_entries mid) k h) as [o' Fo].
  - apply (Permutation_in _ (Permutation_sym (sort_perm mid))). exact Ih.
  - exact Mh.
  - destruct (first_match_Some _ _ _ Fo) as [I' M']. apply (Permutation_in _ (sort_perm mid)) in I'.
    destruct (Kp k o' Fo) as (e & Fe & Re & _). specialize (Sf k). rewrite Fe in Sf. destruct Sf as [Sf|[_ S2]].
    + left. exists e. split; [exact Sf|]. rewrite Re, <- Rh. apply (RCm o' h k); auto.
    + right. split; [exact S2|]. apply Dh. exact (covering_defaults mid target out Okm ND C0 h k Ih Mh S2).
Qed.

(** * Graphs *)
Lemma pair_cover_tables : forall c_sort n_routes target' as_needed' overflow' target (as_needed accept_overflow : bool) ts mid out, Forall fine_table ts ->
  compress_tables (fun t => compress_table false c_sort n_routes (t_entries t)) target' as_needed' false overflow' ts [] = Ok mid ->
  compress_tables (fun t => oc_compress_table (t_entries t) (if as_needed then Some (target (t_x t) (t_y t)) else None))
    target as_needed true accept_overflow mid [] = Ok out ->
  Forall2 (fun tb tb' => where_is tb tb' /\ compressed true tb tb') ts out.
Proof.
  intros c_sort n_routes target' as_needed' overflow' target as_needed accept_overflow ts mid out FI PC C.
  destruct (driver_spec _ _ _ _ _ _ _ PC) as [RC _]. destruct (driver_spec _ _ _ _ _ _ _ C) as [F _]. clear C PC.
  revert FI out F. induction RC as [|tb tm ts mid R1 RC IH]; intros FI out F; inversion_clear F as [|? to ? out' D1 F'].
  - constructor.
  - destruct R1 as (X & Y & R). destruct D1 as (X' & Y' & D). inversion_clear FI as [|? ? [E O] FI']. constructor; [|exact (IH FI' _ F')].
    assert (E' : Forall entry_ok (t_entries tb)) by (eapply Forall_impl; [|exact E]; intros z Z; exact (proj1 Z)).
    split; [split; congruence|]. intros o k I K M. cbn beta in R, D. unfold compressed.
    destruct R as [(_ & _ & R)|R]; [rewrite R in D|]; (destruct D as [(_ & _ & ->)|D]).
    + left. destruct (first_match_exists (t_entries tb) k o I M) as [z Z].
      exists z. split; [exact Z|]. destruct (first_match_Some _ _ _ Z) as [Iz Mz].
      apply (orthogonal_route_consistent _ O z o k); auto.
    + destruct (oc_compress_preserves _ _ _ E' O D o k I M) as [[o' [A B]]|[A B]]; [left|right; auto].
      exists o'. split; [exact A|]. destruct B; congruence.
    + left. exact (pair_preserves_routing _ _ _ _ _ E' O R o k I M).
    + destruct (pair_then_cover _ _ _ _ _ _ E' O R D o k I M) as [A|[A B]]; [left; exact A|right; auto].
Qed.

Lemma pair_covering : forall entry_eq flexible i vs ps extra e infos ts c_sort n_routes target' as_needed' overflow' mid target (as_needed accept_overflow : bool) out,
  graph_ok i vs ps -> user_keys_ok flexible i vs ps extra e ->
  make_tables false entry_eq flexible i vs ps extra e = Ok (infos, ts) ->
  compress_tables (fun t => compress_table false c_sort n_routes (t_entries t)) target' as_needed' false overflow' ts [] = Ok mid ->
  compress_tables (fun t => oc_compress_table (t_entries t) (if as_needed then Some (target (t_x t) (t_y t)) else None))
    target as_needed true accept_overflow mid [] = Ok out ->
  exact_delivery i vs ps infos out.
Proof.
  intros entry_eq flexible i vs ps extra e infos ts c_sort n_routes target' as_needed' overflow' mid target as_needed accept_overflow out GO UO H RC C.
  destruct (chain_split _ _ _ _ _ _ _ _ _ _ H) as [t [R [A G]]].
  assert (GK : good_keys false i vs ps t infos) by (refine (user_good _ _ _ _ _ _ _ _ _ GO UO _ R A); discriminate). destruct GK as [KT KW].
  destruct (made_holds false i vs ps t infos entry_eq R KT ts G) as [_ [FI HO]].
  apply (keeps_delivers i vs ps t infos out GO R KW).
  apply (compressed_keeps _ true infos t ts out HO); [reflexivity|].
  exact (pair_cover_tables _ _ _ _ _ _ _ _ _ _ _ FI RC C).
Qed.

Lemma pair_covering_merged : forall entry_eq flexible i vs ps extra e infos ts t c_sort n_routes target' as_needed' overflow' mid target (as_needed accept_overflow : bool) out,
  graph_ok i vs ps -> user_keys_ok flexible i vs ps extra e -> mergeable flexible e (is_routed i vs ps) ->
  make_tables true entry_eq flexible i vs ps extra e = Ok (infos, ts) ->
  route_application_graph i vs ps = Ok t -> flags_agree i t ->
  compress_tables (fun t => compress_table false c_sort n_routes (t_entries t)) target' as_needed' false overflow' ts [] = Ok mid ->
  compress_tables (fun t => oc_compress_table (t_entries t) (if as_needed then Some (target (t_x t) (t_y t)) else None))
    target as_needed true accept_overflow mid [] = Ok out ->
  exact_delivery i vs ps infos out.
Proof.
  intros entry_eq flexible i vs ps extra e infos ts t c_sort n_routes target' as_needed' overflow' mid target as_needed accept_overflow out GO UO MG H R AG RC C.
  destruct (chain_split _ _ _ _ _ _ _ _ _ _ H) as [t' [R' [A G]]]. assert (t' = t) by congruence. subst t'. clear R'.
  destruct (user_good _ _ _ _ _ _ _ _ _ GO UO (fun _ => MG) R A : good_keys true i vs ps t infos) as [KT KW].
  destruct (merged_holds i vs ps t infos entry_eq R KT AG ts G) as [FI HO].
  apply (keeps_delivers i vs ps t infos out GO R KW).
  apply (compressed_keeps _ true infos t ts out HO); [reflexivity|].
  exact (pair_cover_tables _ _ _ _ _ _ _ _ _ _ _ FI RC C).
Qed.
