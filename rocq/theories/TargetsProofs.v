(** Proofs about the targets of the application router. *)
From Coq Require Import List Arith Bool Lia.
From Verif Require Import Base Dict RPartModel RPartProofs TargetsModel.
Import ListNotations.

(** Cores ([true]) or links ([false]). *)
Definition pick (b : bool) (p : list nat * list nat) : list nat := if b then fst p else snd p.
Definition pick_opt (b : bool) (core link : option nat) : option nat := if b then core else link.

(** One source of one call. *)
Record atom := mkAtom { a_machine : bool; a_core : option nat; a_link : option nat; a_src : vtx }.
Definition step (env : tenv) (s : tstate) (o : atom) : tstate :=
  if a_machine o then add_machine_src env s (a_core o) (a_link o) (a_src o)
  else add_src env s (a_core o) (a_link o) (a_src o).
Definition atoms_of (c : tcall) : list atom := map (mkAtom (tc_machine c) (tc_core c) (tc_link c)) (tc_srcs c).

Lemma run_call_atoms : forall env c s, run_call env s c = fold_left (step env) (atoms_of c) s.
Proof.
  intros env [k co li srcs] s. unfold run_call, atoms_of. cbn. revert s.
  induction srcs as [|x srcs IH]; intros s; [reflexivity|]. cbn [map fold_left]. rewrite IH. reflexivity.
Qed.
Lemma run_calls_atoms : forall env calls, run_calls env calls = fold_left (step env) (flat_map atoms_of calls) t_empty.
Proof.
  intros env calls. unfold run_calls. generalize t_empty. induction calls as [|c calls IH]; intros s; [reflexivity|].
  cbn [flat_map fold_left]. rewrite fold_left_app, <- run_call_atoms. apply IH.
Qed.

(** * Single operations *)
Definition valid (s : tstate) : Prop := forall k a, dget vtx_eqb (t_dict s) k = Some a -> a < length (t_heap s).

Lemma vtx_eqb_refl : forall k, vtx_eqb k k = true.
Proof. intros. apply vtx_eqb_eq. reflexivity. Qed.
Lemma vtx_eqb_false : forall k k', vtx_eqb k k' = false <-> k <> k'.
Proof. intros. rewrite <- vtx_eqb_eq. destruct (vtx_eqb k k'); split; congruence. Qed.

Lemma valid_targets : forall s k, valid s -> (targets_of s k = None <-> dget vtx_eqb (t_dict s) k = None).
Proof.
  intros s k V. unfold targets_of. destruct (dget vtx_eqb (t_dict s) k) as [a|] eqn:E; [|tauto].
  split; [|discriminate]. intros H. apply nth_error_None in H. specialize (V k a E). lia.
Qed.

Lemma ensure_spec : forall s k, valid s ->
  let s' := ensure_source s k in
  valid s' /\
  targets_of s' k = Some (match targets_of s k with Some p => p | None => ([], []) end) /\
  (forall k', k' <> k -> dget vtx_eqb (t_dict s') k' = dget vtx_eqb (t_dict s) k') /\
  (forall k', k' <> k -> targets_of s' k' = targets_of s k') /\
  (exists a, dget vtx_eqb (t_dict s') k = Some a /\ a < length (t_heap s') /\
     ((dget vtx_eqb (t_dict s) k = Some a /\ s' = s) \/ (dget vtx_eqb (t_dict s) k = None /\ a = length (t_heap s)))).
Proof.
  intros s k V s'. unfold s', ensure_source, dmem. destruct (dget vtx_eqb (t_dict s) k) as [a|] eqn:E.
  - split; [exact V|]. split; [|split; [auto | split; [auto|]]].
    + unfold targets_of. rewrite E. specialize (V k a E). destruct (nth_error (t_heap s) a) eqn:N; [reflexivity|].
      apply nth_error_None in N. lia.
    + exists a. split; [exact E|]. split; [exact (V k a E)|]. left. auto.
  - unfold t_fresh. cbn [t_heap t_dict].
    assert (D : forall k', k' <> k -> dget vtx_eqb (dset vtx_eqb (t_dict s) k (length (t_heap s))) k' = dget vtx_eqb (t_dict s) k').
    { intros k' N. apply (dget_dset_neq _ vtx_eqb_eq). congruence. }
    split; [|split; [|split; [exact D | split]]].
    + intros k' a' H. cbn [t_heap t_dict] in *. rewrite app_length. cbn [length].
      rewrite (dget_dset _ vtx_eqb_eq) in H. destruct (vtx_eqb k k') eqn:Q; [injection H as <-; lia|].
      specialize (V k' a' H). lia.
    + unfold targets_of. cbn [t_heap t_dict]. rewrite (dget_dset_eq _ vtx_eqb_eq), E.
      rewrite nth_error_app2, Nat.sub_diag by lia. reflexivity.
    + intros k' N. unfold targets_of. cbn [t_heap t_dict]. rewrite (D k' N).
      destruct (dget vtx_eqb (t_dict s) k') as [a'|] eqn:E'; [|reflexivity].
      apply nth_error_app1. exact (V k' a' E').
    + exists (length (t_heap s)). rewrite (dget_dset_eq _ vtx_eqb_eq). split; [reflexivity|].
      split; [rewrite app_length; cbn; lia | right; auto].
Qed.

Lemma nth_error_upd : forall {A} (l : list A) i j x, i < length l ->
  nth_error (upd l i x) j = if Nat.eqb i j then Some x else nth_error l j.
Proof.
  induction l as [|y l IH]; intros [|i] [|j] x H; cbn in *; try lia; try reflexivity. apply IH. lia.
Qed.

Definition grow (p : list nat * list nat) (core link : option nat) : list nat * list nat :=
  (fst p ++ opt_list core, snd p ++ opt_list link).

Lemma add_source_spec : forall s k core link, valid s ->
  let s' := add_source s k core link in
  valid s' /\
  targets_of s' k = Some (grow (match targets_of s k with Some p => p | None => ([], []) end) core link) /\
  (forall k', k' <> k -> dget vtx_eqb (t_dict s') k' = dget vtx_eqb (t_dict s) k') /\
  (exists a, dget vtx_eqb (t_dict s') k = Some a /\
     (dget vtx_eqb (t_dict s) k = Some a \/ (dget vtx_eqb (t_dict s) k = None /\ a = length (t_heap s))) /\
     (forall k', k' <> k -> targets_of s' k' =
        match dget vtx_eqb (t_dict s) k' with
        | Some a' => if Nat.eqb a a' then option_map (fun p => grow p core link) (targets_of s k') else targets_of s k'
        | None => None
        end)).
Proof.
  intros s k core link V s'. destruct (ensure_spec s k V) as [V1 [T1 [D1 [O1 [a [E1 [L1 A1]]]]]]].
  unfold s', add_source. set (s1 := ensure_source s k) in *. rewrite E1.
  destruct (nth a (t_heap s1) ([], [])) as [cs ls] eqn:N.
  assert (N' : nth_error (t_heap s1) a = Some (cs, ls)).
  { rewrite (nth_error_nth' _ ([], []) L1), N. reflexivity. }
  assert (UL : length (upd (t_heap s1) a (cs ++ opt_list core, ls ++ opt_list link)) = length (t_heap s1)) by apply upd_length.
  split; [|split; [|split]].
  - intros k' a' H. cbn [t_heap t_dict] in *. rewrite UL. exact (V1 k' a' H).
  - unfold targets_of at 1. cbn [t_heap t_dict]. rewrite E1, nth_error_upd, Nat.eqb_refl by exact L1.
    unfold targets_of in T1 at 1. rewrite E1, N' in T1. injection T1 as T1. rewrite <- T1. reflexivity.
  - exact D1.
  - exists a. cbn [t_heap t_dict]. split; [exact E1|]. split.
    + destruct A1 as [[A _]|[A B]]; auto.
    + intros k' NK. rewrite <- (D1 k' NK). rewrite <- (O1 k' NK). unfold targets_of. cbn [t_heap t_dict].
      destruct (dget vtx_eqb (t_dict s1) k') as [a'|] eqn:E'; [|reflexivity].
      rewrite nth_error_upd by exact L1. destruct (Nat.eqb a a') eqn:Q; [|reflexivity].
      apply Nat.eqb_eq in Q. subst a'. rewrite N'. reflexivity.
Qed.

(** * Nothing is lost *)
Definition holds (s : tstate) (k : vtx) (b : bool) (o : option nat) : Prop :=
  exists p, targets_of s k = Some p /\ forall x, o = Some x -> In x (pick b p).

Lemma pick_grow : forall b p core link x, In x (pick b (grow p core link)) <-> In x (pick b p) \/ pick_opt b core link = Some x.
Proof.
  intros [|] [cs ls] core link x; cbn; rewrite in_app_iff.
  - destruct core as [y|]; cbn; [|intuition discriminate]. split; intros [H|H]; auto.
    + destruct H as [->|[]]. auto.
    + injection H as ->. auto.
  - destruct link as [y|]; cbn; [|intuition discriminate]. split; intros [H|H]; auto.
    + destruct H as [->|[]]. auto.
    + injection H as ->. auto.
Qed.

Lemma add_source_holds : forall s k core link k' b o, valid s -> holds s k' b o -> holds (add_source s k core link) k' b o.
Proof.
  intros s k core link k' b o V [p [T H]]. destruct (add_source_spec s k core link V) as [_ [T' [_ [a [_ [_ O]]]]]].
  destruct (vtx_eqb k' k) eqn:E.
  - apply vtx_eqb_eq in E. subst k'. eexists. split; [exact T'|]. rewrite T. intros x X. apply pick_grow. left. exact (H x X).
  - apply vtx_eqb_false in E. specialize (O k' E). rewrite T in O. cbn [option_map] in O.
    assert (D : dget vtx_eqb (t_dict s) k' <> None).
    { intros Z. unfold targets_of in T. rewrite Z in T. discriminate. }
    destruct (dget vtx_eqb (t_dict s) k') as [a'|]; [|congruence].
    destruct (Nat.eqb a a'); eexists; (split; [exact O|]); intros x X; [apply pick_grow; left|]; exact (H x X).
Qed.

Lemma add_source_new : forall s k core link b, valid s -> holds (add_source s k core link) k b (pick_opt b core link).
Proof.
  intros s k core link b V. destruct (add_source_spec s k core link V) as [_ [T' _]].
  eexists. split; [exact T'|]. intros x X. apply pick_grow. right. exact X.
Qed.

Lemma add_m_spec : forall vs s core link, valid s ->
  let s' := add_m_vertices s vs core link in
  valid s' /\
  (forall k b o, holds s k b o -> holds s' k b o) /\
  (forall v b, In v vs -> holds s' (Mac v) b (pick_opt b core link)) /\
  (forall k, (forall v, In v vs -> k <> Mac v) -> dget vtx_eqb (t_dict s') k = dget vtx_eqb (t_dict s) k).
Proof.
  induction vs as [|v vs IH]; intros s core link V; cbn [add_m_vertices].
  - split; [exact V|]. split; [auto|]. split; [intros v b [] | auto].
  - destruct (add_source_spec s (Mac v) core link V) as [V1 [_ [D1 _]]].
    destruct (IH (add_source s (Mac v) core link) core link V1) as [A [B [C D]]].
    split; [exact A|]. split; [|split].
    + intros k b o H. apply B. apply add_source_holds; assumption.
    + intros v' b [<-|H]; [|exact (C v' b H)]. apply B. apply add_source_new. exact V.
    + intros k H. rewrite D by (intros v' Hv; apply H; right; exact Hv). apply D1. apply H. left. reflexivity.
Qed.

Lemma ddel_get : forall {V} (d : list (vtx * V)) k k', dget vtx_eqb (ddel vtx_eqb d k) k' = if vtx_eqb k k' then None else dget vtx_eqb d k'.
Proof.
  induction d as [|[k0 v0] d IH]; intros k k'; cbn [ddel filter dget fst].
  - destruct (vtx_eqb k k'); reflexivity.
  - destruct (vtx_eqb k0 k) eqn:E; cbn [negb].
    + apply vtx_eqb_eq in E. subst k0. change (filter (fun p => negb (vtx_eqb (fst p) k)) d) with (ddel vtx_eqb d k).
      rewrite IH. destruct (vtx_eqb k k'); reflexivity.
    + cbn [dget]. change (filter (fun p => negb (vtx_eqb (fst p) k)) d) with (ddel vtx_eqb d k). rewrite IH.
      destruct (vtx_eqb k0 k') eqn:E2; [|reflexivity]. apply vtx_eqb_eq in E2. subst k'.
      assert (vtx_eqb k k0 = false) as ->; [|reflexivity]. apply vtx_eqb_false. apply vtx_eqb_false in E. congruence.
Qed.

Lemma fold_dset_get : forall vs (d : list (vtx * nat)) addr k,
  dget vtx_eqb (fold_left (fun d v => dset vtx_eqb d (Mac v) addr) vs d) k =
  if existsb (fun v => vtx_eqb (Mac v) k) vs then Some addr else dget vtx_eqb d k.
Proof.
  induction vs as [|v vs IH]; intros d addr k; [reflexivity|]. cbn [fold_left existsb]. rewrite IH, (dget_dset _ vtx_eqb_eq).
  destruct (vtx_eqb (Mac v) k); cbn [orb]; [|reflexivity]. destruct (existsb _ vs); reflexivity.
Qed.

Lemma existsb_mac : forall vs k, existsb (fun v => vtx_eqb (Mac v) k) vs = true <-> exists v, In v vs /\ k = Mac v.
Proof.
  intros. rewrite existsb_exists. split; intros [v [H1 H2]]; exists v; split; auto.
  - apply vtx_eqb_eq in H2. auto.
  - subst. apply vtx_eqb_refl.
Qed.

Lemma replace_spec : forall env s a addr, valid s -> dget vtx_eqb (t_dict s) (App a) = Some addr ->
  let s' := replace_app_vertex env s a in
  valid s' /\ t_heap s' = t_heap s /\
  (forall v, In v (te_out env a) -> dget vtx_eqb (t_dict s') (Mac v) = Some addr) /\
  dget vtx_eqb (t_dict s') (App a) = None /\
  (forall k, k <> App a -> (forall v, In v (te_out env a) -> k <> Mac v) -> dget vtx_eqb (t_dict s') k = dget vtx_eqb (t_dict s) k).
Proof.
  intros env s a addr V E s'. unfold s', replace_app_vertex. rewrite E. cbn [t_heap t_dict].
  assert (G : forall k, dget vtx_eqb (fold_left (fun d v => dset vtx_eqb d (Mac v) addr) (te_out env a) (ddel vtx_eqb (t_dict s) (App a))) k =
     if existsb (fun v => vtx_eqb (Mac v) k) (te_out env a) then Some addr else if vtx_eqb (App a) k then None else dget vtx_eqb (t_dict s) k).
  { intros k. rewrite fold_dset_get, ddel_get. reflexivity. }
  split; [|split; [reflexivity|split; [|split]]].
  - intros k a' H. cbn [t_heap t_dict] in *. rewrite G in H. destruct (existsb _ _); [injection H as <-; exact (V _ _ E)|].
    destruct (vtx_eqb (App a) k); [discriminate|]. exact (V _ _ H).
  - intros v Hv. rewrite G. rewrite (proj2 (existsb_mac _ _)); [reflexivity | eauto].
  - rewrite G. destruct (existsb _ _) eqn:X; [apply existsb_mac in X; destruct X as [v [_ X]]; discriminate|].
    rewrite vtx_eqb_refl. reflexivity.
  - intros k H1 H2. rewrite G. destruct (existsb _ _) eqn:X.
    + apply existsb_mac in X. destruct X as [v [Hv X]]. exfalso. exact (H2 v Hv X).
    + rewrite (proj2 (vtx_eqb_false _ _)); [reflexivity | congruence].
Qed.

Definition env_ok (env : tenv) : Prop := forall a v, In v (te_out env a) -> te_app env v = Some a.

(** What is kept about the sources handled so far. *)
Definition has_op (s : tstate) (env : tenv) (o : atom) (b : bool) : Prop :=
  match a_src o with
  | Mac m => holds s (Mac m) b (pick_opt b (a_core o) (a_link o))
  | App a => holds s (App a) b (pick_opt b (a_core o) (a_link o)) \/
             (forall m, In m (te_out env a) -> holds s (Mac m) b (pick_opt b (a_core o) (a_link o)))
  end.
Definition apart (env : tenv) (s : tstate) : Prop :=
  forall a m, dget vtx_eqb (t_dict s) (App a) <> None -> In m (te_out env a) -> dget vtx_eqb (t_dict s) (Mac m) = None.

Record kept (env : tenv) (ops : list atom) (s : tstate) : Prop := mkKept {
  k_valid : valid s;
  k_apart : apart env s;
  k_ops : forall o b, In o ops -> has_op s env o b }.

Lemma holds_dget : forall s k b o, holds s k b o -> dget vtx_eqb (t_dict s) k <> None.
Proof. intros s k b o [p [T _]] E. unfold targets_of in T. rewrite E in T. discriminate. Qed.

Lemma has_op_mono : forall s s' env o b, (forall k b o, holds s k b o -> holds s' k b o) -> has_op s env o b -> has_op s' env o b.
Proof.
  intros s s' env o b M H. unfold has_op in *. destruct (a_src o) as [a|m]; [|apply M; exact H].
  destruct H as [H|H]; [left; apply M; exact H | right; intros m Hm; apply M; exact (H m Hm)].
Qed.

Lemma kept_replace : forall env ops s a, env_ok env -> kept env ops s -> dmem vtx_eqb (t_dict s) (App a) = true ->
  kept env ops (replace_app_vertex env s a) /\ dget vtx_eqb (t_dict (replace_app_vertex env s a)) (App a) = None /\
  (forall b, dget vtx_eqb (t_dict (replace_app_vertex env s a)) (App b) <> None -> dget vtx_eqb (t_dict s) (App b) <> None).
Proof.
  intros env ops s a EO [V P O] E. unfold dmem in E. destruct (dget vtx_eqb (t_dict s) (App a)) as [addr|] eqn:D; [|discriminate].
  destruct (replace_spec env s a addr V D) as [V' [HH [M [N R]]]].
  set (s' := replace_app_vertex env s a) in *.
  assert (TM : forall v, In v (te_out env a) -> targets_of s' (Mac v) = targets_of s (App a)).
  { intros v Hv. unfold targets_of. rewrite (M v Hv), D, HH. reflexivity. }
  assert (TO : forall k, k <> App a -> (forall v, In v (te_out env a) -> k <> Mac v) -> targets_of s' k = targets_of s k).
  { intros k H1 H2. unfold targets_of. rewrite (R k H1 H2), HH. reflexivity. }
  assert (RA : forall b, b <> a -> dget vtx_eqb (t_dict s') (App b) = dget vtx_eqb (t_dict s) (App b)).
  { intros b Hb. apply R; [congruence | intros v _; discriminate]. }
  split; [|split; [exact N|]].
  - constructor; [exact V'| |].
    + intros b m Hb Hm. destruct (Nat.eq_dec b a) as [->|NE]; [congruence|]. rewrite (RA b NE) in Hb.
      rewrite R; [exact (P b m Hb Hm) | discriminate|].
      intros v Hv X. injection X as ->. pose proof (EO _ _ Hv). pose proof (EO _ _ Hm). congruence.
    + intros o b Ho. specialize (O o b Ho). unfold has_op in *. destruct (a_src o) as [a'|m].
      * destruct (Nat.eq_dec a' a) as [->|NE].
        -- right. intros m Hm. destruct O as [[p [T H]]|O].
           ++ exists p. rewrite (TM m Hm). split; assumption.
           ++ exfalso. apply (holds_dget _ _ _ _ (O m Hm)). apply (P a m); [congruence | exact Hm].
        -- destruct O as [[p [T H]]|O].
           ++ left. exists p. rewrite TO; [split; assumption | congruence | intros v _; discriminate].
           ++ right. intros m Hm. destruct (O m Hm) as [p [T H]]. exists p. rewrite TO; [split; assumption | discriminate|].
              intros v Hv X. injection X as ->. pose proof (EO _ _ Hv). pose proof (EO _ _ Hm). congruence.
      * destruct O as [p [T H]]. exists p. rewrite TO; [split; assumption | discriminate|].
        intros v Hv X. injection X as ->. assert (Z : dget vtx_eqb (t_dict s) (Mac v) = None) by (apply (P a v); [congruence | exact Hv]).
        unfold targets_of in T. rewrite Z in T. discriminate.
  - intros b Hb. destruct (Nat.eq_dec b a) as [->|NE]; [congruence|]. rewrite <- (RA b NE). exact Hb.
Qed.

(** Adding a machine vertex whose application vertex is not there. *)
Lemma kept_mac : forall env ops s v core link, env_ok env -> kept env ops s ->
  (forall a, te_app env v = Some a -> dget vtx_eqb (t_dict s) (App a) = None) ->
  kept env ops (add_source s (Mac v) core link) /\
  (forall b, holds (add_source s (Mac v) core link) (Mac v) b (pick_opt b core link)) /\
  (forall a, dget vtx_eqb (t_dict (add_source s (Mac v) core link)) (App a) = dget vtx_eqb (t_dict s) (App a)).
Proof.
  intros env ops s v core link EO [V P O] NA. destruct (add_source_spec s (Mac v) core link V) as [V' [T [D _]]].
  split; [|split].
  - constructor; [exact V'| |].
    + intros a m Ha Hm. rewrite D in Ha by discriminate. destruct (Nat.eq_dec m v) as [->|NE].
      * exfalso. apply Ha. apply NA. exact (EO _ _ Hm).
      * rewrite D by congruence. exact (P a m Ha Hm).
    + intros o b Ho. apply (has_op_mono s); [|exact (O o b Ho)]. intros. apply add_source_holds; assumption.
  - intros b. apply add_source_new. exact V.
  - intros a. apply D. discriminate.
Qed.

Lemma kept_ms : forall env ops core link vs s, env_ok env -> kept env ops s ->
  (forall v a, In v vs -> te_app env v = Some a -> dget vtx_eqb (t_dict s) (App a) = None) ->
  kept env ops (add_m_vertices s vs core link) /\
  (forall v b, In v vs -> holds (add_m_vertices s vs core link) (Mac v) b (pick_opt b core link)).
Proof.
  induction vs as [|v vs IH]; intros s EO K NA; cbn [add_m_vertices].
  - split; [exact K | intros v b []].
  - destruct (kept_mac env ops s v core link EO K (fun a => NA v a (or_introl eq_refl))) as [K1 [H1 D1]].
    destruct (IH (add_source s (Mac v) core link) EO K1) as [K2 H2].
    { intros v' a Hv Ha. rewrite D1. apply (NA v' a); [right; exact Hv | exact Ha]. }
    split; [exact K2|]. intros v' b [<-|Hv]; [|exact (H2 v' b Hv)].
    destruct (add_m_spec vs (add_source s (Mac v) core link) core link (k_valid _ _ _ K1)) as [_ [M _]].
    apply M. apply H1.
Qed.

Lemma kept_add_op : forall env ops s o, kept env ops s -> (forall b, has_op s env o b) -> kept env (ops ++ [o]) s.
Proof.
  intros env ops s o [V P O] H. constructor; [exact V | exact P|]. intros o' b X. apply in_app_iff in X.
  destruct X as [X|[<-|[]]]; [exact (O o' b X) | apply H].
Qed.

Lemma replace_of_spec : forall env ops s v, env_ok env -> kept env ops s ->
  kept env ops (replace_of env s v) /\
  (forall a, te_app env v = Some a -> dget vtx_eqb (t_dict (replace_of env s v)) (App a) = None).
Proof.
  intros env ops s v EO K. unfold replace_of. destruct (te_app env v) as [a|] eqn:E; [|split; [exact K | discriminate]].
  destruct (dmem vtx_eqb (t_dict s) (App a)) eqn:M.
  - destruct (kept_replace env ops s a EO K M) as [K1 [N _]]. split; [exact K1|]. intros a' X. injection X as <-. exact N.
  - split; [exact K|]. intros a' X. injection X as <-. unfold dmem in M.
    destruct (dget vtx_eqb (t_dict s) (App a)); [discriminate | reflexivity].
Qed.

Lemma dmem_false : forall (d : list (vtx * nat)) k, dmem vtx_eqb d k = false <-> dget vtx_eqb d k = None.
Proof. intros. unfold dmem. destruct (dget vtx_eqb d k); split; congruence. Qed.

Lemma kept_step : forall env ops s o, env_ok env -> kept env ops s -> kept env (ops ++ [o]) (step env s o).
Proof.
  intros env ops s o EO K. unfold step.
  assert (MAC : forall v, a_src o = Mac v -> kept env (ops ++ [o]) (add_source (replace_of env s v) (Mac v) (a_core o) (a_link o))).
  { intros v E. destruct (replace_of_spec env ops s v EO K) as [K1 N1].
    destruct (kept_mac env ops _ v (a_core o) (a_link o) EO K1 N1) as [K2 [H2 _]].
    apply kept_add_op; [exact K2|]. intros b. unfold has_op. rewrite E. apply H2. }
  destruct (a_machine o) eqn:MO.
  - unfold add_machine_src. destruct (a_src o) as [a|v] eqn:E; [|apply MAC; reflexivity].
    assert (X : exists s1, (if dmem vtx_eqb (t_dict s) (App a) then replace_app_vertex env s a else s) = s1 /\
                  kept env ops s1 /\ dget vtx_eqb (t_dict s1) (App a) = None).
    { eexists. split; [reflexivity|]. destruct (dmem vtx_eqb (t_dict s) (App a)) eqn:M.
      - destruct (kept_replace env ops s a EO K M) as [K1 [N _]]. auto.
      - split; [exact K | apply dmem_false; exact M]. }
    destruct X as [s1 [-> [K1 N1]]].
    destruct (kept_ms env ops (a_core o) (a_link o) (te_out env a) s1 EO K1) as [K2 H2].
    { intros v a' Hv Ha. rewrite (EO _ _ Hv) in Ha. injection Ha as <-. exact N1. }
    apply kept_add_op; [exact K2|]. intros b. unfold has_op. rewrite E. right. intros m Hm. exact (H2 m b Hm).
  - unfold add_src. destruct (a_src o) as [a|v] eqn:E; [|apply MAC; reflexivity].
    destruct (is_m_vertex env s a) eqn:M.
    + assert (N1 : dget vtx_eqb (t_dict s) (App a) = None).
      { unfold is_m_vertex in M. apply existsb_exists in M. destruct M as [v [Hv M]].
        destruct (dget vtx_eqb (t_dict s) (App a)) eqn:D; [|reflexivity]. exfalso.
        assert (Z : dget vtx_eqb (t_dict s) (Mac v) = None) by (apply (k_apart _ _ _ K a v); [congruence | exact Hv]).
        apply dmem_false in Z. congruence. }
      destruct (kept_ms env ops (a_core o) (a_link o) (te_out env a) s EO K) as [K2 H2].
      { intros v a' Hv Ha. rewrite (EO _ _ Hv) in Ha. injection Ha as <-. exact N1. }
      apply kept_add_op; [exact K2|]. intros b. unfold has_op. rewrite E. right. intros m Hm. exact (H2 m b Hm).
    + destruct K as [V P O]. destruct (add_source_spec s (App a) (a_core o) (a_link o) V) as [V' [_ [D _]]].
      apply kept_add_op.
      * constructor; [exact V'| |].
        -- intros a' m Ha Hm. rewrite D by discriminate. destruct (Nat.eq_dec a' a) as [->|NE].
           ++ unfold is_m_vertex in M. apply dmem_false. destruct (dmem vtx_eqb (t_dict s) (Mac m)) eqn:Z; [|reflexivity].
              assert (Y : existsb (fun v => dmem vtx_eqb (t_dict s) (Mac v)) (te_out env a) = true) by (apply existsb_exists; eauto).
              rewrite Y in M. discriminate.
           ++ rewrite D in Ha by congruence. exact (P a' m Ha Hm).
        -- intros o' b Ho. apply (has_op_mono s); [|exact (O o' b Ho)]. intros. apply add_source_holds; assumption.
      * intros b. unfold has_op. rewrite E. left. apply add_source_new. exact V.
Qed.

Lemma kept_run : forall env ops, env_ok env -> kept env ops (fold_left (step env) ops t_empty).
Proof.
  intros env ops EO.
  assert (G : forall post pre s, kept env pre s -> kept env (pre ++ post) (fold_left (step env) post s)).
  { induction post as [|o post IH]; intros pre s K; [rewrite app_nil_r; exact K|]. cbn [fold_left].
    replace (pre ++ o :: post) with ((pre ++ [o]) ++ post) by (rewrite <- app_assoc; reflexivity).
    apply IH. apply kept_step; assumption. }
  apply (G ops [] t_empty). constructor.
  - intros k a H. discriminate.
  - intros a m H. cbn in H. congruence.
  - intros o b [].
Qed.

(** The targets that hold for a machine vertex: its own, or else those of its
    application vertex. *)
Definition effective (env : tenv) (s : tstate) (m : nat) : option (list nat * list nat) :=
  match targets_of s (Mac m) with
  | Some p => Some p
  | None => match te_app env m with Some a => targets_of s (App a) | None => None end
  end.

Definition concerns (env : tenv) (src : vtx) (m : nat) : Prop :=
  match src with Mac v => v = m | App a => In m (te_out env a) end.

Lemma atoms_In : forall calls o, In o (flat_map atoms_of calls) <->
  exists c src, In c calls /\ In src (tc_srcs c) /\ o = mkAtom (tc_machine c) (tc_core c) (tc_link c) src.
Proof.
  intros calls o. rewrite in_flat_map. unfold atoms_of. split.
  - intros [c [Hc Ho]]. apply in_map_iff in Ho. destruct Ho as [src [<- Hs]]. eauto 6.
  - intros [c [src [Hc [Hs ->]]]]. exists c. split; [exact Hc|]. apply in_map_iff. eauto.
Qed.

Lemma targets_kept : forall env calls c src m b, env_ok env ->
  In c calls -> In src (tc_srcs c) -> concerns env src m ->
  exists p, effective env (run_calls env calls) m = Some p /\
    forall x, pick_opt b (tc_core c) (tc_link c) = Some x -> In x (pick b p).
Proof.
  intros env calls c src m b EO Hc Hs CO. rewrite run_calls_atoms.
  pose proof (kept_run env (flat_map atoms_of calls) EO) as [V P O].
  set (s := fold_left (step env) (flat_map atoms_of calls) t_empty) in *.
  assert (X : In (mkAtom (tc_machine c) (tc_core c) (tc_link c) src) (flat_map atoms_of calls)) by (apply atoms_In; eauto 6).
  specialize (O _ b X). unfold has_op in O. cbn [a_src a_core a_link] in O. unfold effective.
  destruct src as [a|v]; cbn [concerns] in CO.
  - destruct O as [O|O].
    + pose proof (holds_dget _ _ _ _ O) as D. destruct O as [p [T H]].
      assert (Z : targets_of s (Mac m) = None) by (unfold targets_of; rewrite (P a m D CO); reflexivity).
      rewrite Z, (EO _ _ CO), T. eauto.
    + destruct (O m CO) as [p [T H]]. rewrite T. eauto.
  - subst v. destruct O as [p [T H]]. rewrite T. eauto.
Qed.

(** * Nothing leaks, unless an application vertex is replaced *)
Definition just (env : tenv) (o : atom) (k : vtx) : Prop :=
  a_src o = k \/ exists a m, a_src o = App a /\ k = Mac m /\ In m (te_out env a).

Record only (env : tenv) (ops : list atom) (s : tstate) : Prop := mkOnly {
  y_valid : valid s;
  y_inj : forall k k' a, dget vtx_eqb (t_dict s) k = Some a -> dget vtx_eqb (t_dict s) k' = Some a -> k = k';
  y_just : forall k p b x, targets_of s k = Some p -> In x (pick b p) ->
     exists o, In o ops /\ just env o k /\ pick_opt b (a_core o) (a_link o) = Some x }.

Lemma only_weaken : forall env ops ops' s, incl ops ops' -> only env ops s -> only env ops' s.
Proof.
  intros env ops ops' s I [V J X]. constructor; [exact V | exact J|].
  intros k p b x T H. destruct (X k p b x T H) as [o [A B]]. exists o. split; [exact (I o A) | exact B].
Qed.

Lemma only_add : forall env ops s o k, only env ops s -> In o ops -> just env o k ->
  only env ops (add_source s k (a_core o) (a_link o)).
Proof.
  intros env ops s o k [V J X] Io Jo.
  destruct (add_source_spec s k (a_core o) (a_link o) V) as [V' [T [D [a [E [A O]]]]]].
  assert (FR : forall k', k' <> k -> dget vtx_eqb (t_dict s) k' <> Some a).
  { intros k' N Z. destruct A as [A|[A B]].
    - apply N. exact (J _ _ _ Z A).
    - specialize (V k' a Z). lia. }
  constructor; [exact V'| |].
  - intros k1 k2 a' H1 H2. destruct (vtx_eqb k1 k) eqn:Q1; destruct (vtx_eqb k2 k) eqn:Q2.
    + apply vtx_eqb_eq in Q1, Q2. congruence.
    + exfalso. apply vtx_eqb_eq in Q1. apply vtx_eqb_false in Q2. subst k1. rewrite D in H2 by exact Q2.
      assert (a' = a) by congruence. subst. exact (FR k2 Q2 H2).
    + exfalso. apply vtx_eqb_eq in Q2. apply vtx_eqb_false in Q1. subst k2. rewrite D in H1 by exact Q1.
      assert (a' = a) by congruence. subst. exact (FR k1 Q1 H1).
    + apply vtx_eqb_false in Q1, Q2. rewrite D in H1 by exact Q1. rewrite D in H2 by exact Q2. exact (J _ _ _ H1 H2).
  - intros k' p b x T' Hx. destruct (vtx_eqb k' k) eqn:Q.
    + apply vtx_eqb_eq in Q. subst k'. rewrite T in T'. injection T' as <-. apply pick_grow in Hx.
      destruct Hx as [Hx|Hx]; [|exists o; auto].
      destruct (targets_of s k) as [p|] eqn:TS; [exact (X k p b x TS Hx)|]. destruct b; destruct Hx.
    + apply vtx_eqb_false in Q. rewrite (O k' Q) in T'.
      destruct (dget vtx_eqb (t_dict s) k') as [a'|] eqn:DK; [|discriminate].
      destruct (Nat.eqb a a') eqn:AA; [|exact (X k' p b x T' Hx)].
      apply Nat.eqb_eq in AA. subst a'. exfalso. exact (FR k' Q DK).
Qed.

Lemma only_add_m : forall env ops o vs s, only env ops s -> In o ops ->
  (forall v, In v vs -> just env o (Mac v)) -> only env ops (add_m_vertices s vs (a_core o) (a_link o)).
Proof.
  induction vs as [|v vs IH]; intros s Y Io Jo; [exact Y|]. cbn [add_m_vertices]. apply IH; [|exact Io|].
  - apply only_add; [exact Y | exact Io | apply Jo; left; reflexivity].
  - intros v' H. apply Jo. right. exact H.
Qed.

(** A source that makes the router look at the machine vertices of [a]; a source that
    puts in a machine vertex of [a]. *)
Definition triggers (env : tenv) (o : atom) (a : nat) : Prop :=
  match a_src o with Mac v => te_app env v = Some a | App a' => a' = a /\ a_machine o = true end.
Definition puts (env : tenv) (o : atom) (a : nat) : Prop :=
  match a_src o with Mac v => In v (te_out env a) | App a' => a' = a /\ a_machine o = true /\ te_out env a <> [] end.

Record orderly (env : tenv) (ops : list atom) (s : tstate) : Prop := mkOrderly {
  d_only : only env ops s;
  d_mac : forall a m, In m (te_out env a) -> dget vtx_eqb (t_dict s) (Mac m) <> None -> exists o, In o ops /\ puts env o a;
  d_put : forall a o, In o ops -> puts env o a -> exists m, In m (te_out env a) /\ dget vtx_eqb (t_dict s) (Mac m) <> None;
  d_app : forall a, dget vtx_eqb (t_dict s) (App a) <> None ->
     exists pre o post, ops = pre ++ o :: post /\ a_machine o = false /\ a_src o = App a /\
       (forall o', In o' pre -> ~ puts env o' a) }.

Lemma add_source_dget : forall s k core link k', valid s ->
  (dget vtx_eqb (t_dict (add_source s k core link)) k' <> None <-> dget vtx_eqb (t_dict s) k' <> None \/ k' = k).
Proof.
  intros s k core link k' V. destruct (add_source_spec s k core link V) as [_ [_ [D [a [E _]]]]].
  destruct (vtx_eqb k' k) eqn:Q.
  - apply vtx_eqb_eq in Q. subst k'. rewrite E. split; [auto | discriminate].
  - apply vtx_eqb_false in Q. rewrite D by exact Q. split; [auto | intros [H|H]; [exact H | contradiction]].
Qed.
Lemma add_m_dget : forall vs s core link k', valid s ->
  (dget vtx_eqb (t_dict (add_m_vertices s vs core link)) k' <> None <->
   dget vtx_eqb (t_dict s) k' <> None \/ exists v, In v vs /\ k' = Mac v).
Proof.
  induction vs as [|v vs IH]; intros s core link k' V; cbn [add_m_vertices].
  - split; [auto | intros [H|[v [[] _]]]; exact H].
  - destruct (add_source_spec s (Mac v) core link V) as [V' _]. rewrite (IH _ core link k' V'), add_source_dget by exact V.
    split.
    + intros [[H|H]|[v' [H1 H2]]]; [left; exact H | right; exists v; split; [left; reflexivity | exact H] |
        right; exists v'; split; [right; exact H1 | exact H2]].
    + intros [H|[v' [[<-|H1] H2]]]; [left; left; exact H | left; right; exact H2 | right; exists v'; auto].
Qed.

Lemma orderly_step : forall env ops s o, env_ok env -> orderly env ops s ->
  (forall a, triggers env o a -> dget vtx_eqb (t_dict s) (App a) = None) ->
  orderly env (ops ++ [o]) (step env s o).
Proof.
  intros env ops s o EO [Y M U A] H.
  assert (IO : In o (ops ++ [o])) by (apply in_app_iff; right; left; reflexivity).
  assert (IN : incl ops (ops ++ [o])) by (intros x Hx; apply in_app_iff; left; exact Hx).
  pose proof (only_weaken env ops _ s IN Y) as Y'.
  pose proof (y_valid _ _ _ Y) as V.
  assert (APP : forall a, dget vtx_eqb (t_dict s) (App a) <> None ->
     exists pre o0 post, ops ++ [o] = pre ++ o0 :: post /\ a_machine o0 = false /\ a_src o0 = App a /\
       (forall o', In o' pre -> ~ puts env o' a)).
  { intros a Ha. destruct (A a Ha) as [pre [o0 [post [E R]]]]. exists pre, o0, (post ++ [o]). split; [|exact R].
    rewrite E, <- app_assoc. reflexivity. }
  (* the machine vertices of an application vertex *)
  assert (MS : forall a, a_src o = App a -> te_out env a <> [] -> (a_machine o = true \/ exists m, In m (te_out env a) /\ dget vtx_eqb (t_dict s) (Mac m) <> None) ->
     orderly env (ops ++ [o]) (add_m_vertices s (te_out env a) (a_core o) (a_link o))).
  { intros a E NE MM. constructor.
    - apply only_add_m; [exact Y' | exact IO|]. intros v Hv. right. exists a, v. auto.
    - intros a' m Hm D. apply add_m_dget in D; [|exact V]. destruct D as [D|[v [Hv X]]].
      + destruct (M a' m Hm D) as [o' [P1 P2]]. exists o'. split; [exact (IN _ P1) | exact P2].
      + injection X as <-. assert (a' = a) by (pose proof (EO _ _ Hm); pose proof (EO _ _ Hv); congruence). subst a'.
        destruct MM as [MM|[m' [Hm' D']]].
        * exists o. split; [exact IO|]. unfold puts. rewrite E. auto.
        * destruct (M a m' Hm' D') as [o' [P1 P2]]. exists o'. split; [exact (IN _ P1) | exact P2].
    - intros a' o' Ho P. apply in_app_iff in Ho. destruct Ho as [Ho|[<-|[]]].
      + destruct (U a' o' Ho P) as [m [H1 H2]]. exists m. split; [exact H1|]. apply add_m_dget; [exact V | left; exact H2].
      + unfold puts in P. rewrite E in P. destruct P as [<- _]. destruct (te_out env a) as [|m l] eqn:L; [congruence|].
        exists m. split; [left; reflexivity|]. apply add_m_dget; [exact V|]. right. exists m. split; [left; reflexivity | reflexivity].
    - intros a' D. apply add_m_dget in D; [|exact V]. destruct D as [D|[v [_ X]]]; [exact (APP a' D) | discriminate]. }
  assert (MAC : forall v, a_src o = Mac v -> orderly env (ops ++ [o]) (add_source (replace_of env s v) (Mac v) (a_core o) (a_link o))).
  { intros v E. assert (RE : replace_of env s v = s).
    { unfold replace_of. destruct (te_app env v) as [a|] eqn:T; [|reflexivity].
      assert (N : dget vtx_eqb (t_dict s) (App a) = None) by (apply H; unfold triggers; rewrite E; exact T).
      apply dmem_false in N. rewrite N. reflexivity. }
    rewrite RE. constructor.
    - apply only_add; [exact Y' | exact IO | left; exact E].
    - intros a m Hm D. apply add_source_dget in D; [|exact V]. destruct D as [D|X].
      + destruct (M a m Hm D) as [o' [P1 P2]]. exists o'. split; [exact (IN _ P1) | exact P2].
      + injection X as ->. exists o. split; [exact IO|]. unfold puts. rewrite E. exact Hm.
    - intros a o' Ho P. apply in_app_iff in Ho. destruct Ho as [Ho|[<-|[]]].
      + destruct (U a o' Ho P) as [m [H1 H2]]. exists m. split; [exact H1|]. apply add_source_dget; [exact V | left; exact H2].
      + unfold puts in P. rewrite E in P. exists v. split; [exact P|]. apply add_source_dget; [exact V | right; reflexivity].
    - intros a D. apply add_source_dget in D; [|exact V]. destruct D as [D|X]; [exact (APP a D) | discriminate]. }
  assert (NIL : forall a, a_src o = App a -> te_out env a = [] -> a_machine o = true ->
     orderly env (ops ++ [o]) (add_m_vertices s (te_out env a) (a_core o) (a_link o))).
  { intros a E L MO. rewrite L. cbn [add_m_vertices]. constructor; [exact Y'| | | exact APP].
    - intros a' m Hm D. destruct (M a' m Hm D) as [o' [P1 P2]]. exists o'. split; [exact (IN _ P1) | exact P2].
    - intros a' o' Ho P. apply in_app_iff in Ho. destruct Ho as [Ho|[<-|[]]]; [exact (U a' o' Ho P)|].
      unfold puts in P. rewrite E in P. destruct P as [<- [_ P]]. congruence. }
  unfold step. destruct (a_machine o) eqn:MO.
  - unfold add_machine_src. destruct (a_src o) as [a|v] eqn:E; [|apply MAC; reflexivity].
    assert (N : dget vtx_eqb (t_dict s) (App a) = None) by (apply H; unfold triggers; rewrite E; auto).
    apply dmem_false in N. rewrite N. destruct (te_out env a) as [|m l] eqn:L.
    + rewrite <- L. apply NIL; auto.
    + rewrite <- L. apply MS; [reflexivity | congruence | left; reflexivity].
  - unfold add_src. destruct (a_src o) as [a|v] eqn:E; [|apply MAC; reflexivity].
    destruct (is_m_vertex env s a) eqn:IM.
    + unfold is_m_vertex in IM. apply existsb_exists in IM. destruct IM as [m [Hm D]].
      apply MS; [reflexivity | intros Z; rewrite Z in Hm; destruct Hm | right; exists m; split; [exact Hm|]].
      intros Z. apply dmem_false in Z. congruence.
    + constructor.
      * apply only_add; [exact Y' | exact IO | left; exact E].
      * intros a' m Hm D. apply add_source_dget in D; [|exact V]. destruct D as [D|X]; [|discriminate].
        destruct (M a' m Hm D) as [o' [P1 P2]]. exists o'. split; [exact (IN _ P1) | exact P2].
      * intros a' o' Ho P. apply in_app_iff in Ho. destruct Ho as [Ho|[<-|[]]].
        -- destruct (U a' o' Ho P) as [m [H1 H2]]. exists m. split; [exact H1|]. apply add_source_dget; [exact V | left; exact H2].
        -- unfold puts in P. rewrite E in P. destruct P as [_ [P _]]. congruence.
      * intros a' D. apply add_source_dget in D; [|exact V]. destruct D as [D|X]; [exact (APP a' D)|]. injection X as ->.
        exists ops, o, []. split; [reflexivity|]. split; [exact MO|]. split; [exact E|].
        intros o' Ho P. destruct (U a o' Ho P) as [m [H1 H2]]. unfold is_m_vertex in IM.
        assert (Z : existsb (fun v => dmem vtx_eqb (t_dict s) (Mac v)) (te_out env a) = true).
        { apply existsb_exists. exists m. split; [exact H1|]. unfold dmem. destruct (dget vtx_eqb (t_dict s) (Mac m)); [reflexivity | congruence]. }
        rewrite Z in IM. discriminate.
Qed.

(** No source that makes the router look at the machine vertices of an application
    vertex comes after that application vertex was put in as such. *)
Definition in_order (env : tenv) (ops : list atom) : Prop :=
  forall pre o mid o' post a, ops = pre ++ o :: mid ++ o' :: post ->
    a_machine o = false -> a_src o = App a -> triggers env o' a -> exists o0, In o0 pre /\ puts env o0 a.

Lemma orderly_run : forall env ops, env_ok env -> in_order env ops -> orderly env ops (fold_left (step env) ops t_empty).
Proof.
  intros env ops EO IO.
  assert (G : forall post pre s, ops = pre ++ post -> orderly env pre s -> orderly env (pre ++ post) (fold_left (step env) post s)).
  { induction post as [|o post IH]; intros pre s E K; [rewrite app_nil_r; exact K|]. cbn [fold_left].
    replace (pre ++ o :: post) with ((pre ++ [o]) ++ post) by (rewrite <- app_assoc; reflexivity).
    apply IH; [rewrite E, <- app_assoc; reflexivity|]. apply orderly_step; [exact EO | exact K|].
    intros a T. destruct (dget vtx_eqb (t_dict s) (App a)) as [ad|] eqn:D; [|reflexivity]. exfalso.
    destruct (d_app _ _ _ K a) as [p1 [o1 [p2 [E1 [E2 [E3 E4]]]]]]; [congruence|].
    destruct (IO p1 o1 p2 o post a) as [o0 [H1 H2]]; [rewrite E, E1, <- app_assoc; reflexivity | exact E2 | exact E3 | exact T|].
    exact (E4 o0 H1 H2). }
  apply (G ops [] t_empty eq_refl). constructor.
  - constructor; [intros k a H; discriminate | intros k k' a H; discriminate | intros k p b x H; discriminate].
  - intros a m _ H. cbn in H. congruence.
  - intros a o [].
  - intros a H. cbn in H. congruence.
Qed.

Lemma targets_only : forall env calls m p b x, env_ok env -> in_order env (flat_map atoms_of calls) ->
  (forall a, te_app env m = Some a -> In m (te_out env a)) ->
  effective env (run_calls env calls) m = Some p -> In x (pick b p) ->
  exists c src, In c calls /\ In src (tc_srcs c) /\ concerns env src m /\ pick_opt b (tc_core c) (tc_link c) = Some x.
Proof.
  intros env calls m p b x EO IO OM. rewrite run_calls_atoms. intros E Hx.
  destruct (orderly_run env _ EO IO) as [[V J Y] _ _ _].
  set (s := fold_left (step env) (flat_map atoms_of calls) t_empty) in *. unfold effective in E.
  assert (FIN : forall o, In o (flat_map atoms_of calls) -> (just env o (Mac m) \/ exists a, te_app env m = Some a /\ just env o (App a)) ->
     pick_opt b (a_core o) (a_link o) = Some x ->
     exists c src, In c calls /\ In src (tc_srcs c) /\ concerns env src m /\ pick_opt b (tc_core c) (tc_link c) = Some x).
  { intros o Ho Jo Po. apply atoms_In in Ho. destruct Ho as [c [src [Hc [Hs ->]]]]. cbn in Po.
    exists c, src. split; [exact Hc|]. split; [exact Hs|]. split; [|exact Po]. unfold just in Jo. cbn [a_src] in Jo.
    destruct Jo as [[->|[a [m' [-> [X Hm]]]]]|[a [Ha [->|[a' [m' [_ [X _]]]]]]]].
    - reflexivity.
    - injection X as <-. exact Hm.
    - exact (OM a Ha).
    - discriminate. }
  destruct (targets_of s (Mac m)) as [p0|] eqn:T.
  - injection E as ->. destruct (Y (Mac m) p b x T Hx) as [o [A [B C]]]. exact (FIN o A (or_introl B) C).
  - destruct (te_app env m) as [a|] eqn:TA; [|discriminate].
    destruct (Y (App a) p b x E Hx) as [o [A [B C]]]. exact (FIN o A (or_intror (ex_intro _ a (conj eq_refl B))) C).
Qed.

(** Two simple cases of the order. *)
Lemma in_order_machine : forall env calls, (forall c, In c calls -> tc_machine c = true) -> in_order env (flat_map atoms_of calls).
Proof.
  intros env calls H pre o mid o' post a E M _ _. exfalso.
  assert (X : In o (flat_map atoms_of calls)) by (rewrite E; apply in_app_iff; right; left; reflexivity).
  apply atoms_In in X. destruct X as [c [src [Hc [_ ->]]]]. cbn in M. rewrite (H c Hc) in M. discriminate.
Qed.
Lemma in_order_separate : forall env calls, (forall c, In c calls -> tc_machine c = false) ->
  (forall c src a c' v, In c calls -> In src (tc_srcs c) -> src = App a -> In c' calls -> In (Mac v) (tc_srcs c') -> te_app env v <> Some a) ->
  in_order env (flat_map atoms_of calls).
Proof.
  intros env calls H S pre o mid o' post a E M Eo T. exfalso.
  assert (X : In o (flat_map atoms_of calls)) by (rewrite E; apply in_app_iff; right; left; reflexivity).
  assert (X' : In o' (flat_map atoms_of calls)).
  { rewrite E. apply in_app_iff. right. right. apply in_app_iff. right. left. reflexivity. }
  apply atoms_In in X, X'. destruct X as [c [src [Hc [Hs ->]]]]. destruct X' as [c' [src' [Hc' [Hs' ->]]]].
  cbn in Eo. subst src. unfold triggers in T. cbn in T. destruct src' as [a'|v].
  - rewrite (H c' Hc') in T. destruct T as [_ T]. discriminate.
  - exact (S c (App a) a c' v Hc Hs eq_refl Hc' Hs' T).
Qed.
