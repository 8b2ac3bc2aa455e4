(** From the routes of the application router to its table. *)
From Coq Require Import List ZArith NArith Arith Bool Lia Permutation.
From Verif Require Import Base Dict TreeModel TreeProofs MachModel LdfModel LdfProofs PathModel PathProofs
  RPartModel RPartProofs BfsModel BfsProofs TargetsModel TargetsProofs ConvModel ConvProofs RouterModel RouterProofs.
Import ListNotations.
Local Open Scope nat_scope.

(** * The targets of a chip *)
Definition unique_keys (s : tstate) : Prop := NoDup (map fst (t_dict s)).
(** Each source with targets was asked for, as itself or by way of its application
    vertex; an application vertex not for a chip with sources. *)
Definition origin (env : tenv) (o : atom) (w : vtx) : Prop :=
  (a_src o = w /\ (is_app w = true -> a_machine o = false)) \/
  exists a v, a_src o = App a /\ w = Mac v /\ In v (te_out env a).
Record well (env : tenv) (ops : list atom) (s : tstate) : Prop := mkWell {
  w_valid : valid s;
  w_keys : unique_keys s;
  w_origin : forall w, dget vtx_eqb (t_dict s) w <> None -> exists o, In o ops /\ origin env o w }.

Lemma ddel_NoDup : forall {V} (d : list (vtx * V)) k, NoDup (map fst d) -> NoDup (map fst (ddel vtx_eqb d k)).
Proof.
  intros V d k N. unfold ddel. induction d as [|[k0 v0] d IH]; [constructor|]. cbn [filter map fst] in *.
  inversion N as [|? ? A B]; subst. destruct (negb (vtx_eqb k0 k)); [|exact (IH B)]. cbn [map fst]. constructor; [|exact (IH B)].
  intros H. apply A. apply in_map_iff in H. destruct H as [x [<- H]]. apply filter_In in H. apply in_map. tauto.
Qed.
Lemma add_source_keys : forall s k core link, unique_keys s -> unique_keys (add_source s k core link).
Proof.
  intros s k core link N. unfold add_source.
  assert (E : unique_keys (ensure_source s k)).
  { unfold ensure_source. destruct (dmem vtx_eqb (t_dict s) k); [exact N|]. unfold unique_keys, t_fresh. cbn [t_dict].
    apply (dset_NoDup _ vtx_eqb_eq). exact N. }
  destruct (dget vtx_eqb (t_dict (ensure_source s k)) k) as [a|]; [|exact E].
  destruct (nth a (t_heap (ensure_source s k)) ([], [])). exact E.
Qed.
Lemma add_m_keys : forall vs s core link, unique_keys s -> unique_keys (add_m_vertices s vs core link).
Proof. induction vs as [|v vs IH]; intros s core link N; [exact N|]. apply IH. apply add_source_keys. exact N. Qed.
Lemma replace_keys : forall env s a, unique_keys s -> unique_keys (replace_app_vertex env s a).
Proof.
  intros env s a N. unfold replace_app_vertex. destruct (dget vtx_eqb (t_dict s) (App a)) as [addr|]; [|exact N].
  unfold unique_keys. cbn [t_dict].
  assert (G : forall vs (d : list (vtx * nat)), NoDup (map fst d) -> NoDup (map fst (fold_left (fun d v => dset vtx_eqb d (Mac v) addr) vs d))).
  { induction vs as [|v vs IH]; intros d H; [exact H|]. apply IH. apply (dset_NoDup _ vtx_eqb_eq). exact H. }
  apply G. apply ddel_NoDup. exact N.
Qed.

Lemma well_add : forall env ops s w core link o, well env ops s -> In o ops -> origin env o w ->
  well env ops (add_source s w core link).
Proof.
  intros env ops s w core link o [A B C] I J. constructor.
  - exact (proj1 (add_source_spec s w core link A)).
  - apply add_source_keys. exact B.
  - intros w' H. apply add_source_dget in H; [|exact A]. destruct H as [H| ->]; [exact (C w' H) | eauto].
Qed.
Lemma well_add_m : forall env ops vs s core link o, well env ops s -> In o ops -> (forall v, In v vs -> origin env o (Mac v)) ->
  well env ops (add_m_vertices s vs core link).
Proof.
  intros env ops. induction vs as [|v vs IH]; intros s core link o W I J; [exact W|]. cbn [add_m_vertices].
  apply (IH _ _ _ o); [|exact I | intros v' H; apply J; right; exact H].
  apply (well_add env ops s (Mac v) core link o W I). apply J. left. reflexivity.
Qed.
Lemma well_replace : forall env ops s a, well env ops s -> well env ops (replace_app_vertex env s a).
Proof.
  intros env ops s a W. destruct (dget vtx_eqb (t_dict s) (App a)) as [addr|] eqn:E.
  2:{ unfold replace_app_vertex. rewrite E. exact W. }
  destruct W as [A B C]. destruct (replace_spec env s a addr A E) as [R1 [_ [R2 [R3 R4]]]]. constructor.
  - exact R1.
  - apply replace_keys. exact B.
  - intros w H. destruct (vtx_eqb w (App a)) eqn:Q; [apply vtx_eqb_eq in Q; subst w; congruence|]. apply vtx_eqb_false in Q.
    destruct (existsb (fun v => vtx_eqb (Mac v) w) (te_out env a)) eqn:X.
    + apply existsb_mac in X. destruct X as [v [X ->]]. destruct (C (App a)) as [o [O1 O2]]; [congruence|]. exists o. split; [exact O1|].
      right. destruct O2 as [[O2 _]|[a' [v' [_ [O2 _]]]]]; [|discriminate]. exists a, v. auto.
    + apply C. rewrite <- R4; [exact H | exact Q|]. intros v V ->. assert (existsb (fun x => vtx_eqb (Mac x) (Mac v)) (te_out env a) = true).
      { apply existsb_mac. eauto. } congruence.
Qed.
Lemma well_more : forall env ops o s, well env ops s -> well env (ops ++ [o]) s.
Proof.
  intros env ops o s [A B C]. constructor; [exact A | exact B|]. intros w H. destruct (C w H) as [x [X Y]]. exists x. split; [|exact Y].
  apply in_app_iff. auto.
Qed.
Lemma well_step : forall env ops s o, well env ops s -> well env (ops ++ [o]) (step env s o).
Proof.
  intros env ops s o W. apply (well_more env ops o) in W.
  assert (I : In o (ops ++ [o])) by (apply in_app_iff; right; left; reflexivity).
  assert (MAC : forall v, a_src o = Mac v -> well env (ops ++ [o]) (add_source (replace_of env s v) (Mac v) (a_core o) (a_link o))).
  { intros v E. apply (well_add _ _ _ _ _ _ o); [|exact I | left; split; [exact E | discriminate]].
    unfold replace_of. destruct (te_app env v) as [a|]; [|exact W]. destruct (dmem vtx_eqb (t_dict s) (App a)); [apply well_replace; exact W | exact W]. }
  assert (MS : forall a s, a_src o = App a -> well env (ops ++ [o]) s -> well env (ops ++ [o]) (add_m_vertices s (te_out env a) (a_core o) (a_link o))).
  { intros a s0 E W0. apply (well_add_m _ _ _ _ _ _ o); [exact W0 | exact I|]. intros v V. right. exists a, v. auto. }
  unfold step. destruct (a_machine o) eqn:MO.
  - unfold add_machine_src. destruct (a_src o) as [a|v] eqn:E; [|apply MAC; reflexivity].
    apply MS; [reflexivity|]. destruct (dmem vtx_eqb (t_dict s) (App a)); [apply well_replace; exact W | exact W].
  - unfold add_src. destruct (a_src o) as [a|v] eqn:E; [|apply MAC; reflexivity].
    destruct (is_m_vertex env s a); [apply MS; [reflexivity | exact W]|].
    apply (well_add _ _ _ _ _ _ o); [exact W | exact I|]. left. auto.
Qed.
Lemma well_run : forall env calls, well env (flat_map atoms_of calls) (run_calls env calls).
Proof.
  intros env calls. rewrite run_calls_atoms.
  assert (G : forall post pre s, well env pre s -> well env (pre ++ post) (fold_left (step env) post s)).
  { induction post as [|o post IH]; intros pre s W; [rewrite app_nil_r; exact W|]. cbn [fold_left].
    replace (pre ++ o :: post) with ((pre ++ [o]) ++ post) by (rewrite <- app_assoc; reflexivity). apply IH. apply well_step. exact W. }
  apply (G _ [] t_empty). constructor; [intros k a H; discriminate | constructor | intros w H; cbn in H; congruence].
Qed.

(** Each core and link in the lists was given by some call. *)
Definition filled (ops : list atom) (s : tstate) : Prop := forall p b x, In p (t_heap s) -> In x (pick b p) ->
  exists o, In o ops /\ pick_opt b (a_core o) (a_link o) = Some x.
Lemma upd_In : forall {A} (l : list A) n x y, In y (upd l n x) -> y = x \/ In y l.
Proof.
  induction l as [|z l IH]; intros n x y H; [destruct n; destruct H|]. destruct n; cbn [upd In] in *.
  - destruct H as [<-|H]; auto.
  - destruct H as [<-|H]; [auto|]. destruct (IH _ _ _ H); auto.
Qed.
Lemma filled_ensure : forall ops s w, filled ops s -> filled ops (ensure_source s w).
Proof.
  intros ops s w F. unfold ensure_source. destruct (dmem vtx_eqb (t_dict s) w); [exact F|]. intros p b x P X. cbn [t_fresh t_heap] in P.
  apply in_app_iff in P. destruct P as [P|[<-|[]]]; [exact (F p b x P X) | destruct b; destruct X].
Qed.
Lemma filled_add : forall ops s w o, filled ops s -> In o ops -> filled ops (add_source s w (a_core o) (a_link o)).
Proof.
  intros ops s w o F I. pose proof (filled_ensure ops s w F) as F'. unfold add_source.
  destruct (dget vtx_eqb (t_dict (ensure_source s w)) w) as [a|]; [|exact F'].
  destruct (nth a (t_heap (ensure_source s w)) ([], [])) as [cs ls] eqn:N. intros p b x P X. cbn [t_heap] in P. apply upd_In in P. destruct P as [-> |P]; [|exact (F' p b x P X)].
  assert (Y : In x (pick b (cs, ls)) \/ pick_opt b (a_core o) (a_link o) = Some x).
  { destruct b; cbn [pick pick_opt fst snd] in *; apply in_app_iff in X; (destruct X as [X|X]; [left; exact X|right]).
    - destruct (a_core o); [destruct X as [->|[]]; reflexivity | destruct X].
    - destruct (a_link o); [destruct X as [->|[]]; reflexivity | destruct X]. }
  destruct Y as [Y|Y]; [|eauto]. destruct (Nat.lt_ge_cases a (length (t_heap (ensure_source s w)))) as [L|L].
  - apply (F' (cs, ls) b x); [|exact Y]. rewrite <- N. apply nth_In. exact L.
  - rewrite nth_overflow in N by exact L. injection N as <- <-. destruct b; destruct Y.
Qed.
Lemma filled_add_m : forall ops o vs s, filled ops s -> In o ops -> filled ops (add_m_vertices s vs (a_core o) (a_link o)).
Proof. induction vs as [|v vs IH]; intros s F I; [exact F|]. cbn [add_m_vertices]. apply IH; [|exact I]. apply filled_add; assumption. Qed.
Lemma filled_replace : forall env ops s a, filled ops s -> filled ops (replace_app_vertex env s a).
Proof. intros env ops s a F. unfold replace_app_vertex. destruct (dget vtx_eqb (t_dict s) (App a)); exact F. Qed.
Lemma filled_replace_of : forall env ops s v, filled ops s -> filled ops (replace_of env s v).
Proof.
  intros env ops s v F. unfold replace_of. destruct (te_app env v) as [a|]; [|exact F]. destruct (dmem vtx_eqb (t_dict s) (App a)); [apply filled_replace|]; exact F.
Qed.
Lemma filled_step : forall env ops s o, filled ops s -> filled (ops ++ [o]) (step env s o).
Proof.
  intros env ops s o F0. assert (I : In o (ops ++ [o])) by (apply in_app_iff; right; left; reflexivity).
  assert (F : filled (ops ++ [o]) s).
  { intros p b x P X. destruct (F0 p b x P X) as [o' [A B]]. exists o'. split; [apply in_app_iff; auto | exact B]. }
  unfold step. destruct (a_machine o).
  - unfold add_machine_src. destruct (a_src o) as [a|v]; [|apply filled_add; [apply filled_replace_of; exact F | exact I]].
    apply filled_add_m; [|exact I]. destruct (dmem vtx_eqb (t_dict s) (App a)); [apply filled_replace|]; exact F.
  - unfold add_src. destruct (a_src o) as [a|v]; [|apply filled_add; [apply filled_replace_of; exact F | exact I]].
    destruct (is_m_vertex env s a); [apply filled_add_m | apply filled_add]; assumption.
Qed.
Lemma filled_run : forall env calls w p b x, targets_of (run_calls env calls) w = Some p -> In x (pick b p) ->
  exists c, In c calls /\ pick_opt b (tc_core c) (tc_link c) = Some x.
Proof.
  intros env calls w p b x T X.
  assert (G : forall post pre s, filled pre s -> filled (pre ++ post) (fold_left (step env) post s)).
  { induction post as [|o post IH]; intros pre s W; [rewrite app_nil_r; exact W|]. cbn [fold_left].
    replace (pre ++ o :: post) with ((pre ++ [o]) ++ post) by (rewrite <- app_assoc; reflexivity). apply IH. apply filled_step. exact W. }
  assert (F : filled (flat_map atoms_of calls) (run_calls env calls)).
  { rewrite run_calls_atoms. apply (G _ [] t_empty). intros ? ? ? []. }
  unfold targets_of in T. destruct (dget vtx_eqb (t_dict (run_calls env calls)) w) as [a|]; [|discriminate].
  destruct (F p b x (nth_error_In _ _ T) X) as [o [O1 O2]]. apply atoms_In in O1. destruct O1 as [c [src [C [_ ->]]]]. eauto.
Qed.

(** As items. *)
Lemma items_dget : forall s w, valid s -> dget vtx_eqb (targets_by_source s) w = targets_of s w.
Proof.
  intros s w V. unfold targets_by_source, targets_of.
  assert (G : forall d, dget vtx_eqb (map (fun e : vtx * nat => (fst e, nth (snd e) (t_heap s) ([], []))) d) w =
     match dget vtx_eqb d w with Some a => Some (nth a (t_heap s) ([], [])) | None => None end).
  { induction d as [|[k a] d IH]; [reflexivity|]. cbn [map dget fst snd]. destruct (vtx_eqb k w); [reflexivity | exact IH]. }
  rewrite G. destruct (dget vtx_eqb (t_dict s) w) as [a|] eqn:E; [|reflexivity].
  symmetry. apply nth_error_nth'. exact (V w a E).
Qed.
Lemma conv_dget : forall ts q, dget xy_eqb (conv_targets ts) q = option_map targets_by_source (dget xy_eqb ts q).
Proof.
  induction ts as [|[p s] ts IH]; intros q; [reflexivity|]. unfold conv_targets in *. cbn [map dget fst snd].
  destruct (xy_eqb p q); [reflexivity | apply IH].
Qed.
Lemma items_keys : forall s, unique_keys s -> NoDup (map fst (targets_by_source s)).
Proof. intros s N. unfold targets_by_source. rewrite map_map. cbn [fst]. exact N. Qed.

(** The targets made for a chip on which routes start. *)
Lemma edge_targets_spec : forall (mp : mapping),
  let s := edge_targets mp in
  valid s /\ unique_keys s /\
  (forall w, targets_of s w <> None <-> exists x, In x (flat_map snd mp) /\ w = Mac (fst x)) /\
  (forall w p, targets_of s w = Some p -> p = ([], [])).
Proof.
  intros mp s. unfold s, edge_targets.
  assert (G : forall l s0, valid s0 -> unique_keys s0 -> (forall w p, targets_of s0 w = Some p -> p = ([], [])) ->
    let s1 := fold_left (fun s (x : nat * place) => ensure_source s (Mac (fst x))) l s0 in
    valid s1 /\ unique_keys s1 /\ (forall w, targets_of s1 w <> None <-> targets_of s0 w <> None \/ exists x, In x l /\ w = Mac (fst x)) /\
    (forall w p, targets_of s1 w = Some p -> p = ([], []))).
  { induction l as [|x l IH]; intros s0 V N E; cbn [fold_left].
    - split; [exact V|]. split; [exact N|]. split; [|exact E]. intros w. split; [auto|]. intros [H|[x [[] _]]]. exact H.
    - destruct (ensure_spec s0 (Mac (fst x)) V) as [V' [T1 [_ [T2 _]]]].
      destruct (IH (ensure_source s0 (Mac (fst x)))) as [A [B [C D]]].
      + exact V'.
      + unfold ensure_source. destruct (dmem vtx_eqb (t_dict s0) (Mac (fst x))); [exact N|]. unfold unique_keys, t_fresh. cbn [t_dict].
        apply (dset_NoDup _ vtx_eqb_eq). exact N.
      + intros w p H. destruct (vtx_eqb w (Mac (fst x))) eqn:Q.
        * apply vtx_eqb_eq in Q. subst w. rewrite T1 in H. injection H as <-.
          destruct (targets_of s0 (Mac (fst x))) as [p|] eqn:Z; [exact (E _ p Z) | reflexivity].
        * apply vtx_eqb_false in Q. rewrite (T2 w Q) in H. exact (E w p H).
      + split; [exact A|]. split; [exact B|]. split; [|exact D]. intros w. rewrite (C w). split.
        * intros [H|[y [H1 H2]]]; [|right; exists y; split; [right; exact H1 | exact H2]].
          destruct (vtx_eqb w (Mac (fst x))) eqn:Q; [apply vtx_eqb_eq in Q; right; exists x; split; [left; reflexivity | exact Q]|].
          apply vtx_eqb_false in Q. rewrite (T2 w Q) in H. auto.
        * intros [H|[y [[<-|H1] H2]]]; [| |right; eauto].
          -- left. destruct (vtx_eqb w (Mac (fst x))) eqn:Q; [apply vtx_eqb_eq in Q; subst w; rewrite T1; discriminate|].
             apply vtx_eqb_false in Q. rewrite (T2 w Q). exact H.
          -- left. subst w. rewrite T1. discriminate. }
  destruct (G (flat_map snd mp) t_empty) as [A [B [C D]]].
  - intros k a H. discriminate.
  - constructor.
  - intros w p H. discriminate.
  - split; [exact A|]. split; [exact B|]. split; [|exact D]. intros w. rewrite (C w). split; [|auto].
    intros [H|H]; [|exact H]. exfalso. apply H. reflexivity.
Qed.

(** * The routes to targets *)
Definition conv_app (i : rinput) (a k : nat) (ts : list (xy * tstate)) : conv :=
  mkConv (ri_venv i) (fun b => ri_out i b k) (App a) k (conv_targets ts) false true.

Lemma gives_local : forall c c' q w cores links, cv_source c = cv_source c' -> cv_use_source c = cv_use_source c' ->
  cv_ensure c = cv_ensure c' -> cv_out c = cv_out c' ->
  dget xy_eqb (cv_targets c) q = dget xy_eqb (cv_targets c') q ->
  (gives c q w cores links <-> gives c' q w cores links).
Proof. intros c c' q w cores links A B C D E. unfold gives. rewrite A, B, C, D, E. reflexivity. Qed.

(** The entries that the conversion of the tree of a chip makes. *)
Lemma convert_tree : forall m c t ip il r p t', sound_routes m r -> known r p ->
  convert_a_route c t ip il (tree_of r p) = Ok t' ->
  (ve_ok (cv_env c) -> exclusive (cv_env c) t -> exclusive (cv_env c) t') /\ forall w k q,
    (get_entry t' w k q <> None <-> get_entry t w k q <> None \/
       (k = cv_part c /\ exists cores links, descends r p q /\ gives c q w cores links)) /\
    (forall b, has_bit t' w k q b <-> has_bit t w k q b \/
       (k = cv_part c /\ exists cores links, descends r p q /\ gives c q w cores links /\
          ((exists x, BfsProofs.child r q b x) \/ In b links \/ exists n, In n cores /\ b = 6 + n))).
Proof.
  intros m c t ip il r p t' SN K H. destruct (tree_of_sound m r p SN K) as [P [_ [_ [_ [NO HO]]]]].
  split; [intros V X; exact (convert_exclusive c t ip il _ t' V X P H)|]. intros w k q.
  destruct (convert_entries c t ip il _ t' P H w k q) as [A B]. split.
  - rewrite A. apply or_iff_compat_l. apply and_iff_compat_l. split.
    + intros [u [cores [links [N G]]]]. exists cores, links. split; [apply NO; eauto | exact G].
    + intros [cores [links [D G]]]. apply NO in D. destruct D as [u N]. eauto.
  - intros b. rewrite (B b). apply or_iff_compat_l. apply and_iff_compat_l. split.
    + intros [u [cores [links [N [G X]]]]]. exists cores, links. split; [apply NO; eauto|]. split; [exact G|].
      rewrite (HO q u N b) in X. exact X.
    + intros [cores [links [D [G X]]]]. apply NO in D. destruct D as [u N]. exists u, cores, links. split; [exact N|]. split; [exact G|].
      rewrite (HO q u N b). exact X.
Qed.

(** The entries marked as defaultable that the conversion makes: the packet came in
    over the link opposite to the one over which it goes out. *)
Definition comes_straight (r : routes) (il : option nat) (p q : xy) (e : rentry) : Prop :=
  (exists p' l, BfsProofs.child r p' l q /\ re_route e = route_of [l] []) \/
  (q = p /\ exists j, il = Some j /\ re_route e = route_of [(j + 3) mod 6] []).
Lemma convert_tree_default : forall m c t ip il r p t', sound_routes m r -> known r p ->
  convert_a_route c t ip il (tree_of r p) = Ok t' ->
  forall w k q e, get_entry t' w k q = Some e -> re_default e = true -> get_entry t w k q = Some e \/
    (k = cv_part c /\ descends r p q /\ (exists cores links, gives c q w cores links) /\ comes_straight r il p q e).
Proof.
  intros m c t ip il r p t' SN K H w k q e E D.
  destruct (tree_of_sound m r p SN K) as [P [_ [_ [CH [NO HO]]]]]. pose proof (tree_of_represents m r p SN K) as RE.
  destruct (convert_default_gives c t ip il _ t' P H w k q e E D) as [X|[-> [u [ip' [j [cores [links [V [Q [G R]]]]]]]]]]; [left; exact X|].
  right. split; [reflexivity|].
  assert (N : node_at (tree_of r p) q u) by (split; [exact Q|]; apply (proj1 (node_visits (ip, il, tree_of r p) u)); eauto).
  split; [apply NO; eauto|]. split; [eauto|].
  remember (ip', Some j, u) as z eqn:Z. destruct V as [|ip0 il0 u0 l0 s0 V I].
  - injection Z as -> -> <-. right. split; [congruence|]. eauto.
  - injection Z as <- <- <-. left. assert (N0 : node_at (tree_of r p) (tchip u0) u0) by (split; [reflexivity|]; apply (proj1 (node_visits (ip, il, tree_of r p) u0)); eauto).
    pose proof (represents_children r _ RE _ _ _ _ N0 I) as C. rewrite Q in C. exists (tchip u0), l0. split; [exact C|].
    rewrite R. destruct SN as [SN _]. destruct (SN _ _ _ C) as [[L _] _]. cbn [fst] in L.
    do 6 (destruct l0 as [|l0]; [reflexivity|]). lia.
Qed.

Lemma target_routes_fold : forall i a k mp roots r es ts t ts1 t1,
  is_forest (ri_mach i) roots r -> (forall e, In e es -> roots e) ->
  foldM (target_routes_step i a k mp r) (ts, t) es = Ok (ts1, t1) ->
  (forall q, dget xy_eqb ts1 q = match dget xy_eqb ts q with
                                 | Some s => Some s
                                 | None => if xy_in q es then Some (edge_targets mp) else None
                                 end) /\
  (ve_ok (ri_venv i) -> exclusive (ri_venv i) t -> exclusive (ri_venv i) t1) /\
  forall w k' q,
    (get_entry t1 w k' q <> None <-> get_entry t w k' q <> None \/
       (k' = k /\ exists e cores links, In e es /\ descends r e q /\ gives (conv_app i a k ts1) q w cores links)) /\
    (forall b, has_bit t1 w k' q b <-> has_bit t w k' q b \/
       (k' = k /\ exists e cores links, In e es /\ descends r e q /\ gives (conv_app i a k ts1) q w cores links /\
          ((exists x, BfsProofs.child r q b x) \/ In b links \/ exists p, In p cores /\ b = 6 + p))).
Proof.
  intros i a k mp roots r. induction es as [|e es IH]; intros ts t ts1 t1 F RO H; cbn [foldM] in H.
  - injection H as <- <-. split; [intros q; destruct (dget xy_eqb ts q); reflexivity|]. split; [auto|].
    intros w k' q. split; [|intros b]; (split; [auto|]; intros [X|[_ [e [c [l [[] _]]]]]]; exact X).
  - apply bind_Ok_inv in H. destruct H as [[ts' t'] [ST H]]. unfold target_routes_step in ST.
    destruct (dmem xy_eqb r e) eqn:KE; [|discriminate]. apply known_dmem in KE.
    apply bind_Ok_inv in ST. destruct ST as [t0 [CV ST]]. injection ST as <- <-.
    set (ts' := if dmem xy_eqb ts e then ts else dset xy_eqb ts e (edge_targets mp)) in *.
    destruct (IH ts' t0 ts1 t1 F (fun e' X => RO e' (or_intror X)) H) as [I1 [I2 I3]].
    assert (D' : forall q, dget xy_eqb ts' q = match dget xy_eqb ts q with Some s => Some s | None => if xy_eqb e q then Some (edge_targets mp) else None end).
    { intros q. unfold ts', dmem. destruct (dget xy_eqb ts e) as [s|] eqn:E.
      - destruct (dget xy_eqb ts q) eqn:E'; [reflexivity|]. destruct (xy_eqb e q) eqn:Q; [|reflexivity]. apply xy_eqb_eq in Q. congruence.
      - rewrite (dget_dset _ xy_eqb_eq). destruct (xy_eqb e q) eqn:Q.
        + apply xy_eqb_eq in Q. subst q. rewrite E. reflexivity.
        + destruct (dget xy_eqb ts q); reflexivity. }
    pose proof (forest_sound _ _ _ F) as SN.
    destruct (convert_tree _ _ _ _ _ _ _ _ SN KE CV) as [X1 X2]. cbn [cv_env cv_part] in X1, X2. fold (conv_app i a k ts') in X2.
    assert (SAME : forall q, descends r e q -> dget xy_eqb ts1 q = dget xy_eqb ts' q).
    { intros q D. rewrite (I1 q). destruct (dget xy_eqb ts' q) as [s|] eqn:E; [reflexivity|].
      destruct (xy_in q es) eqn:Q; [|reflexivity]. exfalso. apply xy_in_spec in Q.
      assert (e = q) by (apply (root_alone _ _ _ _ _ F (RO q (or_intror Q)) D)). subst q.
      rewrite (D' e), xy_eqb_refl in E. destruct (dget xy_eqb ts e); discriminate. }
    assert (GS : forall q w cores links, descends r e q -> (gives (conv_app i a k ts') q w cores links <-> gives (conv_app i a k ts1) q w cores links)).
    { intros q w cores links D. apply gives_local; try reflexivity. cbn [conv_app cv_targets]. rewrite !conv_dget, (SAME q D). reflexivity. }
    split; [|split].
    + intros q. rewrite (I1 q), (D' q). destruct (dget xy_eqb ts q) as [s|]; [reflexivity|]. cbn [xy_in existsb].
      destruct (xy_eqb e q) eqn:Q.
      * assert (xy_eqb q e = true) as -> by (apply xy_eqb_eq; apply xy_eqb_eq in Q; congruence). reflexivity.
      * assert (xy_eqb q e = false) as ->; [|reflexivity]. apply xy_eqb_neq. intros ->. rewrite xy_eqb_refl in Q. discriminate.
    + intros V X. apply I2; [exact V|]. apply X1; assumption.
    + intros w k' q. destruct (I3 w k' q) as [J1 J2]. destruct (X2 w k' q) as [Y1 Y2]. split.
      * rewrite J1, Y1. split.
        -- intros [[Z|[-> [cores [links [D G]]]]]|[-> [e' [cores [links [I [D G]]]]]]].
           ++ left. exact Z.
           ++ right. split; [reflexivity|]. exists e, cores, links. split; [left; reflexivity|]. split; [exact D|]. apply GS; assumption.
           ++ right. split; [reflexivity|]. exists e', cores, links. split; [right; exact I | auto].
        -- intros [Z|[-> [e' [cores [links [[<-|I] [D G]]]]]]].
           ++ left. left. exact Z.
           ++ left. right. split; [reflexivity|]. exists cores, links. split; [exact D|]. apply GS; assumption.
           ++ right. split; [reflexivity|]. exists e', cores, links. auto.
      * intros b. rewrite (J2 b), (Y2 b). split.
        -- intros [[Z|[-> [cores [links [D [G B]]]]]]|[-> [e' [cores [links [I [D [G B]]]]]]]].
           ++ left. exact Z.
           ++ right. split; [reflexivity|]. exists e, cores, links. split; [left; reflexivity|]. split; [exact D|]. split; [apply GS; assumption | exact B].
           ++ right. split; [reflexivity|]. exists e', cores, links. split; [right; exact I | auto].
        -- intros [Z|[-> [e' [cores [links [[<-|I] [D [G B]]]]]]]].
           ++ left. left. exact Z.
           ++ left. right. split; [reflexivity|]. exists cores, links. split; [exact D|]. split; [apply GS; assumption | exact B].
           ++ right. split; [reflexivity|]. exists e', cores, links. auto.
Qed.

Lemma target_routes_default : forall i a k mp roots r es ts t ts1 t1,
  is_forest (ri_mach i) roots r -> (forall e, In e es -> roots e) ->
  foldM (target_routes_step i a k mp r) (ts, t) es = Ok (ts1, t1) ->
  forall w k' q e, get_entry t1 w k' q = Some e -> re_default e = true -> get_entry t w k' q = Some e \/
    (k' = k /\ (exists cores links, gives (conv_app i a k ts1) q w cores links) /\
     exists p l, BfsProofs.child r p l q /\ re_route e = route_of [l] []).
Proof.
  intros i a k mp roots r. induction es as [|e es IH]; intros ts t ts1 t1 F RO H; cbn [foldM] in H.
  - injection H as <- <-. auto.
  - apply bind_Ok_inv in H. destruct H as [[ts' t'] [ST H]]. unfold target_routes_step in ST.
    destruct (dmem xy_eqb r e) eqn:KE; [|discriminate]. apply known_dmem in KE.
    apply bind_Ok_inv in ST. destruct ST as [t0 [CV ST]]. injection ST as <- <-.
    set (ts' := if dmem xy_eqb ts e then ts else dset xy_eqb ts e (edge_targets mp)) in *.
    pose proof (forest_sound _ _ _ F) as SN.
    destruct (target_routes_fold i a k mp roots r es ts' t0 ts1 t1 F (fun e' X => RO e' (or_intror X)) H) as [I1 _].
    assert (D' : dget xy_eqb ts' e <> None).
    { unfold ts', dmem. destruct (dget xy_eqb ts e) as [s|] eqn:E; [congruence|]. rewrite (dget_dset _ xy_eqb_eq), xy_eqb_refl. discriminate. }
    assert (SAME : forall q, descends r e q -> dget xy_eqb ts1 q = dget xy_eqb ts' q).
    { intros q D. rewrite (I1 q). destruct (dget xy_eqb ts' q) as [s|] eqn:E; [reflexivity|].
      destruct (xy_in q es) eqn:Q; [|reflexivity]. exfalso. apply xy_in_spec in Q.
      assert (e = q) by (apply (root_alone _ _ _ _ _ F (RO q (or_intror Q)) D)). subst q. congruence. }
    intros w k' q x X DX. destruct (IH ts' t0 ts1 t1 F (fun e' Y => RO e' (or_intror Y)) H w k' q x X DX) as [Y|Y]; [|right; exact Y].
    destruct (convert_tree_default _ _ _ _ _ _ _ _ SN KE CV w k' q x Y DX) as [Z|[-> [D [[cores [links G]] S]]]]; [left; exact Z|].
    right. split; [reflexivity|]. fold (conv_app i a k ts') in G. split.
    + exists cores, links. apply (gives_local (conv_app i a k ts1) (conv_app i a k ts')); try reflexivity; [|exact G].
      cbn [conv_app cv_targets]. rewrite !conv_dget, (SAME q D). reflexivity.
    + destruct S as [S|[_ [j [S _]]]]; [exact S | discriminate].
Qed.

(** * The routes between source chips *)
Lemma route_nothing : forall fuel m allowed visited todo queue r,
  route_loop fuel m allowed [] visited todo [] queue = Ok r -> r = [].
Proof.
  induction fuel as [|f IH]; intros m allowed visited todo queue r H; destruct queue as [|[p path] queue]; cbn [route_loop] in H.
  - destruct todo; [injection H as <-; reflexivity | discriminate].
  - discriminate.
  - destruct todo; [injection H as <-; reflexivity | discriminate].
  - destruct (xy_in p visited); [exact (IH _ _ _ _ _ _ H)|]. cbn [dmem dget xy_in existsb] in H. exact (IH _ _ _ _ _ _ H).
Qed.
Lemma source_tree_ok : forall m p src wanted r, route_to_xys m p src wanted [] = Ok r -> known r p ->
  wanted <> [] /\ is_tree m p r /\ (forall q, In q wanted -> known r q) /\ (forall q, known r q -> q = p \/ In q src).
Proof.
  intros m p src wanted r H K.
  assert (NE : wanted <> []).
  { intros ->. apply route_nothing in H. subst r. apply K. reflexivity. }
  split; [exact NE|]. destruct (route_fresh m p src wanted r NE H) as [A [B [C _]]]. split; [exact A|]. split; [exact B|].
  intros q Q. apply (tr_reach _ _ _ A) in Q. destruct Q as [|q l x D X]; [left; reflexivity | right; exact (C _ _ _ X)].
Qed.

Definition source_tree (i : rinput) (src wanted : list xy) (p : xy) : routes :=
  match route_to_xys (ri_mach i) p src wanted [] with Ok r => r | Err _ => [] end.
Definition conv_mac (i : rinput) (k : nat) (ts : list (xy * tstate)) (self : bool) (v : nat) : conv :=
  mkConv (ri_venv i) (fun b => ri_out i b k) (Mac v) k (if self then conv_targets ts else []) self false.

Lemma descends_known : forall m r p q, is_tree m p r -> (descends r p q <-> known r q).
Proof.
  intros m r p q T. split; [|exact (tr_reach _ _ _ T q)]. intros D. destruct D as [|q l x D C]; [exact (tr_root _ _ _ T) | exact (proj2 (tr_edge _ _ _ T _ _ _ C))].
Qed.

Lemma vertex_routes_fold : forall i k ts self p r vs t t', is_tree (ri_mach i) p r ->
  foldM (vertex_route i k ts self (tree_of r p)) t vs = Ok t' ->
  (ve_ok (ri_venv i) -> exclusive (ri_venv i) t -> exclusive (ri_venv i) t') /\
  forall w k' q,
    (get_entry t' w k' q <> None <-> get_entry t w k' q <> None \/
       (k' = k /\ exists x cores links, In x vs /\ known r q /\ gives (conv_mac i k ts self (fst x)) q w cores links)) /\
    (forall b, has_bit t' w k' q b <-> has_bit t w k' q b \/
       (k' = k /\ exists x cores links, In x vs /\ known r q /\ gives (conv_mac i k ts self (fst x)) q w cores links /\
          ((exists y, BfsProofs.child r q b y) \/ In b links \/ exists n, In n cores /\ b = 6 + n))).
Proof.
  intros i k ts self p r. induction vs as [|x vs IH]; intros t t' T H; cbn [foldM] in H.
  - injection H as <-. split; [auto|]. intros w k' q.
    split; [|intros b]; (split; [auto|]; intros [X|[_ [e [c [l [[] _]]]]]]; exact X).
  - apply bind_Ok_inv in H. destruct H as [t0 [CV H]]. unfold vertex_route in CV.
    destruct (convert_tree _ _ _ _ _ _ _ _ (tree_sound _ _ _ T) (tr_root _ _ _ T) CV) as [X1 X2]. cbn [cv_env cv_part] in X1, X2.
    fold (conv_mac i k ts self (fst x)) in X2.
    destruct (IH t0 t' T H) as [I1 I2]. split; [intros V X; apply I1; [exact V | apply X1; assumption]|].
    intros w k' q. destruct (I2 w k' q) as [J1 J2]. destruct (X2 w k' q) as [Y1 Y2]. split.
    + rewrite J1, Y1. split.
      * intros [[Z|[-> [cores [links [D G]]]]]|[-> [x' [cores [links [I [D G]]]]]]]; [left; exact Z | |].
        -- right. split; [reflexivity|]. exists x, cores, links. split; [left; reflexivity|]. split; [apply (descends_known _ _ _ _ T); exact D | exact G].
        -- right. split; [reflexivity|]. exists x', cores, links. split; [right; exact I | auto].
      * intros [Z|[-> [x' [cores [links [[<-|I] [D G]]]]]]]; [left; left; exact Z | |].
        -- left. right. split; [reflexivity|]. exists cores, links. split; [apply (descends_known _ _ _ _ T); exact D | exact G].
        -- right. split; [reflexivity|]. exists x', cores, links. auto.
    + intros b. rewrite (J2 b), (Y2 b). split.
      * intros [[Z|[-> [cores [links [D G]]]]]|[-> [x' [cores [links [I [D G]]]]]]]; [left; exact Z | |].
        -- right. split; [reflexivity|]. exists x, cores, links. split; [left; reflexivity|]. split; [apply (descends_known _ _ _ _ T); exact D | exact G].
        -- right. split; [reflexivity|]. exists x', cores, links. split; [right; exact I | auto].
      * intros [Z|[-> [x' [cores [links [[<-|I] [D G]]]]]]]; [left; left; exact Z | |].
        -- left. right. split; [reflexivity|]. exists cores, links. split; [apply (descends_known _ _ _ _ T); exact D | exact G].
        -- right. split; [reflexivity|]. exists x', cores, links. auto.
Qed.

Lemma source_routes_fold : forall i k src wanted ts self (mp : mapping) t t',
  foldM (source_routes_step i k src wanted ts self) t mp = Ok t' ->
  (forall p, In p (map fst mp) -> is_tree (ri_mach i) p (source_tree i src wanted p) /\
     (forall q, In q wanted -> known (source_tree i src wanted p) q) /\
     (forall q, known (source_tree i src wanted p) q -> q = p \/ In q src)) /\
  (ve_ok (ri_venv i) -> exclusive (ri_venv i) t -> exclusive (ri_venv i) t') /\
  forall w k' q,
    (get_entry t' w k' q <> None <-> get_entry t w k' q <> None \/
       (k' = k /\ exists p vs x cores links, In (p, vs) mp /\ In x vs /\ known (source_tree i src wanted p) q /\
          gives (conv_mac i k ts self (fst x)) q w cores links)) /\
    (forall b, has_bit t' w k' q b <-> has_bit t w k' q b \/
       (k' = k /\ exists p vs x cores links, In (p, vs) mp /\ In x vs /\ known (source_tree i src wanted p) q /\
          gives (conv_mac i k ts self (fst x)) q w cores links /\
          ((exists y, BfsProofs.child (source_tree i src wanted p) q b y) \/ In b links \/ exists n, In n cores /\ b = 6 + n))).
Proof.
  intros i k src wanted ts self. induction mp as [|[p vs] mp IH]; intros t t' H; cbn [foldM] in H.
  - injection H as <-. split; [intros p []|]. split; [auto|]. intros w k' q.
    split; [|intros b]; (split; [auto|]; intros [X|[_ [e [c [l [d [g [[] _]]]]]]]]; exact X).
  - apply bind_Ok_inv in H. destruct H as [t0 [ST H]]. cbn [source_routes_step] in ST.
    apply bind_Ok_inv in ST. destruct ST as [r [RT ST]]. destruct (dmem xy_eqb r p) eqn:KP; [|discriminate]. apply known_dmem in KP.
    destruct (source_tree_ok _ _ _ _ _ RT KP) as [_ [T1 [T2 T3]]].
    assert (ES : source_tree i src wanted p = r) by (unfold source_tree; rewrite RT; reflexivity).
    destruct (vertex_routes_fold _ _ _ _ _ _ _ _ _ T1 ST) as [X1 X2]. destruct (IH t0 t' H) as [I0 [I1 I2]].
    split; [|split].
    + intros p' [<-|P]; [cbn [fst]; rewrite ES; auto | exact (I0 p' P)].
    + intros V X. apply I1; [exact V | apply X1; assumption].
    + intros w k' q. destruct (I2 w k' q) as [J1 J2]. destruct (X2 w k' q) as [Y1 Y2]. split.
      * rewrite J1, Y1. split.
        -- intros [[Z|[-> [x [cores [links [I G]]]]]]|[-> [p' [vs' [x [cores [links [I G]]]]]]]]; [left; exact Z | |].
           ++ right. split; [reflexivity|]. exists p, vs, x, cores, links. split; [left; reflexivity|]. split; [exact I|]. rewrite ES. exact G.
           ++ right. split; [reflexivity|]. exists p', vs', x, cores, links. split; [right; exact I | exact G].
        -- intros [Z|[-> [p' [vs' [x [cores [links [[E|I] G]]]]]]]]; [left; left; exact Z | |].
           ++ injection E as <- <-. rewrite ES in G. left. right. split; [reflexivity|]. exists x, cores, links. exact G.
           ++ right. split; [reflexivity|]. exists p', vs', x, cores, links. auto.
      * intros b. rewrite (J2 b), (Y2 b). split.
        -- intros [[Z|[-> [x [cores [links [I G]]]]]]|[-> [p' [vs' [x [cores [links [I G]]]]]]]]; [left; exact Z | |].
           ++ right. split; [reflexivity|]. exists p, vs, x, cores, links. split; [left; reflexivity|]. split; [exact I|]. rewrite ES. exact G.
           ++ right. split; [reflexivity|]. exists p', vs', x, cores, links. split; [right; exact I | exact G].
        -- intros [Z|[-> [p' [vs' [x [cores [links [[E|I] G]]]]]]]]; [left; left; exact Z | |].
           ++ injection E as <- <-. rewrite ES in G. left. right. split; [reflexivity|]. exists x, cores, links. exact G.
           ++ right. split; [reflexivity|]. exists p', vs', x, cores, links. auto.
Qed.

Lemma vertex_routes_default : forall i k ts self p r vs t t', is_tree (ri_mach i) p r ->
  foldM (vertex_route i k ts self (tree_of r p)) t vs = Ok t' ->
  forall w k' q e, get_entry t' w k' q = Some e -> re_default e = true -> get_entry t w k' q = Some e \/
    (k' = k /\ exists x cores links, In x vs /\ gives (conv_mac i k ts self (fst x)) q w cores links /\
       comes_straight r (link_of (snd x)) p q e).
Proof.
  intros i k ts self p r. induction vs as [|x vs IH]; intros t t' T H; cbn [foldM] in H.
  - injection H as <-. auto.
  - apply bind_Ok_inv in H. destruct H as [t0 [CV H]]. unfold vertex_route in CV.
    intros w k' q e E D. destruct (IH t0 t' T H w k' q e E D) as [X|[-> [y [cores [links [X1 X2]]]]]].
    + destruct (convert_tree_default _ _ _ _ _ _ _ _ (tree_sound _ _ _ T) (tr_root _ _ _ T) CV w k' q e X D) as [Z|[-> [_ [[cores [links G]] S]]]]; [left; exact Z|].
      right. split; [reflexivity|]. exists x, cores, links. split; [left; reflexivity|]. split; [exact G | exact S].
    + right. split; [reflexivity|]. exists y, cores, links. split; [right; exact X1 | exact X2].
Qed.
Lemma source_routes_default : forall i k src wanted ts self (mp : mapping) t t',
  foldM (source_routes_step i k src wanted ts self) t mp = Ok t' ->
  forall w k' q e, get_entry t' w k' q = Some e -> re_default e = true -> get_entry t w k' q = Some e \/
    (k' = k /\ exists p vs x cores links, In (p, vs) mp /\ In x vs /\ gives (conv_mac i k ts self (fst x)) q w cores links /\
       comes_straight (source_tree i src wanted p) (link_of (snd x)) p q e).
Proof.
  intros i k src wanted ts self. induction mp as [|[p vs] mp IH]; intros t t' H; cbn [foldM] in H.
  - injection H as <-. auto.
  - apply bind_Ok_inv in H. destruct H as [t0 [ST H]]. cbn [source_routes_step] in ST.
    apply bind_Ok_inv in ST. destruct ST as [r [RT ST]]. destruct (dmem xy_eqb r p) eqn:KP; [|discriminate]. apply known_dmem in KP.
    destruct (source_tree_ok _ _ _ _ _ RT KP) as [_ [T1 _]].
    assert (ES : source_tree i src wanted p = r) by (unfold source_tree; rewrite RT; reflexivity).
    intros w k' q e E D. destruct (IH t0 t' H w k' q e E D) as [X|[-> [p' [vs' [x [cores [links [X1 X2]]]]]]]].
    + destruct (vertex_routes_default _ _ _ _ _ _ _ _ _ T1 ST w k' q e X D) as [Y|[-> [x [cores [links [Y1 [Y2 Y3]]]]]]]; [left; exact Y|].
      right. split; [reflexivity|]. exists p, vs, x, cores, links. split; [left; reflexivity|]. split; [exact Y1|]. split; [exact Y2|]. rewrite ES. exact Y3.
    + right. split; [reflexivity|]. exists p', vs', x, cores, links. split; [right; exact X1 | exact X2].
Qed.

(** * The mapping of the outgoing vertices *)
Lemma mapping_spec : forall i a k,
  let mp := outgoing_mapping i a k in
  let vs := ri_out i a k ++ map in_pre (internal_of i a k) in
  (forall p l x, In (p, l) mp -> In x l -> In (fst x) vs /\ ri_at i (fst x) = (p, snd x)) /\
  (forall v, In v vs -> exists l, In (chip_of i v, l) mp /\ In (v, snd (ri_at i v)) l) /\
  (forall p, dmem xy_eqb mp p = true <-> exists v, In v vs /\ chip_of i v = p).
Proof.
  intros i a k mp vs. unfold mp, outgoing_mapping. fold vs. clear mp.
  assert (G : forall l d, NoDup (map fst d) ->
    let d' := fold_left (map_vertex i) l d in NoDup (map fst d') /\
    (forall p ws x, In (p, ws) d' -> In x ws -> (exists ws', In (p, ws') d /\ In x ws') \/ (In (fst x) l /\ ri_at i (fst x) = (p, snd x))) /\
    (forall p ws, In (p, ws) d -> exists ws', In (p, ws') d' /\ incl ws ws') /\
    (forall v, In v l -> exists ws, In (chip_of i v, ws) d' /\ In (v, snd (ri_at i v)) ws) /\
    (forall p, In p (map fst d') <-> In p (map fst d) \/ exists v, In v l /\ chip_of i v = p)).
  { induction l as [|v l IH]; intros d N; cbn [fold_left].
    - split; [exact N|]. split; [eauto|]. split; [intros p ws W; exists ws; split; [exact W | apply incl_refl]|]. split; [intros v []|].
      intros p. split; [auto|]. intros [H|[v [[] _]]]. exact H.
    - assert (MV : map_vertex i d v = dset xy_eqb d (chip_of i v) (match dget xy_eqb d (chip_of i v) with Some l => l | None => [] end ++ [(v, snd (ri_at i v))])).
      { unfold map_vertex, chip_of. destruct (ri_at i v). reflexivity. }
      assert (N' : NoDup (map fst (map_vertex i d v))) by (rewrite MV; apply (dset_NoDup _ xy_eqb_eq); exact N).
      destruct (IH _ N') as [A [B [C [D E]]]].
      assert (IN : forall p ws, In (p, ws) (map_vertex i d v) <->
         dget xy_eqb (map_vertex i d v) p = Some ws) by (intros; symmetry; apply (dget_Some_iff _ xy_eqb_eq); exact N').
      assert (OLD : forall p ws, In (p, ws) d <-> dget xy_eqb d p = Some ws) by (intros; symmetry; apply (dget_Some_iff _ xy_eqb_eq); exact N).
      assert (K1 : forall p ws x, In (p, ws) (map_vertex i d v) -> In x ws -> (exists ws', In (p, ws') d /\ In x ws') \/ (x = (v, snd (ri_at i v)) /\ p = chip_of i v)).
      { intros p ws x W X. rewrite IN, MV, (dget_dset _ xy_eqb_eq) in W. destruct (xy_eqb (chip_of i v) p) eqn:Q.
        - apply xy_eqb_eq in Q. injection W as <-. apply in_app_iff in X. destruct X as [X|[<-|[]]]; [|right; auto].
          destruct (dget xy_eqb d (chip_of i v)) as [ws'|] eqn:Z; [|destruct X]. left. exists ws'. split; [rewrite OLD, <- Q; exact Z | exact X].
        - left. exists ws. split; [apply OLD; exact W | exact X]. }
      assert (K2 : forall p ws, In (p, ws) d -> exists ws', In (p, ws') (map_vertex i d v) /\ incl ws ws').
      { intros p ws W. apply OLD in W. destruct (xy_eqb (chip_of i v) p) eqn:Q.
        - pose proof Q as Q0. apply xy_eqb_eq in Q. eexists. split; [rewrite IN, MV, (dget_dset _ xy_eqb_eq), Q0; reflexivity|].
          rewrite Q, W. apply incl_appl. apply incl_refl.
        - exists ws. split; [rewrite IN, MV, (dget_dset _ xy_eqb_eq), Q; exact W | apply incl_refl]. }
      split; [exact A|]. split; [|split; [|split]].
      + intros p ws x W X. destruct (B p ws x W X) as [[ws' [Y1 Y2]]|[Y1 Y2]]; [|right; split; [right; exact Y1 | exact Y2]].
        destruct (K1 p ws' x Y1 Y2) as [Z|[-> ->]]; [left; exact Z|]. right. cbn [fst snd]. split; [left; reflexivity|].
        unfold chip_of. apply surjective_pairing.
      + intros p ws W. destruct (K2 p ws W) as [ws' [Y1 Y2]]. destruct (C p ws' Y1) as [ws'' [Z1 Z2]]. exists ws''. split; [exact Z1|].
        exact (incl_tran Y2 Z2).
      + intros v' [<-|V]; [|exact (D v' V)].
        destruct (C (chip_of i v) (match dget xy_eqb d (chip_of i v) with Some l => l | None => [] end ++ [(v, snd (ri_at i v))])) as [ws [Z1 Z2]].
        * rewrite MV. apply (dset_In_new _ xy_eqb_eq).
        * exists ws. split; [exact Z1|]. apply Z2. apply in_app_iff. right. left. reflexivity.
      + intros p. rewrite (E p). rewrite MV. rewrite <- !(dmem_true _ xy_eqb_eq). unfold dmem. rewrite (dget_dset _ xy_eqb_eq). split.
        * intros [H|[v' [H1 H2]]]; [|right; exists v'; split; [right; exact H1 | exact H2]].
          destruct (xy_eqb (chip_of i v) p) eqn:Q; [|auto]. apply xy_eqb_eq in Q. right. exists v. split; [left; reflexivity | exact Q].
        * intros [H|[v' [[<-|H1] H2]]]; [| |right; eauto].
          -- left. destruct (xy_eqb (chip_of i v) p); [reflexivity | exact H].
          -- left. rewrite H2, xy_eqb_refl. reflexivity. }
  destruct (G vs [] (NoDup_nil _)) as [A [B [_ [D E]]]].
  split; [|split; [exact D|]].
  - intros p l x P X. destruct (B p l x P X) as [[ws [[] _]]|Y]. exact Y.
  - intros p. rewrite (dmem_true _ xy_eqb_eq), (E p). cbn [map In]. split; [intros [[]|H]; exact H | auto].
Qed.
