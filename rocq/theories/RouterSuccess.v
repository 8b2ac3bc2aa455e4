(** When the application router succeeds (C111). *)
From Coq Require Import List ZArith NArith Arith Bool Lia Permutation.
From Verif Require Import Base Dict TreeModel TreeProofs MachModel LdfModel LdfProofs PathModel PathProofs
  RPartModel RPartProofs BfsModel BfsProofs TargetsModel TargetsProofs ConvModel ConvProofs RouterModel RouterProofs RouterTables
  RouterFinal RouterPlan.
Import ListNotations.
Local Open Scope nat_scope.

(** * Conversions that cannot fail *)
(** Entries that may be made: for the sources of [of_a], where [lic] allows it. *)
Section Licence.
Variables (ve : venv) (k : nat) (of_a : vtx -> Prop) (lic : vtx -> xy -> Prop).
Hypothesis VE : ve_ok ve.
Hypothesis LA : forall w q, lic w q -> of_a w.
Hypothesis AM : forall a v, of_a (App a) -> ve_app ve v = Some a -> of_a (Mac v).
Hypothesis MA : forall a v, of_a (Mac v) -> ve_app ve v = Some a -> of_a (App a).
Hypothesis APART : forall a v q, lic (App a) q -> lic (Mac v) q -> ve_app ve v = Some a -> False.
Definition licensed (t : rtable) : Prop := forall w q, of_a w -> get_entry t w k q <> None -> lic w q.

Lemma add_ok : forall t e p w, licensed t -> lic w p ->
  exists t', add_path_entry ve t e p w k = Ok t' /\ licensed t'.
Proof.
  intros t e p w I L. pose proof (add_path_entry_spec ve t e p w k) as SP.
  destruct (add_path_entry ve t e p w k) as [t'|x].
  - exists t'. split; [reflexivity|]. destruct SP as [_ [SP _]]. intros w' q A G. rewrite SP in G.
    destruct (xy_eqb p q && skey_eqb (w, k) (w', k)) eqn:Q; [|exact (I w' q A G)].
    apply andb_prop in Q. destruct Q as [Q1 Q2]. apply xy_eqb_eq in Q1. apply skey_eqb_eq in Q2. injection Q2 as Q2. subst. exact L.
  - exfalso. destruct SP as [_ SP]. unfold clashes in SP. pose proof (LA _ _ L) as OA. destruct w as [a|v].
    + destruct SP as [v [V G]]. apply VE in V. exact (APART a v p L (I (Mac v) p (AM a v OA V) G) V).
    + destruct SP as [a [V G]]. exact (APART a v p (I (App a) p (MA a v OA V) G) L V).
Qed.

Lemma add_served_ok : forall c p hs ip il l t, cv_env c = ve -> cv_part c = k -> ip = None \/ il = None ->
  licensed t -> (forall w x, In (w, x) l -> lic w p) -> exists t', add_served c t p hs ip il l = Ok t' /\ licensed t'.
Proof.
  intros c p hs ip il. induction l as [|[w [cores links]] l IH]; intros t E1 E2 IPL I L; cbn [add_served].
  - exists t. auto.
  - assert (M : exists e, make_entry (hs ++ links) cores ip il = Ok e).
    { unfold make_entry. destruct IPL as [-> | ->]; [|destruct ip]; eauto. }
    destruct M as [e M]. rewrite M. cbn [bind]. rewrite E1, E2.
    destruct (add_ok t e p w I (L w _ (or_introl eq_refl))) as [t1 [A B]]. rewrite A. cbn [bind].
    apply IH; auto. intros w' x X. exact (L w' x (or_intror X)).
Qed.

Lemma convert_loop_ok : forall fuel c t stack, cv_env c = ve -> cv_part c = k ->
  (forall v, In v stack -> plain_visit v) -> (forall ip il u, In (ip, il, u) stack -> ip = None \/ il = None) ->
  (forall v ip il u, In v stack -> visits v (ip, il, u) -> exists l, served c (tchip u) = Ok l /\ forall w x, In (w, x) l -> lic w (tchip u)) ->
  licensed t ->
  match convert_loop fuel c t stack with Ok t' => licensed t' | Err e => e = OutOfFuel end.
Proof.
  induction fuel as [|fuel IH]; intros c t stack E1 E2 P IPL SV I; destruct stack as [|[[ip il] u] stack]; cbn [convert_loop]; try exact I; [reflexivity|].
  pose proof (P _ (or_introl eq_refl)) as PU. unfold plain_visit in PU. cbn [snd] in PU.
  rewrite (scan_plain _ _ _ _ (plain_here u PU)). cbn [bind app]. rewrite app_nil_r.
  destruct (SV _ ip il u (or_introl eq_refl) (vi_root _)) as [l [S1 S2]]. rewrite S1. cbn [bind].
  destruct (add_served_ok c (tchip u) (map fst (kids (tchildren u))) ip il l t E1 E2 (IPL _ _ _ (or_introl eq_refl)) I S2) as [t1 [A B]].
  rewrite A. cbn [bind].
  assert (PUSH : forall v, In v (map (fun n : option nat * tree => (@None nat, fst n, snd n)) (rev (map (fun n => (Some ((fst n + 3) mod 6), snd n)) (kids (tchildren u))))) ->
     exists d s, In (Some d, Sub s) (tchildren u) /\ v = (None, Some ((d + 3) mod 6), s)).
  { intros v X. apply in_map_iff in X. destruct X as [[a s] [<- X]]. apply in_rev, in_map_iff in X. destruct X as [[d s'] [E X]].
    cbn [fst snd] in *. injection E as <- <-. apply kids_In in X. eauto. }
  apply IH; auto.
  - intros v X. apply in_app_iff in X. destruct X as [X|X]; [|apply P; right; exact X].
    apply PUSH in X. destruct X as [d [s [X ->]]]. exact (plain_kid u d s PU X).
  - intros ip' il' u' X. apply in_app_iff in X. destruct X as [X|X]; [|exact (IPL _ _ _ (or_intror X))].
    apply PUSH in X. destruct X as [d [s [_ X]]]. injection X as -> _ _. auto.
  - intros v ip' il' u' X V. apply in_app_iff in X. destruct X as [X|X]; [|exact (SV v ip' il' u' (or_intror X) V)].
    apply PUSH in X. destruct X as [d [s [X ->]]]. apply (SV (ip, il, u) ip' il' u' (or_introl eq_refl)).
    eapply visits_trans; [|exact V]. econstructor; [constructor | exact X].
Qed.

Lemma convert_ok : forall m c r p t ip il, cv_env c = ve -> cv_part c = k -> sound_routes m r -> known r p ->
  ip = None \/ il = None ->
  (forall q, descends r p q -> exists l, served c q = Ok l /\ forall w x, In (w, x) l -> lic w q) -> licensed t ->
  exists t', convert_a_route c t ip il (tree_of r p) = Ok t' /\ licensed t'.
Proof.
  intros m c r p t ip il E1 E2 SN K IPL SV I. destruct (tree_of_sound m r p SN K) as [P [_ [_ [_ [NO _]]]]].
  pose proof (convert_fuel c t ip il _ P) as F.
  pose proof (convert_loop_ok (tree_len (tree_of r p)) c t [(ip, il, tree_of r p)] E1 E2) as L. unfold convert_a_route in *.
  assert (X : match convert_loop (tree_len (tree_of r p)) c t [(ip, il, tree_of r p)] with Ok t' => licensed t' | Err e => e = OutOfFuel end).
  { apply L; [intros v [<-|[]]; exact P | intros ip' il' u [X|[]]; injection X as <- <- _; exact IPL | | exact I].
    intros v ip' il' u [<-|[]] V. apply SV. apply NO. exists u. split; [reflexivity|].
    apply (proj1 (node_visits (ip, il, tree_of r p) u)). eauto. }
  destruct (convert_loop (tree_len (tree_of r p)) c t [(ip, il, tree_of r p)]) as [t'|e]; [eauto | congruence].
Qed.
End Licence.

(** * What the routes need *)
(** From each of these chips one gets to each other over working links by way of
    these chips only. *)
Definition joined (m : machine) (l : list xy) : Prop := forall p q, In p l -> In q l ->
  exists w, rwalk m l p w /\ last_xy p w = q.
Record part_fit (i : rinput) (pt : apart) : Prop := mkFit {
  pf_some : ap_posts pt <> [] \/ exists ip, In ip (internal_of i (ap_pre pt) (ap_id pt)) /\ in_posts ip <> [];
  pf_incoming : forall target, In target (ap_posts pt) -> ri_in i target (ap_pre pt) (ap_id pt) <> [];
  pf_chips : forall v, In v (ve_macs (ri_venv i) (ap_pre pt)) -> is_chip (ri_mach i) (chip_of i v) = true;
  pf_target_chips : forall target x, In target (ap_posts pt) -> In x (ri_in i target (ap_pre pt) (ap_id pt)) ->
    is_chip (ri_mach i) (chip_of i (fst x)) = true;
  pf_source : joined (ri_mach i) (map (chip_of i) (ve_macs (ri_venv i) (ap_pre pt)));
  pf_target : forall target, In target (ap_posts pt) -> target <> ap_pre pt ->
    joined (ri_mach i) (map (fun x => chip_of i (fst x)) (ri_in i target (ap_pre pt) (ap_id pt)));
  pf_home : forall x, In (ap_pre pt) (ap_posts pt) -> In x (ri_in i (ap_pre pt) (ap_pre pt) (ap_id pt)) ->
    exists v, In v (ve_macs (ri_venv i) (ap_pre pt)) /\ chip_of i v = chip_of i (fst x);
  pf_inside : forall ip w, In ip (internal_of i (ap_pre pt) (ap_id pt)) -> In w (in_posts ip) ->
    exists v, In v (ve_macs (ri_venv i) (ap_pre pt)) /\ chip_of i v = chip_of i w;
  pf_clean : forall t1 x1 t2 x2 w,
    In t1 (ap_posts pt) -> In x1 (ri_in i t1 (ap_pre pt) (ap_id pt)) -> In (App (ap_pre pt)) (snd x1) ->
    In t2 (ap_posts pt) -> In x2 (ri_in i t2 (ap_pre pt) (ap_id pt)) -> In (Mac w) (snd x2) ->
    chip_of i (fst x1) = chip_of i (fst x2) ->
    In w (ri_out i (ap_pre pt) (ap_id pt)) \/ exists v, In v (ve_macs (ri_venv i) (ap_pre pt)) /\ chip_of i v = chip_of i (fst x1) }.

(** The part of this that is about the partition and not about ways to its targets. *)
Record part_whole (i : rinput) (pt : apart) : Prop := mkWhole {
  pw_some : ap_posts pt <> [] \/ exists ip, In ip (internal_of i (ap_pre pt) (ap_id pt)) /\ in_posts ip <> [];
  pw_incoming : forall target, In target (ap_posts pt) -> ri_in i target (ap_pre pt) (ap_id pt) <> [];
  pw_source : joined (ri_mach i) (map (chip_of i) (ve_macs (ri_venv i) (ap_pre pt)));
  pw_home : forall x, In (ap_pre pt) (ap_posts pt) -> In x (ri_in i (ap_pre pt) (ap_pre pt) (ap_id pt)) ->
    exists v, In v (ve_macs (ri_venv i) (ap_pre pt)) /\ chip_of i v = chip_of i (fst x);
  pw_inside : forall ip w, In ip (internal_of i (ap_pre pt) (ap_id pt)) -> In w (in_posts ip) ->
    exists v, In v (ve_macs (ri_venv i) (ap_pre pt)) /\ chip_of i v = chip_of i w;
  pw_clean : forall t1 x1 t2 x2 w,
    In t1 (ap_posts pt) -> In x1 (ri_in i t1 (ap_pre pt) (ap_id pt)) -> In (App (ap_pre pt)) (snd x1) ->
    In t2 (ap_posts pt) -> In x2 (ri_in i t2 (ap_pre pt) (ap_id pt)) -> In (Mac w) (snd x2) ->
    chip_of i (fst x1) = chip_of i (fst x2) ->
    In w (ri_out i (ap_pre pt) (ap_id pt)) \/ exists v, In v (ve_macs (ri_venv i) (ap_pre pt)) /\ chip_of i v = chip_of i (fst x1) }.
Lemma fit_whole : forall i pt, part_fit i pt -> part_whole i pt.
Proof. intros i pt []. constructor; assumption. Qed.

Lemma src_chips_In : forall i pt p, In p (src_chips i pt) <-> exists v, In v (ve_macs (ri_venv i) (ap_pre pt)) /\ chip_of i v = p.
Proof.
  intros i pt p. unfold src_chips. rewrite set_of_In, in_map_iff. split; intros [v [A B]]; exists v; auto.
Qed.
Lemma joined_ext : forall m l l', (forall p, In p l <-> In p l') -> joined m l -> joined m l'.
Proof.
  intros m l l' E J p q P Q. destruct (J p q (proj2 (E p) P) (proj2 (E q) Q)) as [w [[W F] L]]. exists w. split; [|exact L].
  split; [exact W|]. revert F. apply Forall_impl. intros n. apply E.
Qed.
(** A search that can get to all its targets finds them. *)
Lemma routes_found : forall m l p targets r, (forall t, In t targets -> exists w, rwalk m l p w /\ last_xy p w = t) ->
  exists r', route_to_xys m p l targets r = Ok r'.
Proof.
  intros m l p targets r T. destruct (route_raises m p l targets r) as [A B].
  destruct (route_to_xys m p l targets r) as [r'|e] eqn:E; [eauto|]. exfalso.
  pose proof (B e eq_refl) as X. subst e.
  destruct (proj1 A eq_refl) as [t [T1 T2]]. destruct (T t T1) as [w [W L]]. exact (T2 w W L).
Qed.

(** * Routes between chips *)
Lemma NoDup_parts : forall {A} (l l' : list A), NoDup (l ++ l') -> NoDup l /\ NoDup l'.
Proof.
  induction l as [|x l IH]; intros l' H; [split; [constructor | exact H]|]. cbn [app] in H. inversion H as [|? ? X Y]; subst.
  destruct (IH l' Y) as [A1 A2]. split; [|exact A2]. constructor; [|exact A1]. intros Z. apply X. apply in_app_iff. auto.
Qed.
Lemma add_nodes_ok : forall source nodes r cur, NoDup (map snd nodes) -> (forall n, In n nodes -> ~ known r (snd n)) ->
  exists r', add_nodes source r cur nodes = Ok r'.
Proof.
  intros source. induction nodes as [|[d q] nodes IH]; intros r cur N K; cbn [add_nodes]; [eauto|].
  cbn [map snd] in N. inversion N as [|? ? N1 N2]; subst.
  assert (KQ : ~ known r q) by exact (K _ (or_introl eq_refl)).
  destruct (dmem xy_eqb r q) eqn:D; [apply known_dmem in D; contradiction|].
  apply IH; [exact N2|]. intros n I X. apply append_child_known, set_empty_known in X. destruct X as [X|X].
  - exact (K n (or_intror I) X).
  - apply N1. rewrite <- X. apply in_map. exact I.
Qed.

Lemma pre_to_post_from : forall i v w r src targets fixed, In (chip_of i w) targets ->
  direct_path (ri_mach i) (ri_vec i (chip_of i v) (chip_of i w)) (chip_of i v) = Ok fixed -> NoDup (chip_of i v :: map snd fixed) ->
  exists pre post r', route_pre_to_post i (chip_of i v) (chip_of i w) r src targets = Ok (pre, post, r') /\ In post targets.
Proof.
  intros i v w r src targets fixed T D ND. inversion ND as [|? ? NS NF]; subst.
  unfold route_pre_to_post. rewrite D. cbn [bind].
  set (f := fun p => xy_in p src || dmem xy_eqb r p).
  assert (KF : forall p, f p = false -> ~ known r p).
  { intros p F K. unfold f in F. apply orb_false_iff in F. destruct F as [_ F]. apply known_dmem in K. congruence. }
  pose proof (after_last_spec f fixed) as A.
  assert (P : exists pre nodes, match after_last f fixed with Some x => x | None => (chip_of i v, fixed) end = (pre, nodes) /\
     NoDup (map snd nodes) /\ forall n, In n nodes -> ~ known (ensure_tree r pre) (snd n)).
  { destruct (after_last f fixed) as [[pre nodes]|].
    - destruct A as [l [n [-> [A1 [A2 A3]]]]]. exists pre, nodes. split; [reflexivity|].
      rewrite map_app in NF. cbn [map] in NF. pose proof (NoDup_remove_2 _ _ _ NF) as X. pose proof (NoDup_remove_1 _ _ _ NF) as Y.
      split; [exact (proj2 (NoDup_parts _ _ Y))|].
      intros n' I K. apply ensure_known in K. destruct K as [K|K]; [exact (KF _ (A3 n' I) K)|].
      apply X. apply in_app_iff. right. rewrite A1, <- K. apply in_map. exact I.
    - exists (chip_of i v), fixed. split; [reflexivity|]. split; [exact NF|].
      intros n I K. apply ensure_known in K. destruct K as [K|K]; [exact (KF _ (A n I) K)|].
      apply NS. rewrite <- K. apply in_map. exact I. }
  destruct P as [pre [nodes [-> [P1 P2]]]]. clear A.
  pose proof (up_to_first_spec (fun p => xy_in p targets) nodes) as U.
  assert (Q : exists post nodes', match up_to_first (fun p => xy_in p targets) nodes with Some x => x | None => (chip_of i w, nodes) end = (post, nodes') /\
     In post targets /\ exists rest, nodes = nodes' ++ rest).
  { destruct (up_to_first (fun p => xy_in p targets) nodes) as [[post nodes']|].
    - destruct U as [l0 [n [rest [E [_ [_ F]]]]]]. exists post, nodes'. split; [reflexivity|]. split; [apply xy_in_spec; exact F | eauto].
    - exists (chip_of i w), nodes. split; [reflexivity|]. split; [exact T|]. exists []. rewrite app_nil_r. reflexivity. }
  destruct Q as [post [nodes' [-> [Q1 [rest Q2]]]]].
  destruct (add_nodes_ok (chip_of i v) nodes' (ensure_tree r pre) pre) as [r' R].
  - rewrite Q2, map_app in P1. exact (proj1 (NoDup_parts _ _ P1)).
  - intros n I. apply P2. rewrite Q2. apply in_app_iff. auto.
  - rewrite R. cbn [bind]. exists pre, post, r'. auto.
Qed.

Lemma pre_to_post_ok : forall i v w r src targets, input_ok i -> connected (ri_mach i) ->
  is_chip (ri_mach i) (chip_of i v) = true -> is_chip (ri_mach i) (chip_of i w) = true -> In (chip_of i w) targets ->
  exists pre post r', route_pre_to_post i (chip_of i v) (chip_of i w) r src targets = Ok (pre, post, r') /\ In post targets.
Proof.
  intros i v w r src targets IO CN CV CW T.
  assert (D : exists l, direct_path (ri_mach i) (ri_vec i (chip_of i v) (chip_of i w)) (chip_of i v) = Ok l /\ NoDup (chip_of i v :: map snd l)).
  { pose proof (direct_spec (ri_mach i) (ri_vec i (chip_of i v) (chip_of i w)) (chip_of i v)) as S.
    pose proof (direct_connected (ri_mach i) (ri_vec i (chip_of i v) (chip_of i w)) (chip_of i v) CN CV) as C.
    pose proof (io_vec i IO v w) as V. pose proof (io_paths i IO v w) as P. cbv zeta in P.
    destruct (ri_vec i (chip_of i v) (chip_of i w)) as [[x y] z].
    destruct (ldf_reaches (ri_mach i) x y z _ _ (io_inside i IO v) (io_inside i IO w) V) as [_ [L _]].
    rewrite L in C. destruct (C CW) as [l0 [C1 _]]. rewrite C1 in S. destruct S as [_ [_ S]].
    destruct (S (P l0 C1)) as [l [A [_ [_ B]]]]. exists l. auto. }
  destruct D as [fixed [D ND]]. exact (pre_to_post_from i v w r src targets fixed T D ND).
Qed.
Lemma pre_to_post_cases : forall i v w r src targets, input_ok i -> In (chip_of i w) targets ->
  route_pre_to_post i (chip_of i v) (chip_of i w) r src targets = Err RoutingException \/
  exists pre post r', route_pre_to_post i (chip_of i v) (chip_of i w) r src targets = Ok (pre, post, r') /\ In post targets.
Proof.
  intros i v w r src targets IO T.
  pose proof (direct_spec (ri_mach i) (ri_vec i (chip_of i v) (chip_of i w)) (chip_of i v)) as S.
  pose proof (io_paths i IO v w) as P. cbv zeta in P.
  destruct (repaired (ri_mach i) (chip_of i v) (longest_dimension_first (ri_mach i) (ri_vec i (chip_of i v) (chip_of i w)) (chip_of i v))) as [l0|e].
  - right. destruct S as [_ [_ S]]. destruct (S (P l0 eq_refl)) as [l [A [_ [_ B]]]]. exact (pre_to_post_from i v w r src targets l T A B).
  - left. unfold route_pre_to_post. rewrite S. reflexivity.
Qed.

(** * Several places where routes enter *)
Lemma walk_within : forall m s (found : list xy) (P : xy -> Prop) l,
  (forall x, In x found <-> exists l, walk m s l /\ Forall (fun n => P (snd n)) l /\ last_xy s l = x) ->
  walk m s l -> Forall (fun n => P (snd n)) l -> rwalk m found s l.
Proof.
  intros m s found P l F W A. split; [exact W|]. apply Forall_forall. intros n I. apply in_split in I. destruct I as [l1 [l2 ->]].
  apply F. exists (l1 ++ [n]). replace (l1 ++ n :: l2) with ((l1 ++ [n]) ++ l2) in * by (rewrite <- app_assoc; reflexivity).
  apply walk_app in W. apply Forall_app in A. split; [exact (proj1 W)|]. split; [exact (proj1 A) | apply last_xy_app].
Qed.

Lemma route_overlaps_ok : forall i (X : list xy), joined (ri_mach i) X -> forall os reached tx edges r (S : xy -> Prop),
  (forall q, In q reached -> S q \/ In q os) ->
  (forall p n, S p -> works (ri_mach i) p n -> In (snd n) X -> S (snd n) \/ In (snd n) os) ->
  (forall q, In q X -> ~ In q tx -> In q reached) ->
  (forall q, In q tx -> In q X /\ ~ S q) ->
  (exists o, In o X /\ (S o \/ In o os)) ->
  exists edges' r', route_overlaps i os reached tx tx edges r = Ok ([], [], edges', r').
Proof.
  intros i X J. induction os as [|o os IH]; intros reached tx edges r S H1 H2 H3 H4 H5; cbn [route_overlaps].
  - destruct tx as [|q tx]; [eauto|]. exfalso. destruct (H4 q (or_introl eq_refl)) as [XQ NS].
    destruct H5 as [o [XO [SO|[]]]]. destruct (J o q XO XQ) as [w [W L]]. apply NS. rewrite <- L.
    apply (closed_walk (ri_mach i) X S); [|exact SO | exact W]. intros p n P W' I. destruct (H2 p n P W' I) as [Y|[]]. exact Y.
  - destruct (find_reachable_spec (ri_mach i) o tx reached) as [found [F1 [_ F2]]]. rewrite F1. cbn [bind].
    set (open := fun q => In q tx /\ ~ In q reached).
    assert (F3 : forall x, In x found <-> exists l, walk (ri_mach i) o l /\ Forall (fun n => open (snd n)) l /\ last_xy o l = x) by exact F2.
    set (this := filter (fun p => xy_in p found) tx).
    assert (TI : forall q, In q this <-> In q tx /\ In q found) by (intros q; unfold this; rewrite filter_In, xy_in_spec; reflexivity).
    destruct (routes_found (ri_mach i) found o this r) as [r1 R].
    { intros t T. apply TI in T. destruct T as [_ T]. apply F3 in T. destruct T as [l [W [A L]]]. exists l. split; [|exact L].
      exact (walk_within (ri_mach i) o found open l F3 W A). }
    rewrite R. cbn [bind].
    assert (OF : In o found).
    { apply F3. exists []. split; [exact I|]. split; [constructor | reflexivity]. }
    apply (IH (reached ++ found) (without tx this) (set_add edges o) r1 (fun q => S q \/ In q found)).
    + intros q Q. apply in_app_iff in Q. destruct Q as [Q|Q]; [|left; right; exact Q].
      destruct (H1 q Q) as [Y|[<-|Y]]; auto.
    + intros p n [P|P] W Q.
      * destruct (H2 p n P W Q) as [Y|[Y|Y]]; [auto | rewrite <- Y; auto | auto].
      * destruct (xy_in (snd n) reached) eqn:E.
        { apply xy_in_spec in E. destruct (H1 _ E) as [Y|[Y|Y]]; [auto | rewrite <- Y; auto | auto]. }
        assert (NR : ~ In (snd n) reached) by (rewrite <- xy_in_spec; congruence).
        left. right. apply F3. apply F3 in P. destruct P as [l [W1 [A L]]]. exists (l ++ [n]). split; [|split].
        -- apply walk_app. split; [exact W1|]. rewrite L. split; [exact W | exact I].
        -- apply Forall_app. split; [exact A|]. constructor; [|constructor]. split; [|exact NR].
           destruct (xy_in (snd n) tx) eqn:E'; [apply xy_in_spec; exact E'|]. exfalso. apply NR. apply (H3 _ Q). rewrite <- xy_in_spec. congruence.
        -- rewrite last_xy_app. reflexivity.
    + intros q Q N. apply in_app_iff. destruct (xy_in q tx) eqn:E.
      * right. apply xy_in_spec in E. destruct (xy_in q found) eqn:E'; [apply xy_in_spec; exact E'|]. exfalso. apply N.
        apply without_In. split; [exact E|]. intros T. apply TI in T. destruct T as [_ T]. apply xy_in_spec in T. congruence.
      * left. apply (H3 q Q). rewrite <- xy_in_spec. congruence.
    + intros q Q. apply without_In in Q. destruct Q as [Q1 Q2]. destruct (H4 q Q1) as [A B]. split; [exact A|].
      intros [Y|Y]; [exact (B Y)|]. apply Q2. apply TI. auto.
    + destruct H5 as [o' [A [B|[B|B]]]]; exists o'; (split; [exact A|]); [left; left; exact B | subst o'; left; right; exact OF | right; exact B].
Qed.

Lemma find_target_ok : forall i tx r (mp : mapping), order_ok i -> tx <> [] ->
  exists dest ov, match tx with [p] => Ok (p, []) | _ => find_target_xy i tx r mp end = Ok (dest, ov).
Proof.
  intros i tx r mp OK NE.
  assert (F : exists dest ov, find_target_xy i tx r mp = Ok (dest, ov)).
  { unfold find_target_xy. destruct (ri_order i (filter (fun p => dmem xy_eqb mp p) tx)) as [|p [|p' l]]; eauto.
    destruct (find (fun p => dmem xy_eqb r p) (ri_order i tx)); eauto.
    destruct (rev (ri_order i tx)) as [|p l] eqn:E; eauto. exfalso. apply NE.
    apply (f_equal (@rev _)) in E. rewrite rev_involutive in E. cbn in E. pose proof (OK tx) as P. rewrite E in P.
    apply Permutation_nil in P. exact P. }
  destruct tx as [|p [|p' l]]; [congruence | eauto | exact F].
Qed.

Lemma source_to_target_ok : forall i a k v src (mp : mapping) s target,
  input_ok i -> connected (ri_mach i) -> is_chip (ri_mach i) (chip_of i v) = true ->
  ri_in i target a k <> [] -> (forall x, In x (ri_in i target a k) -> is_chip (ri_mach i) (chip_of i (fst x)) = true) ->
  joined (ri_mach i) (map (fun x => chip_of i (fst x)) (ri_in i target a k)) ->
  exists s', route_source_to_target i a k (chip_of i v) src mp s target = Ok s'.
Proof.
  intros i a k v src mp s target IO CN CV NE CT J. unfold route_source_to_target.
  set (tx := set_of (map (fun x => chip_of i (fst x)) (ri_in i target a k))).
  assert (TX : forall q, In q tx <-> exists x, In x (ri_in i target a k) /\ chip_of i (fst x) = q).
  { intros q. unfold tx. rewrite set_of_In, in_map_iff. split; intros [x [A B]]; exists x; auto. }
  assert (J' : joined (ri_mach i) tx).
  { revert J. apply joined_ext. intros q. unfold tx. symmetry. apply set_of_In. }
  assert (NT : tx <> []).
  { destruct (ri_in i target a k) as [|x l] eqn:E; [congruence|]. intros Z.
    assert (Y : In (chip_of i (fst x)) tx) by (apply TX; exists x; split; [left; reflexivity | reflexivity]). rewrite Z in Y. destruct Y. }
  clearbody tx.
  destruct (find_target_ok i tx (p_routes s) mp (io_order i IO) NT) as [dest [ov F]]. rewrite F. cbn [bind].
  destruct (find_target_spec i tx (p_routes s) mp dest ov (io_order i IO) F) as [DT OV].
  destruct (proj1 (TX dest) DT) as [x [X1 X2]]. subst dest.
  destruct (pre_to_post_ok i v (fst x) (p_routes s) src tx IO CN CV (CT x X1) DT) as [pre [post [r1 [R P]]]]. rewrite R. cbn [bind].
  destruct ov as [|o ov].
  - destruct (routes_found (ri_mach i) tx post tx r1) as [r2 R2]; [intros t T; exact (J' post t P T)|]. rewrite R2. cbn [bind]. eauto.
  - destruct OV as [[OV _]|[OV _]]; [discriminate|].
    assert (OI : forall q, In q (ri_order i (o :: ov)) <-> In q (o :: ov)).
    { intros q. split; apply Permutation_in; [exact (io_order i IO _) | exact (Permutation_sym (io_order i IO _))]. }
    destruct (route_overlaps_ok i tx J' (ri_order i (o :: ov)) (o :: ov) tx (p_edges s) r1 (fun _ => False)) as [edges' [r2 R2]].
    + intros q Q. right. apply OI. exact Q.
    + intros p n [].
    + intros q Q N. contradiction.
    + intros q Q. auto.
    + assert (OO : In o (o :: ov)) by (left; reflexivity). exists o. split; [|right; apply OI; exact OO].
      rewrite OV in OO. apply filter_In in OO. tauto.
    + rewrite R2. cbn [bind].
      destruct (routes_found (ri_mach i) [] post [] r2) as [r3 R3]; [intros t []|]. rewrite R3. cbn [bind]. eauto.
Qed.

Lemma edges_ok : forall i pt v mp, input_ok i -> connected (ri_mach i) -> part_fit i pt -> is_chip (ri_mach i) (chip_of i v) = true ->
  forall posts s, incl posts (ap_posts pt) ->
  exists s', foldM (route_edge i (ap_pre pt) (ap_id pt) (chip_of i v) (src_chips i pt) mp) s posts = Ok s'.
Proof.
  intros i pt v mp IO CN PF CV. induction posts as [|target posts IH]; intros s SUB; cbn [foldM]; [eauto|].
  assert (T : In target (ap_posts pt)) by (apply SUB; left; reflexivity).
  assert (E : exists s1, route_edge i (ap_pre pt) (ap_id pt) (chip_of i v) (src_chips i pt) mp s target = Ok s1).
  { unfold route_edge. destruct (Nat.eqb (ap_pre pt) target) eqn:Q; [eauto|]. apply Nat.eqb_neq in Q.
    apply source_to_target_ok; auto.
    - exact (pf_incoming i pt PF target T).
    - intros x. exact (pf_target_chips i pt PF target x T).
    - apply (pf_target i pt PF target T). congruence. }
  destruct E as [s1 E]. rewrite E. cbn [bind]. apply IH. intros x X. apply SUB. right. exact X.
Qed.

(** Whatever the machine is like, edges fail only because of chips that cannot be
    reached. *)
Lemma routes_cases : forall m l p targets r, route_to_xys m p l targets r = Err RoutingException \/
  exists r', route_to_xys m p l targets r = Ok r'.
Proof.
  intros m l p targets r. destruct (route_raises m p l targets r) as [_ B].
  destruct (route_to_xys m p l targets r) as [r'|e]; [eauto|]. left. rewrite (B e eq_refl). reflexivity.
Qed.
Lemma overlaps_cases : forall i os reached tx real edges r,
  route_overlaps i os reached tx real edges r = Err RoutingException \/ exists x, route_overlaps i os reached tx real edges r = Ok x.
Proof.
  intros i. induction os as [|o os IH]; intros reached tx real edges r; cbn [route_overlaps]; [eauto|].
  destruct (find_reachable_spec (ri_mach i) o tx reached) as [found [F1 _]]. rewrite F1. cbn [bind].
  destruct (routes_cases (ri_mach i) found o (filter (fun p => xy_in p found) real) r) as [R|[r' R]]; rewrite R; cbn [bind]; [left; reflexivity|].
  apply IH.
Qed.
Lemma source_to_target_cases : forall i a k v src (mp : mapping) s target, input_ok i -> ri_in i target a k <> [] ->
  route_source_to_target i a k (chip_of i v) src mp s target = Err RoutingException \/
  exists s', route_source_to_target i a k (chip_of i v) src mp s target = Ok s'.
Proof.
  intros i a k v src mp s target IO NE. unfold route_source_to_target.
  set (tx := set_of (map (fun x => chip_of i (fst x)) (ri_in i target a k))).
  assert (TX : forall q, In q tx <-> exists x, In x (ri_in i target a k) /\ chip_of i (fst x) = q).
  { intros q. unfold tx. rewrite set_of_In, in_map_iff. split; intros [x [A B]]; exists x; auto. }
  assert (NT : tx <> []).
  { destruct (ri_in i target a k) as [|x l] eqn:E; [congruence|]. intros Z.
    assert (Y : In (chip_of i (fst x)) tx) by (apply TX; exists x; split; [left; reflexivity | reflexivity]). rewrite Z in Y. destruct Y. }
  clearbody tx.
  destruct (find_target_ok i tx (p_routes s) mp (io_order i IO) NT) as [dest [ov F]]. rewrite F. cbn [bind].
  destruct (find_target_spec i tx (p_routes s) mp dest ov (io_order i IO) F) as [DT OV].
  destruct (proj1 (TX dest) DT) as [x [X1 X2]]. subst dest.
  destruct (pre_to_post_cases i v (fst x) (p_routes s) src tx IO DT) as [R|[pre [post [r1 [R P]]]]]; rewrite R; cbn [bind]; [left; reflexivity|].
  destruct ov as [|o ov].
  - destruct (routes_cases (ri_mach i) tx post tx r1) as [R2|[r2 R2]]; rewrite R2; cbn [bind]; eauto.
  - destruct (overlaps_cases i (ri_order i (o :: ov)) (o :: ov) tx tx (p_edges s) r1) as [R2|[[[[tx' real] edges'] r2] R2]]; rewrite R2; cbn [bind]; [left; reflexivity|].
    destruct (routes_cases (ri_mach i) tx' post real r2) as [R3|[r3 R3]]; rewrite R3; cbn [bind]; eauto.
Qed.
Lemma edges_cases : forall i pt v mp, input_ok i ->
  (forall target, In target (ap_posts pt) -> ri_in i target (ap_pre pt) (ap_id pt) <> []) ->
  forall posts s, incl posts (ap_posts pt) ->
  foldM (route_edge i (ap_pre pt) (ap_id pt) (chip_of i v) (src_chips i pt) mp) s posts = Err RoutingException \/
  exists s', foldM (route_edge i (ap_pre pt) (ap_id pt) (chip_of i v) (src_chips i pt) mp) s posts = Ok s'.
Proof.
  intros i pt v mp IO IN. induction posts as [|target posts IH]; intros s SUB; cbn [foldM]; [eauto|].
  assert (T : In target (ap_posts pt)) by (apply SUB; left; reflexivity).
  assert (E : route_edge i (ap_pre pt) (ap_id pt) (chip_of i v) (src_chips i pt) mp s target = Err RoutingException \/
    exists s1, route_edge i (ap_pre pt) (ap_id pt) (chip_of i v) (src_chips i pt) mp s target = Ok s1).
  { unfold route_edge. destruct (Nat.eqb (ap_pre pt) target) eqn:Q; [eauto|].
    apply source_to_target_cases; [exact IO | exact (IN target T)]. }
  destruct E as [E|[s1 E]]; rewrite E; cbn [bind]; [left; reflexivity|]. apply IH. intros x X. apply SUB. right. exact X.
Qed.

(** * The entries of one partition *)
Section Fits.
Variables (i : rinput) (pt : apart) (edges : list xy) (r : routes) (ts : list (xy * tstate)) (self : bool) (wanted : list xy).
Hypothesis IO : input_ok i.
Hypothesis PO : part_ok i pt.
Hypothesis PF : part_whole i pt.
Hypothesis PL : part_plan i pt edges r ts self wanted.
Hypothesis NE : src_chips i pt <> [].
Let a := ap_pre pt.
Let k := ap_id pt.
Let src := src_chips i pt.

(** Where entries for the application vertex and for machine vertices may be. *)
Definition may (w : vtx) (q : xy) : Prop := belongs i a w /\
  match w with
  | App _ => ~ In q src /\ (dget xy_eqb ts q = None \/ exists p, aim ts q (App a) p)
  | Mac _ => In q src \/ (exists p, aim ts q w p) \/ (dget xy_eqb ts q <> None /\ forall b p, ~ aim ts q (App b) p)
  end.

Lemma senders_belong : forall v, In v (ri_out i a k ++ map in_pre (internal_of i a k)) -> ve_app (ri_venv i) v = Some a.
Proof.
  intros v V. apply in_app_iff in V. destruct V as [V|V]; [exact (io_out i IO _ _ _ V)|].
  apply in_map_iff in V. destruct V as [ip [<- V]]. apply internal_of_In in V. apply (po_internal i pt PO); tauto.
Qed.
(** Who asked for the targets. *)
Lemma aim_origin : forall q w p, aim ts q w p ->
  (exists c s, In (q, c) (part_calls i pt) /\ In s (tc_srcs c) /\ (s = w \/ (s = App a /\ exists v, w = Mac v /\ In v (ri_out i a k)))) \/
  (In q edges /\ exists v, w = Mac v /\ ve_app (ri_venv i) v = Some a).
Proof.
  intros q w p [s [D T]]. destruct (chip_targets i pt edges r ts self wanted PL q s D) as [[cs [_ [-> ->]]]|[X [_ ->]]].
  - left. destruct (well_run (renv i (ap_id pt)) (calls_at (part_calls i pt) q)) as [_ _ O].
    destruct (O w) as [o [O1 O2]]; [intros Z; unfold targets_of in T; rewrite Z in T; discriminate|].
    apply atoms_In in O1. destruct O1 as [c [s [C1 [C2 ->]]]]. apply calls_at_In in C1. exists c, s. split; [exact C1|]. split; [exact C2|].
    destruct O2 as [[O2 _]|[b [v [O2 [-> O3]]]]]; cbn [a_src] in O2; subst s; [left; reflexivity|]. right.
    destruct (call_sources i pt [] PO q c _ C1 C2) as [B|[v' [B _]]]; [|discriminate]. injection B as ->. split; [reflexivity | eauto].
  - right. split; [exact X|].
    destruct (edge_targets_spec (outgoing_mapping i (ap_pre pt) (ap_id pt))) as [_ [_ [E _]]].
    destruct (proj1 (E w)) as [x [Y ->]]; [congruence|]. exists (fst x). split; [reflexivity|]. apply senders_belong.
    apply in_flat_map in Y. destruct Y as [[p' vs] [Y1 Y2]]. cbn [snd] in Y2. destruct (mapping_spec i (ap_pre pt) (ap_id pt)) as [M _].
    exact (proj1 (M p' vs x Y1 Y2)).
Qed.
Lemma aim_belongs : forall q w p, aim ts q w p -> belongs i a w.
Proof.
  intros q w p A. destruct (aim_origin q w p A) as [[c [s [C [S [-> |[_ [v [-> V]]]]]]]]|[_ [v [-> V]]]].
  - destruct (call_sources i pt [] PO q c _ C S) as [-> |[v [-> V]]]; [left; reflexivity | right; eauto].
  - right. exists v. split; [reflexivity | exact (io_out i IO _ _ _ V)].
  - right. eauto.
Qed.
Lemma may_apart : forall b v q, may (App b) q -> may (Mac v) q -> ve_app (ri_venv i) v = Some b -> False.
Proof.
  intros b v q [_ [NS A]] [_ [M|[M|M]]] _; [contradiction | |].
  - destruct M as [p' M]. destruct A as [A|[p A]]; [destruct M as [s [M _]]; congruence|].
    destruct (aim_origin q _ p' M) as [[c [s [C [S O]]]]|[E _]].
    2:{ apply NS. exact (ro_edges _ _ _ _ (pl_routed _ _ _ _ _ _ _ PL) q E). }
    assert (V : In v (ri_out i a k)).
    { destruct O as [-> |[_ [v' [E V]]]]; [|injection E as <-; exact V].
      destruct (aim_origin q _ p A) as [[c1 [s1 [C1 [S1 O1]]]]|[E _]].
      2:{ destruct NS. exact (ro_edges _ _ _ _ (pl_routed _ _ _ _ _ _ _ PL) q E). }
      destruct O1 as [-> |[_ [v' [E _]]]]; [|discriminate].
      apply part_calls_In in C, C1.
      destruct C as [[t2 [x2 [T2 [X2 [E2 ->]]]]]|[ip [w [I [W [E2 _]]]]]].
      2:{ destruct NS. unfold src. apply src_chips_In. destruct (pw_inside i pt PF ip w I W) as [z [Z1 Z2]]. exists z. split; [exact Z1 | congruence]. }
      destruct C1 as [[t1 [x1 [T1 [X1 [E1 ->]]]]]|[ip [w [I [W [E1 _]]]]]].
      2:{ destruct NS. unfold src. apply src_chips_In. destruct (pw_inside i pt PF ip w I W) as [z [Z1 Z2]]. exists z. split; [exact Z1 | congruence]. }
      cbn [tc_srcs] in S, S1.
      destruct (pw_clean i pt PF t1 x1 t2 x2 v T1 X1 S1 T2 X2 S) as [V|[z [Z1 Z2]]]; [congruence | exact V|].
      destruct NS. unfold src. apply src_chips_In. exists z. split; [exact Z1 | congruence]. }
    exact (aim_apart i pt edges r ts self wanted IO PL q v p p' V A M).
  - destruct M as [M1 M2]. destruct A as [A|[p A]]; [contradiction | exact (M2 _ _ A)].
Qed.
Lemma app_may : forall q w cores links, known r q -> gives (conv_app i a k ts) q w cores links -> may w q.
Proof.
  intros q w cores links K G. apply (gives_app i pt edges r ts self wanted PL) in G.
  destruct G as [[D [-> _]]|[A|[D [NA [v [-> [V _]]]]]]].
  - split; [left; reflexivity|]. split; [|left; exact D]. intros S. pose proof (ro_source _ _ _ _ (pl_routed _ _ _ _ _ _ _ PL) q K S) as E.
    rewrite (pl_targets _ _ _ _ _ _ _ PL q) in D. destruct (calls_at (part_calls i pt) q); [|discriminate].
    apply xy_in_spec in E. rewrite E in D. discriminate.
  - split; [exact (aim_belongs q w _ A)|]. destruct w as [b|v]; [|right; left; eauto].
    destruct (aim_app i pt edges r ts self wanted IO PO PL q b _ NE A) as [-> NS]. split; [exact NS|]. right. eauto.
  - split; [right; exists v; split; [reflexivity | exact (io_out i IO _ _ _ V)]|]. right. right. auto.
Qed.
Lemma mac_may : forall v q w cores links, In v (ri_out i a k ++ map in_pre (internal_of i a k)) ->
  known (source_tree i src wanted (chip_of i v)) q -> gives (conv_mac i k ts self v) q w cores links -> may w q.
Proof.
  intros v q w cores links V K G. apply (gives_mac i pt edges r ts self wanted PL) in G. destruct G as [-> _].
  split; [right; exists v; split; [reflexivity | exact (senders_belong v V)]|]. left.
  apply (proj2 (proj2 (pl_trees _ _ _ _ _ _ _ PL (chip_of i v) (src_some i pt IO PO v V))) q K).
Qed.
End Fits.

(** * One partition *)
Definition filled_in (mp : mapping) (es : list xy) (ts : list (xy * tstate)) : list (xy * tstate) :=
  fold_left (fun ts e => if dmem xy_eqb ts e then ts else dset xy_eqb ts e (edge_targets mp)) es ts.
Lemma filled_in_dget : forall mp es ts q, dget xy_eqb (filled_in mp es ts) q =
  match dget xy_eqb ts q with Some s => Some s | None => if xy_in q es then Some (edge_targets mp) else None end.
Proof.
  intros mp. induction es as [|e es IH]; intros ts q; unfold filled_in in *; cbn [fold_left].
  - destruct (dget xy_eqb ts q); reflexivity.
  - rewrite IH. unfold xy_in. cbn [existsb]. unfold dmem. destruct (dget xy_eqb ts e) as [s|] eqn:D.
    + destruct (dget xy_eqb ts q) as [s'|] eqn:D'; [reflexivity|]. rewrite (xy_eqb_neq q e); [reflexivity | congruence].
    + rewrite (dget_dset _ xy_eqb_eq). destruct (xy_eqb e q) eqn:Q.
      * apply xy_eqb_eq in Q. subst q. rewrite D, xy_eqb_refl. reflexivity.
      * assert (N : q <> e) by (intros ->; rewrite xy_eqb_refl in Q; discriminate). rewrite (xy_eqb_neq q e N). reflexivity.
Qed.

Lemma served_app : forall c a p, cv_source c = App a -> exists l, served c p = Ok l.
Proof.
  intros c a p E. unfold served. destruct (dget xy_eqb (cv_targets c) p) as [items|]; [|eauto]. cbv zeta. rewrite E.
  match goal with |- exists l, (if ?b then _ else _) = _ => destruct b end; eauto.
Qed.
Lemma served_plain : forall c p, cv_ensure c = false -> exists l, served c p = Ok l.
Proof.
  intros c p E. unfold served. destruct (dget xy_eqb (cv_targets c) p) as [items|]; [|eauto]. cbv zeta. rewrite E. cbn [andb]. eauto.
Qed.

Section Folds.
Variables (i : rinput) (a k : nat) (of_a : vtx -> Prop) (lic : vtx -> xy -> Prop).
Hypothesis VE : ve_ok (ri_venv i).
Hypothesis LA : forall w q, lic w q -> of_a w.
Hypothesis AM : forall a v, of_a (App a) -> ve_app (ri_venv i) v = Some a -> of_a (Mac v).
Hypothesis MA : forall a v, of_a (Mac v) -> ve_app (ri_venv i) v = Some a -> of_a (App a).
Hypothesis APART : forall a v q, lic (App a) q -> lic (Mac v) q -> ve_app (ri_venv i) v = Some a -> False.

Lemma target_routes_ok : forall mp edges r ts0 fin, is_forest (ri_mach i) (fun p => In p edges) r ->
  (forall q, dget xy_eqb fin q = match dget xy_eqb ts0 q with Some s => Some s | None => if xy_in q edges then Some (edge_targets mp) else None end) ->
  (forall q w cores links, known r q -> gives (conv_app i a k fin) q w cores links -> lic w q) ->
  forall es ts t, incl es edges ->
  (forall q, dget xy_eqb ts q = dget xy_eqb ts0 q \/ (In q edges /\ dget xy_eqb ts q = dget xy_eqb fin q)) ->
  licensed k of_a lic t ->
  exists x, foldM (target_routes_step i a k mp r) (ts, t) es = Ok x /\ licensed k of_a lic (snd x).
Proof.
  intros mp edges r ts0 fin F FIN G. induction es as [|e es IH]; intros ts t SUB T I; cbn [foldM]; [exists (ts, t); auto|].
  assert (EE : In e edges) by (apply SUB; left; reflexivity).
  assert (KE : known r e) by exact (fo_roots _ _ _ F e EE).
  unfold target_routes_step at 1. rewrite (proj2 (known_dmem r e) KE).
  set (ts' := if dmem xy_eqb ts e then ts else dset xy_eqb ts e (edge_targets mp)).
  assert (FE : dget xy_eqb fin e = match dget xy_eqb ts0 e with Some s => Some s | None => Some (edge_targets mp) end).
  { rewrite (FIN e), (proj2 (xy_in_spec e edges) EE). reflexivity. }
  assert (T' : forall q, (q = e -> dget xy_eqb ts' q = dget xy_eqb fin q) /\ (q <> e -> dget xy_eqb ts' q = dget xy_eqb ts q)).
  { intros q. unfold ts', dmem. destruct (dget xy_eqb ts e) as [s|] eqn:D.
    - split; [|reflexivity]. intros ->. destruct (T e) as [X|[_ X]]; [|exact X]. rewrite FE, <- X, D. reflexivity.
    - rewrite (dget_dset _ xy_eqb_eq). split.
      + intros ->. rewrite xy_eqb_refl. destruct (T e) as [X|[_ X]]; [rewrite FE, <- X, D; reflexivity|].
        rewrite <- X, D in FE. destruct (dget xy_eqb ts0 e); discriminate.
      + intros N. rewrite (xy_eqb_neq e q); congruence. }
  assert (BELOW : forall q, descends r e q -> known r q /\ dget xy_eqb ts' q = dget xy_eqb fin q).
  { intros q D. split; [apply (forest_known _ _ _ q F); eauto|].
    destruct (xy_eqb q e) eqn:Q; [apply xy_eqb_eq in Q; exact (proj1 (T' q) Q)|].
    assert (N : q <> e) by (intros ->; rewrite xy_eqb_refl in Q; discriminate). rewrite (proj2 (T' q) N).
    assert (NE : ~ In q edges) by (intros X; apply N; symmetry; exact (root_alone _ _ r e q F X D)).
    destruct (T q) as [X|[X _]]; [|contradiction]. rewrite X, (FIN q). destruct (dget xy_eqb ts0 q); [reflexivity|].
    destruct (xy_in q edges) eqn:E; [apply xy_in_spec in E; contradiction | reflexivity]. }
  destruct (convert_ok (ri_venv i) k of_a lic VE LA AM MA APART (ri_mach i) (conv_app i a k ts') r e t None None eq_refl eq_refl
              (forest_sound _ _ _ F) KE (or_introl eq_refl)) as [t' [C L]]; [|exact I|].
  { intros q D. destruct (served_app (conv_app i a k ts') a q eq_refl) as [l S]. exists l. split; [exact S|].
    intros w [cores links] X. apply (served_gives _ _ _ S) in X. destruct (BELOW q D) as [B1 B2]. apply (G q w cores links B1).
    apply (gives_local (conv_app i a k ts') (conv_app i a k fin)); try reflexivity; [|exact X].
    cbn [conv_app cv_targets]. rewrite !conv_dget, B2. reflexivity. }
  unfold conv_app in C. rewrite C. cbn [bind]. apply IH; [intros x X; apply SUB; right; exact X | | exact L].
  intros q. destruct (xy_eqb q e) eqn:Q.
  - apply xy_eqb_eq in Q. subst q. right. split; [exact EE | exact (proj1 (T' e) eq_refl)].
  - assert (N : q <> e) by (intros ->; rewrite xy_eqb_refl in Q; discriminate). rewrite (proj2 (T' q) N). exact (T q).
Qed.

Lemma vertex_routes_ok : forall ts self p r, is_tree (ri_mach i) p r -> forall vs t,
  (forall x q w cores links, In x vs -> known r q -> gives (conv_mac i k ts self (fst x)) q w cores links -> lic w q) ->
  licensed k of_a lic t ->
  exists t', foldM (vertex_route i k ts self (tree_of r p)) t vs = Ok t' /\ licensed k of_a lic t'.
Proof.
  intros ts self p r TR. induction vs as [|x vs IH]; intros t G I; cbn [foldM]; [eauto|].
  unfold vertex_route at 1.
  destruct (convert_ok (ri_venv i) k of_a lic VE LA AM MA APART (ri_mach i) (conv_mac i k ts self (fst x)) r p t (core_of (snd x)) (link_of (snd x)) eq_refl eq_refl
              (tree_sound _ _ _ TR) (tr_root _ _ _ TR)) as [t' [C L]].
  - destruct (snd x); cbn; auto.
  - intros q D. destruct (served_plain (conv_mac i k ts self (fst x)) q eq_refl) as [l S]. exists l. split; [exact S|].
    intros w [cores links] X. apply (served_gives _ _ _ S) in X. apply (G x q w cores links (or_introl eq_refl)); [|exact X].
    apply (descends_known _ _ _ q TR). exact D.
  - exact I.
  - unfold conv_mac in C. rewrite C. cbn [bind]. apply IH; [|exact L]. intros y q w cores links Y. apply G. right. exact Y.
Qed.

Lemma source_routes_ok : forall src wanted ts self mp t,
  (forall p, In p (map fst mp) -> exists r, route_to_xys (ri_mach i) p src wanted [] = Ok r /\ is_tree (ri_mach i) p r) ->
  (forall p vs x q w cores links, In (p, vs) mp -> In x vs -> known (source_tree i src wanted p) q ->
     gives (conv_mac i k ts self (fst x)) q w cores links -> lic w q) ->
  licensed k of_a lic t ->
  exists t', foldM (source_routes_step i k src wanted ts self) t mp = Ok t' /\ licensed k of_a lic t'.
Proof.
  intros src wanted ts self. induction mp as [|[p vs] mp IH]; intros t R G I; cbn [foldM]; [eauto|].
  destruct (R p (or_introl eq_refl)) as [r [E TR]]. unfold source_routes_step at 1. rewrite E. cbn [bind].
  rewrite (proj2 (known_dmem r p) (tr_root _ _ _ TR)).
  destruct (vertex_routes_ok ts self p r TR vs t) as [t' [C L]].
  - intros x q w cores links X K. apply (G p vs x q w cores links (or_introl eq_refl) X). unfold source_tree. rewrite E. exact K.
  - exact I.
  - rewrite C. cbn [bind]. apply IH; [|  | exact L].
    + intros p' P. apply R. right. exact P.
    + intros p' vs' x q w cores links X. apply (G p' vs' x q w cores links). right. exact X.
Qed.
End Folds.

Lemma partition_whole : forall i pt t, input_ok i -> part_ok i pt -> part_whole i pt ->
  (forall w q, belongs i (ap_pre pt) w -> get_entry t w (ap_id pt) q = None) ->
  (exists t', route_partition i t pt = Ok t') \/
  (exists v mp, In v (ve_macs (ri_venv i) (ap_pre pt)) /\
     foldM (route_edge i (ap_pre pt) (ap_id pt) (chip_of i v) (src_chips i pt) mp) (mkP [] [] [] false []) (ap_posts pt) = Err RoutingException /\
     route_partition i t pt = Err RoutingException).
Proof.
  intros i pt t IO PO PF FRESH. unfold route_partition.
  pose proof (src_mapping i pt IO PO) as SM. pose proof (state_made i pt) as SMD. fold (src_chips i pt).
  destruct (mapping_spec i (ap_pre pt) (ap_id pt)) as [MP1 [MP2 MP3]].
  destruct (outgoing_mapping i (ap_pre pt) (ap_id pt)) as [|[source ms] mp'] eqn:EM; [eauto|].
  remember ((source, ms) :: mp') as mp eqn:EMP.
  assert (SS : In source (src_chips i pt)).
  { apply SM. apply (dmem_true _ xy_eqb_eq). rewrite EMP. left. reflexivity. }
  assert (NE : src_chips i pt <> []) by (intros Z; rewrite Z in SS; destruct SS).
  destruct (proj1 (src_chips_In i pt source) SS) as [v0 [V0 E0]].
  destruct (edges_cases i pt v0 mp IO (pw_incoming i pt PF) (ap_posts pt) (mkP [] [] [] false []) (incl_refl _)) as [ES|[s ES]].
  { right. exists v0, mp. split; [exact V0|]. split; [exact ES|]. rewrite E0 in ES. rewrite ES. reflexivity. }
  left. rewrite E0 in ES. rewrite ES. cbn [bind]. specialize (SMD source ms mp' s IO PO EMP ES).
  assert (WI : with_internal i pt s = match internal_of i (ap_pre pt) (ap_id pt) with [] => s | ips => fold_left (add_internal i) ips (mkP (p_edges s) (p_routes s) (p_targets s) true (p_self_xys s)) end) by reflexivity.
  rewrite <- WI. clear WI ES. generalize dependent (with_internal i pt s). clear s. intros s PS.
  fold (wanted_of s).
  pose proof (ps_routed _ _ _ PS) as RO.
  (* the wanted chips *)
  assert (WS : incl (wanted_of s) (src_chips i pt)).
  { assert (A : incl (p_edges s) (src_chips i pt)) by exact (ro_edges _ _ _ _ RO).
    assert (B : incl (p_self_xys s) (src_chips i pt)).
    { intros q Q. apply src_chips_In. apply (ps_xys _ _ _ PS) in Q. destruct Q as [[H [x [X <-]]]|[ip [w [X [W <-]]]]].
      - exact (pw_home i pt PF x H X).
      - exact (pw_inside i pt PF ip w X W). }
    unfold wanted_of. destruct (p_self s); [apply incl_app; assumption | exact A]. }
  assert (SX : p_self s = true -> forall q, In q (p_self_xys s) -> wanted_of s <> []).
  { intros S q Q Z. unfold wanted_of in Z. rewrite S in Z. apply app_eq_nil in Z. destruct Z as [_ Z]. rewrite Z in Q. destruct Q. }
  assert (WN : wanted_of s <> []).
  { destruct (pw_some i pt PF) as [H|[ip [I W]]].
    - destruct (ap_posts pt) as [|target posts] eqn:EP; [congruence|].
      assert (T : In target (ap_posts pt)) by (rewrite EP; left; reflexivity).
      pose proof (pw_incoming i pt PF target T) as IN. destruct (ri_in i target (ap_pre pt) (ap_id pt)) as [|x l] eqn:EI; [congruence|].
      assert (X : In x (ri_in i target (ap_pre pt) (ap_id pt))) by (rewrite EI; left; reflexivity).
      destruct (Nat.eq_dec target (ap_pre pt)) as [Q|Q].
      + rewrite Q in T, X. apply (SX (proj2 (ps_self _ _ _ PS) (or_introl T)) (chip_of i (fst x))). apply (ps_xys _ _ _ PS). left. eauto.
      + pose proof (ps_away _ _ _ PS target x T Q X) as K. destruct (fo_reach _ _ _ (ro_forest _ _ _ _ RO) _ K) as [e [E _]].
        intros Z. assert (Y : In e (wanted_of s)); [|rewrite Z in Y; destruct Y].
        unfold wanted_of. destruct (p_self s); [apply in_app_iff; auto | exact E].
    - destruct (in_posts ip) as [|w l] eqn:EP; [congruence|].
      assert (X : In w (in_posts ip)) by (rewrite EP; left; reflexivity).
      apply (SX (proj2 (ps_self _ _ _ PS) (or_intror (fun Z : internal_of i (ap_pre pt) (ap_id pt) = [] => eq_ind _ (fun l => In ip l) I _ Z))) (chip_of i w)).
      apply (ps_xys _ _ _ PS). right. eauto. }
  assert (JS : joined (ri_mach i) (src_chips i pt)).
  { apply (joined_ext _ _ _ (fun q => iff_sym (set_of_In _ q)) (pw_source i pt PF)). }
  assert (TREE : forall p, In p (src_chips i pt) -> exists r, route_to_xys (ri_mach i) p (src_chips i pt) (wanted_of s) [] = Ok r /\ is_tree (ri_mach i) p r /\
    (forall q, In q (wanted_of s) -> known r q) /\ (forall q, known r q -> In q (src_chips i pt))).
  { intros p P. destruct (routes_found (ri_mach i) (src_chips i pt) p (wanted_of s) []) as [r R]; [intros q Q; exact (JS p q P (WS q Q))|].
    exists r. split; [exact R|]. destruct (route_fresh _ _ _ _ _ WN R) as [A _].
    destruct (source_tree_ok _ _ _ _ _ R (tr_root _ _ _ A)) as [_ [B [C D]]]. split; [exact B|]. split; [exact C|].
    intros q Q. destruct (D q Q) as [-> |X]; assumption. }
  set (fin := filled_in mp (p_edges s) (p_targets s)).
  assert (PL : part_plan i pt (p_edges s) (p_routes s) fin (p_self s) (wanted_of s)).
  { apply (plan_made i pt s fin PS).
    - intros q. rewrite EM. apply filled_in_dget.
    - intros p P. destruct (TREE p P) as [r [R X]]. unfold source_tree. rewrite R. exact X. }
  assert (OI : forall q, In q (ri_order i (p_edges s)) <-> In q (p_edges s)).
  { intros q. split; apply Permutation_in; [exact (io_order i IO _) | exact (Permutation_sym (io_order i IO _))]. }
  assert (AM : forall a v, belongs i (ap_pre pt) (App a) -> ve_app (ri_venv i) v = Some a -> belongs i (ap_pre pt) (Mac v)).
  { intros a v [B|[v' [B _]]] V; [|discriminate]. injection B as ->. right. eauto. }
  assert (MA : forall a v, belongs i (ap_pre pt) (Mac v) -> ve_app (ri_venv i) v = Some a -> belongs i (ap_pre pt) (App a)).
  { intros a v [B|[v' [B V']]] V; [discriminate|]. injection B as <-. left. congruence. }
  assert (LI : licensed (ap_id pt) (belongs i (ap_pre pt)) (may i pt fin) t).
  { intros w q B X. destruct X. exact (FRESH w q B). }
  assert (AP : forall a v q, may i pt fin (App a) q -> may i pt fin (Mac v) q -> ve_app (ri_venv i) v = Some a -> False).
  { intros a v q. apply (may_apart i pt (p_edges s) (p_routes s) fin (p_self s) (wanted_of s) IO PO PF PL). }
  destruct (target_routes_ok i (ap_pre pt) (ap_id pt) (belongs i (ap_pre pt)) (may i pt fin) (io_env i IO) (fun w q X => proj1 X) AM MA AP
              mp (p_edges s) (p_routes s) (p_targets s) fin (ro_forest _ _ _ _ RO)) with (es := ri_order i (p_edges s)) (ts := p_targets s) (t := t)
    as [[ts1 t1] [TR L1]].
  - intros q. apply filled_in_dget.
  - intros q w cores links. apply (app_may i pt (p_edges s) (p_routes s) fin (p_self s) (wanted_of s) IO PO PL NE).
  - intros q Q. apply OI. exact Q.
  - intros q. left. reflexivity.
  - exact LI.
  - rewrite TR. cbn [bind]. cbn [snd] in L1.
    destruct (target_routes_fold i (ap_pre pt) (ap_id pt) mp (fun p => In p (p_edges s)) (p_routes s) _ _ _ _ _ (ro_forest _ _ _ _ RO)
              (fun e X => proj1 (OI e) X) TR) as [T1 _].
    assert (TF : forall q, dget xy_eqb ts1 q = dget xy_eqb fin q).
    { intros q. unfold fin. rewrite (T1 q), filled_in_dget. destruct (dget xy_eqb (p_targets s) q); [reflexivity|].
      destruct (xy_in q (ri_order i (p_edges s))) eqn:Q1; destruct (xy_in q (p_edges s)) eqn:Q2; try reflexivity; exfalso.
      + apply xy_in_spec, OI, xy_in_spec in Q1. congruence.
      + apply xy_in_spec, OI, xy_in_spec in Q2. congruence. }
    destruct (source_routes_ok i (ap_id pt) (belongs i (ap_pre pt)) (may i pt fin) (io_env i IO) (fun w q X => proj1 X) AM MA AP
                (src_chips i pt) (wanted_of s) ts1 (p_self s) mp t1) as [t2 [X _]].
    + intros p P. destruct (TREE p) as [r [R [TT _]]]; [|eauto]. apply SM. apply (dmem_true _ xy_eqb_eq). exact P.
    + intros p vs x q w cores links M X K G. destruct (MP1 p vs x M X) as [V1 V2].
      apply (mac_may i pt (p_edges s) (p_routes s) fin (p_self s) (wanted_of s) IO PO PL (fst x) q w cores links V1).
      * unfold chip_of. rewrite V2. exact K.
      * apply (gives_local (conv_mac i (ap_id pt) ts1 (p_self s) (fst x)) (conv_mac i (ap_id pt) fin (p_self s) (fst x))); try reflexivity; [|exact G].
        cbn [conv_mac cv_targets]. destruct (p_self s); [|reflexivity]. rewrite !conv_dget, TF. reflexivity.
    + exact L1.
    + exists t2. exact X.
Qed.

Lemma partition_ok : forall i pt t, input_ok i -> connected (ri_mach i) -> part_ok i pt -> part_fit i pt ->
  (forall w q, belongs i (ap_pre pt) w -> get_entry t w (ap_id pt) q = None) ->
  exists t', route_partition i t pt = Ok t'.
Proof.
  intros i pt t IO CN PO PF FRESH.
  destruct (partition_whole i pt t IO PO (fit_whole i pt PF) FRESH) as [X|[v [mp [V [E _]]]]]; [exact X|]. exfalso.
  destruct (edges_ok i pt v mp IO CN PF (pf_chips i pt PF v V) (ap_posts pt) (mkP [] [] [] false []) (incl_refl _)) as [s ES]. congruence.
Qed.

(** * The router *)
Lemma router_succeeds : forall i vs ps, graph_ok i vs ps -> connected (ri_mach i) ->
  (forall pt, routed_part i vs ps pt -> part_fit i pt) -> exists t, route_application_graph i vs ps = Ok t.
Proof.
  intros i vs ps [IO ND PO] CN PF. unfold route_application_graph.
  assert (PO' : forall pt, In pt (app_partitions i vs ps) -> part_ok i pt /\ part_fit i pt).
  { intros pt X. apply (routed_part_In i vs ps pt ND) in X. auto. }
  assert (N : NoDup (map pair_of (app_partitions i vs ps))) by exact (proj1 (app_partitions_spec i vs ps ND)).
  assert (G : forall pts done t, (forall pt, In pt (done ++ pts) -> part_ok i pt /\ part_fit i pt) -> NoDup (map pair_of (done ++ pts)) ->
    foldM (route_partition i) [] done = Ok t -> exists t', foldM (route_partition i) t pts = Ok t').
  { induction pts as [|pt pts IH]; intros done t P D H; cbn [foldM]; [eauto|].
    assert (IP : In pt (done ++ pt :: pts)) by (apply in_app_iff; right; left; reflexivity).
    assert (OT : exists t1, route_partition i t pt = Ok t1).
    { apply (partition_ok i pt t IO CN); [exact (proj1 (P pt IP)) | exact (proj2 (P pt IP))|]. intros w q B.
      assert (S : same_at [] t w (ap_id pt)).
      { assert (PD : forall p, In p done -> part_ok i p) by (intros p X; apply P; apply in_app_iff; auto).
        apply (partitions_frame i done [] t IO PD H). intros p X [B' E].
        rewrite map_app in D. cbn [map] in D. apply NoDup_remove_2 in D. apply D. apply in_app_iff. left.
        unfold pair_of at 1. rewrite E, (belongs_one i _ _ w B B'). apply (in_map pair_of). exact X. }
      destruct (S q) as [X _]. destruct (get_entry t w (ap_id pt) q) as [e|]; [|reflexivity]. exfalso. apply (proj1 X); [discriminate|]. reflexivity. }
    destruct OT as [t1 OT]. rewrite OT. cbn [bind]. apply (IH (done ++ [pt])).
    - intros p X. apply P. rewrite <- app_assoc in X. exact X.
    - rewrite <- app_assoc. exact D.
    - rewrite foldM_split, H. cbn [bind foldM]. rewrite OT. reflexivity. }
  exact (G (app_partitions i vs ps) [] [] PO' N eq_refl).
Qed.
