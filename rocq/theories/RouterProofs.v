(** Proofs about the application router. *)
From Coq Require Import List ZArith NArith Arith Bool Lia Permutation.
From Verif Require Import Base Dict TreeModel TreeProofs MachModel LdfModel LdfProofs PathModel PathProofs
  RPartModel RPartProofs BfsModel BfsProofs TargetsModel TargetsProofs ConvModel ConvProofs RouterModel.
Import ListNotations.
Local Open Scope nat_scope.

(** * Forests *)
(** The routes are trees below the roots. *)
Record is_forest (m : machine) (roots : xy -> Prop) (r : routes) : Prop := mkForest {
  fo_roots : forall p, roots p -> known r p;
  fo_edge : forall p l q, child r p l q -> works m p (l, q) /\ known r q;
  fo_unique : forall p l p' l' q, child r p l q -> child r p' l' q -> p = p' /\ l = l';
  fo_top : forall p l q, roots q -> ~ child r p l q;
  fo_reach : forall q, known r q -> exists p, roots p /\ descends r p q }.

Lemma forest_empty : forall m roots, (forall p, ~ roots p) -> is_forest m roots [].
Proof.
  intros m roots N. constructor.
  - intros p R. destruct (N p R).
  - intros p l q [cs [X _]]. discriminate.
  - intros p l p' l' q [cs [X _]]. discriminate.
  - intros p l q R. destruct (N q R).
  - intros q K. exfalso. apply K. reflexivity.
Qed.

Lemma forest_ext : forall m roots roots' r, (forall p, roots p <-> roots' p) -> is_forest m roots r -> is_forest m roots' r.
Proof.
  intros m roots roots' r E [A B C D F]. constructor; auto.
  - intros p R. apply A. apply E. exact R.
  - intros p l q R. apply D. apply E. exact R.
  - intros q K. destruct (F q K) as [p [X Y]]. exists p. split; [apply E; exact X | exact Y].
Qed.

Lemma forest_acyclic : forall m roots r q l x, is_forest m roots r -> child r q l x -> ~ descends r x q.
Proof.
  intros m roots r q l x T C. destruct (fo_reach _ _ _ T q (child_known _ _ _ _ C)) as [root [RT D]].
  revert l x C. induction D as [|p k q D IH K]; intros l x C X.
  - inversion X as [|z k y X1 X2]; subst.
    + exact (fo_top _ _ _ T _ _ _ RT C).
    + exact (fo_top _ _ _ T _ _ _ RT X2).
  - inversion X as [|z k' y X1 X2]; subst.
    + destruct (fo_unique _ _ _ T _ _ _ _ _ C K) as [-> _]. exact (IH _ _ K (desc_refl _ _)).
    + destruct (fo_unique _ _ _ T _ _ _ _ _ X2 K) as [-> _].
      apply (IH _ _ K). apply (descends_trans _ _ x); [|exact X1]. econstructor; [constructor | exact C].
Qed.
Lemma forest_sound : forall m roots r, is_forest m roots r -> sound_routes m r.
Proof. intros m roots r T. split; [exact (fo_edge _ _ _ T)|]. intros q l x C. exact (forest_acyclic m roots r q l x T C). Qed.

(** A root is below itself only. *)
Lemma root_alone : forall m roots r p q, is_forest m roots r -> roots q -> descends r p q -> p = q.
Proof.
  intros m roots r p q T RT D. destruct D as [|q' l x D C]; [reflexivity|]. exfalso. exact (fo_top _ _ _ T _ _ _ RT C).
Qed.
(** Each chip is below one root only. *)
Lemma one_root : forall m roots r p p' q, is_forest m roots r -> roots p -> roots p' -> descends r p q -> descends r p' q -> p = p'.
Proof.
  intros m roots r p p' q T R R' D. revert R'. induction D as [|q l x D IH C]; intros R' D'.
  - symmetry. exact (root_alone m roots r p' p T R D').
  - inversion D' as [|q' l' y D1 C1]; subst.
    + exfalso. exact (fo_top _ _ _ T _ _ _ R' C).
    + destruct (fo_unique _ _ _ T _ _ _ _ _ C C1) as [-> _]. apply IH; assumption.
Qed.

Lemma log_first : forall m first allowed reset g, log_ok m first allowed reset g -> g <> [] -> exists P, In (first, (None, P)) g.
Proof.
  induction g as [|[x [en P]] g IH]; intros L NE; [congruence|]. destruct L as [_ [_ [_ [M L]]]].
  destruct en as [[p l]|].
  - destruct M as [_ [_ [enp [Pp [I _]]]]]. destruct IH as [P0 X]; [exact L | intros ->; destruct I | exists P0; right; exact X].
  - destruct M as [-> _]. exists P. left. reflexivity.
Qed.

Lemma route_forest : forall m roots first allowed targets r0 r', is_forest m roots r0 -> known r0 first \/ In first targets ->
  route_to_xys m first allowed targets r0 = Ok r' ->
  is_forest m (fun p => roots p \/ (p = first /\ ~ known r0 first)) r' /\ (forall t, In t targets -> known r' t) /\
  (forall p l q, child r0 p l q -> child r' p l q) /\ (forall p, known r0 p -> known r' p) /\
  (forall q, known r' q -> known r0 q \/ q = first \/ In q allowed) /\ known r' first.
Proof.
  intros m roots first allowed targets r0 r' [T1 T2 T3 T4 T5] KF H.
  pose proof (route_to_xys_spec m first allowed targets r0) as SP. rewrite H in SP. destruct SP as [g [LG [G TG]]].
  assert (GR := grown_reach _ _ _ _ _ _ _ _ LG G).
  destruct G as [G1 G2 G3 G4 G5 G6].
  assert (EN : forall q p l, entered g q p l -> works m p (l, q) /\ In q allowed /\ q <> first).
  { intros q p l [P E]. destruct (log_In _ _ _ _ _ _ _ _ LG E) as [_ [_ [A [B _]]]]. split; [exact A|]. split; [exact B|].
    intros ->. destruct (log_first _ _ _ _ _ LG) as [P0 X]; [intros ->; destruct E|].
    pose proof (log_unique _ _ _ _ _ _ _ _ LG E X) as U. discriminate U. }
  assert (KF' : known r' first) by (destruct KF as [K|K]; [exact (G1 _ K) | exact (proj2 (TG _ K))]).
  split; [|split; [intros t Ht; exact (proj2 (TG t Ht)) | split; [exact G2 | split; [exact G1 | split; [|exact KF']]]]].
  - constructor.
    + intros p [R|[-> _]]; [exact (G1 _ (T1 _ R)) | exact KF'].
    + intros p l q C. destruct (G4 _ _ _ C) as [C0|[_ [E K]]].
      * destruct (T2 _ _ _ C0) as [A B]. split; [exact A | exact (G1 _ B)].
      * split; [exact (proj1 (EN _ _ _ E)) | exact K].
    + intros p l p' l' q C C'. destruct (G4 _ _ _ C) as [C0|[N [[P E] K]]]; destruct (G4 _ _ _ C') as [C0'|[N' [[P' E'] K']]].
      * exact (T3 _ _ _ _ _ C0 C0').
      * exfalso. apply N'. exact (proj2 (T2 _ _ _ C0)).
      * exfalso. apply N. exact (proj2 (T2 _ _ _ C0')).
      * pose proof (log_unique _ _ _ _ _ _ _ _ LG E E') as U. injection U as -> -> _. auto.
    + intros p l q [R|[-> NK]] C; destruct (G4 _ _ _ C) as [C0|[N [E _]]].
      * exact (T4 _ _ _ R C0).
      * exact (N (T1 _ R)).
      * exact (NK (proj2 (T2 _ _ _ C0))).
      * exact (proj2 (proj2 (EN _ _ _ E)) eq_refl).
    + assert (OLD : forall q0 q, known r0 q0 -> descends r' q0 q -> exists p, (roots p \/ (p = first /\ ~ known r0 first)) /\ descends r' p q).
      { intros q0 q K D. destruct (T5 q0 K) as [p [R D0]]. exists p. split; [left; exact R|].
        apply (descends_trans _ _ q0); [exact (descends_mono _ _ _ _ G2 D0) | exact D]. }
      intros q K. destruct (known_dec r0 q) as [K0|K0]; [exact (OLD q q K0 (desc_refl _ _))|].
      destruct (G3 q K) as [X|S]; [contradiction|].
      destruct (GR q S K K0) as [[_ [X D]]|[q0 [K1 D]]]; [|exact (OLD q0 q K1 D)].
      exists first. auto.
  - intros q K. destruct (G3 q K) as [K0|S]; [auto|]. right. unfold seen in S. apply in_map_iff in S.
    destruct S as [[x [en P]] [E I]]. cbn [fst] in E. subst x. destruct (log_In _ _ _ _ _ _ _ _ LG I) as [_ [_ M]].
    destruct en as [[p l]|]; [right; tauto | left; tauto].
Qed.

(** * A path added to the routes *)
Lemma after_last_spec : forall f nodes,
  match after_last f nodes with
  | Some (p, rest) => exists l n, nodes = l ++ n :: rest /\ snd n = p /\ f p = true /\ (forall n, In n rest -> f (snd n) = false)
  | None => forall n, In n nodes -> f (snd n) = false
  end.
Proof.
  induction nodes as [|n nodes IH]; cbn [after_last]; [intros n []|].
  destruct (after_last f nodes) as [[p rest]|].
  - destruct IH as [l [n' [-> [A [B C]]]]]. exists (n :: l), n'. auto.
  - destruct (f (snd n)) eqn:E.
    + exists [], n. auto.
    + intros n' [<-|H]; [exact E | exact (IH n' H)].
Qed.
Lemma up_to_first_spec : forall f nodes,
  match up_to_first f nodes with
  | Some (p, l) => exists l0 n rest, nodes = l ++ rest /\ l = l0 ++ [n] /\ snd n = p /\ f p = true
  | None => forall n, In n nodes -> f (snd n) = false
  end.
Proof.
  induction nodes as [|n nodes IH]; cbn [up_to_first]; [intros n []|].
  destruct (f (snd n)) eqn:E.
  - exists [], n, nodes. auto.
  - destruct (up_to_first f nodes) as [[p l]|].
    + destruct IH as [l0 [n' [rest [-> [-> [A B]]]]]]. exists (n :: l0), n', rest. auto.
    + intros n' [<-|H]; [exact E | exact (IH n' H)].
Qed.

Lemma add_nodes_spec : forall m roots source nodes r cur r', is_forest m roots r -> known r cur -> walk m cur nodes ->
  add_nodes source r cur nodes = Ok r' ->
  is_forest m roots r' /\ (forall p l q, child r p l q -> child r' p l q) /\ (forall p, known r p -> known r' p) /\
  (forall q, known r' q -> known r q \/ In q (map snd nodes)) /\ (forall n, In n nodes -> known r' (snd n)).
Proof.
  intros m roots source. induction nodes as [|[d q] nodes IH]; intros r cur r' T K W H; cbn [add_nodes] in H.
  - injection H as <-. split; [exact T|]. split; [auto|]. split; [auto|]. split; [auto|]. intros n [].
  - destruct (dmem xy_eqb r q) eqn:D; [discriminate|].
    assert (NK : ~ known r q) by (rewrite <- known_dmem; congruence).
    destruct W as [W1 W2]. cbn [snd] in *.
    set (r1 := append_child (dset xy_eqb r q []) cur (d, q)) in *.
    assert (KN : forall p, known r1 p <-> known r p \/ p = q).
    { intros p. unfold r1. rewrite append_child_known. apply set_empty_known. }
    assert (KC : known (dset xy_eqb r q []) cur) by (apply set_empty_known; left; exact K).
    assert (CH : forall p l x, child r1 p l x <-> child r p l x \/ (p = cur /\ l = d /\ x = q)).
    { intros p l x. unfold r1. rewrite (append_child_child _ _ _ _ _ _ _ KC). rewrite (set_empty_child _ _ _ _ _ NK). reflexivity. }
    assert (T' : is_forest m roots r1).
    { destruct T as [T1 T2 T3 T4 T5]. constructor.
      - intros p R. apply KN. left. exact (T1 p R).
      - intros p l x C. apply CH in C. destruct C as [C|[-> [-> ->]]].
        + destruct (T2 _ _ _ C) as [A B]. split; [exact A | apply KN; left; exact B].
        + split; [exact W1 | apply KN; right; reflexivity].
      - intros p l p' l' x C C'. apply CH in C, C'. destruct C as [C|[-> [-> ->]]]; destruct C' as [C'|[-> [-> E]]].
        + exact (T3 _ _ _ _ _ C C').
        + subst x. exfalso. exact (NK (proj2 (T2 _ _ _ C))).
        + exfalso. exact (NK (proj2 (T2 _ _ _ C'))).
        + auto.
      - intros p l x R C. apply CH in C. destruct C as [C|[-> [-> ->]]]; [exact (T4 _ _ _ R C) | exact (NK (T1 _ R))].
      - intros x Kx. apply KN in Kx. assert (MO : forall p y, descends r p y -> descends r1 p y).
        { intros p y. apply descends_mono. intros. apply CH. left. assumption. }
        destruct Kx as [Kx| ->].
        + destruct (T5 x Kx) as [p [A B]]. exists p. auto.
        + destruct (T5 cur K) as [p [A B]]. exists p. split; [exact A|]. econstructor; [exact (MO _ _ B)|]. apply CH. right. auto. }
    destruct (IH r1 q r' T' (proj2 (KN q) (or_intror eq_refl)) W2 H) as [A [B [C [E F]]]].
    split; [exact A|]. split; [intros p l x Hc; apply B; apply CH; left; exact Hc|].
    split; [intros p Hp; apply C; apply KN; left; exact Hp|]. split.
    + intros x Hx. cbn [map In snd]. destruct (E x Hx) as [X|X]; [apply KN in X; destruct X as [X| ->]; auto | auto].
    + intros n [<-|Hn]; [apply C; apply KN; right; reflexivity | exact (F n Hn)].
Qed.

Lemma last_xy_In : forall l p, l <> [] -> exists n, In n l /\ snd n = last_xy p l.
Proof.
  intros l p. revert p. induction l as [|n l IH]; intros p H; [congruence|]. rewrite last_cons. destruct l as [|n' l].
  - exists n. split; [left; reflexivity | reflexivity].
  - destruct (IH (snd n)) as [x [A B]]; [discriminate|]. exists x. split; [right; exact A | exact B].
Qed.

(** The paths from a chip to those of vertices go over working links and end at
    the chip asked for. *)
Definition paths_ok (i : rinput) (s : xy) : Prop := forall w l,
  direct_path (ri_mach i) (ri_vec i s (chip_of i w)) s = Ok l -> walk (ri_mach i) s l /\ last_xy s l = chip_of i w.

Lemma pre_to_post_spec : forall i roots source dest r all_source targets pre post r',
  paths_ok i source -> (exists w, chip_of i w = dest) -> is_forest (ri_mach i) roots r -> In source all_source -> In dest targets ->
  (forall q, known r q -> In q all_source -> roots q) ->
  route_pre_to_post i source dest r all_source targets = Ok (pre, post, r') ->
  is_forest (ri_mach i) (fun p => roots p \/ (p = pre /\ ~ known r pre)) r' /\
  (In pre all_source \/ known r pre) /\ known r' pre /\ known r' post /\
  (forall p, known r p -> known r' p) /\
  (forall q, known r' q -> known r q \/ q = pre \/ ~ In q all_source) /\
  (In dest all_source -> pre = dest /\ post = dest).
Proof.
  intros i roots source dest r all_source targets pre post r' PO [w0 DW] T SA DT RS H. unfold route_pre_to_post in H. subst dest.
  apply bind_Ok_inv in H. destruct H as [fixed [DP H]]. destruct (PO _ _ DP) as [W L]. remember (chip_of i w0) as dest eqn:DW. clear w0 DW DP.
  set (f := fun p => xy_in p all_source || dmem xy_eqb r p) in *.
  assert (FF : forall p, f p = true <-> In p all_source \/ known r p).
  { intros p. unfold f. rewrite orb_true_iff, xy_in_spec, known_dmem. reflexivity. }
  destruct (match after_last f fixed with Some x => x | None => (source, fixed) end) as [pre0 nodes] eqn:E1.
  destruct (match up_to_first (fun p => xy_in p targets) nodes with Some x => x | None => (dest, nodes) end) as [post0 nodes'] eqn:E2.
  apply bind_Ok_inv in H. destruct H as [r2 [AN H]]. injection H as -> -> ->.
  assert (P1 : (In pre all_source \/ known r pre) /\ walk (ri_mach i) pre nodes /\ last_xy pre nodes = dest /\
               (forall n, In n nodes -> ~ (In (snd n) all_source \/ known r (snd n)))).
  { pose proof (after_last_spec f fixed) as AL. destruct (after_last f fixed) as [[p rest]|].
    - injection E1 as <- <-. destruct AL as [l [n [-> [A [B C]]]]]. apply walk_app in W. destruct W as [_ [_ W]].
      rewrite last_xy_app, last_cons in L. rewrite A in W, L. split; [apply FF; exact B|]. split; [exact W|]. split; [exact L|].
      intros n' Hn X. apply FF in X. rewrite (C n' Hn) in X. discriminate.
    - injection E1 as <- <-. split; [left; exact SA|]. split; [exact W|]. split; [exact L|].
      intros n' Hn X. apply FF in X. rewrite (AL n' Hn) in X. discriminate. }
  destruct P1 as [P1 [P2 [P3 P4]]].
  assert (Q1 : In post (pre :: map snd nodes') /\ walk (ri_mach i) pre nodes' /\ (forall n, In n nodes' -> In n nodes) /\
               (nodes = [] -> post = dest)).
  { pose proof (up_to_first_spec (fun p => xy_in p targets) nodes) as UF.
    destruct (up_to_first (fun p => xy_in p targets) nodes) as [[p l]|].
    - injection E2 as <- <-. destruct UF as [l0 [n [rest [E [EL [A B]]]]]]. split.
      + right. rewrite EL, map_app, in_app_iff. right. left. exact A.
      + rewrite E in P2. apply walk_app in P2. split; [exact (proj1 P2)|]. split.
        * intros x Hx. rewrite E. apply in_app_iff. auto.
        * intros N. exfalso. rewrite EL, N in E. symmetry in E. apply app_eq_nil in E. destruct E as [E _].
          apply app_eq_nil in E. destruct E as [_ E]. discriminate.
    - injection E2 as <- <-. split; [|auto]. destruct nodes as [|n0 nodes0]; [left; exact P3|].
      destruct (last_xy_In (n0 :: nodes0) pre) as [x [A B]]; [discriminate|].
      pose proof (UF x A) as X. rewrite B, P3 in X. assert (xy_in dest targets = true) by (apply xy_in_spec; exact DT). cbv beta in X. congruence. }
  destruct Q1 as [Q1 [Q2 [Q3 Q4]]].
  assert (T1 : is_forest (ri_mach i) (fun p => roots p \/ (p = pre /\ ~ known r pre)) (ensure_tree r pre)).
  { destruct T as [T1 T2 T3 T4 T5]. constructor.
    - intros p [R|[-> _]]; apply ensure_known; [left; exact (T1 p R) | right; reflexivity].
    - intros p l q C. rewrite ensure_child in C. destruct (T2 _ _ _ C) as [A B]. split; [exact A | apply ensure_known; left; exact B].
    - intros p l p' l' q C C'. rewrite ensure_child in C, C'. exact (T3 _ _ _ _ _ C C').
    - intros p l q [R|[-> NK]] C; rewrite ensure_child in C; [exact (T4 _ _ _ R C) | exact (NK (proj2 (T2 _ _ _ C)))].
    - intros q K. assert (MO : forall p y, descends r p y -> descends (ensure_tree r pre) p y).
      { intros p y. apply descends_mono. intros. apply ensure_child. assumption. }
      destruct (known_dec r q) as [K0|K0].
      + destruct (T5 q K0) as [p [A B]]. exists p. auto.
      + apply ensure_known in K. destruct K as [K| ->]; [contradiction|]. exists pre. split; [auto | constructor]. }
  assert (KP : known (ensure_tree r pre) pre) by (apply ensure_known; right; reflexivity).
  destruct (add_nodes_spec _ _ _ _ _ _ _ T1 KP Q2 AN) as [A [B [C [D E]]]].
  split; [exact A|]. split; [exact P1|]. split; [exact (C _ KP)|]. split; [|split; [|split]].
  - destruct Q1 as [<-|Q1]; [exact (C _ KP)|]. apply in_map_iff in Q1. destruct Q1 as [n [<- I]]. exact (E n I).
  - intros p Hp. apply C. apply ensure_known. left. exact Hp.
  - intros q Hq. destruct (D q Hq) as [X|X].
    + apply ensure_known in X. destruct X as [X|X]; auto.
    + right. right. apply in_map_iff in X. destruct X as [n [<- I]]. intros Y. apply (P4 n (Q3 n I)). left. exact Y.
  - intros DS. destruct nodes as [|n0 nodes0].
    + split; [exact P3 | exact (Q4 eq_refl)].
    + exfalso. destruct (last_xy_In (n0 :: nodes0) pre) as [x [X Y]]; [discriminate|]. apply (P4 x X). left. rewrite Y, P3. exact DS.
Qed.

(** * Sets *)
Lemma set_add_In : forall s p q, In q (set_add s p) <-> In q s \/ q = p.
Proof.
  intros s p q. unfold set_add. destruct (xy_in p s) eqn:E.
  - apply xy_in_spec in E. split; [auto|]. intros [H| ->]; assumption.
  - rewrite in_app_iff. cbn [In]. intuition congruence.
Qed.
Lemma set_add_NoDup : forall s p, NoDup s -> NoDup (set_add s p).
Proof.
  intros s p N. unfold set_add. destruct (xy_in p s) eqn:E; [exact N|].
  assert (NI : ~ In p s) by (rewrite <- xy_in_spec; congruence).
  apply (Permutation_NoDup (Permutation_cons_append s p)). constructor; assumption.
Qed.
Lemma fold_set_add : forall l s, NoDup s -> NoDup (fold_left set_add l s) /\ forall q, In q (fold_left set_add l s) <-> In q s \/ In q l.
Proof.
  induction l as [|p l IH]; intros s N; cbn [fold_left].
  - split; [exact N|]. intros q. cbn [In]. tauto.
  - destruct (IH (set_add s p) (set_add_NoDup s p N)) as [A B]. split; [exact A|]. intros q. rewrite B, set_add_In. cbn [In]. intuition congruence.
Qed.
Lemma set_of_In : forall l q, In q (set_of l) <-> In q l.
Proof. intros. unfold set_of. rewrite (proj2 (fold_set_add l [] (NoDup_nil _)) q). cbn [In]. tauto. Qed.
Lemma set_of_NoDup : forall l, NoDup (set_of l).
Proof. intros. exact (proj1 (fold_set_add l [] (NoDup_nil _))). Qed.
Lemma without_In : forall l gone q, In q (without l gone) <-> In q l /\ ~ In q gone.
Proof.
  intros. unfold without. rewrite filter_In, negb_true_iff, <- (xy_in_spec q gone). destruct (xy_in q gone); intuition congruence.
Qed.

(** * One edge *)
(** The routes are trees below the source edge chips, which are the source chips in
    them. *)
Record routed (m : machine) (src edges : list xy) (r : routes) : Prop := mkRouted {
  ro_forest : is_forest m (fun p => In p edges) r;
  ro_source : forall q, known r q -> In q src -> In q edges;
  ro_edges : incl edges src }.

Lemma route_overlaps_spec : forall i src os reached tx edges r tx' real' edges' r',
  routed (ri_mach i) src edges r -> NoDup os ->
  (forall o, In o os -> In o src /\ In o tx /\ In o reached) ->
  (forall q, In q tx -> In q src -> In q reached) ->
  route_overlaps i os reached tx tx edges r = Ok (tx', real', edges', r') ->
  routed (ri_mach i) src edges' r' /\ (forall q, known r q -> known r' q) /\ (forall o, In o os -> known r' o) /\
  real' = tx' /\ incl tx' tx /\ (forall q, In q tx -> In q tx' \/ known r' q).
Proof.
  intros i src. induction os as [|o os IH]; intros reached tx edges r tx' real' edges' r' R ND HA HB H; cbn [route_overlaps] in H.
  - injection H as <- <- <- <-. split; [exact R|]. split; [auto|]. split; [intros o []|]. split; [reflexivity|].
    split; [apply incl_refl | auto].
  - apply bind_Ok_inv in H. destruct H as [found [FR H]]. apply bind_Ok_inv in H. destruct H as [r1 [RT H]].
    destruct (find_reachable_spec (ri_mach i) o tx reached) as [vis [FV [_ FS]]]. assert (vis = found) by congruence. subst vis. clear FV.
    destruct (HA o (or_introl eq_refl)) as [O1 [O2 O3]].
    assert (FO : In o found) by (apply FS; exists []; split; [exact I | split; [constructor | reflexivity]]).
    assert (FX : forall q, In q found -> q = o \/ (In q tx /\ ~ In q reached)).
    { intros q Q. apply FS in Q. destruct Q as [l [_ [F L]]]. destruct l as [|n l]; [left; symmetry; exact L|]. right.
      destruct (last_xy_In (n :: l) o) as [x [X1 X2]]; [discriminate|]. rewrite L in X2. rewrite <- X2.
      rewrite Forall_forall in F. exact (F x X1). }
    set (this := filter (fun p => xy_in p found) tx) in *.
    assert (TH : forall q, In q this <-> In q tx /\ In q found).
    { intros q. unfold this. rewrite filter_In, xy_in_spec. reflexivity. }
    destruct R as [R1 R2 R3].
    destruct (route_forest _ _ _ _ _ _ _ R1 (or_intror (proj2 (TH o) (conj O2 FO))) RT) as [F1 [F2 [F3 [F4 [F5 F6]]]]].
    assert (R' : routed (ri_mach i) src (set_add edges o) r1).
    { constructor.
      - refine (forest_ext _ _ _ _ _ F1). intros p. rewrite set_add_In. split; [tauto|]. intros [X| ->]; [auto|].
        destruct (known_dec r o) as [K|K]; [left; exact (R2 o K O1) | right; auto].
      - intros q K S. apply set_add_In. destruct (F5 q K) as [X|[X|X]]; [left; exact (R2 q X S) | right; exact X|].
        destruct (FX q X) as [Y|[Y1 Y2]]; [right; exact Y | exfalso; exact (Y2 (HB q Y1 S))].
      - intros q Q. apply set_add_In in Q. destruct Q as [Q| ->]; [exact (R3 q Q) | exact O1]. }
    inversion ND as [|? ? ND1 ND2]; subst.
    destruct (IH (reached ++ found) (without tx this) (set_add edges o) r1 tx' real' edges' r' R' ND2) as [A [B [C [D [E F]]]]].
    + intros o' Ho'. destruct (HA o' (or_intror Ho')) as [X1 [X2 X3]]. split; [exact X1|]. split; [|apply in_app_iff; auto].
      apply without_In. split; [exact X2|]. intros X. apply TH in X. destruct X as [_ X].
      destruct (FX o' X) as [-> |[_ Y]]; [exact (ND1 Ho') | exact (Y X3)].
    + intros q Q S. apply without_In in Q. apply in_app_iff. left. exact (HB q (proj1 Q) S).
    + exact H.
    + split; [exact A|]. split; [intros q Q; apply B; exact (F4 q Q)|]. split.
      * intros o' [<-|Ho']; [apply B; exact F6 | exact (C o' Ho')].
      * split; [exact D|]. split.
        -- intros q Q. apply E in Q. apply without_In in Q. exact (proj1 Q).
        -- intros q Q. destruct (in_dec xy_dec q this) as [Y|Y]; [right; apply B; exact (F2 q Y)|].
           apply F. apply without_In. auto.
Qed.

Definition order_ok (i : rinput) : Prop := forall l, Permutation (ri_order i l) l.

Lemma find_target_spec : forall i tx r (mp : mapping) dest ov, order_ok i ->
  match tx with [p] => Ok (p, []) | _ => find_target_xy i tx r mp end = Ok (dest, ov) ->
  In dest tx /\ ((ov = [] /\ forall q, In q tx -> dmem xy_eqb mp q = true -> q = dest) \/
                 (ov = filter (fun p => dmem xy_eqb mp p) tx /\ In dest ov)).
Proof.
  intros i tx r mp dest ov OK H.
  assert (H' : (tx = [dest] /\ ov = []) \/ find_target_xy i tx r mp = Ok (dest, ov)).
  { destruct tx as [|p [|p' tx]]; [right; exact H | left | right; exact H]. injection H as <- <-. auto. }
  clear H. destruct H' as [[-> ->]|H].
  { split; [left; reflexivity|]. left. split; [reflexivity|]. intros q [<-|[]] _. reflexivity. }
  unfold find_target_xy in H. set (os := filter (fun p => dmem xy_eqb mp p) tx) in *.
  assert (OS : forall q, In q os <-> In q tx /\ dmem xy_eqb mp q = true) by (intros; apply filter_In).
  pose proof (OK os) as PO. destruct (ri_order i os) as [|p [|p' l]] eqn:E.
  - apply Permutation_nil in PO. rewrite PO in OS.
    assert (DX : In dest (ri_order i tx) /\ ov = []).
    { destruct (find (fun p => dmem xy_eqb r p) (ri_order i tx)) as [p|] eqn:F.
      - injection H as <- <-. split; [exact (proj1 (find_some _ _ F)) | reflexivity].
      - destruct (rev (ri_order i tx)) as [|p l] eqn:RV; [discriminate|]. injection H as <- <-. split; [|reflexivity].
        apply in_rev. rewrite RV. left. reflexivity. }
    destruct DX as [DX ->]. split; [exact (Permutation_in _ (OK tx) DX)|]. left. split; [reflexivity|].
    intros q Q1 Q2. destruct (proj2 (OS q) (conj Q1 Q2)).
  - injection H as <- <-. apply Permutation_length_1_inv in PO. rewrite PO in OS.
    split; [apply (OS p); left; reflexivity|]. left. split; [reflexivity|]. intros q Q1 Q2.
    destruct (proj2 (OS q) (conj Q1 Q2)) as [<-|[]]. reflexivity.
  - injection H as <- <-. assert (IP : In p os) by (apply (Permutation_in p PO); left; reflexivity).
    split; [apply OS; exact IP|]. right. auto.
Qed.

Lemma source_to_target_spec : forall i a k source src (mp : mapping) s target s',
  paths_ok i source -> order_ok i -> In source src -> (forall p, In p src <-> dmem xy_eqb mp p = true) ->
  routed (ri_mach i) src (p_edges s) (p_routes s) ->
  route_source_to_target i a k source src mp s target = Ok s' ->
  routed (ri_mach i) src (p_edges s') (p_routes s') /\
  (forall q, known (p_routes s) q -> known (p_routes s') q) /\
  (forall x, In x (ri_in i target a k) -> known (p_routes s') (chip_of i (fst x))) /\
  p_targets s' = add_incoming i k mp (p_targets s) (ri_in i target a k) /\
  p_self s' = p_self s /\ p_self_xys s' = p_self_xys s.
Proof.
  intros i a k source src mp s target s' PO OR SS SM R H. unfold route_source_to_target in H.
  set (l := ri_in i target a k) in *. set (tx := set_of (map (fun x => chip_of i (fst x)) l)) in *.
  apply bind_Ok_inv in H. destruct H as [[dest ov] [FT H]].
  apply bind_Ok_inv in H. destruct H as [[[pre post] r1] [PP H]].
  destruct (find_target_spec _ _ _ _ _ _ OR FT) as [DT OV].
  pose proof R as R0. destruct R as [R1 R2 R3].
  assert (DW : exists w, chip_of i w = dest).
  { unfold tx in DT. apply set_of_In, in_map_iff in DT. destruct DT as [x [X _]]. exists (fst x). exact X. }
  destruct (pre_to_post_spec _ _ _ _ _ _ _ _ _ _ PO DW R1 SS DT R2 PP) as [F1 [F2 [F3 [F4 [F5 [F6 F7]]]]]].
  assert (PE : known (p_routes s) pre -> In pre src -> In pre (p_edges s)) by (intros; apply R2; assumption).
  assert (TXI : forall x, In x l -> In (chip_of i (fst x)) tx).
  { intros x X. unfold tx. apply set_of_In. apply in_map_iff. exists x. auto. }
  (* the routes after the path *)
  assert (Q : routed (ri_mach i) src (if dmem xy_eqb mp pre then set_add (p_edges s) pre else p_edges s) r1).
  { assert (EI : forall q, In q (if dmem xy_eqb mp pre then set_add (p_edges s) pre else p_edges s) <->
                 In q (p_edges s) \/ (q = pre /\ ~ known (p_routes s) pre)).
    { intros q. destruct (dmem xy_eqb mp pre) eqn:D.
      - apply SM in D. rewrite set_add_In. split; [|tauto]. intros [X| ->]; [auto|].
        destruct (known_dec (p_routes s) pre) as [K|K]; [left; auto | right; auto].
      - split; [auto|]. intros [X|[-> K]]; [exact X|]. exfalso. destruct F2 as [X|X]; [|contradiction].
        apply SM in X. congruence. }
    constructor.
    - refine (forest_ext _ _ _ _ _ F1). intros p. rewrite EI. reflexivity.
    - intros q K S. apply EI. destruct (F6 q K) as [X|[->|X]]; [left; auto | | contradiction].
      destruct (known_dec (p_routes s) pre) as [K'|K']; [left; auto | right; auto].
    - intros q Q. apply EI in Q. destruct Q as [Q|[-> K]]; [exact (R3 q Q)|]. destruct F2 as [X|X]; [exact X | contradiction]. }
  destruct ov as [|o ov0].
  - destruct OV as [[_ OV]|[_ []]]. apply bind_Ok_inv in H. destruct H as [r2 [RT H]]. injection H as <-. cbn [p_edges p_routes p_targets p_self p_self_xys].
    destruct Q as [Q1 Q2 Q3].
    destruct (route_forest _ _ _ _ _ _ _ Q1 (or_introl F4) RT) as [G1 [G2 [_ [G4 [G5 G6]]]]].
    split; [|split; [|split; [|split; [reflexivity | auto]]]].
    + constructor.
      * refine (forest_ext _ _ _ _ _ G1). intros p. split; [|auto]. intros [X|[_ X]]; [exact X | contradiction].
      * intros q K S. destruct (G5 q K) as [X|[->|X]]; [exact (Q2 q X S) | exact (Q2 post F4 S)|].
        assert (q = dest) by (apply OV; [exact X | apply SM; exact S]). subst q.
        destruct (F7 S) as [E _]. rewrite E in F3. exact (Q2 dest F3 S).
      * exact Q3.
    + intros q K. apply G4. apply F5. exact K.
    + intros x X. apply G2. exact (TXI x X).
  - destruct OV as [[OV _]|[OV DO]]; [discriminate|]. remember (o :: ov0) as ov eqn:OVE. clear OVE.
    rename H into H'. clear o ov0.
    apply bind_Ok_inv in H'. destruct H' as [[[[tx' real'] edges'] r2] [RO H]].
    apply bind_Ok_inv in H. destruct H as [r3 [RT H]]. injection H as <-. cbn [p_edges p_routes p_targets p_self p_self_xys].
    assert (OS : forall q, In q ov <-> In q tx /\ In q src).
    { intros q. rewrite OV, filter_In, SM. reflexivity. }
    assert (DS : In dest src) by (apply OS; exact DO). destruct (F7 DS) as [E1 E2]. subst pre post.
    assert (NDO : NoDup (ri_order i ov)).
    { apply (Permutation_NoDup (Permutation_sym (OR ov))). rewrite OV. apply NoDup_filter. apply set_of_NoDup. }
    (* the first overlap is a root as well; it may not yet be among the edges *)
    rewrite (proj1 (SM dest) DS) in Q.
    assert (STEP : exists edges'', (forall q, In q edges'' <-> In q edges' \/ q = dest) /\ 
              route_overlaps i (ri_order i ov) ov tx tx (set_add (p_edges s) dest) r1 = Ok (tx', real', edges'', r2)).
    { assert (GEN : forall os reached tx real e e' r x, (forall q, In q e' <-> In q e \/ q = dest) ->
         route_overlaps i os reached tx real e r = Ok x ->
         exists e'', (forall q, In q e'' <-> In q (snd (fst x)) \/ q = dest) /\
           route_overlaps i os reached tx real e' r = Ok (fst (fst x), e'', snd x)).
      { clear. induction os as [|o os IH]; intros reached tx real e e' r x HE H; cbn [route_overlaps] in *.
        - injection H as <-. cbn [fst snd]. exists e'. auto.
        - apply bind_Ok_inv in H. destruct H as [found [FR H]]. apply bind_Ok_inv in H. destruct H as [r1 [RT H]].
          rewrite FR. cbn [bind]. rewrite RT. cbn [bind]. apply (IH _ _ _ (set_add e o)); [|exact H].
          intros q. rewrite !set_add_In, HE. tauto. }
      apply (GEN _ _ _ _ _ _ _ (tx', real', edges', r2) (fun q => set_add_In (p_edges s) dest q)) in RO.
      exact RO. }
    destruct STEP as [edges'' [EE RO']].
    assert (OI : forall q, In q (ri_order i ov) <-> In q ov).
    { intros q. split; apply Permutation_in; [exact (OR ov) | exact (Permutation_sym (OR ov))]. }
    destruct (route_overlaps_spec i src (ri_order i ov) ov tx (set_add (p_edges s) dest) r1 tx' real' edges'' r2 Q NDO) as [G1 [G2 [G3 [G4 [G5 G6]]]]].
    + intros o Ho. apply OI in Ho. pose proof Ho as Ho'. apply OS in Ho. tauto.
    + intros q Q1 Q2. apply OS. auto.
    + exact RO'.
    + subst real'.
      assert (ED : forall q, In q edges'' <-> In q edges').
      { assert (DI : In dest edges').
        { assert (KEEP : forall os reached tx real e r x, route_overlaps i os reached tx real e r = Ok x ->
             forall q, In q e \/ In q os -> In q (snd (fst x))).
          { clear. induction os as [|o os IH]; intros reached tx real e r x H q Q; cbn [route_overlaps] in H.
            - injection H as <-. destruct Q as [Q|[]]. exact Q.
            - apply bind_Ok_inv in H. destruct H as [found [FR H]]. apply bind_Ok_inv in H. destruct H as [r1 [RT H]].
              apply (IH _ _ _ _ _ _ H). rewrite set_add_In. cbn [In] in Q. intuition congruence. }
          apply (KEEP _ _ _ _ _ _ _ RO). right. apply OI. exact DO. }
        intros q. rewrite EE. split; [intros [X| ->]; assumption | auto]. }
      destruct G1 as [G11 G12 G13].
      assert (KD : known r2 dest) by (apply G3; apply OI; exact DO).
      destruct (route_forest _ _ _ _ _ _ _ G11 (or_introl KD) RT) as [K1 [K2 [_ [K4 [K5 K6]]]]].
      split; [|split; [|split; [|split; [reflexivity | auto]]]].
      * constructor.
        -- refine (forest_ext _ _ _ _ _ K1). intros p. rewrite ED. split; [|auto]. intros [X|[_ X]]; [exact X | contradiction].
        -- intros q K S. apply ED. destruct (K5 q K) as [X|[->|X]]; [exact (G12 q X S) | exact (G12 dest KD S)|].
           apply G12; [|exact S]. apply G3. apply OI. apply OS. split; [apply G5; exact X | exact S].
        -- intros q X. apply ED in X. exact (G13 q X).
      * intros q K. apply K4. apply G2. apply F5. exact K.
      * intros x X. destruct (G6 _ (TXI x X)) as [Y|Y]; [exact (K2 _ Y) | exact (K4 _ Y)].
Qed.

(** * All edges *)
Definition renv (i : rinput) (k : nat) : tenv := mkTEnv (fun b => ri_out i b k) (ve_app (ri_venv i)).
(** The call for a target and its sources. *)
Definition call_at (i : rinput) (machine : xy -> bool) (x : nat * list vtx) : xy * tcall :=
  (chip_of i (fst x), mkTCall (machine (chip_of i (fst x))) (core_of (snd (ri_at i (fst x)))) (link_of (snd (ri_at i (fst x)))) (snd x)).
Definition edge_calls (i : rinput) (a k : nat) (mp : mapping) (target : nat) : list (xy * tcall) :=
  map (call_at i (fun p => if Nat.eqb a target then true else dmem xy_eqb mp p)) (ri_in i target a k).
Definition internal_calls (i : rinput) (ip : internal) : list (xy * tcall) :=
  map (call_at i (fun _ => true)) (map (fun v => (v, [Mac (in_pre ip)])) (in_posts ip)).
Definition targets_after (env : tenv) (ts : list (xy * tstate)) (l : list (xy * tcall)) : list (xy * tstate) :=
  fold_left (fun ts pc => add_target env ts (fst pc) (snd pc)) l ts.

Lemma targets_after_app : forall env l l' ts, targets_after env ts (l ++ l') = targets_after env (targets_after env ts l) l'.
Proof. intros. unfold targets_after. apply fold_left_app. Qed.
Lemma add_incoming_calls : forall i k mp l ts,
  add_incoming i k mp ts l = targets_after (renv i k) ts (map (call_at i (fun p => dmem xy_eqb mp p)) l).
Proof.
  intros i k mp. induction l as [|x l IH]; intros ts; [reflexivity|]. unfold add_incoming, targets_after in *. cbn [map fold_left].
  rewrite <- IH. unfold call_at, chip_of. destruct (ri_at i (fst x)) as [p pl]. reflexivity.
Qed.
Lemma add_self_calls : forall i k l s,
  p_edges (add_self i k s l) = p_edges s /\ p_routes (add_self i k s l) = p_routes s /\
  p_targets (add_self i k s l) = targets_after (renv i k) (p_targets s) (map (call_at i (fun _ => true)) l) /\
  p_self (add_self i k s l) = true /\
  forall q, In q (p_self_xys (add_self i k s l)) <-> In q (p_self_xys s) \/ exists x, In x l /\ chip_of i (fst x) = q.
Proof.
  intros i k l s. unfold add_self.
  set (f := fun s x => let '(p, pl) := ri_at i (fst x) in
    mkP (p_edges s) (p_routes s) (add_target (mkTEnv (fun b => ri_out i b k) (ve_app (ri_venv i))) (p_targets s) p
           (mkTCall true (core_of pl) (link_of pl) (snd x))) true (set_add (p_self_xys s) p)).
  assert (G : forall l s, p_self s = true ->
    p_edges (fold_left f l s) = p_edges s /\ p_routes (fold_left f l s) = p_routes s /\
    p_targets (fold_left f l s) = targets_after (renv i k) (p_targets s) (map (call_at i (fun _ => true)) l) /\
    p_self (fold_left f l s) = true /\
    forall q, In q (p_self_xys (fold_left f l s)) <-> In q (p_self_xys s) \/ exists x, In x l /\ chip_of i (fst x) = q).
  { clear. induction l as [|x l IH]; intros s S; cbn [fold_left map].
    - split; [reflexivity|]. split; [reflexivity|]. split; [reflexivity|]. split; [exact S|]. intros q. split; [auto|].
      intros [H|[x [[] _]]]. exact H.
    - destruct (IH (f s x)) as [A [B [C [D E]]]]; [unfold f; destruct (ri_at i (fst x)); reflexivity|].
      assert (FX : f s x = mkP (p_edges s) (p_routes s)
         (add_target (renv i k) (p_targets s) (chip_of i (fst x)) (snd (call_at i (fun _ => true) x))) true (set_add (p_self_xys s) (chip_of i (fst x)))).
      { unfold f, call_at, chip_of. destruct (ri_at i (fst x)). reflexivity. }
      rewrite FX in A, B, C, D, E |- *. cbn [p_edges p_routes p_targets p_self p_self_xys] in *.
      split; [exact A|]. split; [exact B|]. split; [exact C|]. split; [exact D|]. intros q. rewrite (E q), set_add_In. split.
      + intros [[H|H]|[y [H H']]]; [auto | right; exists x; split; [left; reflexivity | congruence] | right; exists y; split; [right; exact H | exact H']].
      + intros [H|[y [[<-|H] H']]]; [auto | left; right; congruence | right; eauto]. }
  apply (G l (mkP (p_edges s) (p_routes s) (p_targets s) true (p_self_xys s))). reflexivity.
Qed.

Lemma edges_spec : forall i a k source src (mp : mapping) posts s s',
  paths_ok i source -> order_ok i -> In source src -> (forall p, In p src <-> dmem xy_eqb mp p = true) ->
  routed (ri_mach i) src (p_edges s) (p_routes s) ->
  foldM (route_edge i a k source src mp) s posts = Ok s' ->
  routed (ri_mach i) src (p_edges s') (p_routes s') /\
  (forall q, known (p_routes s) q -> known (p_routes s') q) /\
  (forall target x, In target posts -> target <> a -> In x (ri_in i target a k) -> known (p_routes s') (chip_of i (fst x))) /\
  p_targets s' = targets_after (renv i k) (p_targets s) (flat_map (edge_calls i a k mp) posts) /\
  (p_self s' = true <-> p_self s = true \/ In a posts) /\
  (forall q, In q (p_self_xys s') <-> In q (p_self_xys s) \/ (In a posts /\ exists x, In x (ri_in i a a k) /\ chip_of i (fst x) = q)).
Proof.
  intros i a k source src mp. induction posts as [|target posts IH]; intros s s' PO OR SS SM R H.
  - injection H as <-. split; [exact R|]. split; [auto|]. split; [intros t x []|]. split; [reflexivity|].
    split; [cbn [In]; tauto|]. intros q. cbn [In]. tauto.
  - cbn [foldM] in H. apply bind_Ok_inv in H. destruct H as [s1 [E H]].
    assert (ST : routed (ri_mach i) src (p_edges s1) (p_routes s1) /\ (forall q, known (p_routes s) q -> known (p_routes s1) q) /\
       (forall x, target <> a -> In x (ri_in i target a k) -> known (p_routes s1) (chip_of i (fst x))) /\
       p_targets s1 = targets_after (renv i k) (p_targets s) (edge_calls i a k mp target) /\
       (p_self s1 = true <-> p_self s = true \/ a = target) /\
       (forall q, In q (p_self_xys s1) <-> In q (p_self_xys s) \/ (a = target /\ exists x, In x (ri_in i a a k) /\ chip_of i (fst x) = q))).
    { unfold route_edge in E. unfold edge_calls. destruct (Nat.eqb a target) eqn:Q.
      - apply Nat.eqb_eq in Q. subst target. injection E as <-.
        destruct (add_self_calls i k (ri_in i a a k) s) as [A [B [C [D F]]]]. rewrite A, B.
        split; [exact R|]. split; [auto|]. split; [congruence|]. split; [exact C|]. split; [rewrite D; tauto|].
        intros q. rewrite (F q). tauto.
      - apply Nat.eqb_neq in Q. destruct (source_to_target_spec _ _ _ _ _ _ _ _ _ PO OR SS SM R E) as [A [B [C [D [F G]]]]].
        split; [exact A|]. split; [exact B|]. split; [intros x _; apply C|]. split; [rewrite D; apply add_incoming_calls|].
        rewrite F, G. split; [tauto|]. intros q. tauto. }
    destruct ST as [A [B [C [D [F G]]]]].
    destruct (IH s1 s' PO OR SS SM A H) as [A' [B' [C' [D' [F' G']]]]].
    split; [exact A'|]. split; [auto|]. split; [|split; [|split]].
    + intros t x [<-|T] N X; [apply B'; apply C; assumption | exact (C' t x T N X)].
    + rewrite D', D. cbn [flat_map]. symmetry. apply targets_after_app.
    + rewrite F', F. cbn [In]. intuition congruence.
    + intros q. rewrite (G' q), (G q). cbn [In]. intuition congruence.
Qed.

Lemma internals_spec : forall i k ips s, (forall ip, In ip ips -> in_id ip = k) ->
  let s' := fold_left (add_internal i) ips s in
  p_edges s' = p_edges s /\ p_routes s' = p_routes s /\
  p_targets s' = targets_after (renv i k) (p_targets s) (flat_map (internal_calls i) ips) /\
  (p_self s' = true <-> p_self s = true \/ ips <> []) /\
  (forall q, In q (p_self_xys s') <-> In q (p_self_xys s) \/ exists ip v, In ip ips /\ In v (in_posts ip) /\ chip_of i v = q).
Proof.
  intros i k. induction ips as [|ip ips IH]; intros s HK s'.
  - unfold s'. cbn [fold_left]. split; [reflexivity|]. split; [reflexivity|]. split; [reflexivity|]. split; [tauto|].
    intros q. split; [auto|]. intros [H|[ip [v [[] _]]]]. exact H.
  - unfold s'. cbn [fold_left].
    destruct (add_self_calls i (in_id ip) (map (fun v => (v, [Mac (in_pre ip)])) (in_posts ip)) s) as [A [B [C [D F]]]].
    fold (add_internal i s ip) in A, B, C, D, F.
    destruct (IH (add_internal i s ip)) as [A' [B' [C' [D' F']]]]; [intros x X; apply HK; right; exact X|].
    rewrite A', B', C', A, B, C. split; [reflexivity|]. split; [reflexivity|]. split; [|split].
    + cbn [flat_map]. rewrite targets_after_app, (HK ip (or_introl eq_refl)). reflexivity.
    + rewrite D', D. split; [right; discriminate | left; reflexivity].
    + intros q. rewrite (F' q), (F q). split.
      * intros [[H|[x [X <-]]]|[ip' [v [X Y]]]]; [auto | | right; exists ip', v; split; [right; exact X | exact Y]].
        apply in_map_iff in X. destruct X as [v [<- X]]. right. exists ip, v. split; [left; reflexivity | auto].
      * intros [H|[ip' [v [[<-|X] [Y Z]]]]]; [auto | | right; eauto].
        left. right. exists (v, [Mac (in_pre ip)]). split; [apply in_map_iff; eauto | exact Z].
Qed.

(** The targets of one chip. *)
Definition calls_at (l : list (xy * tcall)) (q : xy) : list tcall := map snd (filter (fun pc => xy_eqb (fst pc) q) l).
Lemma targets_after_dget : forall env l q,
  dget xy_eqb (targets_after env [] l) q = match calls_at l q with [] => None | cs => Some (run_calls env cs) end.
Proof.
  intros env l q.
  assert (G : forall l ts, dget xy_eqb (targets_after env ts l) q =
    match calls_at l q with
    | [] => dget xy_eqb ts q
    | cs => Some (fold_left (run_call env) cs (match dget xy_eqb ts q with Some s => s | None => t_empty end))
    end).
  { clear. induction l as [|[p c] l IH]; intros ts; [reflexivity|]. unfold targets_after, calls_at in *. cbn [fold_left filter fst snd].
    rewrite IH. unfold add_target. rewrite (dget_dset _ xy_eqb_eq). destruct (xy_eqb p q) eqn:E; [|reflexivity].
    apply xy_eqb_eq in E. subst p. cbn [map snd fold_left].
    destruct (map snd (filter (fun pc => xy_eqb (fst pc) q) l)); reflexivity. }
  rewrite G. cbn [dget]. reflexivity.
Qed.
Lemma calls_at_In : forall l q c, In c (calls_at l q) <-> In (q, c) l.
Proof.
  intros l q c. unfold calls_at. rewrite in_map_iff. split.
  - intros [[p c'] [<- H]]. apply filter_In in H. destruct H as [H E]. cbn [fst] in E. apply xy_eqb_eq in E. subst p. exact H.
  - intros H. exists (q, c). split; [reflexivity|]. apply filter_In. split; [exact H | apply xy_eqb_refl].
Qed.
