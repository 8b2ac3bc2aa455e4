(** Proofs about the conversion of routing trees to table entries (C33). *)
From Coq Require Import List ZArith NArith Arith Bool Lia.
From Verif Require Import Base Dict TreeModel TreeProofs MachModel LdfModel LdfProofs PathModel PathProofs RPartModel RPartProofs
  BfsModel BfsProofs ConvModel.
Import ListNotations.
Local Open Scope nat_scope.

Notation visit := (option nat * option nat * tree)%type (only parsing).

(** The nodes of a tree with the processor or link over which a packet comes to
    them. *)
Inductive visits (v : visit) : visit -> Prop :=
| vi_root : visits v v
| vi_hop : forall ip il u l s, visits v (ip, il, u) -> In (Some l, Sub s) (tchildren u) ->
    visits v (None, Some ((l + 3) mod 6), s).

(** The hops of a node: link and next node. *)
Definition kids (l : list (option nat * TreeModel.child)) : list (nat * tree) :=
  flat_map (fun dc => match dc with (Some d, Sub s) => [(d, s)] | _ => [] end) l.
Definition hops (u : tree) : list nat := map fst (kids (tchildren u)).

Lemma kids_In : forall l d s, In (d, s) (kids l) <-> In (Some d, Sub s) l.
Proof.
  intros l d s. unfold kids. rewrite in_flat_map. split.
  - intros [[[d'|] [s'|v]] [A B]]; [destruct B as [B|[]]; injection B as -> ->; exact A | destruct B | destruct B | destruct B].
  - intros H. exists (Some d, Sub s). split; [exact H | left; reflexivity].
Qed.
Lemma hops_In : forall u l, In l (hops u) <-> exists s, In (Some l, Sub s) (tchildren u).
Proof.
  intros u l. unfold hops. rewrite in_map_iff. split.
  - intros [[d s] [<- H]]. exists s. apply kids_In. exact H.
  - intros [s H]. exists (l, s). split; [reflexivity | apply kids_In; exact H].
Qed.

(** All children are further nodes over a link. *)
Definition plain_node (u : tree) : Prop := forall d c, In (d, c) (tchildren u) -> exists l s, d = Some l /\ c = Sub s /\ l < 6.
Definition plain (t : tree) : Prop := forall ip il u, visits (None, None, t) (ip, il, u) -> plain_node u.

Lemma scan_plain : forall l links next push,
  (forall d c, In (d, c) l -> exists k s, d = Some k /\ c = Sub s /\ k < 6) ->
  scan_hops l links next push =
    Ok (links ++ map fst (kids l), rev (map (fun n => (Some ((fst n + 3) mod 6), snd n)) (kids l)) ++ push).
Proof.
  induction l as [|[d c] l IH]; intros links next push H; cbn [scan_hops kids flat_map map rev app].
  - rewrite app_nil_r. reflexivity.
  - destruct (H d c (or_introl eq_refl)) as [k [s [-> [-> _]]]]. rewrite IH.
    + cbn [map fst snd app rev]. rewrite <- !app_assoc. reflexivity.
    + intros d' c' X. apply H. right. exact X.
Qed.

Lemma visits_trans : forall a b x, visits a b -> visits b x -> visits a x.
Proof. intros a b x A B. induction B; [exact A | econstructor; eassumption]. Qed.
Lemma visits_split : forall ip il u x, visits (ip, il, u) x -> x = (ip, il, u) \/
  exists l s, In (Some l, Sub s) (tchildren u) /\ visits (None, Some ((l + 3) mod 6), s) x.
Proof.
  intros ip il u x H. remember (ip, il, u) as v eqn:E. induction H as [|ip' il' u' l s H IH I]; [left; reflexivity|].
  right. destruct IH as [X|[l0 [s0 [A B]]]].
  - rewrite E in X. injection X as -> -> ->. exists l, s. split; [exact I | constructor].
  - exists l0, s0. split; [exact A|]. econstructor; eassumption.
Qed.
(** How a tree is entered only matters at its root. *)
Lemma visits_root : forall v ip il u, visits v (ip, il, u) -> forall w, snd v = snd w -> exists ip' il', visits w (ip', il', u).
Proof.
  intros v ip il u H. remember (ip, il, u) as x eqn:E. revert ip il u E.
  induction H as [|ip' il' u' l s H IH I]; intros ip il u E w W.
  - subst v. destruct w as [[ip' il'] u']. cbn in W. subst u'. exists ip', il'. constructor.
  - injection E as <- <- <-. destruct (IH ip' il' u' eq_refl w W) as [a [b X]]. exists None, (Some ((l + 3) mod 6)).
    econstructor; eassumption.
Qed.

(** * Calls *)
Definition straight_on (links procs : list nat) (il : option nat) : bool :=
  match il with
  | Some i => match procs with [] => N.eqb (route_of links []) (route_of [(i + 3) mod 6] []) | _ => false end
  | None => false
  end.
Definition call_of (c : conv) (p : xy) (hs : list nat) (il : option nat) (it : vtx * (list nat * list nat)) : addcall :=
  mkAdd (mkRE (route_of (hs ++ snd (snd it)) (fst (snd it))) (straight_on (hs ++ snd (snd it)) (fst (snd it)) il))
        p (fst it) (cv_part c).

Lemma make_entry_ok : forall links procs ip il e, make_entry links procs ip il = Ok e ->
  e = mkRE (route_of links procs) (straight_on links procs il).
Proof. intros links procs [p|] [l|] e H; cbn [make_entry] in H; [discriminate| | |]; injection H as <-; reflexivity. Qed.

Lemma add_all_app : forall ve c1 c2 t t1 t2, add_all ve t c1 = (t1, repeat true (length c1)) ->
  add_all ve t1 c2 = (t2, repeat true (length c2)) -> add_all ve t (c1 ++ c2) = (t2, repeat true (length (c1 ++ c2))).
Proof.
  induction c1 as [|c c1 IH]; intros c2 t t1 t2 H1 H2; cbn [add_all app length repeat] in *.
  - injection H1 as <-. exact H2.
  - destruct (add_path_entry ve t (ac_entry c) (ac_xy c) (ac_src c) (ac_part c)) as [t'|x].
    + destruct (add_all ve t' c1) as [t'' oks] eqn:E. assert (t'' = t1 /\ oks = repeat true (length c1)) by (split; congruence).
      destruct H as [-> ->]. rewrite (IH c2 t' t1 t2 E H2). reflexivity.
    + destruct (add_all ve t c1). discriminate.
Qed.

Lemma add_served_all : forall c p hs ip il l t t', add_served c t p hs ip il l = Ok t' ->
  add_all (cv_env c) t (map (call_of c p hs il) l) = (t', repeat true (length (map (call_of c p hs il) l))).
Proof.
  induction l as [|[src [cores links]] l IH]; intros t t' H; cbn [add_served] in H.
  - injection H as <-. reflexivity.
  - destruct (make_entry (hs ++ links) cores ip il) as [e|x] eqn:M; cbn [bind] in H; [|discriminate].
    apply make_entry_ok in M. cbn [map add_all length repeat]. unfold call_of at 1 2 3 4. cbn [ac_entry ac_xy ac_src ac_part fst snd].
    rewrite <- M.
    destruct (add_path_entry (cv_env c) t e p src (cv_part c)) as [t1|x] eqn:A; cbn [bind] in H; [|discriminate].
    rewrite (IH t1 t' H). reflexivity.
Qed.

(** The sources served on a chip, as a relation. *)
Definition gives (c : conv) (p : xy) (w : vtx) (cores links : list nat) : Prop :=
  match dget xy_eqb (cv_targets c) p with
  | None => w = cv_source c /\ cores = [] /\ links = []
  | Some items =>
      if cv_use_source c then
        w = cv_source c /\
        match dget vtx_eqb items (cv_source c) with Some cl => cl = (cores, links) | None => cores = [] /\ links = [] end
      else
        In (w, (cores, links)) items \/
        (cv_ensure c = true /\ (forall a x, ~ In (App a, x) items) /\
         exists a v, cv_source c = App a /\ w = Mac v /\ In v (cv_out c a) /\ (forall x, ~ In (Mac v, x) items) /\ cores = [] /\ links = [])
  end.

Lemma has_app : forall (l : list (vtx * (list nat * list nat))),
  existsb (fun i => is_app (fst i)) l = true <-> exists a x, In (App a, x) l.
Proof.
  intros l. rewrite existsb_exists. split.
  - intros [[[a|v] x] [A B]]; [eauto | discriminate].
  - intros [a [x H]]. exists (App a, x). auto.
Qed.
Lemma has_mac : forall (l : list (vtx * (list nat * list nat))) v,
  existsb (fun i => vtx_eqb (fst i) (Mac v)) l = true <-> exists x, In (Mac v, x) l.
Proof.
  intros l v. rewrite existsb_exists. split.
  - intros [[w x] [A B]]. cbn [fst] in B. apply vtx_eqb_eq in B. subst w. eauto.
  - intros [x H]. exists (Mac v, x). split; [exact H | apply vtx_eqb_eq; reflexivity].
Qed.

Lemma served_gives : forall c p l, served c p = Ok l -> forall w cores links, In (w, (cores, links)) l <-> gives c p w cores links.
Proof.
  intros c p l H w cores links. unfold served in H. unfold gives.
  destruct (dget xy_eqb (cv_targets c) p) as [items|].
  2:{ injection H as <-. split; [intros [X|[]]; injection X as <- <- <-; auto | intros [-> [-> ->]]; left; reflexivity]. }
  destruct (cv_use_source c).
  - assert (X : l = [(cv_source c, match dget vtx_eqb items (cv_source c) with Some cl => cl | None => ([], []) end)]).
    { destruct (cv_ensure c); cbn [andb] in H; [|injection H as <-; reflexivity].
      destruct (cv_source c) as [a|v] eqn:E; cbn [existsb is_app fst orb negb] in H; [injection H as <-; reflexivity | discriminate]. }
    rewrite X. cbn [In]. destruct (dget vtx_eqb items (cv_source c)) as [cl|]; split.
    + intros [Y|[]]. injection Y as <- ->. auto.
    + intros [-> ->]. left. reflexivity.
    + intros [Y|[]]. injection Y as <- <- <-. auto.
    + intros [-> [-> ->]]. left. reflexivity.
  - destruct (existsb (fun i => is_app (fst i)) items) eqn:A.
    + rewrite andb_false_r in H. injection H as <-. split; [auto|]. intros [X|[_ [X _]]]; [exact X|].
      apply has_app in A. destruct A as [a [x A]]. destruct (X a x A).
    + assert (NA : forall a x, ~ In (App a, x) items).
      { intros a x X. assert (existsb (fun i => is_app (fst i)) items = true) by (apply has_app; eauto). congruence. }
      destruct (cv_ensure c) eqn:EN; cbn [negb andb] in H.
      * destruct (cv_source c) as [a|v]; [|discriminate]. injection H as <-. rewrite in_app_iff, in_map_iff. split.
        -- intros [X|[v [X Y]]]; [left; exact X|]. injection X as <- <- <-. apply filter_In in Y. destruct Y as [Y1 Y2].
           right. split; [reflexivity|]. split; [exact NA|]. exists a, v. split; [reflexivity|]. split; [reflexivity|]. split; [exact Y1|].
           split; [|auto]. intros x X. apply negb_true_iff in Y2.
           assert (existsb (fun i => vtx_eqb (fst i) (Mac v)) items = true) by (apply has_mac; eauto). congruence.
        -- intros [X|[_ [_ [a' [v [X [-> [Y [Z [-> ->]]]]]]]]]]; [left; exact X|]. injection X as <-. right. exists v. split; [reflexivity|].
           apply filter_In. split; [exact Y|]. apply negb_true_iff.
           destruct (existsb (fun i => vtx_eqb (fst i) (Mac v)) items) eqn:E; [|reflexivity].
           apply has_mac in E. destruct E as [x E]. destruct (Z x E).
      * injection H as <-. split; [auto|]. intros [X|[X _]]; [exact X | discriminate].
Qed.

(** All the calls of a conversion. *)
Definition a_call (c : conv) (v : visit) (call : addcall) : Prop :=
  exists l it, served c (tchip (snd v)) = Ok l /\ In it l /\
    call = call_of c (tchip (snd v)) (hops (snd v)) (snd (fst v)) it.

Definition plain_visit (v : visit) : Prop := plain (snd v).
Lemma plain_kid : forall u l s, plain u -> In (Some l, Sub s) (tchildren u) -> plain s.
Proof.
  intros u l s P I ip il x H.
  destruct (visits_root _ _ _ _ H (None, Some ((l + 3) mod 6), s) eq_refl) as [ip' [il' V]].
  apply (P ip' il' x). eapply visits_trans; [|exact V]. econstructor; [constructor | exact I].
Qed.
Lemma plain_here : forall u, plain u -> plain_node u.
Proof. intros u P. exact (P None None u (vi_root _)). Qed.

Lemma convert_calls : forall fuel c t stack t', (forall v, In v stack -> plain_visit v) ->
  convert_loop fuel c t stack = Ok t' ->
  exists calls, add_all (cv_env c) t calls = (t', repeat true (length calls)) /\
    (forall call, In call calls <-> exists v w, In v stack /\ visits v w /\ a_call c w call) /\
    (forall v w, In v stack -> visits v w -> exists l, served c (tchip (snd w)) = Ok l).
Proof.
  induction fuel as [|fuel IH]; intros c t stack t' P H.
  - destruct stack as [|[[ip il] u] stack]; cbn [convert_loop] in H; [|discriminate]. injection H as <-.
    exists []. split; [reflexivity|]. split; [|intros v w []]. intros call. split; [intros [] | intros [v [w [[] _]]]].
  - destruct stack as [|[[ip il] u] stack]; cbn [convert_loop] in H.
    { injection H as <-. exists []. split; [reflexivity|]. split; [|intros v w []]. intros call. split; [intros [] | intros [v [w [[] _]]]]. }
    pose proof (P _ (or_introl eq_refl)) as PU. unfold plain_visit in PU. cbn [snd] in PU.
    rewrite (scan_plain _ _ _ _ (plain_here u PU)) in H. cbn [bind app] in H. fold (hops u) in H. rewrite app_nil_r in H.
    destruct (served c (tchip u)) as [l|x] eqn:SV; cbn [bind] in H; [|discriminate].
    destruct (add_served c t (tchip u) (hops u) ip il l) as [t1|x] eqn:AD; cbn [bind] in H; [|discriminate].
    apply add_served_all in AD.
    set (push := map (fun n : option nat * tree => (@None nat, fst n, snd n)) (rev (map (fun n => (Some ((fst n + 3) mod 6), snd n)) (kids (tchildren u))))) in *.
    assert (PUSH : forall v, In v push <-> exists k s, In (Some k, Sub s) (tchildren u) /\ v = (None, Some ((k + 3) mod 6), s)).
    { intros v. unfold push. rewrite in_map_iff. split.
      - intros [[a s] [<- X]]. apply in_rev, in_map_iff in X. destruct X as [[k s'] [E X]]. cbn [fst snd] in *. injection E as <- <-.
        apply kids_In in X. eauto.
      - intros [k [s [X ->]]]. exists (Some ((k + 3) mod 6), s). split; [reflexivity|]. apply -> in_rev. apply in_map_iff.
        exists (k, s). split; [reflexivity|]. apply kids_In. exact X. }
    destruct (IH c t1 (push ++ stack) t') as [calls [C1 [C2 C3]]]; [|exact H|].
    { intros v X. apply in_app_iff in X. destruct X as [X|X]; [|apply P; right; exact X].
      apply PUSH in X. destruct X as [k [s [X ->]]]. exact (plain_kid u k s PU X). }
    exists (map (call_of c (tchip u) (hops u) il) l ++ calls).
    split; [exact (add_all_app _ _ _ _ _ _ AD C1)|]. split.
    + intros call. rewrite in_app_iff, (C2 call), in_map_iff. split.
      * intros [[it [<- X]]|[v [w [X [Y Z]]]]].
        -- exists (ip, il, u), (ip, il, u). split; [left; reflexivity|]. split; [constructor|]. exists l, it. auto.
        -- apply in_app_iff in X. destruct X as [X|X]; [|exists v, w; split; [right; exact X | auto]].
           apply PUSH in X. destruct X as [k [s [X ->]]]. exists (ip, il, u), w. split; [left; reflexivity|]. split; [|exact Z].
           eapply visits_trans; [|exact Y]. econstructor; [constructor | exact X].
      * intros [v [w [[<-|X] [Y Z]]]]; [|right; exists v, w; rewrite in_app_iff; auto].
        apply visits_split in Y. destruct Y as [->|[k [s [Y1 Y2]]]].
        -- left. destruct Z as [l' [it [Z1 [Z2 ->]]]]. cbn [snd fst] in *. rewrite SV in Z1. injection Z1 as <-. eauto.
        -- right. exists (None, Some ((k + 3) mod 6), s), w. split; [|auto]. apply in_app_iff. left. apply PUSH. eauto.
    + intros v w [<-|X] Y; [|apply (C3 v w); [apply in_app_iff; auto | exact Y]].
      apply visits_split in Y. destruct Y as [->|[k [s [Y1 Y2]]]]; [exists l; exact SV|].
      apply (C3 (None, Some ((k + 3) mod 6), s) w); [|exact Y2]. apply in_app_iff. left. apply PUSH. eauto.
Qed.

(** * The table after a conversion *)
(** An entry has a bit: link [b], or processor [b - 6]. *)
Definition has_bit (t : rtable) (w : vtx) (k : nat) (q : xy) (b : nat) : Prop :=
  exists e, get_entry t w k q = Some e /\ N.testbit (re_route e) (N.of_nat b) = true.

Lemma nth_repeat_true : forall n i, i < n -> nth_error (repeat true n) i = Some true.
Proof. induction n; intros [|i] H; cbn; auto; try lia. apply IHn. lia. Qed.

Lemma added_true : forall calls s k q e, In e (added calls (repeat true (length calls)) s k q) <->
  exists c, In c calls /\ ac_xy c = q /\ ac_src c = s /\ ac_part c = k /\ ac_entry c = e.
Proof.
  intros. rewrite added_In. split.
  - intros [i [c [A [_ B]]]]. exists c. split; [exact (nth_error_In _ _ A) | exact B].
  - intros [c [A B]]. apply In_nth_error in A. destruct A as [i A]. exists i, c. split; [exact A|].
    split; [|exact B]. apply nth_repeat_true. apply nth_error_Some. congruence.
Qed.

Lemma calls_bits : forall ve calls t t', add_all ve t calls = (t', repeat true (length calls)) ->
  forall w k q,
    (get_entry t' w k q <> None <-> get_entry t w k q <> None \/
       exists c, In c calls /\ ac_xy c = q /\ ac_src c = w /\ ac_part c = k) /\
    (forall b, has_bit t' w k q b <-> has_bit t w k q b \/
       exists c, In c calls /\ ac_xy c = q /\ ac_src c = w /\ ac_part c = k /\ N.testbit (re_route (ac_entry c)) (N.of_nat b) = true).
Proof.
  intros ve calls t t' H w k q. destruct (add_all_gen ve calls t t' _ H) as [_ G]. specialize (G w k q).
  assert (AD : forall e, In e (added calls (repeat true (length calls)) w k q) <->
     exists c, In c calls /\ ac_xy c = q /\ ac_src c = w /\ ac_part c = k /\ ac_entry c = e) by (intros; apply added_true).
  set (ad := added calls (repeat true (length calls)) w k q) in *. unfold has_bit.
  destruct (get_entry t' w k q) as [e|].
  - destruct G as [G1 G2]. split.
    + split; [|discriminate]. intros _. destruct G2 as [G2|G2]; [left; exact G2 | right].
      destruct ad as [|x ad']; [congruence|]. destruct (proj1 (AD x) (or_introl eq_refl)) as [c X]. exists c. tauto.
    + intros b. split.
      * intros [e' [E X]]. injection E as <-. rewrite G1, N.lor_spec, orb_true_iff, joined_bit in X. destruct X as [[x [X1 X2]]|X].
        -- right. apply AD in X1. destruct X1 as [c [Y1 [Y2 [Y3 [Y4 <-]]]]]. exists c. auto.
        -- left. destruct (get_entry t w k q) as [o|]; [exists o; auto | rewrite N.bits_0 in X; discriminate].
      * intros X. exists e. split; [reflexivity|]. rewrite G1, N.lor_spec, orb_true_iff, joined_bit. destruct X as [[o [X1 X2]]|[c X]].
        -- right. rewrite X1. exact X2.
        -- left. exists (ac_entry c). split; [apply AD; exists c; tauto | tauto].
  - destruct G as [G1 G2]. split.
    + split; [congruence|]. intros [X|[c X]]; [congruence|]. exfalso.
      assert (Y : In (ac_entry c) ad) by (apply AD; exists c; tauto). rewrite G2 in Y. destruct Y.
    + intros b. split; [intros [e [X _]]; discriminate|]. intros [[o [X _]]|[c X]]; [congruence|]. exfalso.
      assert (Y : In (ac_entry c) ad) by (apply AD; exists c; tauto). rewrite G2 in Y. destruct Y.
Qed.

(** A node of the tree, on chip [q]. *)
Definition node_at (first : tree) (q : xy) (u : tree) : Prop :=
  tchip u = q /\ exists ip il, visits (None, None, first) (ip, il, u).

Lemma node_visits : forall v u, (exists ip il, visits v (ip, il, u)) <-> (exists ip il, visits (None, None, snd v) (ip, il, u)).
Proof.
  intros v u. split; intros [ip [il H]]; eapply visits_root; try exact H; reflexivity.
Qed.

Lemma convert_entries : forall c t ip il first t', plain first -> convert_a_route c t ip il first = Ok t' ->
  forall w k q,
    (get_entry t' w k q <> None <-> get_entry t w k q <> None \/
       (k = cv_part c /\ exists u cores links, node_at first q u /\ gives c q w cores links)) /\
    (forall b, has_bit t' w k q b <-> has_bit t w k q b \/
       (k = cv_part c /\ exists u cores links, node_at first q u /\ gives c q w cores links /\
          (In b (hops u) \/ In b links \/ exists p, In p cores /\ b = 6 + p))).
Proof.
  intros c t ip il first t' P H w k q. unfold convert_a_route in H.
  assert (PV : forall v, In v [(ip, il, first)] -> plain_visit v) by (intros v [<-|[]]; exact P).
  destruct (convert_calls _ c t _ t' PV H) as [calls [C1 [C2 C3]]].
  pose proof (calls_bits _ _ _ _ C1 w k q) as [B1 B2].
  assert (KEY : forall (Q : addcall -> Prop),
    (exists call, In call calls /\ ac_xy call = q /\ ac_src call = w /\ ac_part call = k /\ Q call) <->
    (k = cv_part c /\ exists u cores links i, node_at first q u /\ gives c q w cores links /\
       (exists ip', visits (ip, il, first) (ip', i, u)) /\ Q (call_of c q (hops u) i (w, (cores, links))))).
  { intros Q. split.
    - intros [call [X1 [X2 [X3 [X4 X5]]]]]. apply C2 in X1. destruct X1 as [v [[[ip' i] u] [[<-|[]] [V [l [[w' [cores links]] [S1 [S2 ->]]]]]]]].
      cbn [ac_xy ac_src ac_part call_of fst snd] in *. subst w' q k. split; [reflexivity|]. exists u, cores, links, i.
      split; [split; [reflexivity|]; apply (proj1 (node_visits (ip, il, first) u)); eauto|].
      split; [exact (proj1 (served_gives c _ l S1 w cores links) S2)|]. split; [eauto | exact X5].
    - intros [-> [u [cores [links [i [[N1 N2] [G [[ip' V] X]]]]]]]]. eexists. split.
      + apply C2. exists (ip, il, first), (ip', i, u). split; [left; reflexivity|]. split; [exact V|].
        destruct (C3 (ip, il, first) (ip', i, u) (or_introl eq_refl) V) as [l S]. exists l, (w, (cores, links)). split; [exact S|].
        split; [|reflexivity]. cbn [snd] in S. apply (served_gives c _ l S). rewrite N1. exact G.
      + cbn [snd fst]. rewrite N1. cbn [ac_xy ac_src ac_part call_of]. auto. }
  split.
  - rewrite B1. apply or_iff_compat_l. specialize (KEY (fun _ => True)). split.
    + intros [call X]. destruct (proj1 KEY) as [Y1 [u [cores [links [i [Y2 [Y3 _]]]]]]]; [exists call; tauto|]. split; [exact Y1|]. eauto.
    + intros [-> [u [cores [links [N G]]]]]. destruct (proj2 (node_visits (ip, il, first) u) (proj2 N)) as [ip' [i V]].
      destruct (proj2 KEY) as [call X]; [|exists call; tauto]. split; [reflexivity|]. exists u, cores, links, i. eauto.
  - intros b. rewrite (B2 b). apply or_iff_compat_l.
    specialize (KEY (fun call => N.testbit (re_route (ac_entry call)) (N.of_nat b) = true)).
    rewrite KEY. cbn [call_of ac_entry re_route fst snd].
    assert (BIT : forall hs links cores, N.testbit (route_of (hs ++ links) cores) (N.of_nat b) = true <->
       In b hs \/ In b links \/ exists p, In p cores /\ b = 6 + p).
    { intros. unfold route_of. rewrite bits_of_spec, !in_app_iff, in_map_iff. split.
      - intros [[X|X]|[p [<- X]]]; eauto.
      - intros [X|[X|[p [X ->]]]]; eauto. }
    split; intros [-> [u [cores [links X]]]]; split; try reflexivity.
    + destruct X as [i [N [G [_ Y]]]]. rewrite BIT in Y. exists u, cores, links. auto.
    + destruct X as [N [G Y]]. destruct (proj2 (node_visits (ip, il, first) u) (proj2 N)) as [ip' [i V]].
      exists u, cores, links, i. rewrite BIT. split; [exact N|]. split; [exact G|]. split; [eauto | exact Y].
Qed.

(** The entries that are marked as defaultable pass packets straight on. *)
Lemma straight_on_eq : forall links procs il, straight_on links procs il = true ->
  exists i, il = Some i /\ route_of links procs = route_of [(i + 3) mod 6] [].
Proof.
  intros links procs [i|] H; [|discriminate]. destruct procs; [|discriminate]. apply N.eqb_eq in H. eauto.
Qed.

Lemma calls_default : forall ve calls t t', add_all ve t calls = (t', repeat true (length calls)) ->
  forall w k q e, get_entry t' w k q = Some e -> re_default e = true ->
    get_entry t w k q = Some e \/
    exists c, In c calls /\ ac_xy c = q /\ ac_src c = w /\ ac_part c = k /\ ac_entry c = e /\ re_default (ac_entry c) = true.
Proof.
  induction calls as [|c calls IH]; intros t t' H w k q e E D; cbn [add_all length repeat] in H.
  - injection H as <-. left. exact E.
  - pose proof (add_path_entry_spec ve t (ac_entry c) (ac_xy c) (ac_src c) (ac_part c)) as SP.
    destruct (add_path_entry ve t (ac_entry c) (ac_xy c) (ac_src c) (ac_part c)) as [t1|x]; [|destruct (add_all ve t calls); discriminate].
    destruct (add_all ve t1 calls) as [t2 oks] eqn:R. assert (t2 = t' /\ oks = repeat true (length calls)) as [-> ->] by (split; congruence).
    destruct SP as [_ [SP _]]. destruct (IH t1 t' R w k q e E D) as [X|[c' [X1 X2]]].
    2:{ right. exists c'. split; [right; exact X1 | exact X2]. }
    rewrite SP in X. destruct (xy_eqb (ac_xy c) q && skey_eqb (ac_src c, ac_part c) (w, k)) eqn:Q; [|left; exact X].
    apply andb_prop in Q. destruct Q as [Q1 Q2]. apply xy_eqb_eq in Q1. apply skey_eqb_eq in Q2. injection Q2 as Q2 Q3.
    right. exists c. split; [left; reflexivity|]. split; [exact Q1|]. split; [exact Q2|]. split; [exact Q3|].
    destruct (get_entry t (ac_src c) (ac_part c) (ac_xy c)) as [old|] eqn:O.
    + injection X as <-. unfold re_merge in D. cbn [re_default] in D. apply andb_prop in D. destruct D as [D1 D3].
      apply andb_prop in D1. destruct D1 as [D1 D2]. apply N.eqb_eq in D3. split; [|exact D1]. unfold re_merge.
      rewrite D1, D2, <- D3, N.lor_diag, N.eqb_refl. destruct (ac_entry c) as [r d]; cbn in *. subst d. reflexivity.
    + injection X as <-. auto.
Qed.

Lemma convert_default_gives : forall c t ip il first t', plain first -> convert_a_route c t ip il first = Ok t' ->
  forall w k q e, get_entry t' w k q = Some e -> re_default e = true ->
    get_entry t w k q = Some e \/
    (k = cv_part c /\ exists u ip' i cores links, visits (ip, il, first) (ip', Some i, u) /\ tchip u = q /\
       gives c q w cores links /\ re_route e = route_of [(i + 3) mod 6] []).
Proof.
  intros c t ip il first t' P H w k q e E D. unfold convert_a_route in H.
  assert (PV : forall v, In v [(ip, il, first)] -> plain_visit v) by (intros v [<-|[]]; exact P).
  destruct (convert_calls _ c t _ t' PV H) as [calls [C1 [C2 C3]]].
  destruct (calls_default _ _ _ _ C1 w k q e E D) as [X|[call [X1 [X2 [X5 [X6 [X3 X4]]]]]]]; [left; exact X|]. right.
  apply C2 in X1. destruct X1 as [v [[[ip' i] u] [[<-|[]] [V [l [[w' [cores links]] [S1 [S2 ->]]]]]]]].
  cbn [call_of ac_entry ac_xy ac_src ac_part re_default fst snd] in *. destruct (straight_on_eq _ _ _ X4) as [i' [-> R]].
  split; [congruence|]. subst w'. exists u, ip', i', cores, links. split; [exact V|]. split; [exact X2|].
  split; [rewrite <- X2; exact (proj1 (served_gives c _ l S1 w cores links) S2)|]. rewrite <- X3. cbn [re_route]. exact R.
Qed.
Lemma convert_default : forall c t ip il first t', plain first -> convert_a_route c t ip il first = Ok t' ->
  forall w k q e, get_entry t' w k q = Some e -> re_default e = true ->
    get_entry t w k q = Some e \/
    exists u ip' i, visits (ip, il, first) (ip', Some i, u) /\ tchip u = q /\ re_route e = route_of [(i + 3) mod 6] [].
Proof.
  intros c t ip il first t' P H w k q e E D.
  destruct (convert_default_gives c t ip il first t' P H w k q e E D) as [X|[_ [u [ip' [i [cores [links [V [Q [_ R]]]]]]]]]]; [left; exact X|].
  right. exists u, ip', i. auto.
Qed.

(** * Termination *)
Lemma tree_len_sum : forall u, tree_len u = S (list_sum (map (fun dc => match snd dc with Sub s => tree_len s | Vertex _ => 1 end) (tchildren u))).
Proof.
  intros [chip l]. cbn [tree_len tchildren].
  assert (G : forall n, (fix go (l : list (option nat * TreeModel.child)) (count : nat) {struct l} : nat :=
     match l with
     | [] => count
     | (_, Sub s) :: r => go r (count + tree_len s)
     | (_, Vertex _) :: r => go r (count + 1)
     end) l n = n + list_sum (map (fun dc => match snd dc with Sub s => tree_len s | Vertex _ => 1 end) l)).
  { induction l as [|[d [s|v]] l IH]; intros n; cbn [map list_sum fold_right snd]; [lia| |]; rewrite IH; unfold list_sum; lia. }
  rewrite G. reflexivity.
Qed.
Lemma kids_sum : forall l, list_sum (map (fun n : nat * tree => tree_len (snd n)) (kids l)) <=
  list_sum (map (fun dc => match snd dc with Sub s => tree_len s | Vertex _ => 1 end) l).
Proof.
  induction l as [|[[d|] [s|v]] l IH]; cbn [kids flat_map map snd app]; [apply Nat.le_refl| | | |]; fold (kids l); unfold list_sum in *; cbn [map fold_right snd] in *; lia.
Qed.
Lemma list_sum_rev : forall l, list_sum (rev l) = list_sum l.
Proof. induction l as [|x l IH]; [reflexivity|]. cbn [rev]. rewrite list_sum_app, IH. unfold list_sum. cbn. lia. Qed.

Lemma add_served_fuel : forall c p hs ip il l t, add_served c t p hs ip il l <> Err OutOfFuel.
Proof.
  induction l as [|[src [cores links]] l IH]; intros t; cbn [add_served]; [discriminate|].
  destruct (make_entry (hs ++ links) cores ip il) as [e|x] eqn:M; cbn [bind].
  - pose proof (add_path_entry_spec (cv_env c) t e p src (cv_part c)) as SP.
    destruct (add_path_entry (cv_env c) t e p src (cv_part c)) as [t1|x]; cbn [bind]; [apply IH|].
    destruct SP as [-> _]. discriminate.
  - unfold make_entry in M. destruct ip, il; try discriminate; injection M as <-; discriminate.
Qed.
Lemma served_fuel : forall c p, served c p <> Err OutOfFuel.
Proof.
  intros c p. unfold served. destruct (dget xy_eqb (cv_targets c) p) as [l|]; [|discriminate]. cbv zeta.
  match goal with |- (if ?b then _ else _) <> _ => destruct b end; [|discriminate]. destruct (cv_source c); discriminate.
Qed.
Lemma convert_loop_fuel : forall fuel c t stack, (forall v, In v stack -> plain_visit v) ->
  list_sum (map (fun v => tree_len (snd v)) stack) <= fuel -> convert_loop fuel c t stack <> Err OutOfFuel.
Proof.
  induction fuel as [|fuel IH]; intros c t stack P F; destruct stack as [|[[ip il] u] stack]; cbn [convert_loop]; try discriminate.
  - unfold list_sum in F. cbn [map fold_right snd] in F. rewrite tree_len_sum in F. lia.
  - pose proof (P _ (or_introl eq_refl)) as PU. unfold plain_visit in PU. cbn [snd] in PU.
    rewrite (scan_plain _ _ _ _ (plain_here u PU)). cbn [bind app]. rewrite app_nil_r.
    pose proof (served_fuel c (tchip u)) as S1. destruct (served c (tchip u)) as [l|x]; cbn [bind]; [|congruence].
    pose proof (add_served_fuel c (tchip u) (map fst (kids (tchildren u))) ip il l t) as S2.
    destruct (add_served c t (tchip u) (map fst (kids (tchildren u))) ip il l) as [t1|x]; cbn [bind]; [|congruence].
    apply IH.
    + intros v X. apply in_app_iff in X. destruct X as [X|X]; [|apply P; right; exact X].
      apply in_map_iff in X. destruct X as [[a s] [<- X]]. apply in_rev, in_map_iff in X. destruct X as [[k s'] [E X]].
      cbn [fst snd] in *. injection E as <- <-. apply kids_In in X. exact (plain_kid u k s' PU X).
    + rewrite map_app, list_sum_app, map_map, map_rev, list_sum_rev, map_map. cbn [snd].
      unfold list_sum in F. cbn [map fold_right snd] in F. rewrite tree_len_sum in F.
      pose proof (kids_sum (tchildren u)) as K. unfold list_sum in *. lia.
Qed.
Lemma convert_fuel : forall c t ip il first, plain first -> convert_a_route c t ip il first <> Err OutOfFuel.
Proof.
  intros c t ip il first P. apply convert_loop_fuel; [intros v [<-|[]]; exact P|]. unfold list_sum. cbn [map fold_right snd]. lia.
Qed.

(** * Following the entries *)
(** The entry for a machine vertex on a chip: its own or else that of its
    application vertex. *)
Definition route_for (t : rtable) (k : nat) (app : option nat) (v : nat) (q : xy) : option rentry :=
  match get_entry t (Mac v) k q with
  | Some e => Some e
  | None => match app with Some a => get_entry t (App a) k q | None => None end
  end.

(** The chips that a packet comes to. *)
Inductive travels (m : machine) (t : rtable) (k : nat) (app : option nat) (v : nat) (root : xy) : xy -> Prop :=
| tv_root : travels m t k app v root root
| tv_hop : forall p e l q, travels m t k app v root p -> route_for t k app v p = Some e ->
    has_link (re_route e) l = true -> works m p (l, q) -> travels m t k app v root q.

(** The hops of the tree are working links of the machine. *)
Definition tree_on (m : machine) (first : tree) : Prop :=
  forall q u l s, node_at first q u -> In (Some l, Sub s) (tchildren u) -> works m q (l, tchip s).
(** Nodes for one chip have the same hops. *)
Definition consistent (first : tree) : Prop :=
  forall q u u', node_at first q u -> node_at first q u' -> forall l, In l (hops u) <-> In l (hops u').

(** A core and link list wanted for a source on a chip. *)
Definition aims (c : conv) (q : xy) (w : vtx) (cores links : list nat) : Prop :=
  exists items, dget xy_eqb (cv_targets c) q = Some items /\ dget vtx_eqb items w = Some (cores, links).
(** The targets are dictionaries; their links are not links of the machine. *)
Record targets_ok (m : machine) (c : conv) : Prop := mkTOk {
  tk_dict : forall q items, dget xy_eqb (cv_targets c) q = Some items -> NoDup (map fst items);
  tk_links : forall q w cores links l, aims c q w cores links -> In l links -> l < 6 /\ is_link m q l = false }.

Lemma node_child : forall first q u l s, node_at first q u -> In (Some l, Sub s) (tchildren u) -> node_at first (tchip s) s.
Proof.
  intros first q u l s [_ [ip [il V]]] I. split; [reflexivity|]. exists None, (Some ((l + 3) mod 6)). econstructor; eassumption.
Qed.
Lemma node_root : forall first, node_at first (tchip first) first.
Proof. intros. split; [reflexivity|]. exists None, None. constructor. Qed.

Lemma follow : forall m first t k app v (extra : xy -> nat -> Prop), tree_on m first ->
  (forall q l, extra q l -> is_link m q l = false) ->
  (forall q u, node_at first q u -> exists e, route_for t k app v q = Some e /\
     forall l, l < 6 -> (has_link (re_route e) l = true <-> In l (hops u) \/ extra q l)) ->
  forall q, travels m t k app v (tchip first) q <-> exists u, node_at first q u.
Proof.
  intros m first t k app v extra TO EX EN q. split.
  - intros T. induction T as [|p e l q T [u N] R H W].
    + exists first. apply node_root.
    + destruct (EN p u N) as [e' [R' L]]. assert (e' = e) by congruence. subst e'.
      apply L in H; [|exact (proj1 W)]. destruct H as [H|H].
      * apply hops_In in H. destruct H as [s H]. exists s. pose proof (TO p u l s N H) as W'.
        assert (E : tchip s = q) by (destruct W as [_ [_ [W1 _]]]; destruct W' as [_ [_ [W2 _]]]; cbn [fst snd] in *; congruence).
        rewrite <- E. exact (node_child first p u l s N H).
      * exfalso. pose proof (EX p l H). destruct W as [_ [W _]]. cbn [fst] in W. congruence.
  - intros [u [E [ip [il V]]]]. subst q. remember (ip, il, u) as x eqn:X. revert ip il u X.
    induction V as [|ip il u l s V IH I]; intros ip' il' u' X.
    + injection X as _ _ <-. constructor.
    + injection X as <- <- <-. specialize (IH ip il u eq_refl).
      assert (N : node_at first (tchip u) u) by (split; [reflexivity | eauto]).
      destruct (EN _ u N) as [e [R L]]. pose proof (TO _ u l s N I) as W.
      refine (tv_hop _ _ _ _ _ _ _ e l _ IH R _ W). apply L; [exact (proj1 W)|]. left. apply hops_In. eauto.
Qed.

Lemma aims_gives : forall c q w cores links, (forall items, dget xy_eqb (cv_targets c) q = Some items -> NoDup (map fst items)) ->
  cv_use_source c = false \/ w = cv_source c -> aims c q w cores links -> gives c q w cores links.
Proof.
  intros c q w cores links ND M [items [A B]]. unfold gives. rewrite A. destruct (cv_use_source c).
  - destruct M as [M|M]; [discriminate|]. split; [exact M|]. rewrite <- M, B. reflexivity.
  - left. exact (dget_In _ vtx_eqb_eq _ _ _ B).
Qed.
Lemma gives_aims : forall c q w cores links, (forall items, dget xy_eqb (cv_targets c) q = Some items -> NoDup (map fst items)) ->
  gives c q w cores links -> aims c q w cores links \/ (cores = [] /\ links = []).
Proof.
  intros c q w cores links ND G. unfold gives in G. unfold aims.
  destruct (dget xy_eqb (cv_targets c) q) as [items|] eqn:D; [|right; tauto]. specialize (ND items eq_refl).
  destruct (cv_use_source c).
  - destruct G as [-> G]. destruct (dget vtx_eqb items (cv_source c)) as [cl|] eqn:E; [|right; exact G].
    left. exists items. subst cl. auto.
  - destruct G as [G|[_ [_ [a [v [_ [_ [_ [_ G]]]]]]]]]; [|right; exact G]. left. exists items. split; [reflexivity|].
    apply (dget_Some_iff _ vtx_eqb_eq); assumption.
Qed.

(** What the entry of one source on a chip of the tree has. *)
Lemma node_bits : forall m c t ip il first t' w q u, plain first -> consistent first -> targets_ok m c ->
  convert_a_route c t ip il first = Ok t' -> cv_use_source c = false \/ w = cv_source c ->
  node_at first q u -> get_entry t w (cv_part c) q = None ->
  forall e, get_entry t' w (cv_part c) q = Some e ->
    (forall l, l < 6 -> (has_link (re_route e) l = true <-> In l (hops u) \/ exists cores links, aims c q w cores links /\ In l links)) /\
    (forall p, has_proc (re_route e) p = true <-> exists cores links, aims c q w cores links /\ In p cores).
Proof.
  intros m c t ip il first t' w q u P CO [TD TL] H M N F e E.
  destruct (convert_entries c t ip il first t' P H w (cv_part c) q) as [EX BI].
  assert (G0 : exists cores links, gives c q w cores links).
  { destruct (proj1 EX) as [X|[_ [_ [cores [links [_ X]]]]]]; [congruence | congruence | eauto]. }
  assert (BIT : forall b, N.testbit (re_route e) (N.of_nat b) = true <->
     In b (hops u) \/ exists cores links, aims c q w cores links /\ (In b links \/ exists p, In p cores /\ b = 6 + p)).
  { intros b. assert (X : N.testbit (re_route e) (N.of_nat b) = true <-> has_bit t' w (cv_part c) q b).
    { unfold has_bit. split; [eauto|]. intros [e' [X Y]]. congruence. }
    rewrite X, BI. split.
    - intros [[o [Y _]]|[_ [u' [cores [links [N' [G Y]]]]]]]; [congruence|]. destruct Y as [Y|Y].
      + left. apply (CO q u' u N' N). exact Y.
      + destruct (gives_aims c q w cores links (TD q) G) as [A|[-> ->]]; [right; eauto|]. destruct Y as [[]|[p [[] _]]].
    - intros Y. right. split; [reflexivity|]. exists u. destruct Y as [Y|[cores [links [A Y]]]].
      + destruct G0 as [cores [links G]]. exists cores, links. auto.
      + exists cores, links. split; [exact N|]. split; [exact (aims_gives c q w cores links (TD q) M A) | tauto]. }
  assert (HL : forall l, In l (hops u) -> l < 6).
  { intros l X. apply hops_In in X. destruct X as [s X]. destruct N as [_ [ip' [il' V]]].
    destruct (P ip' il' u V (Some l) (Sub s) X) as [l' [s' [X1 [_ X2]]]]. injection X1 as <-. exact X2. }
  split.
  - intros l L. unfold has_link. rewrite BIT. apply or_iff_compat_l. split.
    + intros [cores [links [A [Y|[p [_ Y]]]]]]; [eauto | lia].
    + intros [cores [links [A Y]]]. eauto.
  - intros p. unfold has_proc. rewrite BIT. split.
    + intros [Y|[cores [links [A [Y|[p' [Y1 Y2]]]]]]].
      * apply HL in Y. lia.
      * destruct (TL q w cores links _ A Y). lia.
      * assert (p' = p) by lia. subst. eauto.
    + intros [cores [links [A Y]]]. right. exists cores, links. split; [exact A|]. right. eauto.
Qed.

Lemma convert_exclusive : forall c t ip il first t', ve_ok (cv_env c) -> exclusive (cv_env c) t -> plain first ->
  convert_a_route c t ip il first = Ok t' -> exclusive (cv_env c) t'.
Proof.
  intros c t ip il first t' V X P H. unfold convert_a_route in H.
  assert (PV : forall v, In v [(ip, il, first)] -> plain_visit v) by (intros v [<-|[]]; exact P).
  destruct (convert_calls _ c t _ t' PV H) as [calls [C1 _]]. exact (add_all_exclusive _ _ _ _ _ V X C1).
Qed.

(** A whole application vertex. *)
Lemma app_follow : forall m c t ip il first t' a v,
  ve_ok (cv_env c) -> exclusive (cv_env c) t -> plain first -> tree_on m first -> consistent first -> targets_ok m c ->
  cv_source c = App a -> cv_use_source c = false -> cv_ensure c = true ->
  ve_app (cv_env c) v = Some a -> In v (cv_out c a) ->
  (forall q b cores links, aims c q (App b) cores links -> b = a) ->
  (forall q u, node_at first q u -> get_entry t (App a) (cv_part c) q = None /\ get_entry t (Mac v) (cv_part c) q = None) ->
  convert_a_route c t ip il first = Ok t' ->
  (forall q, travels m t' (cv_part c) (Some a) v (tchip first) q <-> exists u, node_at first q u) /\
  (forall q u, node_at first q u -> exists e, route_for t' (cv_part c) (Some a) v q = Some e /\
     (forall l, l < 6 -> (has_link (re_route e) l = true <->
        In l (hops u) \/ exists w cores links, (w = App a \/ w = Mac v) /\ aims c q w cores links /\ In l links)) /\
     (forall p, has_proc (re_route e) p = true <->
        exists w cores links, (w = App a \/ w = Mac v) /\ aims c q w cores links /\ In p cores)).
Proof.
  intros m c t ip il first t' a v V X P TO CO TK SO US EN VA OUT AB FR H.
  assert (X' := convert_exclusive c t ip il first t' V X P H).
  assert (ENT := convert_entries c t ip il first t' P H).
  assert (CORE : forall q u, node_at first q u -> exists e, route_for t' (cv_part c) (Some a) v q = Some e /\
     (forall l, l < 6 -> (has_link (re_route e) l = true <->
        In l (hops u) \/ exists w cores links, (w = App a \/ w = Mac v) /\ aims c q w cores links /\ In l links)) /\
     (forall p, has_proc (re_route e) p = true <->
        exists w cores links, (w = App a \/ w = Mac v) /\ aims c q w cores links /\ In p cores)).
  { intros q u N. destruct (FR q u N) as [FA FM].
    assert (NOA : forall w cores links, w = App a \/ w = Mac v -> aims c q w cores links -> get_entry t' w (cv_part c) q <> None).
    { intros w cores links W A. apply (proj1 (ENT w (cv_part c) q)). right. split; [reflexivity|]. exists u, cores, links. split; [exact N|].
      apply aims_gives; [exact (tk_dict m c TK q) | left; exact US | exact A]. }
    assert (SOME : get_entry t' (App a) (cv_part c) q <> None \/ get_entry t' (Mac v) (cv_part c) q <> None).
    { destruct (dget xy_eqb (cv_targets c) q) as [items|] eqn:D.
      - destruct (existsb (fun i => is_app (fst i)) items) eqn:A.
        + left. apply has_app in A. destruct A as [b [[cores links] A]].
          assert (AI : aims c q (App b) cores links).
          { exists items. split; [exact D|]. apply (dget_Some_iff _ vtx_eqb_eq); [exact (tk_dict m c TK q items D) | exact A]. }
          rewrite (AB _ _ _ _ AI) in AI. apply (NOA (App a) cores links); auto.
        + right. destruct (existsb (fun i => vtx_eqb (fst i) (Mac v)) items) eqn:B.
          * apply has_mac in B. destruct B as [[cores links] B]. apply (NOA (Mac v) cores links); [auto|].
            exists items. split; [exact D|]. apply (dget_Some_iff _ vtx_eqb_eq); [exact (tk_dict m c TK q items D) | exact B].
          * apply (proj1 (ENT (Mac v) (cv_part c) q)). right. split; [reflexivity|]. exists u, [], []. split; [exact N|].
            unfold gives. rewrite D, US. right. split; [exact EN|]. split.
            -- intros b x Y. assert (existsb (fun i => is_app (fst i)) items = true) by (apply has_app; eauto). congruence.
            -- exists a, v. split; [exact SO|]. split; [reflexivity|]. split; [exact OUT|]. split; [|auto]. intros x Y.
               assert (existsb (fun i => vtx_eqb (fst i) (Mac v)) items = true) by (apply has_mac; eauto). congruence.
      - left. apply (proj1 (ENT (App a) (cv_part c) q)). right. split; [reflexivity|]. exists u, [], []. split; [exact N|].
        unfold gives. rewrite D. auto. }
    assert (INV : In v (ve_macs (cv_env c) a)) by (apply V; exact VA).
    unfold route_for. destruct (get_entry t' (Mac v) (cv_part c) q) as [e|] eqn:EM.
    - exists e. split; [reflexivity|].
      assert (NA : get_entry t' (App a) (cv_part c) q = None).
      { destruct (get_entry t' (App a) (cv_part c) q) as [x|] eqn:EA; [|reflexivity].
        rewrite (X' q (cv_part c) a v INV) in EM; [discriminate | congruence]. }
      destruct (node_bits m c t ip il first t' (Mac v) q u P CO TK H (or_introl US) N FM e EM) as [B1 B2].
      split.
      + intros l L. rewrite (B1 l L). apply or_iff_compat_l. split.
        * intros [cores [links [A I]]]. exists (Mac v), cores, links. auto.
        * intros [w [cores [links [[-> | ->] [A I]]]]]; [exfalso; apply (NOA (App a) cores links); auto | eauto].
      + intros p. rewrite (B2 p). split.
        * intros [cores [links [A I]]]. exists (Mac v), cores, links. auto.
        * intros [w [cores [links [[-> | ->] [A I]]]]]; [exfalso; apply (NOA (App a) cores links); auto | eauto].
    - destruct SOME as [SO'|SO']; [|congruence].
      destruct (get_entry t' (App a) (cv_part c) q) as [e|] eqn:EA; [|congruence]. exists e. split; [reflexivity|].
      destruct (node_bits m c t ip il first t' (App a) q u P CO TK H (or_introl US) N FA e EA) as [B1 B2].
      split.
      + intros l L. rewrite (B1 l L). apply or_iff_compat_l. split.
        * intros [cores [links [A I]]]. exists (App a), cores, links. auto.
        * intros [w [cores [links [[-> | ->] [A I]]]]]; [eauto | exfalso; apply (NOA (Mac v) cores links); auto].
      + intros p. rewrite (B2 p). split.
        * intros [cores [links [A I]]]. exists (App a), cores, links. auto.
        * intros [w [cores [links [[-> | ->] [A I]]]]]; [eauto | exfalso; apply (NOA (Mac v) cores links); auto]. }
  split; [|exact CORE].
  apply (follow m first t' (cv_part c) (Some a) v
    (fun q l => exists w cores links, (w = App a \/ w = Mac v) /\ aims c q w cores links /\ In l links) TO).
  - intros q l [w [cores [links [_ [A I]]]]]. exact (proj2 (tk_links m c TK q w cores links l A I)).
  - intros q u N. destruct (CORE q u N) as [e [R [L _]]]. eauto.
Qed.

(** One machine vertex. *)
Lemma mac_follow : forall m c t ip il first t' app v,
  plain first -> tree_on m first -> consistent first -> targets_ok m c ->
  cv_source c = Mac v -> cv_use_source c = true \/ cv_targets c = [] ->
  (forall q u, node_at first q u -> get_entry t (Mac v) (cv_part c) q = None) ->
  convert_a_route c t ip il first = Ok t' ->
  (forall q, travels m t' (cv_part c) app v (tchip first) q <-> exists u, node_at first q u) /\
  (forall q u, node_at first q u -> exists e, route_for t' (cv_part c) app v q = Some e /\
     (forall l, l < 6 -> (has_link (re_route e) l = true <->
        In l (hops u) \/ exists cores links, aims c q (Mac v) cores links /\ In l links)) /\
     (forall p, has_proc (re_route e) p = true <-> exists cores links, aims c q (Mac v) cores links /\ In p cores)) /\
  (forall w q, w <> Mac v -> get_entry t' w (cv_part c) q = None <-> get_entry t w (cv_part c) q = None).
Proof.
  intros m c t ip il first t' app v P TO CO TK SO US FR H.
  assert (ENT := convert_entries c t ip il first t' P H).
  assert (GV : forall q w cores links, gives c q w cores links -> w = Mac v).
  { intros q w cores links G. unfold gives in G. destruct (dget xy_eqb (cv_targets c) q) as [items|] eqn:D; [|rewrite <- SO; tauto].
    destruct US as [US|US]; [rewrite US in G; rewrite <- SO; tauto | rewrite US in D; discriminate]. }
  assert (CORE : forall q u, node_at first q u -> exists e, route_for t' (cv_part c) app v q = Some e /\
     (forall l, l < 6 -> (has_link (re_route e) l = true <->
        In l (hops u) \/ exists cores links, aims c q (Mac v) cores links /\ In l links)) /\
     (forall p, has_proc (re_route e) p = true <-> exists cores links, aims c q (Mac v) cores links /\ In p cores)).
  { intros q u N.
    assert (SOME : get_entry t' (Mac v) (cv_part c) q <> None).
    { apply (proj1 (ENT (Mac v) (cv_part c) q)). right. split; [reflexivity|].
      destruct (dget xy_eqb (cv_targets c) q) as [items|] eqn:D.
      - destruct US as [US|US]; [|rewrite US in D; discriminate].
        destruct (dget vtx_eqb items (Mac v)) as [[cores links]|] eqn:E.
        + exists u, cores, links. split; [exact N|]. unfold gives. rewrite D, US, SO, E. auto.
        + exists u, [], []. split; [exact N|]. unfold gives. rewrite D, US, SO, E. auto.
      - exists u, [], []. split; [exact N|]. unfold gives. rewrite D, SO. auto. }
    unfold route_for. destruct (get_entry t' (Mac v) (cv_part c) q) as [e|] eqn:EM; [|congruence].
    exists e. split; [reflexivity|].
    apply (node_bits m c t ip il first t' (Mac v) q u P CO TK H (or_intror (eq_sym SO)) N (FR q u N) e EM). }
  split; [|split; [exact CORE|]].
  - apply (follow m first t' (cv_part c) app v (fun q l => exists cores links, aims c q (Mac v) cores links /\ In l links) TO).
    + intros q l [cores [links [A I]]]. exact (proj2 (tk_links m c TK q _ cores links l A I)).
    + intros q u N. destruct (CORE q u N) as [e [R [L _]]]. eauto.
  - intros w q W. destruct (ENT w (cv_part c) q) as [E _].
    assert (NG : ~ exists u cores links, node_at first q u /\ gives c q w cores links).
    { intros [u [cores [links [_ G]]]]. exact (W (GV q w cores links G)). }
    destruct (get_entry t' w (cv_part c) q), (get_entry t w (cv_part c) q); split; intros Z; try congruence; exfalso.
    + destruct (proj1 E) as [Y|[_ Y]]; [discriminate | congruence | tauto].
    + assert (Y : None <> @None rentry) by (apply E; left; discriminate). congruence.
Qed.

(** * The trees of the routes dictionary *)
(** Each node has the children that the dictionary has for its chip. *)
Definition represents (r : routes) (first : tree) : Prop :=
  forall q u, node_at first q u -> exists cs, dget xy_eqb r q = Some cs /\
    map (fun dc => match snd dc with Sub s => (fst dc, Some (tchip s)) | Vertex _ => (fst dc, None) end) (tchildren u) =
    map (fun c => (Some (fst c), Some (snd c))) cs.

(** Steps are over working links to chips of the dictionary, and there is no cycle. *)
Definition sound_routes (m : machine) (r : routes) : Prop :=
  (forall p l q, child r p l q -> works m p (l, q) /\ known r q) /\
  (forall q l x, child r q l x -> ~ descends r x q).
Lemma tree_sound : forall m root r, is_tree m root r -> sound_routes m r.
Proof. intros m root r T. split; [exact (tr_edge _ _ _ T)|]. intros q l x C. exact (tree_acyclic m root r q l x T C). Qed.

Lemma unfold_represents : forall m r, sound_routes m r -> forall n P p,
  NoDup (p :: P) -> (forall x, In x (p :: P) -> known r x /\ descends r x p) -> length r <= n + length P ->
  represents r (unfold_routes n r p).
Proof.
  intros m r [TE TA]. induction n as [|n IH]; intros P p ND K L.
  - exfalso. assert (LE : length (p :: P) <= length (map fst r)).
    { apply NoDup_incl_length; [exact ND|]. intros x X. pose proof (proj1 (K x X)) as KX. unfold known in KX.
      destruct (dget xy_eqb r x) as [cs|] eqn:E; [|congruence]. apply (dget_In _ xy_eqb_eq) in E.
      apply in_map_iff. exists (x, cs). auto. }
    rewrite map_length in LE. cbn [length] in LE. lia.
  - intros q u [N1 [ip [il V]]].
    destruct (visits_split _ _ _ _ V) as [E|[l [s [I V']]]].
    + injection E as -> -> ->. subst q. cbn [unfold_routes tchip tchildren].
      destruct (K p (or_introl eq_refl)) as [KP _]. unfold known in KP. destruct (dget xy_eqb r p) as [cs|]; [|congruence].
      exists cs. split; [reflexivity|]. rewrite map_map. apply map_ext. intros [l q]. cbn. destruct n; reflexivity.
    + cbn [unfold_routes tchildren] in I. apply in_map_iff in I. destruct I as [[l' x] [E I]]. cbn [fst snd] in E. injection E as -> <-.
      assert (CH : child r p l x).
      { unfold child. destruct (dget xy_eqb r p) as [cs|]; [eauto | destruct I]. }
      assert (SUB : represents r (unfold_routes n r x)).
      { apply (IH (p :: P)).
        - constructor; [|exact ND]. intros X. destruct (K x X) as [_ D]. exact (TA _ _ _ CH D).
        - intros y [<-|Y]; [split; [exact (proj2 (TE _ _ _ CH)) | constructor]|].
          destruct (K y Y) as [KY DY]. split; [exact KY|]. econstructor; eassumption.
        - cbn [length]. lia. }
      apply (SUB q u). split; [exact N1|]. destruct (visits_root _ _ _ _ V' (None, None, unfold_routes n r x) eq_refl) as [a [b W]]. eauto.
Qed.

Lemma tree_of_represents : forall m r p, sound_routes m r -> known r p -> represents r (tree_of r p).
Proof.
  intros m r p T K. apply (unfold_represents m r T (length r) [] p).
  - constructor; [intros [] | constructor].
  - intros x [<-|[]]. split; [exact K | constructor].
  - cbn. lia.
Qed.

Lemma represents_children : forall r first, represents r first -> forall q u l s, node_at first q u ->
  In (Some l, Sub s) (tchildren u) -> child r q l (tchip s).
Proof.
  intros r first R q u l s N I. destruct (R q u N) as [cs [D E]]. exists cs. split; [exact D|].
  assert (X : In (Some l, Some (tchip s)) (map (fun c : nat * xy => (Some (fst c), Some (snd c))) cs)).
  { rewrite <- E. apply in_map_iff. exists (Some l, Sub s). auto. }
  apply in_map_iff in X. destruct X as [[l' x] [Y X]]. cbn [fst snd] in Y. injection Y as -> ->. exact X.
Qed.
Lemma represents_complete : forall r first, represents r first -> forall q u l x, node_at first q u -> child r q l x ->
  exists s, In (Some l, Sub s) (tchildren u) /\ tchip s = x.
Proof.
  intros r first R q u l x N [cs [D I]]. destruct (R q u N) as [cs' [D' E]]. assert (cs' = cs) by congruence. subst cs'.
  assert (X : In (Some l, Some x) (map (fun c : nat * xy => (Some (fst c), Some (snd c))) cs)) by (apply in_map_iff; exists (l, x); auto).
  rewrite <- E in X. apply in_map_iff in X. destruct X as [[d [s|v]] [Y X]]; cbn [fst snd] in Y; [|discriminate].
  injection Y as -> <-. eauto.
Qed.

Lemma tree_of_sound : forall m r p, sound_routes m r -> known r p ->
  let first := tree_of r p in
  plain first /\ tree_on m first /\ consistent first /\ tchip first = p /\
  (forall q, (exists u, node_at first q u) <-> descends r p q) /\
  (forall q u, node_at first q u -> forall l, In l (hops u) <-> exists x, child r q l x).
Proof.
  intros m r p T K first. pose proof (tree_of_represents m r p T K) as R. fold first in R. destruct T as [TE _].
  assert (HO : forall q u, node_at first q u -> forall l, In l (hops u) <-> exists x, child r q l x).
  { intros q u N l. rewrite hops_In. split.
    - intros [s I]. exists (tchip s). exact (represents_children r first R q u l s N I).
    - intros [x C]. destruct (represents_complete r first R q u l x N C) as [s [I _]]. eauto. }
  assert (CH : tchip first = p) by (unfold first, tree_of; destruct (length r); reflexivity).
  split; [|split; [|split; [|split; [|split]]]].
  - intros ip il u V d c I. assert (N : node_at first (tchip u) u) by (split; [reflexivity | eauto]).
    destruct (R _ u N) as [cs [D E]].
    assert (X : In (match c with Sub s => (d, Some (tchip s)) | Vertex _ => (d, None) end) (map (fun c : nat * xy => (Some (fst c), Some (snd c))) cs)).
    { rewrite <- E. apply in_map_iff. exists (d, c). split; [destruct c; reflexivity | exact I]. }
    apply in_map_iff in X. destruct X as [[l x] [Y X]]. cbn [fst snd] in Y. destruct c as [s|v]; [|discriminate].
    injection Y as <- Y2. exists l, s. split; [reflexivity|]. split; [reflexivity|].
    assert (C : child r (tchip u) l (tchip s)) by (exists cs; rewrite <- Y2; auto). exact (proj1 (proj1 (TE _ _ _ C))).
  - intros q u l s N I. exact (proj1 (TE _ _ _ (represents_children r first R q u l s N I))).
  - intros q u u' N N' l. rewrite (HO q u N), (HO q u' N'). tauto.
  - exact CH.
  - intros q. split.
    + intros [u [E [ip [il V]]]]. subst q. remember (ip, il, u) as x eqn:X. revert ip il u X.
      induction V as [|ip il u l s V IH I]; intros ip' il' u' X; injection X as <- <- <-.
      * rewrite CH. constructor.
      * econstructor; [exact (IH ip il u eq_refl)|].
        apply (represents_children r first R (tchip u) u l s); [split; [reflexivity | eauto] | exact I].
    + intros D. induction D as [|q l x D [u N] C].
      * exists first. rewrite <- CH. apply node_root.
      * destruct (represents_complete r first R q u l x N C) as [s [I <-]]. exists s. exact (node_child first q u l s N I).
  - exact HO.
Qed.
Lemma tree_of_ok : forall m root r p, is_tree m root r -> known r p ->
  let first := tree_of r p in
  plain first /\ tree_on m first /\ consistent first /\ tchip first = p /\
  (forall q, (exists u, node_at first q u) <-> descends r p q) /\
  (forall q u, node_at first q u -> forall l, In l (hops u) <-> exists x, child r q l x).
Proof. intros m root r p T K. exact (tree_of_sound m r p (tree_sound m root r T) K). Qed.
