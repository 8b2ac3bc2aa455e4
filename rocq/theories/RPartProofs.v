(** Proofs about the routing table by partition. *)
From Coq Require Import List ZArith NArith Arith Bool Lia.
From Verif Require Import Base Dict TreeModel MachModel PathProofs RPartModel.
Import ListNotations.
Local Open Scope nat_scope.

Lemma vtx_eqb_eq : forall a b, vtx_eqb a b = true <-> a = b.
Proof.
  intros [a|a] [b|b]; cbn; rewrite ?Nat.eqb_eq; split; intro H; try discriminate; congruence.
Qed.
Lemma skey_eqb_eq : forall a b, skey_eqb a b = true <-> a = b.
Proof.
  intros [a1 a2] [b1 b2]. unfold skey_eqb. cbn [fst snd]. rewrite andb_true_iff, vtx_eqb_eq, Nat.eqb_eq.
  split; [intros [-> ->]; reflexivity | intros H; injection H as -> ->; auto].
Qed.

Lemma bits_of_spec : forall l b, N.testbit (bits_of l) (N.of_nat b) = true <-> In b l.
Proof.
  induction l as [|x l IH]; intros b; cbn [bits_of In].
  - rewrite N.bits_0. split; [discriminate | tauto].
  - rewrite N.setbit_eqb, orb_true_iff, N.eqb_eq, IH. split.
    + intros [H|H]; [left; lia | right; exact H].
    + intros [->|H]; [left; reflexivity | right; exact H].
Qed.

Lemma route_of_link : forall links procs l, l < 6 -> (has_link (route_of links procs) l = true <-> In l links).
Proof.
  intros links procs l H. unfold has_link, route_of. rewrite bits_of_spec, in_app_iff. split; [|auto].
  intros [X|X]; [exact X|]. apply in_map_iff in X. destruct X as [p [E _]]. lia.
Qed.
Lemma route_of_proc : forall links procs p, (forall l, In l links -> l < 6) ->
  (has_proc (route_of links procs) p = true <-> In p procs).
Proof.
  intros links procs p H. unfold has_proc, route_of. rewrite bits_of_spec, in_app_iff. split.
  - intros [X|X]; [specialize (H _ X); lia|]. apply in_map_iff in X. destruct X as [q [E X]].
    assert (q = p) by lia. subst. exact X.
  - intros X. right. apply in_map_iff. eauto.
Qed.

Lemma get_entry_set : forall t p d src part q s k,
  get_entry (dset xy_eqb t p (dset skey_eqb (match dget xy_eqb t p with Some d => d | None => [] end) (src, part) d)) s k q =
  if xy_eqb p q && skey_eqb (src, part) (s, k) then Some d else get_entry t s k q.
Proof.
  intros. unfold get_entry. rewrite (dget_dset _ xy_eqb_eq). destruct (xy_eqb p q) eqn:E; cbn [andb].
  - apply xy_eqb_eq in E. subst q. rewrite (dget_dset _ skey_eqb_eq).
    destruct (skey_eqb (src, part) (s, k)); [reflexivity|]. destruct (dget xy_eqb t p); reflexivity.
  - reflexivity.
Qed.

Lemma dmem_get : forall t p s k,
  dmem skey_eqb (match dget xy_eqb t p with Some d => d | None => [] end) (s, k) = true <-> get_entry t s k p <> None.
Proof.
  intros. unfold dmem, get_entry. destruct (dget xy_eqb t p) as [d|]; [|cbn; split; [discriminate | congruence]].
  destruct (dget skey_eqb d (s, k)); split; congruence.
Qed.

(** The clash that makes a call raise. *)
Definition clashes (ve : venv) (t : rtable) (p : xy) (src : vtx) (part : nat) : Prop :=
  match src with
  | App a => exists v, In v (ve_macs ve a) /\ get_entry t (Mac v) part p <> None
  | Mac v => exists a, ve_app ve v = Some a /\ get_entry t (App a) part p <> None
  end.

Lemma add_path_entry_spec : forall ve t e p src part,
  match add_path_entry ve t e p src part with
  | Ok t' => ~ clashes ve t p src part /\
      (forall s k q, get_entry t' s k q =
         if xy_eqb p q && skey_eqb (src, part) (s, k)
         then Some (match get_entry t src part p with Some old => re_merge e old | None => e end)
         else get_entry t s k q) /\
      (forall q, In q (get_routers t') <-> q = p \/ In q (get_routers t))
  | Err x => x = InvalidParameter /\ clashes ve t p src part
  end.
Proof.
  intros ve t e p src part. unfold add_path_entry.
  match goal with |- context [if ?c then _ else _] => destruct c eqn:C end.
  - split; [reflexivity|]. destruct src as [a|v]; cbn [clashes].
    + apply existsb_exists in C. destruct C as [v [H1 H2]]. exists v. split; [exact H1|]. apply dmem_get. exact H2.
    + destruct (ve_app ve v) as [a|]; [|discriminate]. exists a. split; [reflexivity|]. apply dmem_get. exact C.
  - split; [|split].
    + intros K. destruct src as [a|v]; cbn [clashes] in K.
      * destruct K as [v [H1 H2]]. apply dmem_get in H2.
        assert (X : existsb (fun v => dmem skey_eqb match dget xy_eqb t p with Some d => d | None => [] end (Mac v, part)) (ve_macs ve a) = true)
          by (apply existsb_exists; eauto).
        rewrite X in C. discriminate.
      * destruct K as [a [H1 H2]]. rewrite H1 in C. apply dmem_get in H2. congruence.
    + intros s k q. rewrite get_entry_set. destruct (xy_eqb p q && skey_eqb (src, part) (s, k)); [|reflexivity].
      f_equal. unfold get_entry. destruct (dget xy_eqb t p); reflexivity.
    + intros q. unfold get_routers. rewrite <- !(dmem_true _ xy_eqb_eq). unfold dmem. rewrite (dget_dset _ xy_eqb_eq).
      destruct (xy_eqb p q) eqn:E.
      * apply xy_eqb_eq in E. subst. split; auto.
      * assert (p <> q) by (rewrite <- xy_eqb_eq; congruence). split; [auto|]. intros [X|X]; [congruence | exact X].
Qed.

(** The entries added for one router, source and partition by the calls that did not raise. *)
Fixpoint added (calls : list addcall) (oks : list bool) (s : vtx) (k : nat) (q : xy) : list rentry :=
  match calls, oks with
  | c :: calls', true :: oks' =>
      if xy_eqb (ac_xy c) q && skey_eqb (ac_src c, ac_part c) (s, k)
      then ac_entry c :: added calls' oks' s k q else added calls' oks' s k q
  | _ :: calls', false :: oks' => added calls' oks' s k q
  | _, _ => []
  end.

Definition joined (es : list rentry) : N := fold_right (fun e r => N.lor (re_route e) r) 0%N es.

Lemma add_all_gen : forall ve calls t t' oks, add_all ve t calls = (t', oks) ->
  length oks = length calls /\
  forall s k q,
    match get_entry t' s k q with
    | None => get_entry t s k q = None /\ added calls oks s k q = []
    | Some e => re_route e = N.lor (joined (added calls oks s k q)) (match get_entry t s k q with Some o => re_route o | None => 0%N end) /\
        (get_entry t s k q <> None \/ added calls oks s k q <> [])
    end.
Proof.
  induction calls as [|c calls IH]; intros t t' oks H; cbn [add_all] in H.
  - injection H as <- <-. split; [reflexivity|]. intros s k q. cbn [added joined fold_right].
    destruct (get_entry t s k q); [|auto]. rewrite N.lor_0_l. split; [reflexivity | left; congruence].
  - pose proof (add_path_entry_spec ve t (ac_entry c) (ac_xy c) (ac_src c) (ac_part c)) as SP.
    destruct (add_path_entry ve t (ac_entry c) (ac_xy c) (ac_src c) (ac_part c)) as [t1|x] eqn:A.
    + destruct (add_all ve t1 calls) as [t2 oks2] eqn:R. injection H as <- <-.
      destruct (IH _ _ _ R) as [L G]. split; [cbn; rewrite L; reflexivity|].
      destruct SP as [_ [SP _]].
      intros s k q. specialize (G s k q). rewrite SP in G. cbn [added].
      destruct (xy_eqb (ac_xy c) q && skey_eqb (ac_src c, ac_part c) (s, k)) eqn:E.
      * apply andb_true_iff in E. destruct E as [E1 E2]. apply xy_eqb_eq in E1. apply skey_eqb_eq in E2.
        injection E2 as E2 E3. subst q s k.
        destruct (get_entry t2 (ac_src c) (ac_part c) (ac_xy c)) as [e|] eqn:T2; [|destruct G; discriminate].
        destruct G as [G _]. split; [|right; discriminate]. rewrite G. cbn [joined fold_right].
        fold (joined (added calls oks2 (ac_src c) (ac_part c) (ac_xy c))).
        destruct (get_entry t (ac_src c) (ac_part c) (ac_xy c)) as [o|]; cbn [re_merge re_route].
        -- rewrite N.lor_assoc. f_equal. apply N.lor_comm.
        -- rewrite N.lor_0_r. apply N.lor_comm.
      * exact G.
    + destruct (add_all ve t calls) as [t2 oks2] eqn:R. injection H as <- <-.
      destruct (IH _ _ _ R) as [L G]. split; [cbn; rewrite L; reflexivity|]. exact G.
Qed.

Lemma add_all_union : forall ve calls t oks, add_all ve [] calls = (t, oks) ->
  length oks = length calls /\
  forall s k q,
    match get_entry t s k q with
    | None => added calls oks s k q = []
    | Some e => re_route e = joined (added calls oks s k q) /\ added calls oks s k q <> []
    end.
Proof.
  intros ve calls t oks H. destruct (add_all_gen _ _ _ _ _ H) as [L G]. split; [exact L|].
  intros s k q. specialize (G s k q). change (get_entry [] s k q) with (@None rentry) in G.
  destruct (get_entry t s k q) as [e|].
  - destruct G as [G1 [G2|G2]]; [congruence|]. rewrite N.lor_0_r in G1. split; assumption.
  - exact (proj2 G).
Qed.

Lemma joined_bit : forall es b, N.testbit (joined es) b = true <-> exists e, In e es /\ N.testbit (re_route e) b = true.
Proof.
  induction es as [|e es IH]; intros b; cbn [joined fold_right].
  - rewrite N.bits_0. split; [discriminate | intros [e [[] _]]].
  - rewrite N.lor_spec, orb_true_iff. fold (joined es). rewrite IH. split.
    + intros [H|[x [H1 H2]]]; [exists e; split; [left; reflexivity | exact H] | exists x; split; [right; exact H1 | exact H2]].
    + intros [x [[<-|H1] H2]]; [left; exact H2 | right; eauto].
Qed.

(** The two ways of going between machine and application vertices agree. *)
Definition ve_ok (ve : venv) : Prop := forall a v, In v (ve_macs ve a) <-> ve_app ve v = Some a.

Definition exclusive (ve : venv) (t : rtable) : Prop := forall p k a v, In v (ve_macs ve a) ->
  get_entry t (App a) k p <> None -> get_entry t (Mac v) k p = None.

Lemma add_exclusive : forall ve t e p src part t', ve_ok ve -> exclusive ve t ->
  add_path_entry ve t e p src part = Ok t' -> exclusive ve t'.
Proof.
  intros ve t e p src part t' V X H. pose proof (add_path_entry_spec ve t e p src part) as SP. rewrite H in SP.
  destruct SP as [NC [SP _]]. intros q k a v Hv Ha. rewrite SP in *.
  destruct (xy_eqb p q) eqn:E; cbn [andb] in *; [|exact (X q k a v Hv Ha)].
  apply xy_eqb_eq in E. subst q.
  destruct (skey_eqb (src, part) (Mac v, k)) eqn:E1.
  - exfalso. apply skey_eqb_eq in E1. injection E1 as -> ->. cbn in Ha.
    apply NC. exists a. split; [apply V; exact Hv|]. exact Ha.
  - destruct (skey_eqb (src, part) (App a, k)) eqn:E2; [|exact (X p k a v Hv Ha)].
    apply skey_eqb_eq in E2. injection E2 as -> ->.
    destruct (get_entry t (Mac v) k p) eqn:G; [|reflexivity]. exfalso. apply NC. exists v. split; [exact Hv | congruence].
Qed.

Lemma add_all_exclusive : forall ve calls t t' oks, ve_ok ve -> exclusive ve t ->
  add_all ve t calls = (t', oks) -> exclusive ve t'.
Proof.
  induction calls as [|c calls IH]; intros t t' oks V X H; cbn [add_all] in H.
  - injection H as <- <-. exact X.
  - destruct (add_path_entry ve t (ac_entry c) (ac_xy c) (ac_src c) (ac_part c)) as [t1|x] eqn:A.
    + destruct (add_all ve t1 calls) as [t2 oks2] eqn:R. injection H as <- <-.
      apply (IH t1 t2 oks2 V); [|exact R]. exact (add_exclusive _ _ _ _ _ _ _ V X A).
    + destruct (add_all ve t calls) as [t2 oks2] eqn:R. injection H as <- <-. exact (IH t t2 oks2 V X R).
Qed.

Lemma empty_exclusive : forall ve, exclusive ve [].
Proof. intros ve p k a v _ H. reflexivity. Qed.

Lemma added_In : forall calls oks s k q e, In e (added calls oks s k q) <->
  exists i c, nth_error calls i = Some c /\ nth_error oks i = Some true /\
    ac_xy c = q /\ ac_src c = s /\ ac_part c = k /\ ac_entry c = e.
Proof.
  induction calls as [|c calls IH]; intros oks s k q e.
  - cbn [added]. split; [intros [] | intros [i [c [H _]]]; destruct i; discriminate].
  - assert (SH : forall (o : bool) oks', (exists i c', nth_error (c :: calls) (S i) = Some c' /\ nth_error (o :: oks') (S i) = Some true /\
       ac_xy c' = q /\ ac_src c' = s /\ ac_part c' = k /\ ac_entry c' = e) <-> In e (added calls oks' s k q)).
    { intros o oks'. rewrite IH. reflexivity. }
    destruct oks as [|[|] oks].
    + cbn [added]. split; [intros [] | intros [i [c' [_ [H _]]]]; destruct i; discriminate].
    + cbn [added]. specialize (SH true oks).
      destruct (xy_eqb (ac_xy c) q && skey_eqb (ac_src c, ac_part c) (s, k)) eqn:E.
      * apply andb_true_iff in E. destruct E as [E1 E2]. apply xy_eqb_eq in E1. apply skey_eqb_eq in E2.
        injection E2 as E2 E3. cbn [In]. rewrite <- SH. split.
        -- intros [H|[i H]]; [exists 0, c; cbn; auto 8 | exists (S i); exact H].
        -- intros [[|i] [c' H]]; [|right; exists i, c'; exact H]. left. cbn in H. destruct H as [H1 [_ [_ [_ [_ H2]]]]]. congruence.
      * rewrite <- SH. split.
        -- intros [i H]. exists (S i). exact H.
        -- intros [[|i] [c' H]]; [|exists i, c'; exact H]. exfalso. cbn in H. destruct H as [H1 [_ [H2 [H3 [H4 _]]]]].
           injection H1 as <-. subst. rewrite (proj2 (xy_eqb_eq _ _) eq_refl), (proj2 (skey_eqb_eq _ _) eq_refl) in E. discriminate.
    + cbn [added]. specialize (SH false oks). rewrite <- SH. split.
      * intros [i H]. exists (S i). exact H.
      * intros [[|i] [c' H]]; [|exists i, c'; exact H]. cbn in H. destruct H as [_ [H _]]. discriminate.
Qed.

(** The union of what was added, in terms of the calls. *)
Lemma add_all_spec : forall ve calls t oks, add_all ve [] calls = (t, oks) ->
  length oks = length calls /\
  forall s k q,
    let made c := exists i, nth_error calls i = Some c /\ nth_error oks i = Some true /\
                    ac_xy c = q /\ ac_src c = s /\ ac_part c = k in
    (get_entry t s k q <> None <-> exists c, made c) /\
    forall e, get_entry t s k q = Some e ->
      forall b, N.testbit (re_route e) b = true <-> exists c, made c /\ N.testbit (re_route (ac_entry c)) b = true.
Proof.
  intros ve calls t oks H. destruct (add_all_union _ _ _ _ H) as [L G]. split; [exact L|]. intros s k q made.
  specialize (G s k q).
  assert (M : forall e, In e (added calls oks s k q) <-> exists c, made c /\ ac_entry c = e).
  { intros e. rewrite added_In. unfold made. split.
    - intros [i [c [A [B [C [D [E F]]]]]]]. exists c. split; [exists i; auto 6 | exact F].
    - intros [c [[i [A [B [C [D E]]]]] F]]. exists i, c. auto 8. }
  split.
  - destruct (get_entry t s k q) as [e|].
    + destruct G as [_ G]. split; [|congruence]. intros _. destruct (added calls oks s k q) as [|x l] eqn:A; [congruence|].
      destruct (proj1 (M x) (or_introl eq_refl)) as [c [Mc _]]. exists c. exact Mc.
    + split; [congruence|]. intros [c Mc]. exfalso.
      assert (X : In (ac_entry c) (added calls oks s k q)) by (apply M; eauto). rewrite G in X. exact X.
  - intros e E b. rewrite E in G. destruct G as [G _]. rewrite G, joined_bit. split.
    + intros [x [X1 X2]]. apply M in X1. destruct X1 as [c [Mc <-]]. eauto.
    + intros [c [Mc X]]. exists (ac_entry c). split; [apply M; eauto | exact X].
Qed.
