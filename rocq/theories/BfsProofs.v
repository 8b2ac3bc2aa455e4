(** Proofs about breadth-first routing to several chips. *)
From Coq Require Import List ZArith Arith Bool Lia.
From Verif Require Import Base Dict TreeModel MachModel LdfModel LdfProofs PathModel PathProofs BfsModel.
Import ListNotations.
Local Open Scope nat_scope.

(** [q] is a child of [p] over the link [l]. *)
Definition child (r : routes) (p : xy) (l : nat) (q : xy) : Prop :=
  exists cs, dget xy_eqb r p = Some cs /\ In (l, q) cs.
Definition known (r : routes) (p : xy) : Prop := dget xy_eqb r p <> None.

Lemma known_dmem : forall r p, dmem xy_eqb r p = true <-> known r p.
Proof. intros. unfold dmem, known. destruct (dget xy_eqb r p); split; congruence. Qed.
Lemma known_dec : forall (r : routes) p, {known r p} + {~ known r p}.
Proof. intros. unfold known. destruct (dget xy_eqb r p); [left; discriminate | right; congruence]. Qed.
Lemma child_known : forall r p l q, child r p l q -> known r p.
Proof. intros r p l q [cs [E _]]. unfold known. congruence. Qed.

Lemma xy_eqb_refl : forall p, xy_eqb p p = true.
Proof. intros. apply xy_eqb_eq. reflexivity. Qed.
Lemma xy_eqb_neq : forall p q, p <> q -> xy_eqb p q = false.
Proof. intros p q H. destruct (xy_eqb p q) eqn:E; [apply xy_eqb_eq in E; contradiction | reflexivity]. Qed.

Lemma set_empty_child : forall r p p' l q, ~ known r p -> (child (dset xy_eqb r p []) p' l q <-> child r p' l q).
Proof.
  intros r p p' l q H. unfold child. rewrite (dget_dset _ xy_eqb_eq). destruct (xy_eqb p p') eqn:E; [|reflexivity].
  apply xy_eqb_eq in E. subst p'. split.
  - intros [cs [X Y]]. injection X as <-. destruct Y.
  - intros [cs [X _]]. exfalso. apply H. unfold known. congruence.
Qed.
Lemma set_empty_known : forall (r : routes) p q, known (dset xy_eqb r p []) q <-> known r q \/ q = p.
Proof.
  intros. unfold known. rewrite (dget_dset _ xy_eqb_eq). destruct (xy_eqb p q) eqn:E.
  - apply xy_eqb_eq in E. subst. split; [auto | discriminate].
  - split; [auto|]. intros [H|H]; [exact H|]. subst. rewrite xy_eqb_refl in E. discriminate.
Qed.
Lemma ensure_child : forall r p p' l q, child (ensure_tree r p) p' l q <-> child r p' l q.
Proof.
  intros. unfold ensure_tree. destruct (dmem xy_eqb r p) eqn:E; [reflexivity|]. apply set_empty_child.
  rewrite <- known_dmem. congruence.
Qed.
Lemma ensure_known : forall r p q, known (ensure_tree r p) q <-> known r q \/ q = p.
Proof.
  intros. unfold ensure_tree. destruct (dmem xy_eqb r p) eqn:E; [|apply set_empty_known].
  apply known_dmem in E. split; [auto | intros [H|H]; [exact H | subst; exact E]].
Qed.
Lemma append_child_child : forall r p l q p' l' q', known r p ->
  (child (append_child r p (l, q)) p' l' q' <-> child r p' l' q' \/ (p' = p /\ l' = l /\ q' = q)).
Proof.
  intros r p l q p' l' q' K. unfold append_child, known in *. destruct (dget xy_eqb r p) as [cs|] eqn:E; [|congruence].
  unfold child. rewrite (dget_dset _ xy_eqb_eq). destruct (xy_eqb p p') eqn:Q.
  - apply xy_eqb_eq in Q. subst p'. split.
    + intros [cs' [X H]]. injection X as <-. apply in_app_iff in H. destruct H as [H|[H|[]]].
      * left. exists cs. auto.
      * right. injection H as <- <-. auto.
    + intros [[cs' [X H]]|[_ [-> ->]]].
      * exists (cs ++ [(l, q)]). split; [reflexivity|]. apply in_app_iff. left. assert (cs' = cs) by congruence. subst. exact H.
      * exists (cs ++ [(l, q)]). split; [reflexivity|]. apply in_app_iff. right. left. reflexivity.
  - split; [auto|]. intros [H|[-> _]]; [exact H|]. rewrite xy_eqb_refl in Q. discriminate.
Qed.
Lemma append_child_known : forall r p c q, known (append_child r p c) q <-> known r q.
Proof.
  intros. unfold append_child, known. destruct (dget xy_eqb r p) as [cs|] eqn:E; [|reflexivity].
  rewrite (dget_dset _ xy_eqb_eq). destruct (xy_eqb p q) eqn:Q; [|reflexivity]. apply xy_eqb_eq in Q. subst.
  rewrite E. split; discriminate.
Qed.

(** * What the search has seen *)
(** For each chip visited: the step by which it was found, and its path, the last
    chip visited first. *)
Definition log := list (xy * (option (xy * nat) * list (xy * nat))).

Fixpoint log_ok (m : machine) (first : xy) (allowed : list xy) (reset : xy -> Prop) (g : log) : Prop :=
  match g with
  | [] => True
  | (x, (en, P)) :: g' =>
      ~ In x (map fst g') /\
      (P = [] -> reset x \/ en = None) /\ (P <> [] -> ~ reset x) /\
      match en with
      | None => x = first /\ g' = [] /\ P = []
      | Some (p, l) => works m p (l, x) /\ In x allowed /\
          exists enp Pp, In (p, (enp, Pp)) g' /\ (P = [] \/ P = Pp ++ [(p, l)])
      end /\
      log_ok m first allowed reset g'
  end.

Definition entered (g : log) (x p : xy) (l : nat) : Prop := exists P, In (x, (Some (p, l), P)) g.
Definition seen (g : log) (x : xy) : Prop := In x (map fst g).

Lemma log_unique : forall m first allowed reset g x a b, log_ok m first allowed reset g ->
  In (x, a) g -> In (x, b) g -> a = b.
Proof.
  induction g as [|[y [en P]] g IH]; intros x a b G Ha Hb; [destruct Ha|].
  destruct G as [N [_ [_ [_ G]]]]. destruct Ha as [Ha|Ha]; destruct Hb as [Hb|Hb].
  - congruence.
  - exfalso. apply N. apply in_map_iff. exists (x, b). split; [cbn; congruence | exact Hb].
  - exfalso. apply N. apply in_map_iff. exists (x, a). split; [cbn; congruence | exact Ha].
  - exact (IH x a b G Ha Hb).
Qed.

Lemma log_In : forall m first allowed reset g x en P, log_ok m first allowed reset g -> In (x, (en, P)) g ->
  (P = [] -> reset x \/ en = None) /\ (P <> [] -> ~ reset x) /\
  match en with
  | None => x = first /\ P = []
  | Some (p, l) => works m p (l, x) /\ In x allowed /\
      exists enp Pp, In (p, (enp, Pp)) g /\ (P = [] \/ P = Pp ++ [(p, l)])
  end.
Proof.
  induction g as [|[y [en' P']] g IH]; intros x en P G H; [destruct H|].
  destruct G as [N [R1 [R2 [M G]]]]. destruct H as [H|H].
  - injection H as -> -> ->. split; [exact R1|]. split; [exact R2|]. destruct en as [[p l]|].
    + destruct M as [M1 [M2 [enp [Pp [M3 M4]]]]]. split; [exact M1|]. split; [exact M2|]. exists enp, Pp.
      split; [right; exact M3 | exact M4].
    + destruct M as [M1 [_ M2]]. auto.
  - destruct (IH x en P G H) as [A [B C]]. split; [exact A|]. split; [exact B|]. destruct en as [[p l]|]; [|exact C].
    destruct C as [C1 [C2 [enp [Pp [C3 C4]]]]]. split; [exact C1|]. split; [exact C2|]. exists enp, Pp. split; [right; exact C3 | exact C4].
Qed.

(** The routes agree with what was seen; [k0] is a chip just added whose parent
    is still to be linked to it. *)
Record grown (m : machine) (first : xy) (r0 : routes) (g : log) (r : routes) (k0 : option xy) (tgt : xy -> Prop) : Prop := mkGrown {
  gr_old_known : forall p, known r0 p -> known r p;
  gr_old_child : forall p l q, child r0 p l q -> child r p l q;
  gr_known : forall p, known r p -> known r0 p \/ seen g p;
  gr_child : forall p l q, child r p l q -> child r0 p l q \/ (~ known r0 q /\ entered g q p l /\ known r q);
  gr_linked : forall k p l, known r k -> ~ known r0 k -> k0 <> Some k -> entered g k p l -> child r p l k;
  gr_use : forall k, known r k -> ~ known r0 k -> tgt k \/ exists l q, child r k l q }.

Lemma add_up_spec : forall m first allowed reset r0 tgt rp g r last,
  log_ok m first allowed reset g ->
  (forall x, reset x <-> known r0 x \/ tgt x) ->
  (forall x, seen g x -> tgt x -> known r x) ->
  ~ known r0 last -> known r last -> seen g last ->
  match rp with
  | [] => ~ (exists p l, entered g last p l)
  | (p, l) :: rest => entered g last p l /\ exists enp, In (p, (enp, rev rest)) g
  end ->
  grown m first r0 g r (Some last) tgt ->
  grown m first r0 g (add_up r rp last) None tgt /\ (forall k, known r k -> known (add_up r rp last) k).
Proof.
  intros m first allowed reset r0 tgt. induction rp as [|[p l] rest IH]; intros g r last LG RS TK NL KL SL H G; cbn [add_up].
  - split; [|auto]. destruct G as [G1 G2 G3 G4 G5 G6]. constructor; auto.
    intros k p l K0 K1 _ E. destruct (xy_dec k last) as [->|NE]; [exfalso; apply H; eauto|].
    apply G5; auto. congruence.
  - destruct H as [EN [enp PP]].
    set (r1 := ensure_tree r p). set (r2 := append_child r1 p (l, last)).
    assert (K1 : known r1 p) by (apply ensure_known; right; reflexivity).
    assert (C2 : forall p' l' q', child r2 p' l' q' <-> child r p' l' q' \/ (p' = p /\ l' = l /\ q' = last)).
    { intros. unfold r2. rewrite (append_child_child _ _ _ _ _ _ _ K1). unfold r1. rewrite ensure_child. reflexivity. }
    assert (KN : forall q, known r2 q <-> known r q \/ q = p).
    { intros. unfold r2. rewrite append_child_known. apply ensure_known. }
    assert (SP : seen g p) by (unfold seen; apply in_map_iff; exists (p, (enp, rev rest)); auto).
    destruct G as [G1 G2 G3 G4 G5 G6].
    destruct (log_In _ _ _ _ _ _ _ _ LG PP) as [L1 [L2 L3]].
    (* everything except the parent link of p *)
    assert (GR : grown m first r0 g r2 (if known_dec r0 p then None else if known_dec r p then None else Some p) tgt).
    { constructor.
      - intros q Hq. apply KN. left. exact (G1 q Hq).
      - intros p' l' q' Hc. apply C2. left. exact (G2 _ _ _ Hc).
      - intros q Hq. apply KN in Hq. destruct Hq as [Hq| ->]; [exact (G3 q Hq) | right; exact SP].
      - intros p' l' q' Hc. apply C2 in Hc. destruct Hc as [Hc|[-> [-> ->]]].
        + destruct (G4 _ _ _ Hc) as [X|[X [Y Z]]]; [left; exact X | right]. split; [exact X|]. split; [exact Y|]. apply KN. left. exact Z.
        + right. split; [exact NL|]. split; [exact EN|]. apply KN. left. exact KL.
      - intros k p' l' Kk NK NE E. apply C2. destruct (xy_dec k last) as [->|NEL].
        + right. destruct EN as [P1 EN]. destruct E as [P2 E]. pose proof (log_unique _ _ _ _ _ _ _ _ LG EN E) as U.
          injection U as -> -> _. auto.
        + left. apply KN in Kk. destruct (xy_dec k p) as [->|NEP].
          * destruct (known_dec r0 p) as [KP|KP]; [contradiction|].
            destruct (known_dec r p) as [KP'|KP']; [|congruence]. apply G5; auto. congruence.
          * destruct Kk as [Kk|Kk]; [|contradiction]. apply G5; auto. congruence.
      - intros k Kk NK. destruct (xy_dec k p) as [->|NEP].
        + right. exists l, last. apply C2. right. auto.
        + apply KN in Kk. destruct Kk as [Kk|Kk]; [|contradiction]. destruct (G6 k Kk NK) as [X|[l' [q' X]]]; [left; exact X|].
          right. exists l', q'. apply C2. left. exact X. }
    assert (MON : forall k, known r k -> known r2 k) by (intros k Hk; apply KN; left; exact Hk).
    assert (P2 : known r2 p) by (apply KN; right; reflexivity).
    (* the path of p *)
    assert (WK : forall k, grown m first r0 g r2 None tgt -> grown m first r0 g r2 k tgt).
    { intros k [A1 A2 A3 A4 A5 A6]. constructor; auto. intros k' p' l' X1 X2 _ X3. apply A5; auto. discriminate. }
    assert (TK2 : forall x, seen g x -> tgt x -> known r2 x) by (intros x X1 X2; apply MON; apply TK; assumption).
    destruct rest as [|[p' l'] rest'].
    + assert (D : grown m first r0 g r2 None tgt \/ (~ known r0 p /\ ~ (exists p' l', entered g p p' l'))).
      { destruct (L1 eq_refl) as [X|X].
        - left. apply RS in X. destruct (known_dec r0 p) as [Y|Y]; [exact GR|]. destruct X as [X|X]; [contradiction|].
          destruct (known_dec r p) as [Z|Z]; [exact GR|]. exfalso. apply Z. apply TK; assumption.
        - destruct (known_dec r0 p) as [Y|Y]; [left; exact GR | right]. split; [exact Y|].
          intros [p' [l' [P' E]]]. pose proof (log_unique _ _ _ _ _ _ _ _ LG PP E) as U.
          subst enp. discriminate U. }
      cbn [add_up]. split; [|exact MON]. destruct D as [D|[D1 D2]]; [exact D|].
      assert (GP : grown m first r0 g r2 (Some p) tgt).
      { destruct (known_dec r0 p); [apply WK; exact GR|]. destruct (known_dec r p); [apply WK; exact GR | exact GR]. }
      exact (proj1 (IH g r2 p LG RS TK2 D1 P2 SP D2 GP)).
    + assert (NR : ~ reset p) by (apply L2; cbn [rev]; destruct (rev rest'); discriminate).
      assert (NK : ~ known r0 p) by (intros X; apply NR; apply RS; left; exact X).
      assert (NX : entered g p p' l' /\ exists enp', In (p', (enp', rev rest')) g).
      { destruct enp as [[p1 l1]|].
        - destruct L3 as [_ [_ [enp' [Pp [X1 [X2|X2]]]]]].
          + exfalso. cbn [rev] in X2. destruct (rev rest'); discriminate.
          + cbn [rev] in X2. apply app_inj_tail in X2. destruct X2 as [X2 X3]. injection X3 as <- <-. subst Pp.
            split; [exists (rev ((p', l') :: rest')); exact PP | exists enp'; exact X1].
        - destruct L3 as [_ X]. cbn [rev] in X. destruct (rev rest'); discriminate. }
      assert (GP : grown m first r0 g r2 (Some p) tgt).
      { destruct (known_dec r0 p); [apply WK; exact GR|]. destruct (known_dec r p); [apply WK; exact GR | exact GR]. }
      destruct (IH g r2 p LG RS TK2 NK P2 SP NX GP) as [A B]. split; [exact A|]. intros k Hk. apply B. apply MON. exact Hk.
Qed.

(** * The search *)
Lemma expand_spec : forall m allowed vis p path q path', In (q, path') (expand m allowed vis p path) ->
  exists l, works m p (l, q) /\ path' = path ++ [(p, l)] /\ In q allowed /\ ~ In q vis.
Proof.
  intros m allowed vis p path q path' H. unfold expand in H. apply in_flat_map in H. destruct H as [d [D H]].
  apply in_seq in D. destruct (is_link m p d) eqn:L; [|destruct H].
  destruct (is_open_chip m (over_link m p d) allowed vis) eqn:E; [|destruct H].
  destruct H as [H|[]]. injection H as <- <-. unfold is_open_chip in E. apply andb_true_iff in E. destruct E as [E E3].
  apply andb_true_iff in E. destruct E as [E1 E2]. apply xy_in_spec in E1. apply negb_true_iff in E2.
  exists d. split; [unfold works; cbn [fst snd]; split; [lia|]; auto|]. split; [reflexivity|]. split; [exact E1|].
  rewrite <- xy_in_spec. congruence.
Qed.

Lemma expand_complete : forall m allowed vis p path n, works m p n -> In (snd n) allowed -> ~ In (snd n) vis ->
  exists path', In (snd n, path') (expand m allowed vis p path).
Proof.
  intros m allowed vis p path [d q] [W1 [W2 [W3 W4]]] Ha Hv. cbn [fst snd] in *. exists (path ++ [(p, d)]).
  unfold expand. apply in_flat_map. exists d. split; [apply in_seq; lia|]. rewrite W2, <- W3.
  assert (E : is_open_chip m q allowed vis = true).
  { unfold is_open_chip. rewrite W4, (proj2 (xy_in_spec q allowed) Ha).
    destruct (xy_in q vis) eqn:X; [apply xy_in_spec in X; contradiction | reflexivity]. }
  rewrite E. left. reflexivity.
Qed.

Lemma flat_map_length_le : forall {A B} (f : A -> list B) l, (forall d, length (f d) <= 1) -> length (flat_map f l) <= length l.
Proof.
  induction l as [|d l IH]; intros H; [apply Nat.le_refl|]. cbn [flat_map length]. rewrite app_length.
  specialize (IH H). specialize (H d). lia.
Qed.
Lemma expand_length : forall m allowed vis p path, length (expand m allowed vis p path) <= 6.
Proof.
  intros. unfold expand. etransitivity; [apply flat_map_length_le|reflexivity].
  intros d. destruct (is_link m p d); [|cbn; lia]. destruct (is_open_chip m (over_link m p d) allowed vis); cbn; lia.
Qed.

(** A walk that stays on allowed chips. *)
Definition rwalk (m : machine) (allowed : list xy) (p : xy) (l : list node) : Prop :=
  walk m p l /\ Forall (fun n => In (snd n) allowed) l.

Lemma log_walk : forall m first allowed reset g x, log_ok m first allowed reset g -> seen g x ->
  exists l, rwalk m allowed first l /\ last_xy first l = x.
Proof.
  induction g as [|[y [en P]] g IH]; intros x G H; [destruct H|].
  destruct G as [_ [_ [_ [M G]]]]. destruct H as [<-|H]; [|exact (IH x G H)]. cbn [fst].
  destruct en as [[p l]|].
  - destruct M as [W [A [enp [Pp [I _]]]]]. destruct (IH p G) as [path [[W1 W2] L]].
    { unfold seen. apply in_map_iff. exists (p, (enp, Pp)). auto. }
    exists (path ++ [(l, y)]). split; [split|].
    + apply walk_app. split; [exact W1|]. rewrite L. split; [exact W | exact Logic.I].
    + apply Forall_app. split; [exact W2 | constructor; [exact A | constructor]].
    + rewrite last_xy_app. reflexivity.
  - destruct M as [-> _]. exists []. split; [split; [exact Logic.I | constructor] | reflexivity].
Qed.

Lemma closed_walk : forall m allowed (S : xy -> Prop),
  (forall p n, S p -> works m p n -> In (snd n) allowed -> S (snd n)) ->
  forall l p, S p -> rwalk m allowed p l -> S (last_xy p l).
Proof.
  intros m allowed S C. induction l as [|n l IH]; intros p Sp [W A]; [exact Sp|].
  destruct W as [W1 W2]. inversion A; subst. rewrite last_cons. apply IH; [|split; assumption].
  apply (C p n); assumption.
Qed.

Definition resets (r0 : routes) (targets : list xy) (x : xy) : Prop := known r0 x \/ In x targets.

Record binv (m : machine) (first : xy) (allowed targets : list xy) (r0 : routes)
    (g : log) (todo : list xy) (r : routes) (queue : list (xy * list (xy * nat))) : Prop := mkBInv {
  b_log : log_ok m first allowed (resets r0 targets) g;
  b_grown : grown m first r0 g r None (fun x => In x targets);
  b_tk : forall x, seen g x -> In x targets -> known r x;
  b_queue : match g with
            | [] => queue = [(first, [])]
            | _ => forall q path, In (q, path) queue ->
                exists p enp Pp l, In (p, (enp, Pp)) g /\ path = Pp ++ [(p, l)] /\ works m p (l, q) /\ In q allowed
            end;
  b_closed : forall p n, seen g p -> works m p n -> In (snd n) allowed -> seen g (snd n) \/ In (snd n) (map fst queue);
  b_first : seen g first \/ In first (map fst queue);
  b_todo : forall t, In t todo <-> In t targets /\ ~ seen g t;
  b_chips : forall x, seen g x -> In x (first :: m_chips m);
  b_nodup : NoDup (map fst g) }.

Lemma grown_log : forall m first r0 g r tgt p en P, ~ seen g p -> (known r p -> known r0 p) ->
  grown m first r0 g r None tgt -> grown m first r0 ((p, (en, P)) :: g) r None tgt.
Proof.
  intros m first r0 g r tgt p en P NS KP [G1 G2 G3 G4 G5 G6]. constructor; auto.
  - intros q Hq. destruct (G3 q Hq) as [X|X]; [left; exact X | right; right; exact X].
  - intros p' l q Hc. destruct (G4 _ _ _ Hc) as [X|[X [[P' Y] Z]]]; [left; exact X | right].
    split; [exact X|]. split; [exists P'; right; exact Y | exact Z].
  - intros k p' l K NK _ [P' [E|E]].
    + injection E as -> _ _. exfalso. exact (NK (KP K)).
    + apply G5; auto; [discriminate | exists P'; exact E].
Qed.

Lemma filter_todo : forall p todo t, In t (filter (fun t => negb (xy_eqb p t)) todo) <-> In t todo /\ t <> p.
Proof.
  intros. rewrite filter_In, negb_true_iff. split; intros [A B]; split; auto.
  - intros ->. rewrite xy_eqb_refl in B. discriminate.
  - apply xy_eqb_neq. congruence.
Qed.

Lemma route_loop_spec : forall fuel m first allowed targets r0 g todo r queue,
  binv m first allowed targets r0 g todo r queue ->
  7 * (S (length (m_chips m)) - length g) + length queue <= fuel ->
  match route_loop fuel m allowed targets (map fst g) todo r queue with
  | Ok r' => exists g', log_ok m first allowed (resets r0 targets) g' /\
      grown m first r0 g' r' None (fun x => In x targets) /\
      (forall t, In t targets -> seen g' t /\ known r' t)
  | Err e => e = RoutingException /\
      exists t, In t targets /\ forall l, rwalk m allowed first l -> last_xy first l <> t
  end.
Proof.
  induction fuel as [|fuel IH]; intros m first allowed targets r0 g todo r queue B F.
  all: destruct B as [B1 B2 B3 B4 B5 B6 B7 B8 B9].
  all: assert (DONE : queue = [] -> match (match todo with [] => Ok r | _ => Err RoutingException end) with
    | Ok r' => exists g', log_ok m first allowed (resets r0 targets) g' /\
        grown m first r0 g' r' None (fun x => In x targets) /\
        (forall t, In t targets -> seen g' t /\ known r' t)
    | Err e => e = RoutingException /\
        exists t, In t targets /\ forall l, rwalk m allowed first l -> last_xy first l <> t
    end).
  1,3: intros Q; destruct todo as [|t todo].
  1,3: exists g; split; [exact B1|]; split; [exact B2|]; intros t Ht;
       (assert (S : seen g t) by (destruct (in_dec xy_dec t (map fst g)) as [S|S]; [exact S | exfalso; apply (proj2 (B7 t)); auto]));
       split; [exact S | exact (B3 t S Ht)].
  1,2: split; [reflexivity|]; exists t; destruct (proj1 (B7 t) (or_introl eq_refl)) as [T1 T2]; split; [exact T1|];
       intros l W E; apply T2; rewrite <- E; subst queue; destruct B6 as [S0|[]];
       apply (closed_walk m allowed (seen g)); [|exact S0 | exact W];
       intros p n X1 X2 X3; destruct (B5 p n X1 X2 X3) as [X|[]]; exact X.
  - destruct queue as [|it queue]; [|cbn [length] in F; lia]. cbn [route_loop]. apply DONE. reflexivity.
  - destruct queue as [|[p path] queue]; [cbn [route_loop]; apply DONE; reflexivity|]. clear DONE.
    cbn [route_loop]. set (todo' := filter (fun t => negb (xy_eqb p t)) todo).
    destruct (xy_in p (map fst g)) eqn:V.
    + apply xy_in_spec in V. apply IH; [|cbn [length] in F; lia].
      constructor; auto.
      * destruct g as [|x g]; [destruct V|]. intros q pa Hq. apply B4. right. exact Hq.
      * intros p' n Hp W A. destruct (B5 p' n Hp W A) as [X|[X|X]]; [left; exact X | left; cbn in X; unfold seen; rewrite <- X; exact V | right; exact X].
      * destruct B6 as [X|[X|X]]; [left; exact X | left; cbn in X; unfold seen; rewrite <- X; exact V | right; exact X].
      * intros t. unfold todo'. rewrite filter_todo, B7. split; [tauto|]. intros [X Y]. split; [auto|]. intros ->. exact (Y V).
    + assert (NV : ~ seen g p) by (unfold seen; rewrite <- xy_in_spec; congruence).
      (* the step by which the chip was found *)
      assert (EN : exists en, match en with
           | None => p = first /\ g = [] /\ path = []
           | Some (pp, l) => works m pp (l, p) /\ In p allowed /\ exists enp Pp, In (pp, (enp, Pp)) g /\ path = Pp ++ [(pp, l)]
           end).
      { destruct g as [|x g].
        - injection B4 as -> -> _. exists None. auto.
        - destruct (B4 p path (or_introl eq_refl)) as [pp [enp [Pp [l [X1 [X2 [X3 X4]]]]]]].
          exists (Some (pp, l)). split; [exact X3|]. split; [exact X4|]. exists enp, Pp. auto. }
      destruct EN as [en EN].
      assert (PC : In p (first :: m_chips m)).
      { destruct en as [[pp l]|]; [|destruct EN as [-> _]; left; reflexivity].
        destruct EN as [[_ [_ [_ W]]] _]. right. apply xy_in_spec. exact W. }
      assert (N' : NoDup (p :: map fst g)) by (constructor; assumption).
      assert (LEN : S (length g) <= S (length (m_chips m))).
      { assert (IC : incl (p :: map fst g) (first :: m_chips m)) by (intros x [<-|Hx]; [exact PC | exact (B8 x Hx)]).
        pose proof (NoDup_incl_length N' IC) as X. cbn [length] in X. rewrite map_length in X. exact X. }
      destruct (if dmem xy_eqb r p then (r, [])
                else if xy_in p targets then (add_up (dset xy_eqb r p []) (rev path) p, [])
                else (r, path)) as [r' path'] eqn:RP.
      (* the log with this chip *)
      assert (LOG : (path' = [] -> resets r0 targets p \/ en = None) -> (path' <> [] -> ~ resets r0 targets p) ->
                 (path' = [] \/ path' = path) -> log_ok m first allowed (resets r0 targets) ((p, (en, path')) :: g)).
      { intros R1 R2 R3. cbn [log_ok]. split; [exact NV|]. split; [exact R1|]. split; [exact R2|]. split; [|exact B1].
        destruct en as [[pp l]|].
        - destruct EN as [W [A [enp [Pp [I E]]]]]. split; [exact W|]. split; [exact A|]. exists enp, Pp. split; [exact I|].
          destruct R3 as [R3|R3]; [left; exact R3 | right; congruence].
        - destruct EN as [E1 [E2 E3]]. split; [exact E1|]. split; [exact E2|]. destruct R3; congruence. }
      assert (KEY : log_ok m first allowed (resets r0 targets) ((p, (en, path')) :: g) /\
                    grown m first r0 ((p, (en, path')) :: g) r' None (fun x => In x targets) /\
                    (forall x, seen ((p, (en, path')) :: g) x -> In x targets -> known r' x)).
      { destruct (dmem xy_eqb r p) eqn:D.
        - injection RP as <- <-. apply known_dmem in D.
          assert (K0 : known r0 p) by (destruct (gr_known _ _ _ _ _ _ _ B2 p D) as [X|X]; [exact X | contradiction]).
          split; [|split].
          + apply LOG; [left; left; exact K0 | congruence | left; reflexivity].
          + apply grown_log; auto.
          + intros x [<-|Hx] Ht; [exact D | exact (B3 x Hx Ht)].
        - assert (NK : ~ known r p) by (rewrite <- known_dmem; congruence).
          assert (NK0 : ~ known r0 p) by (intros X; apply NK; exact (gr_old_known _ _ _ _ _ _ _ B2 p X)).
          destruct (xy_in p targets) eqn:T.
          + injection RP as <- <-. apply xy_in_spec in T.
            assert (LG : log_ok m first allowed (resets r0 targets) ((p, (en, [])) :: g)).
            { apply LOG; [left; right; exact T | congruence | left; reflexivity]. }
            destruct B2 as [G1 G2 G3 G4 G5 G6].
            destruct (add_up_spec m first allowed (resets r0 targets) r0 (fun x => In x targets) (rev path)
                        ((p, (en, [])) :: g) (dset xy_eqb r p []) p LG) as [A1 A2].
            * intros x. reflexivity.
            * intros x [<-|Hx] Ht; apply set_empty_known; [right; reflexivity | left; exact (B3 x Hx Ht)].
            * exact NK0.
            * apply set_empty_known. right. reflexivity.
            * left. reflexivity.
            * destruct en as [[pp l]|].
              -- destruct EN as [W [A [enp [Pp [I E]]]]]. rewrite E, rev_app_distr. cbn [rev app].
                 split; [exists []; left; reflexivity|]. exists enp. right. rewrite rev_involutive. exact I.
              -- destruct EN as [E1 [E2 E3]]. rewrite E3. cbn [rev]. intros [pp [l [P' [X|X]]]]; [discriminate|]. subst g. destruct X.
            * constructor.
              -- intros q Hq. apply set_empty_known. left. exact (G1 q Hq).
              -- intros p' l q Hc. apply set_empty_child; [exact NK | exact (G2 _ _ _ Hc)].
              -- intros q Hq. apply set_empty_known in Hq. destruct Hq as [Hq| ->]; [|right; left; reflexivity].
                 destruct (G3 q Hq) as [X|X]; [left; exact X | right; right; exact X].
              -- intros p' l q Hc. apply set_empty_child in Hc; [|exact NK]. destruct (G4 _ _ _ Hc) as [X|[X [[P' Y] Z]]]; [left; exact X | right].
                 split; [exact X|]. split; [exists P'; right; exact Y|]. apply set_empty_known. left. exact Z.
              -- intros k p' l K NKk NE [P' [E|E]]; [injection E as -> _ _; congruence|].
                 apply set_empty_child; [exact NK|]. apply set_empty_known in K. destruct K as [K| ->]; [|congruence].
                 apply G5; auto; [discriminate | exists P'; exact E].
              -- intros k K NKk. apply set_empty_known in K. destruct K as [K| ->]; [|left; exact T].
                 destruct (G6 k K NKk) as [X|[l [q X]]]; [left; exact X|]. right. exists l, q. apply set_empty_child; [exact NK | exact X].
            * split; [exact LG|]. split; [exact A1|].
              intros x [<-|Hx] Ht; apply A2; apply set_empty_known; [right; reflexivity | left; exact (B3 x Hx Ht)].
          + injection RP as <- <-. assert (NT : ~ In p targets) by (rewrite <- xy_in_spec; congruence).
            split; [|split].
            * apply LOG; [|intros _ [X|X]; contradiction | right; reflexivity].
              intros E. destruct en as [[pp l]|]; [|right; reflexivity]. destruct EN as [_ [_ [enp [Pp [_ X]]]]].
              rewrite E in X. destruct Pp; discriminate.
            * apply grown_log; auto. intros X. contradiction.
            * intros x [<-|Hx] Ht; [contradiction | exact (B3 x Hx Ht)]. }
      destruct KEY as [K1 [K2 K3]].
      change (p :: map fst g) with (map fst ((p, (en, path')) :: g)).
      apply IH.
      * constructor; auto.
        -- intros q pa Hq. apply in_app_iff in Hq. destruct Hq as [Hq|Hq].
           ++ destruct g as [|x g]; [injection B4 as _ _ ->; destruct Hq|].
              destruct (B4 q pa (or_intror Hq)) as [pp [enp [Pp [l [X1 X2]]]]]. exists pp, enp, Pp, l. split; [right; exact X1 | exact X2].
           ++ apply expand_spec in Hq. destruct Hq as [l [W [E [A _]]]]. exists p, en, path', l.
              split; [left; reflexivity|]. auto.
        -- intros p' n Hp W A. rewrite map_app, in_app_iff.
           destruct (in_dec xy_dec (snd n) (map fst ((p, (en, path')) :: g))) as [D|D]; [left; exact D|].
           destruct Hp as [<-|Hp].
           ++ right. right. cbn [fst] in W. destruct (expand_complete m allowed (p :: map fst g) p path' n W A D) as [pa X].
              apply in_map_iff. exists (snd n, pa). split; [reflexivity | exact X].
           ++ destruct (B5 p' n Hp W A) as [X|[X|X]].
              ** left. right. exact X.
              ** left. left. exact X.
              ** right. left. exact X.
        -- rewrite map_app, in_app_iff. destruct B6 as [X|[X|X]]; [left; right; exact X | left; left; exact X | right; left; exact X].
        -- intros t. unfold todo'. rewrite filter_todo, B7. unfold seen. cbn [map fst In]. split.
           ++ intros [[X Y] Z]. split; [exact X|]. intros [C|C]; [congruence | exact (Y C)].
           ++ intros [X Y]. split; [split; [exact X | intros C; apply Y; right; exact C] | intros ->; apply Y; left; reflexivity].
        -- intros x [<-|Hx]; [exact PC | exact (B8 x Hx)].
      * rewrite app_length. pose proof (expand_length m allowed (p :: map fst g) p path').
        cbn [length] in *. change (map fst ((p, (en, path')) :: g)) with (p :: map fst g). lia.
Qed.

(** * Trees *)
Inductive descends (r : routes) (p : xy) : xy -> Prop :=
| desc_refl : descends r p p
| desc_step : forall q l x, descends r p q -> child r q l x -> descends r p x.

(** The routes are one tree: each chip other than the root is reached from the
    root and has one parent, and each step is over a working link. *)
Record is_tree (m : machine) (root : xy) (r : routes) : Prop := mkIsTree {
  tr_root : known r root;
  tr_edge : forall p l q, child r p l q -> works m p (l, q) /\ known r q;
  tr_unique : forall p l p' l' q, child r p l q -> child r p' l' q -> p = p' /\ l = l';
  tr_top : forall p l, ~ child r p l root;
  tr_reach : forall q, known r q -> descends r root q }.

Lemma descends_mono : forall r r' p q, (forall p l q, child r p l q -> child r' p l q) -> descends r p q -> descends r' p q.
Proof. intros r r' p q H D. induction D; [constructor | econstructor; eauto]. Qed.

Lemma log_ok_app : forall m first allowed reset g1 g2, log_ok m first allowed reset (g1 ++ g2) -> log_ok m first allowed reset g2.
Proof.
  induction g1 as [|[x [en P]] g1 IH]; intros g2 H; [exact H|]. destruct H as [_ [_ [_ [_ H]]]]. exact (IH g2 H).
Qed.

(** Each new chip hangs below an old one or below the first. *)
Lemma grown_reach : forall m first allowed reset r0 r tgt g, log_ok m first allowed reset g ->
  grown m first r0 g r None tgt -> forall x, seen g x -> known r x -> ~ known r0 x ->
  (known r first /\ ~ known r0 first /\ descends r first x) \/ exists q, known r0 q /\ descends r q x.
Proof.
  intros m first allowed reset r0 r tgt g LG G.
  assert (X : forall g2 g1, g = g1 ++ g2 -> forall x, seen g2 x -> known r x -> ~ known r0 x ->
    (known r first /\ ~ known r0 first /\ descends r first x) \/ exists q, known r0 q /\ descends r q x).
  { induction g2 as [|[y [en P]] g2 IH]; intros g1 E x S K NK; [destruct S|].
    destruct S as [<-|S]; [|apply (IH (g1 ++ [(y, (en, P))])); [rewrite <- app_assoc; exact E | exact S | exact K | exact NK]].
    cbn [fst] in *. pose proof LG as L. rewrite E in L. apply log_ok_app in L. destruct L as [_ [_ [_ [M _]]]].
    destruct en as [[p l]|].
    - destruct M as [_ [_ [enp [Pp [I _]]]]].
      assert (C : child r p l y).
      { apply (gr_linked _ _ _ _ _ _ _ G); auto; [discriminate|]. exists P. rewrite E. apply in_app_iff. right. left. reflexivity. }
      destruct (known_dec r0 p) as [Kp|Kp].
      + right. exists p. split; [exact Kp|]. econstructor; [constructor | exact C].
      + destruct (IH (g1 ++ [(y, (Some (p, l), P))])) with (x := p) as [[A1 [A2 A3]]|[q [A1 A2]]].
        * rewrite <- app_assoc. exact E.
        * unfold seen. apply in_map_iff. exists (p, (enp, Pp)). auto.
        * exact (child_known _ _ _ _ C).
        * exact Kp.
        * left. split; [exact A1|]. split; [exact A2|]. econstructor; eassumption.
        * right. exists q. split; [exact A1|]. econstructor; eassumption.
    - destruct M as [-> _]. left. split; [exact K|]. split; [exact NK|]. constructor. }
  intros x. apply (X g []). reflexivity.
Qed.

Lemma route_to_xys_spec : forall m first allowed targets r0,
  match route_to_xys m first allowed targets r0 with
  | Ok r' => exists g', log_ok m first allowed (resets r0 targets) g' /\
      grown m first r0 g' r' None (fun x => In x targets) /\
      (forall t, In t targets -> seen g' t /\ known r' t)
  | Err e => e = RoutingException /\
      exists t, In t targets /\ forall l, rwalk m allowed first l -> last_xy first l <> t
  end.
Proof.
  intros m first allowed targets r0. unfold route_to_xys. apply (route_loop_spec _ m first allowed targets r0 []).
  - constructor.
    + exact I.
    + constructor; auto; try (intros k p l K NK; contradiction); try (intros k K NK; contradiction).
    + intros x [].
    + reflexivity.
    + intros p n [].
    + right. left. reflexivity.
    + intros t. split; [intros H; split; [exact H | intros []] | intros [H _]; exact H].
    + intros x [].
    + constructor.
  - cbn [length]. lia.
Qed.

Lemma route_tree : forall m root first allowed targets r0 r', is_tree m root r0 -> known r0 first ->
  route_to_xys m first allowed targets r0 = Ok r' ->
  is_tree m root r' /\ (forall t, In t targets -> known r' t) /\
  (forall p l q, child r0 p l q -> child r' p l q) /\ (forall p, known r0 p -> known r' p) /\
  (forall p l q, child r' p l q -> child r0 p l q \/ (~ known r0 q /\ In q allowed)) /\
  (forall k, known r' k -> ~ known r0 k -> In k targets \/ exists l q, child r' k l q).
Proof.
  intros m root first allowed targets r0 r' [T1 T2 T3 T4 T5] KF H.
  pose proof (route_to_xys_spec m first allowed targets r0) as SP. rewrite H in SP. destruct SP as [g [LG [G TG]]].
  assert (GR := grown_reach _ _ _ _ _ _ _ _ LG G).
  destruct G as [G1 G2 G3 G4 G5 G6].
  assert (EN : forall q p l, entered g q p l -> works m p (l, q) /\ In q allowed).
  { intros q p l [P E]. destruct (log_In _ _ _ _ _ _ _ _ LG E) as [_ [_ [A [B _]]]]. auto. }
  split; [|split; [intros t Ht; exact (proj2 (TG t Ht)) | split; [exact G2 | split; [exact G1 | split; [|exact G6]]]]].
  - constructor.
    + exact (G1 _ T1).
    + intros p l q C. destruct (G4 _ _ _ C) as [C0|[_ [E K]]].
      * destruct (T2 _ _ _ C0) as [A B]. split; [exact A | exact (G1 _ B)].
      * split; [exact (proj1 (EN _ _ _ E)) | exact K].
    + intros p l p' l' q C C'. destruct (G4 _ _ _ C) as [C0|[N [[P E] K]]]; destruct (G4 _ _ _ C') as [C0'|[N' [[P' E'] K']]].
      * exact (T3 _ _ _ _ _ C0 C0').
      * exfalso. apply N'. exact (proj2 (T2 _ _ _ C0)).
      * exfalso. apply N. exact (proj2 (T2 _ _ _ C0')).
      * pose proof (log_unique _ _ _ _ _ _ _ _ LG E E') as U. injection U as -> -> _. auto.
    + intros p l C. destruct (G4 _ _ _ C) as [C0|[N _]]; [exact (T4 _ _ C0) | exact (N T1)].
    + intros q K. destruct (known_dec r0 q) as [K0|K0]; [exact (descends_mono _ _ _ _ G2 (T5 q K0))|].
      destruct (G3 q K) as [X|S]; [contradiction|].
      destruct (GR q S K K0) as [[_ [X _]]|[q0 [K1 D]]]; [contradiction|].
      clear - D K1 T5 G2. induction D; [exact (descends_mono _ _ _ _ G2 (T5 _ K1))|]. econstructor; eassumption.
  - intros p l q C. destruct (G4 _ _ _ C) as [C0|[N [E K]]]; [left; exact C0|]. right. split; [exact N | exact (proj2 (EN _ _ _ E))].
Qed.

Lemma route_fresh : forall m first allowed targets r', targets <> [] ->
  route_to_xys m first allowed targets [] = Ok r' ->
  is_tree m first r' /\ (forall t, In t targets -> known r' t) /\
  (forall p l q, child r' p l q -> In q allowed) /\
  (forall k, known r' k -> In k targets \/ exists l q, child r' k l q).
Proof.
  intros m first allowed targets r' NE H.
  pose proof (route_to_xys_spec m first allowed targets []) as SP. rewrite H in SP. destruct SP as [g [LG [G TG]]].
  assert (GR := grown_reach _ _ _ _ _ _ _ _ LG G).
  destruct G as [G1 G2 G3 G4 G5 G6].
  assert (NK : forall q, ~ known [] q) by (intros q K; apply K; reflexivity).
  assert (NC : forall p l q, ~ child [] p l q) by (intros p l q [cs [X _]]; discriminate).
  assert (SEEN : forall q, known r' q -> seen g q) by (intros q K; destruct (G3 q K) as [X|X]; [destruct (NK q X) | exact X]).
  assert (EN : forall q p l, entered g q p l -> works m p (l, q) /\ In q allowed).
  { intros q p l [P E]. destruct (log_In _ _ _ _ _ _ _ _ LG E) as [_ [_ [A [B _]]]]. auto. }
  assert (RE : forall q, known r' q -> known r' first /\ descends r' first q).
  { intros q K. destruct (GR q (SEEN q K) K (NK q)) as [[A [_ B]]|[q0 [K1 _]]]; [auto | destruct (NK q0 K1)]. }
  split; [|split; [intros t Ht; exact (proj2 (TG t Ht)) | split]].
  - constructor.
    + destruct targets as [|t ts]; [congruence|]. exact (proj1 (RE t (proj2 (TG t (or_introl eq_refl))))).
    + intros p l q C. destruct (G4 _ _ _ C) as [C0|[_ [E K]]]; [destruct (NC _ _ _ C0)|]. split; [exact (proj1 (EN _ _ _ E)) | exact K].
    + intros p l p' l' q C C'. destruct (G4 _ _ _ C) as [C0|[N [[P E] K]]]; [destruct (NC _ _ _ C0)|].
      destruct (G4 _ _ _ C') as [C0'|[N' [[P' E'] K']]]; [destruct (NC _ _ _ C0')|].
      pose proof (log_unique _ _ _ _ _ _ _ _ LG E E') as U. injection U as -> -> _. auto.
    + intros p l C. destruct (G4 _ _ _ C) as [C0|[_ [[P E] K]]]; [destruct (NC _ _ _ C0)|].
      (* the first chip is not found by a step *)
      assert (F : forall g, log_ok m first allowed (resets [] targets) g -> g <> [] -> exists P, In (first, (None, P)) g).
      { clear. induction g as [|[x [en P]] g IH]; intros L NE; [congruence|]. destruct L as [_ [_ [_ [M L]]]].
        destruct en as [[p l]|].
        - destruct M as [_ [_ [enp [Pp [I _]]]]]. destruct IH as [P0 X]; [exact L | intros ->; destruct I | exists P0; right; exact X].
        - destruct M as [-> _]. exists P. left. reflexivity. }
      destruct (F g LG) as [P0 X]; [intros ->; destruct E|].
      pose proof (log_unique _ _ _ _ _ _ _ _ LG E X) as U. discriminate U.
    + intros q K. exact (proj2 (RE q K)).
  - intros p l q C. destruct (G4 _ _ _ C) as [C0|[_ [E K]]]; [destruct (NC _ _ _ C0)|]. exact (proj2 (EN _ _ _ E)).
  - intros k K. exact (G6 k K (NK k)).
Qed.

Lemma route_raises : forall m first allowed targets r0,
  (route_to_xys m first allowed targets r0 = Err RoutingException <->
   exists t, In t targets /\ forall l, rwalk m allowed first l -> last_xy first l <> t) /\
  (forall e, route_to_xys m first allowed targets r0 = Err e -> e = RoutingException).
Proof.
  intros m first allowed targets r0. pose proof (route_to_xys_spec m first allowed targets r0) as SP.
  destruct (route_to_xys m first allowed targets r0) as [r'|e].
  - split; [|discriminate]. split; [discriminate|]. intros [t [Ht N]]. exfalso.
    destruct SP as [g [LG [_ TG]]]. destruct (log_walk _ _ _ _ _ _ LG (proj1 (TG t Ht))) as [l [W E]]. exact (N l W E).
  - destruct SP as [-> SP]. split; [tauto | congruence].
Qed.

(** A tree has no cycles. *)
Lemma descends_trans : forall r p q x, descends r p q -> descends r q x -> descends r p x.
Proof. intros r p q x A B. induction B; [exact A | econstructor; eassumption]. Qed.

Lemma tree_acyclic : forall m root r q l x, is_tree m root r -> child r q l x -> ~ descends r x q.
Proof.
  intros m root r q l x T C. pose proof (tr_reach _ _ _ T q (child_known _ _ _ _ C)) as D.
  revert l x C. induction D as [|p k q D IH K]; intros l x C X.
  - inversion X as [|z k y X1 X2]; subst.
    + exact (tr_top _ _ _ T _ _ C).
    + exact (tr_top _ _ _ T _ _ X2).
  - inversion X as [|z k' y X1 X2]; subst.
    + destruct (tr_unique _ _ _ T _ _ _ _ _ C K) as [-> _]. exact (IH _ _ K (desc_refl _ _)).
    + destruct (tr_unique _ _ _ T _ _ _ _ _ X2 K) as [-> _].
      apply (IH _ _ K). apply (descends_trans _ _ x); [|exact X1]. econstructor; [constructor | exact C].
Qed.

(** * _find_reachable *)
Definition open_xys (allowed disallowed : list xy) : list xy := filter (fun q => negb (xy_in q disallowed)) allowed.
Lemma open_xys_In : forall allowed disallowed q, In q (open_xys allowed disallowed) <-> In q allowed /\ ~ In q disallowed.
Proof.
  intros. unfold open_xys. rewrite filter_In, negb_true_iff, <- (xy_in_spec q disallowed).
  destruct (xy_in q disallowed); intuition congruence.
Qed.

Lemma reach_next_In : forall m allowed disallowed vis p q, In q (reach_next m allowed disallowed vis p) ->
  exists d, works m p (d, q) /\ In q (open_xys allowed disallowed) /\ ~ In q vis.
Proof.
  intros m allowed disallowed vis p q H. unfold reach_next in H. apply in_flat_map in H. destruct H as [d [Hd H]].
  apply in_seq in Hd. destruct (is_link m p d) eqn:EL; [|destruct H].
  destruct (is_open_chip m (over_link m p d) allowed vis && negb (xy_in (over_link m p d) disallowed)) eqn:E; [|destruct H].
  destruct H as [<-|[]]. apply andb_prop in E. destruct E as [E0 E3]. unfold is_open_chip in E0.
  apply andb_prop in E0. destruct E0 as [E0 E2]. apply andb_prop in E0. destruct E0 as [E0 E1].
  apply negb_true_iff in E1, E3. apply xy_in_spec in E0.
  exists d. split; [unfold works; cbn [fst snd]; split; [lia|]; auto|]. split.
  - apply open_xys_In. split; [exact E0|]. rewrite <- xy_in_spec. congruence.
  - rewrite <- xy_in_spec. congruence.
Qed.
Lemma reach_next_complete : forall m allowed disallowed vis p n, works m p n -> In (snd n) (open_xys allowed disallowed) ->
  ~ In (snd n) vis -> In (snd n) (reach_next m allowed disallowed vis p).
Proof.
  intros m allowed disallowed vis p [d q] [W1 [W2 [W3 W4]]] Ha NV. cbn [fst snd] in *. apply open_xys_In in Ha. destruct Ha as [Ha Hd].
  unfold reach_next. apply in_flat_map. exists d. split; [apply in_seq; lia|]. rewrite W2, <- W3.
  assert (E : is_open_chip m q allowed vis = true).
  { unfold is_open_chip. rewrite W4, (proj2 (xy_in_spec q allowed) Ha).
    destruct (xy_in q vis) eqn:X; [apply xy_in_spec in X; contradiction | reflexivity]. }
  rewrite E. destruct (xy_in q disallowed) eqn:X; [apply xy_in_spec in X; contradiction|]. left. reflexivity.
Qed.
Lemma reach_next_length : forall m allowed disallowed vis p, length (reach_next m allowed disallowed vis p) <= 6.
Proof.
  intros. unfold reach_next. etransitivity; [apply flat_map_length_le|reflexivity].
  intros d. destruct (is_link m p d); [|cbn; lia].
  destruct (is_open_chip m (over_link m p d) allowed vis && negb (xy_in (over_link m p d) disallowed)); cbn; lia.
Qed.

Lemma reach_loop_spec : forall fuel m source allowed disallowed vis stack,
  (forall x, In x vis \/ In x stack -> exists l, rwalk m (open_xys allowed disallowed) source l /\ last_xy source l = x) ->
  (forall p n, In p vis -> works m p n -> In (snd n) (open_xys allowed disallowed) -> In (snd n) vis \/ In (snd n) stack) ->
  In source vis \/ In source stack ->
  (forall x, In x vis -> In x (source :: m_chips m)) -> (forall x, In x stack -> In x (source :: m_chips m)) -> NoDup vis ->
  7 * (S (length (m_chips m)) - length vis) + length stack <= fuel ->
  exists vis', reach_loop fuel m allowed disallowed vis stack = Ok vis' /\ NoDup vis' /\
    forall x, In x vis' <-> exists l, rwalk m (open_xys allowed disallowed) source l /\ last_xy source l = x.
Proof.
  induction fuel as [|fuel IH]; intros m source allowed disallowed vis stack H1 H2 H3 H4 H5 H6 F.
  all: assert (DONE : stack = [] -> forall x, In x vis <-> exists l, rwalk m (open_xys allowed disallowed) source l /\ last_xy source l = x).
  1,3: intros -> x; split; [intros V; apply H1; left; exact V|]; intros [l [W <-]];
       apply (closed_walk m (open_xys allowed disallowed) (fun p => In p vis)); [|destruct H3 as [X|[]]; exact X | exact W];
       intros p n X1 X2 X3; destruct (H2 p n X1 X2 X3) as [X|[]]; exact X.
  - destruct stack as [|p stack]; [|cbn [length] in F; lia]. exists vis. cbn [reach_loop]. auto.
  - destruct stack as [|p stack]; [exists vis; cbn [reach_loop]; auto|]. clear DONE. cbn [reach_loop].
    destruct (xy_in p vis) eqn:V.
    + apply xy_in_spec in V. apply (IH m source); auto.
      * intros x [X|X]; apply H1; [left; exact X | right; right; exact X].
      * intros p' n X1 X2 X3. destruct (H2 p' n X1 X2 X3) as [X|[<-|X]]; auto.
      * destruct H3 as [X|[<-|X]]; auto.
      * intros x X. apply H5. right. exact X.
      * cbn [length] in F. lia.
    + assert (NV : ~ In p vis) by (rewrite <- xy_in_spec; congruence).
      assert (ND : NoDup (p :: vis)) by (constructor; assumption).
      assert (INC : incl (p :: vis) (source :: m_chips m)).
      { intros x [<-|X]; [apply H5; left; reflexivity | exact (H4 x X)]. }
      pose proof (NoDup_incl_length ND INC) as LE. cbn [length] in LE.
      pose proof (reach_next_length m allowed disallowed (p :: vis) p) as LN.
      apply (IH m source); auto.
      * intros x X. rewrite in_app_iff, <- in_rev in X.
        assert (X' : In x (p :: vis) \/ In x stack \/ In x (reach_next m allowed disallowed (p :: vis) p)) by tauto. clear X.
        destruct X' as [[<-|X]|[X|X]]; [apply H1; right; left; reflexivity | apply H1; left; exact X | apply H1; right; right; exact X |].
        destruct (reach_next_In _ _ _ _ _ _ X) as [d [W [A _]]].
        destruct (H1 p (or_intror (or_introl eq_refl))) as [l [[W1 W2] L]].
        exists (l ++ [(d, x)]). split; [split|].
        -- apply walk_app. split; [exact W1|]. rewrite L. split; [exact W | exact Logic.I].
        -- apply Forall_app. split; [exact W2 | constructor; [exact A | constructor]].
        -- rewrite last_xy_app. reflexivity.
      * intros p' n X1 X2 X3. rewrite in_app_iff, <- in_rev.
        destruct X1 as [<-|X1].
        -- destruct (in_dec xy_dec (snd n) (p :: vis)) as [Y|Y]; [left; exact Y|]. right. left.
           apply reach_next_complete; assumption.
        -- destruct (H2 p' n X1 X2 X3) as [X|[X|X]]; [left; right; exact X | left; left; exact X | auto].
      * rewrite in_app_iff. destruct H3 as [X|[X|X]]; [left; right; exact X | left; left; exact X | auto].
      * intros x X. rewrite in_app_iff, <- in_rev in X. destruct X as [X|X]; [|apply H5; right; exact X].
        destruct (reach_next_In _ _ _ _ _ _ X) as [d [[_ [_ [_ W]]] _]]. right. apply xy_in_spec. exact W.
      * rewrite app_length, rev_length. cbn [length] in F |- *. lia.
Qed.

Lemma find_reachable_spec : forall m source allowed disallowed,
  exists vis, find_reachable m source allowed disallowed = Ok vis /\ NoDup vis /\
    forall x, In x vis <-> exists l, walk m source l /\ Forall (fun n => In (snd n) allowed /\ ~ In (snd n) disallowed) l /\ last_xy source l = x.
Proof.
  intros. destruct (reach_loop_spec (2 + 7 * S (length (m_chips m))) m source allowed disallowed [] [source]) as [vis [A [B C]]].
  - intros x [[]|[<-|[]]]. exists []. split; [split; [exact I | constructor] | reflexivity].
  - intros p n [].
  - right. left. reflexivity.
  - intros x [].
  - intros x [<-|[]]. left. reflexivity.
  - constructor.
  - cbn [length]. lia.
  - exists vis. split; [exact A|]. split; [exact B|]. intros x. rewrite (C x).
    assert (E : forall l, Forall (fun n : nat * xy => In (snd n) (open_xys allowed disallowed)) l <->
      Forall (fun n => In (snd n) allowed /\ ~ In (snd n) disallowed) l).
    { intros l. split; apply Forall_impl; intros n; apply open_xys_In. }
    split; intros [l H]; exists l; unfold rwalk in *; rewrite E in *; tauto.
Qed.
