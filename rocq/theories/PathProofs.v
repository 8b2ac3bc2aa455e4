(** Proofs about the repair of paths. *)
From Coq Require Import List ZArith Arith Bool Lia.
From Verif Require Import Base Dict TreeModel MachModel LdfModel LdfProofs PathModel.
Import ListNotations.
Local Open Scope nat_scope.

Lemma xy_eqb_eq : forall a b, xy_eqb a b = true <-> a = b.
Proof.
  intros [a1 a2] [b1 b2]. unfold xy_eqb. cbn [fst snd]. rewrite andb_true_iff, !Z.eqb_eq. split.
  - intros [-> ->]. reflexivity.
  - intros H. injection H as -> ->. auto.
Qed.
Lemma xy_in_spec : forall p l, xy_in p l = true <-> In p l.
Proof.
  intros p l. unfold xy_in. rewrite existsb_exists. split.
  - intros [x [H E]]. apply xy_eqb_eq in E. subst. exact H.
  - intros H. exists p. split; [exact H | apply xy_eqb_eq; reflexivity].
Qed.
Lemma xy_dec : forall a b : xy, {a = b} + {a <> b}.
Proof. intros a b. destruct (xy_eqb a b) eqn:E; [left; apply xy_eqb_eq; exact E | right; rewrite <- xy_eqb_eq; congruence]. Qed.

(** A step over a working link to an existing chip. *)
Definition works (m : machine) (p : xy) (n : node) : Prop :=
  (fst n < 6)%nat /\ is_link m p (fst n) = true /\ snd n = over_link m p (fst n) /\ is_chip m (snd n) = true.

Fixpoint walk (m : machine) (p : xy) (l : list node) : Prop :=
  match l with
  | [] => True
  | n :: rest => works m p n /\ walk m (snd n) rest
  end.

Lemma last_cons : forall p n l, last_xy p (n :: l) = last_xy (snd n) l.
Proof. intros p [d q] l. apply last_xy_cons. Qed.

Lemma walk_app : forall m l p r, walk m p (l ++ r) <-> walk m p l /\ walk m (last_xy p l) r.
Proof.
  induction l as [|n l IH]; intros p r.
  - cbn [app walk]. unfold last_xy. cbn [last snd]. tauto.
  - rewrite <- app_comm_cons, last_cons. cbn [walk]. rewrite IH. tauto.
Qed.

(** * _find_path *)
Definition good_item (m : machine) (s : xy) (it : xy * list node) : Prop :=
  walk m s (snd it) /\ last_xy s (snd it) = fst it.

Lemma find_next_spec : forall m vis p path q path',
  In (q, path') (find_next m vis p path) ->
  exists d, works m p (d, q) /\ path' = path ++ [(d, q)] /\ ~ In q vis.
Proof.
  intros m vis p path q path' H. unfold find_next in H. apply in_flat_map in H. destruct H as [d [D H]].
  apply in_seq in D. destruct (is_link m p d) eqn:L; [|destruct H].
  destruct (negb (xy_in (over_link m p d) vis) && is_chip m (over_link m p d)) eqn:E; [|destruct H].
  destruct H as [H|[]]. injection H as <- <-. apply andb_true_iff in E. destruct E as [E1 E2].
  exists d. split; [unfold works; cbn [fst snd]; split; [lia|]; auto|]. split; [reflexivity|].
  rewrite <- xy_in_spec. apply negb_true_iff in E1. congruence.
Qed.

Lemma find_next_complete : forall m vis p path n, works m p n -> ~ In (snd n) vis ->
  exists path', In (snd n, path') (find_next m vis p path).
Proof.
  intros m vis p path [d q] [W1 [W2 [W3 W4]]] Hv. cbn [fst snd] in *. exists (path ++ [(d, q)]).
  unfold find_next. apply in_flat_map. exists d. split; [apply in_seq; lia|]. rewrite W2, <- W3, W4.
  assert (E : xy_in q vis = false).
  { destruct (xy_in q vis) eqn:X; [|reflexivity]. apply xy_in_spec in X. contradiction. }
  rewrite E. left. reflexivity.
Qed.

Lemma find_next_length : forall m vis p path, length (find_next m vis p path) <= 6.
Proof.
  intros. unfold find_next.
  assert (G : forall l (f : nat -> list (xy * list node)), (forall d, length (f d) <= 1) -> length (flat_map f l) <= length l).
  { induction l as [|d l IH]; intros f H; [apply Nat.le_refl|]. cbn [flat_map length]. rewrite app_length.
    specialize (IH f H). specialize (H d). lia. }
  etransitivity; [apply G|reflexivity].
  intros d. destruct (is_link m p d); [|cbn; lia].
  destruct (negb (xy_in (over_link m p d) vis) && is_chip m (over_link m p d)); cbn; lia.
Qed.

Lemma find_loop_spec : forall fuel m s target vis q,
  (forall it, In it q -> good_item m s it) ->
  NoDup vis -> incl vis (s :: m_chips m) -> (forall it, In it q -> In (fst it) (s :: m_chips m)) ->
  7 * (S (length (m_chips m)) - length vis) + length q <= fuel ->
  (* what has been visited is not the target, and its neighbours are visited or waiting *)
  ~ In target vis ->
  (forall p n, In p vis -> works m p n -> In (snd n) vis \/ In (snd n) (map fst q)) ->
  (In s vis \/ In s (map fst q)) ->
  match find_loop fuel m target vis q with
  | Ok path => walk m s path /\ last_xy s path = target
  | Err e => e = RoutingException /\ forall path, walk m s path -> last_xy s path <> target
  end.
Proof.
  induction fuel as [|fuel IH]; intros m s target vis q G N I Q F T C S0.
  - destruct q as [|it q]; [|cbn [length] in F; lia]. cbn [find_loop]. split; [reflexivity|].
    intros path W E. assert (R : forall path p, In p vis -> walk m p path -> In (last_xy p path) vis).
    { clear - C. induction path as [|n path IH]; intros p Hp W; [exact Hp|]. destruct W as [W1 W2]. rewrite last_cons.
      apply IH; [|exact W2]. destruct (C p n Hp W1) as [X|[]]. exact X. }
    destruct S0 as [S0|[]]. apply T. rewrite <- E. apply R; assumption.
  - destruct q as [|[p path] q].
    { cbn [find_loop]. split; [reflexivity|]. intros path W E.
      assert (R : forall path p, In p vis -> walk m p path -> In (last_xy p path) vis).
      { clear - C. induction path as [|n path IH]; intros p Hp W; [exact Hp|]. destruct W as [W1 W2]. rewrite last_cons.
        apply IH; [|exact W2]. destruct (C p n Hp W1) as [X|[]]. exact X. }
      destruct S0 as [S0|[]]. apply T. rewrite <- E. apply R; assumption. }
    cbn [find_loop]. destruct (xy_in p vis) eqn:V.
    + apply xy_in_spec in V. apply IH; auto.
      * intros it Hit. apply G. right. exact Hit.
      * intros it Hit. apply Q. right. exact Hit.
      * cbn [length] in F. lia.
      * intros p' n Hp W. destruct (C p' n Hp W) as [X|[X|X]]; [left; exact X | left; cbn in X; rewrite <- X; exact V | right; exact X].
      * destruct S0 as [X|[X|X]]; [left; exact X | left; cbn in X; rewrite <- X; exact V | right; exact X].
    + assert (NV : ~ In p vis) by (rewrite <- xy_in_spec; congruence).
      destruct (G (p, path) (or_introl eq_refl)) as [Gw Gl]. cbn [fst snd] in Gw, Gl.
      destruct (xy_eqb p target) eqn:E.
      * apply xy_eqb_eq in E. subst target. split; assumption.
      * assert (NE : p <> target) by (rewrite <- xy_eqb_eq; congruence).
        pose proof (Q (p, path) (or_introl eq_refl)) as Qp. cbn [fst] in Qp.
        assert (N' : NoDup (p :: vis)) by (constructor; assumption).
        assert (I' : incl (p :: vis) (s :: m_chips m)) by (intros x [<-|Hx]; [exact Qp | exact (I x Hx)]).
        pose proof (NoDup_incl_length N' I') as LEN. cbn [length] in LEN.
        apply IH.
        -- intros it Hit. apply in_app_iff in Hit. destruct Hit as [Hit|Hit]; [apply G; right; exact Hit|].
           destruct it as [q' path']. apply find_next_spec in Hit. destruct Hit as [d [W [-> _]]].
           split; cbn [fst snd].
           ++ apply walk_app. split; [exact Gw|]. rewrite Gl. split; [exact W | exact Logic.I].
           ++ rewrite last_xy_app. reflexivity.
        -- exact N'.
        -- exact I'.
        -- intros it Hit. apply in_app_iff in Hit. destruct Hit as [Hit|Hit]; [apply Q; right; exact Hit|].
           destruct it as [q' path']. apply find_next_spec in Hit. destruct Hit as [d [[_ [_ [_ W]]] _]].
           right. cbn [fst snd] in *. apply xy_in_spec. exact W.
        -- rewrite app_length. pose proof (find_next_length m (p :: vis) p path). cbn [length] in *. lia.
        -- intros [X|X]; [contradiction | exact (T X)].
        -- intros p' n Hp W. rewrite map_app, in_app_iff.
           destruct (in_dec xy_dec (snd n) (p :: vis)) as [D|D]; [left; exact D|].
           destruct Hp as [<-|Hp].
           ++ right. right. destruct (find_next_complete m (p :: vis) p path n W D) as [path' X].
              apply in_map_iff. exists (snd n, path'). split; [reflexivity | exact X].
           ++ destruct (C p' n Hp W) as [X|[X|X]].
              ** left. right. exact X.
              ** left. left. exact X.
              ** right. left. exact X.
        -- rewrite map_app, in_app_iff. destruct S0 as [X|[X|X]]; [left; right; exact X | left; left; exact X | right; left; exact X].
Qed.

Lemma find_path_spec : forall m s t,
  match find_path m s t with
  | Ok path => walk m s path /\ last_xy s path = t
  | Err e => e = RoutingException /\ forall path, walk m s path -> last_xy s path <> t
  end.
Proof.
  intros m s t. unfold find_path. apply find_loop_spec.
  - intros it [<-|[]]. split; [exact I | reflexivity].
  - constructor.
  - intros x [].
  - intros it [<-|[]]. left. reflexivity.
  - cbn [length]. lia.
  - intros [].
  - intros p n [].
  - right. left. reflexivity.
Qed.

(** * _path_without_errors before loops are removed *)
(** The nodes name the chips that their links lead to. *)
Fixpoint named (m : machine) (p : xy) (l : list node) : Prop :=
  match l with
  | [] => True
  | n :: rest => (fst n < 6)%nat /\ snd n = over_link m p (fst n) /\ named m (snd n) rest
  end.

Lemma take_ok_spec : forall m nodes c l c' r, named m c nodes -> take_ok m c nodes = (l, c', r) ->
  nodes = l ++ r /\ walk m c l /\ c' = last_xy c l /\ named m c' r /\
  (forall n r', r = n :: r' -> is_ok m c' n = false).
Proof.
  induction nodes as [|n nodes IH]; intros c l c' r L H; cbn [take_ok] in H.
  - injection H as <- <- <-. split; [reflexivity|]. split; [exact I|]. split; [reflexivity|]. split; [exact I|].
    intros n r' X. discriminate.
  - destruct (is_ok m c n) eqn:E.
    + destruct L as [L1 [L2 L3]]. destruct (take_ok m (snd n) nodes) as [[l0 c0] r0] eqn:T. injection H as <- <- <-.
      destruct (IH (snd n) l0 c0 r0 L3 T) as [A [B [C [D E']]]].
      split; [rewrite A; reflexivity|]. split; [|split; [rewrite last_cons; exact C | split; [exact D | exact E']]].
      split; [|exact B]. unfold is_ok in E. apply andb_true_iff in E. destruct E as [E1 E2].
      split; [exact L1|]. split; [exact E1|]. split; [exact L2 | exact E2].
    + injection H as <- <- <-. split; [reflexivity|]. split; [exact I|]. split; [reflexivity|]. split; [exact L|].
      intros n' r' X. injection X as <- <-. exact E.
Qed.

Lemma skip_bad_spec : forall m nodes c c' r, named m c nodes -> skip_bad m c nodes = (c', r) ->
  exists l, nodes = l ++ r /\ c' = last_xy c l /\ named m c' r /\
   (forall n r', r = n :: r' -> is_ok m c' n = true).
Proof.
  induction nodes as [|n nodes IH]; intros c c' r L H; cbn [skip_bad] in H.
  - injection H as <- <-. exists []. split; [reflexivity|]. split; [reflexivity|]. split; [exact I|].
    intros n r' X. discriminate.
  - destruct (is_ok m c n) eqn:E.
    + injection H as <- <-. exists []. split; [reflexivity|]. split; [reflexivity|]. split; [exact L|].
      intros n' r' X. injection X as <- <-. exact E.
    + destruct L as [L1 [L2 L3]]. destruct (IH (snd n) c' r L3 H) as [l [A [B [C D]]]].
      exists (n :: l). split; [rewrite A; reflexivity|]. split; [rewrite last_cons; exact B|]. split; [exact C | exact D].
Qed.

Lemma errors_loop_spec : forall fuel m nodes c, named m c nodes -> length nodes <= fuel ->
  match errors_loop fuel m c nodes with
  | Ok l => walk m c l /\ last_xy c l = last_xy c nodes
  | Err e => e = RoutingException
  end.
Proof.
  induction fuel as [|fuel IH]; intros m nodes c L F.
  - destruct nodes; [|cbn in F; lia]. cbn. auto.
  - destruct nodes as [|n nodes]; [cbn; auto|].
    cbn [errors_loop].
    destruct (take_ok m c (n :: nodes)) as [[l1 c1] r1] eqn:T.
    destruct (take_ok_spec m _ c l1 c1 r1 L T) as [E1 [W1 [C1 [N1 B1]]]].
    destruct (skip_bad m c1 r1) as [c2 r2] eqn:S.
    destruct (skip_bad_spec m r1 c1 c2 r2 N1 S) as [b [E2 [C2 [N2 B2]]]].
    assert (LEN : length r2 <= fuel).
    { assert (length (n :: nodes) = length l1 + length r1) by (rewrite E1, app_length; reflexivity).
      assert (length r1 = length b + length r2) by (rewrite E2, app_length; reflexivity).
      cbn [length] in H, F.
      destruct l1 as [|x l1]; [|cbn [length] in H; lia].
      destruct b as [|x b]; [|cbn [length] in *; lia]. exfalso.
      cbn [app] in E1, E2. subst r1 r2. cbn in C2. subst c2.
      pose proof (B1 n nodes eq_refl) as X. rewrite (B2 n nodes eq_refl) in X. discriminate. }
    assert (LAST : last_xy c (n :: nodes) = last_xy c2 r2).
    { rewrite E1, last_xy_app, <- C1, E2, last_xy_app, <- C2. reflexivity. }
    specialize (IH m r2 c2 N2 LEN).
    destruct (Nat.eqb (length r2) (length r1)) eqn:Q.
    + apply Nat.eqb_eq in Q. assert (b = []).
      { assert (length r1 = length b + length r2) by (rewrite E2, app_length; reflexivity).
        destruct b; [reflexivity | cbn in H; lia]. }
      subst b. unfold last_xy in C2. cbn in C2. subst c2. cbn [bind].
      destruct (errors_loop fuel m c1 r2) as [l3|e]; cbn [bind]; [|exact IH].
      destruct IH as [W3 L3]. cbn [app]. split.
      * apply walk_app. split; [exact W1|]. rewrite <- C1. exact W3.
      * rewrite last_xy_app, <- C1, L3. symmetry. exact LAST.
    + pose proof (find_path_spec m c1 c2) as FP. destruct (find_path m c1 c2) as [l2|e]; cbn [bind].
      * destruct FP as [W2 L2]. destruct (errors_loop fuel m c2 r2) as [l3|e]; cbn [bind]; [|exact IH].
        destruct IH as [W3 L3]. split.
        -- apply walk_app. split; [exact W1|]. rewrite <- C1. apply walk_app. split; [exact W2|]. rewrite L2. exact W3.
        -- rewrite !last_xy_app, <- C1, L2, L3. symmetry. exact LAST.
      * exact (proj1 FP).
Qed.

Lemma repaired_spec : forall m nodes c, named m c nodes ->
  match repaired m c nodes with
  | Ok l => walk m c l /\ last_xy c l = last_xy c nodes
  | Err e => e = RoutingException
  end.
Proof. intros. apply errors_loop_spec; [assumption | apply Nat.le_refl]. Qed.

(** An exception is raised only for a stretch of the path that has no detour: no step of
    it works, and no way leads from its start to its end. *)
Lemma skip_bad_all : forall m nodes c c' r, skip_bad m c nodes = (c', r) ->
  exists b, nodes = b ++ r /\ forall x n y, b = x ++ n :: y -> is_ok m (last_xy c x) n = false.
Proof.
  induction nodes as [|n nodes IH]; intros c c' r H; cbn [skip_bad] in H.
  - injection H as <- <-. exists []. split; [reflexivity|]. intros x n y E. destruct x; discriminate.
  - destruct (is_ok m c n) eqn:K.
    + injection H as <- <-. exists []. split; [reflexivity|]. intros x n' y E. destruct x; discriminate.
    + destruct (IH _ _ _ H) as [b [E B]]. exists (n :: b). split; [rewrite E; reflexivity|].
      intros x n' y X. destruct x as [|n0 x]; cbn [app] in X; injection X as <- X; [exact K|]. rewrite last_cons. exact (B x n' y X).
Qed.
Definition no_detour (m : machine) (s : xy) (nodes : list node) : Prop :=
  exists a b d, nodes = a ++ b ++ d /\ b <> [] /\
    (forall x n y, b = x ++ n :: y -> ~ works m (last_xy s (a ++ x)) n) /\
    forall path, walk m (last_xy s a) path -> last_xy (last_xy s a) path <> last_xy s (a ++ b).
Lemma errors_loop_err : forall fuel m nodes c e, named m c nodes -> length nodes <= fuel ->
  errors_loop fuel m c nodes = Err e -> no_detour m c nodes.
Proof.
  induction fuel as [|fuel IH]; intros m nodes c e L F H.
  - destruct nodes; [discriminate H | cbn in F; lia].
  - destruct nodes as [|n nodes]; [discriminate H|].
    cbn [errors_loop] in H.
    destruct (take_ok m c (n :: nodes)) as [[l1 c1] r1] eqn:T.
    destruct (take_ok_spec m _ c l1 c1 r1 L T) as [E1 [W1 [C1 [N1 B1]]]].
    destruct (skip_bad m c1 r1) as [c2 r2] eqn:S.
    destruct (skip_bad_spec m r1 c1 c2 r2 N1 S) as [b [E2 [C2 [N2 B2]]]].
    assert (BB : forall x n y, b = x ++ n :: y -> is_ok m (last_xy c1 x) n = false).
    { destruct (skip_bad_all _ _ _ _ _ S) as [b' [E' B']]. rewrite E2 in E'. apply app_inv_tail in E'. subst b'. exact B'. }
    assert (LEN : length r2 <= fuel).
    { assert (length (n :: nodes) = length l1 + length r1) by (rewrite E1, app_length; reflexivity).
      assert (length r1 = length b + length r2) by (rewrite E2, app_length; reflexivity).
      cbn [length] in H0, F.
      destruct l1 as [|x l1]; [|cbn [length] in H0; lia].
      destruct b as [|x b]; [|cbn [length] in *; lia]. exfalso.
      cbn [app] in E1, E2. subst r1 r2. cbn in C2. subst c2.
      pose proof (B1 n nodes eq_refl) as X. rewrite (B2 n nodes eq_refl) in X. discriminate. }
    assert (D : no_detour m c2 r2 -> no_detour m c (n :: nodes)).
    { intros (a & b' & d & X1 & X2 & X3 & X4). exists (l1 ++ b ++ a), b', d.
      assert (P : forall z, last_xy c ((l1 ++ b ++ a) ++ z) = last_xy c2 (a ++ z)).
      { intros z. rewrite <- !app_assoc, !last_xy_app, <- C1, <- C2. reflexivity. }
      split; [rewrite E1, E2, X1, <- !app_assoc; reflexivity|]. split; [exact X2|]. split.
      - intros x n' y E. rewrite P. exact (X3 x n' y E).
      - rewrite P. specialize (P []). rewrite !app_nil_r in P. rewrite P. exact X4. }
    destruct (Nat.eqb (length r2) (length r1)) eqn:Q; cbn [bind] in H.
    + destruct (errors_loop fuel m c2 r2) as [l3|e'] eqn:E3; cbn [bind] in H; [discriminate H|]. apply D. exact (IH m r2 c2 e' N2 LEN E3).
    + pose proof (find_path_spec m c1 c2) as FP. destruct (find_path m c1 c2) as [l2|e1]; cbn [bind] in H.
      * destruct (errors_loop fuel m c2 r2) as [l3|e'] eqn:E3; cbn [bind] in H; [discriminate H|]. apply D. exact (IH m r2 c2 e' N2 LEN E3).
      * destruct FP as [_ FP]. exists l1, b, r2. split; [rewrite E1, E2; reflexivity|]. split.
        { intros ->. cbn [app] in E2. subst r2. rewrite Nat.eqb_refl in Q. discriminate. } split.
        -- intros x n' y E [_ [K1 [_ K2]]]. specialize (BB x n' y E). unfold is_ok in BB. rewrite last_xy_app, <- C1, K1 in *. rewrite K2 in BB. discriminate.
        -- intros path W. rewrite last_xy_app, <- C1 in *. rewrite <- C2. exact (FP path W).
Qed.

(** On a machine in which every chip can be reached from every other chip, no
    exception is raised. *)
Definition connected (m : machine) : Prop :=
  forall p q, is_chip m p = true -> is_chip m q = true -> exists l, walk m p l /\ last_xy p l = q.

Lemma walk_chip : forall m l p, is_chip m p = true -> walk m p l -> is_chip m (last_xy p l) = true.
Proof.
  induction l as [|n l IH]; intros p H W; [exact H|]. destruct W as [[_ [_ [_ W1]]] W2]. rewrite last_cons.
  apply IH; assumption.
Qed.

Lemma errors_loop_connected : forall fuel m nodes c, connected m -> named m c nodes -> length nodes <= fuel ->
  is_chip m c = true -> is_chip m (last_xy c nodes) = true ->
  exists l, errors_loop fuel m c nodes = Ok l.
Proof.
  induction fuel as [|fuel IH]; intros m nodes c K L F P Q.
  - destruct nodes; [|cbn in F; lia]. cbn. eauto.
  - destruct nodes as [|n nodes]; [cbn; eauto|].
    cbn [errors_loop].
    destruct (take_ok m c (n :: nodes)) as [[l1 c1] r1] eqn:T.
    destruct (take_ok_spec m _ c l1 c1 r1 L T) as [E1 [W1 [C1 [N1 B1]]]].
    destruct (skip_bad m c1 r1) as [c2 r2] eqn:S.
    destruct (skip_bad_spec m r1 c1 c2 r2 N1 S) as [b [E2 [C2 [N2 B2]]]].
    assert (LEN : length r2 <= fuel).
    { assert (length (n :: nodes) = length l1 + length r1) by (rewrite E1, app_length; reflexivity).
      assert (length r1 = length b + length r2) by (rewrite E2, app_length; reflexivity).
      cbn [length] in H, F.
      destruct l1 as [|x l1]; [|cbn [length] in H; lia].
      destruct b as [|x b]; [|cbn [length] in *; lia]. exfalso.
      cbn [app] in E1, E2. subst r1 r2. cbn in C2. subst c2.
      pose proof (B1 n nodes eq_refl) as X. rewrite (B2 n nodes eq_refl) in X. discriminate. }
    assert (LAST : last_xy c (n :: nodes) = last_xy c2 r2).
    { rewrite E1, last_xy_app, <- C1, E2, last_xy_app, <- C2. reflexivity. }
    assert (P1 : is_chip m c1 = true) by (rewrite C1; apply walk_chip; assumption).
    assert (P2 : is_chip m c2 = true).
    { destruct r2 as [|n2 r2'].
      - rewrite LAST in Q. exact Q.
      - pose proof (B2 n2 r2' eq_refl) as X. unfold is_ok, is_link in X.
        apply andb_true_iff in X. destruct X as [X _]. apply andb_true_iff in X. destruct X as [X _]. exact X. }
    destruct (IH m r2 c2 K N2 LEN P2) as [l3 E3]; [rewrite <- LAST; exact Q|]. rewrite E3.
    destruct (Nat.eqb (length r2) (length r1)); cbn [bind]; [eauto|].
    pose proof (find_path_spec m c1 c2) as FP. destruct (find_path m c1 c2) as [l2|e]; cbn [bind]; [eauto|].
    exfalso. destruct FP as [_ FP]. destruct (K c1 c2 P1 P2) as [l [Wl Ll]]. exact (FP l Wl Ll).
Qed.

(** * Removing loops *)
(** The chips of a path with its start in front. *)
Definition chips_of (start : xy) (l : list node) : list xy := start :: map snd l.

(** No chip inside a loop of the path is visited again after the loop. *)
Definition no_return (start : xy) (l : list node) : Prop :=
  forall a b c d p q, a < b < c -> c < d ->
    nth_error (chips_of start l) a = Some p -> nth_error (chips_of start l) c = Some p ->
    nth_error (chips_of start l) b = Some q -> nth_error (chips_of start l) d <> Some q.

(** [l] goes step by step with each step allowed. *)
Fixpoint chain (R : xy -> node -> Prop) (p : xy) (l : list node) : Prop :=
  match l with
  | [] => True
  | n :: rest => R p n /\ chain R (snd n) rest
  end.

Lemma chain_app : forall R l p r, chain R p (l ++ r) <-> chain R p l /\ chain R (last_xy p l) r.
Proof.
  induction l as [|n l IH]; intros p r.
  - cbn [app chain]. unfold last_xy. cbn [last snd]. tauto.
  - rewrite <- app_comm_cons, last_cons. cbn [chain]. rewrite IH. tauto.
Qed.

Lemma nth_chips_last : forall l p, nth_error (chips_of p l) (length l) = Some (last_xy p l).
Proof.
  unfold chips_of. induction l as [|n l IH]; intros p; [reflexivity|].
  rewrite last_cons. cbn [length map nth_error]. apply IH.
Qed.

Lemma nth_chips_prefix : forall l r p k, k <= length l ->
  nth_error (chips_of p (l ++ r)) k = nth_error (chips_of p l) k.
Proof.
  intros l r p k H. unfold chips_of. rewrite map_app, app_comm_cons.
  apply nth_error_app1. cbn [length]. rewrite map_length. apply Nat.lt_succ_r. exact H.
Qed.

(** The state of the loop after the first [n] nodes of the original path [P]:
    [cur] is what is left of them; [pos k] is a position in the original path of
    the k-th chip of [cur]. *)
Record linv (R : xy -> node -> Prop) (start : xy) (orig : list node) (n : nat)
    (cur : list node) (seen : list (xy * nat)) (pos : nat -> nat) : Prop := mkLInv {
  li_chain : chain R start cur;
  li_last : last_xy start cur = last_xy start (firstn n orig);
  li_nodup : NoDup (chips_of start cur);
  li_seen : forall k p, nth_error (chips_of start cur) k = Some p -> dget xy_eqb seen p = Some k;
  li_stale : forall p, In p (map fst seen) -> ~ In p (chips_of start cur) ->
     exists a b c q, a < b < c /\ c <= n /\ nth_error (chips_of start orig) a = Some q /\
       nth_error (chips_of start orig) c = Some q /\ nth_error (chips_of start orig) b = Some p;
  li_pos : forall k p, nth_error (chips_of start cur) k = Some p ->
     nth_error (chips_of start orig) (pos k) = Some p /\ pos k <= n;
  li_incr : forall j k, j < k -> k <= length cur -> pos j < pos k;
  li_incl : incl cur orig
}.

Lemma NoDup_app_l : forall {A} (l r : list A), NoDup (l ++ r) -> NoDup l.
Proof.
  induction l as [|x l IH]; intros r H; [constructor|]. cbn [app] in H. inversion H; subst. constructor.
  - intros X. apply H2. apply in_app_iff. left. exact X.
  - exact (IH r H3).
Qed.
Lemma firstn_snoc : forall {A} (l : list A) n x, nth_error l n = Some x -> firstn (S n) l = firstn n l ++ [x].
Proof.
  induction l as [|y l IH]; intros n x H; [destruct n; discriminate|].
  destruct n as [|n]; [cbn in H; injection H as ->; reflexivity|]. cbn in H.
  cbn [firstn app]. f_equal. apply IH. exact H.
Qed.

Lemma nth_chips : forall l p n x, nth_error l n = Some x -> nth_error (chips_of p l) (S n) = Some (snd x).
Proof. intros l p n x H. unfold chips_of. cbn [nth_error]. rewrite nth_error_map, H. reflexivity. Qed.

Lemma loops_correct : forall R start orig, chain R start orig -> no_return start orig ->
  forall fuel n cur seen pos, linv R start orig n cur seen pos -> n <= length orig -> length orig - n <= fuel ->
  exists cur' seen' pos',
    loops_loop fuel (cur ++ skipn n orig) (length cur) seen = cur' /\
    linv R start orig (length orig) cur' seen' pos'.
Proof.
  intros R start orig CH NR. induction fuel as [|fuel IH]; intros n cur seen pos V LE F.
  - assert (n = length orig) by lia. subst n. exists cur, seen, pos. cbn [loops_loop].
    rewrite skipn_all, app_nil_r. split; [reflexivity | exact V].
  - cbn [loops_loop]. rewrite nth_error_app2 by lia. rewrite Nat.sub_diag.
    destruct (skipn n orig) as [|[d nxt] rest] eqn:SK.
    + cbn [nth_error]. exists cur, seen, pos. rewrite app_nil_r. split; [reflexivity|].
      assert (n = length orig); [|subst n; exact V].
      pose proof (skipn_length n orig) as X. rewrite SK in X. cbn in X. lia.
    + cbn [nth_error].
      assert (Hn : nth_error orig n = Some (d, nxt)).
      { rewrite <- (firstn_skipn n orig), SK. rewrite nth_error_app2; rewrite firstn_length, Nat.min_l by exact LE; [|lia].
        rewrite Nat.sub_diag. reflexivity. }
      assert (LT : n < length orig) by (apply nth_error_Some; congruence).
      assert (SK' : skipn (S n) orig = rest).
      { rewrite <- (firstn_skipn n orig) at 1. rewrite SK.
        rewrite skipn_app, firstn_length, Nat.min_l by exact LE.
        replace (S n - n) with 1 by lia. rewrite skipn_all2 by (rewrite firstn_length; lia). reflexivity. }
      pose proof (nth_chips orig start n (d, nxt) Hn) as HP. cbn [snd] in HP.
      assert (LAST' : last_xy start (firstn (S n) orig) = nxt).
      { rewrite (firstn_snoc _ _ _ Hn), last_xy_app. reflexivity. }
      destruct V as [V1 V2 V3 V4 V5 V6 V7 V8].
      destruct (dget xy_eqb seen nxt) as [ls|] eqn:G.
      * (* seen: it must be in the current path *)
        destruct (in_dec xy_dec nxt (chips_of start cur)) as [D|D].
        2:{ exfalso. assert (X : In nxt (map fst seen)).
            { apply in_map_iff. exists (nxt, ls). split; [reflexivity | exact (dget_In _ xy_eqb_eq _ _ _ G)]. }
            destruct (V5 nxt X D) as [a [b [c [q [H1 [H2 [H3 [H4 H5]]]]]]]].
            assert (HS : c < S n) by lia.
            exact (NR a b c (S n) q nxt H1 HS H3 H4 H5 HP). }
        apply In_nth_error in D. destruct D as [k Dk]. pose proof (V4 k nxt Dk) as Gk.
        assert (k = ls) by congruence. subst k. clear Gk.
        assert (LSL : ls <= length cur).
        { assert (ls < length (chips_of start cur)) by (apply nth_error_Some; congruence).
          unfold chips_of in H. cbn [length] in H. rewrite map_length in H. lia. }
        assert (CUR : firstn ls (cur ++ (d, nxt) :: rest) ++ skipn (Nat.max ls (length cur + 1)) (cur ++ (d, nxt) :: rest)
                      = firstn ls cur ++ skipn (S n) orig).
        { f_equal.
          - rewrite firstn_app. replace (ls - length cur) with 0 by lia. cbn [firstn]. apply app_nil_r.
          - rewrite Nat.max_r by lia. rewrite skipn_app. rewrite skipn_all2 by lia.
            replace (length cur + 1 - length cur) with 1 by lia. cbn [app skipn]. symmetry. exact SK'. }
        rewrite CUR. clear CUR.
        assert (LEN : length (firstn ls cur) = ls) by (rewrite firstn_length; lia).
        assert (V' : linv R start orig (S n) (firstn ls cur) seen pos).
        2:{ pose proof (IH (S n) (firstn ls cur) seen pos V') as X. rewrite LEN in X. apply X; lia. }
        assert (PRE : forall k, k <= ls -> nth_error (chips_of start (firstn ls cur)) k = nth_error (chips_of start cur) k).
        { intros k Hk. rewrite <- (firstn_skipn ls cur) at 2. symmetry. apply nth_chips_prefix. lia. }
        assert (PRE2 : forall k p, nth_error (chips_of start (firstn ls cur)) k = Some p ->
                   k <= ls /\ nth_error (chips_of start cur) k = Some p).
        { intros k p H. assert (k <= ls).
          { assert (k < length (chips_of start (firstn ls cur))) by (apply nth_error_Some; congruence).
            unfold chips_of in H0. cbn [length] in H0. rewrite map_length, LEN in H0. lia. }
          split; [assumption|]. rewrite <- PRE by assumption. exact H. }
        constructor.
        -- rewrite <- (firstn_skipn ls cur) in V1. apply chain_app in V1. exact (proj1 V1).
        -- rewrite LAST'. pose proof (nth_chips_last (firstn ls cur) start) as X. rewrite LEN in X.
           rewrite PRE in X by lia. congruence.
        -- rewrite <- (firstn_skipn ls cur) in V3. unfold chips_of in *. rewrite map_app, app_comm_cons in V3.
           apply NoDup_app_l in V3. exact V3.
        -- intros k p H. apply PRE2 in H. exact (V4 k p (proj2 H)).
        -- intros p Hp Np. destruct (in_dec xy_dec p (chips_of start cur)) as [E|E].
           ++ apply In_nth_error in E. destruct E as [k Ek].
              assert (KL : ls < k).
              { destruct (le_lt_dec k ls) as [X|X]; [|exact X]. exfalso. apply Np. apply (nth_error_In _ k).
                rewrite PRE by exact X. exact Ek. }
              assert (KC : k <= length cur).
              { assert (k < length (chips_of start cur)) by (apply nth_error_Some; congruence).
                unfold chips_of in H. cbn [length] in H. rewrite map_length in H. lia. }
              destruct (V6 k p Ek) as [E1 E2]. destruct (V6 ls nxt Dk) as [E3 E4].
              exists (pos ls), (pos k), (S n), nxt.
              split; [pose proof (V7 ls k KL KC); lia|]. split; [lia|]. split; [exact E3|]. split; [exact HP | exact E1].
           ++ destruct (V5 p Hp E) as [a [b [c [q [H1 [H2 H3]]]]]]. exists a, b, c, q. split; [exact H1|]. split; [lia | exact H3].
        -- intros k p H. apply PRE2 in H. destruct (V6 k p (proj2 H)) as [E1 E2]. split; [exact E1 | lia].
        -- intros j k H1 H2. rewrite LEN in H2. apply V7; lia.
        -- intros x Hx. apply V8. rewrite <- (firstn_skipn ls cur). apply in_app_iff. left. exact Hx.
      * (* a new chip *)
        replace (cur ++ (d, nxt) :: rest) with ((cur ++ [(d, nxt)]) ++ skipn (S n) orig) by (rewrite SK', <- app_assoc; reflexivity).
        assert (LEN : length cur + 1 = length (cur ++ [(d, nxt)])) by (rewrite app_length; reflexivity).
        assert (ND : ~ In nxt (chips_of start cur)).
        { intros X. apply In_nth_error in X. destruct X as [k X]. pose proof (V4 k nxt X). congruence. }
        assert (V' : linv R start orig (S n) (cur ++ [(d, nxt)]) (dset xy_eqb seen nxt (length cur + 1))
                       (fun k => if Nat.eqb k (length cur + 1) then S n else pos k)).
        2:{ pose proof (IH (S n) _ _ _ V') as X. rewrite <- LEN in X. apply X; lia. }
        assert (CS : chips_of start (cur ++ [(d, nxt)]) = chips_of start cur ++ [nxt]).
        { unfold chips_of. rewrite map_app. reflexivity. }
        assert (CL : length (chips_of start cur) = length cur + 1).
        { unfold chips_of. cbn [length]. rewrite map_length. lia. }
        assert (NTH : forall k p, nth_error (chips_of start cur ++ [nxt]) k = Some p ->
           (k <= length cur /\ nth_error (chips_of start cur) k = Some p) \/ (k = length cur + 1 /\ p = nxt)).
        { intros k p H. destruct (le_lt_dec k (length cur)) as [X|X].
          - left. split; [exact X|]. rewrite nth_error_app1 in H by lia. exact H.
          - right. rewrite nth_error_app2 in H by lia. destruct (k - length (chips_of start cur)) as [|j] eqn:J.
            + cbn in H. injection H as <-. split; [lia | reflexivity].
            + cbn in H. destruct j; discriminate. }
        constructor.
        -- apply chain_app. split; [exact V1|]. rewrite V2.
           rewrite <- (firstn_skipn n orig) in CH. rewrite SK in CH. apply chain_app in CH. destruct CH as [_ CH].
           destruct CH as [CH _]. split; [exact CH | exact I].
        -- rewrite LAST', last_xy_app. reflexivity.
        -- rewrite CS. apply (Permutation.Permutation_NoDup (l := nxt :: chips_of start cur));
           [apply Permutation.Permutation_cons_append | constructor; assumption].
        -- intros k p H. rewrite CS in H. rewrite (dget_dset _ xy_eqb_eq).
           destruct (NTH k p H) as [[X Y]|[X Y]].
           ++ destruct (xy_eqb nxt p) eqn:E; [|exact (V4 k p Y)]. apply xy_eqb_eq in E. subst p.
              exfalso. apply ND. exact (nth_error_In _ _ Y).
           ++ subst p. rewrite (proj2 (xy_eqb_eq nxt nxt) eq_refl). f_equal. symmetry. exact X.
        -- intros p Hp Np. rewrite CS in Np. rewrite in_app_iff in Np.
           assert (Hp' : In p (map fst seen)).
           { apply in_map_iff in Hp. destruct Hp as [[p' v] [E Hp]]. cbn [fst] in E. subst p'.
             apply (dset_In _ xy_eqb_eq) in Hp. destruct Hp as [[-> ->]|Hp].
             - exfalso. apply Np. right. left. reflexivity.
             - apply in_map_iff. exists (p, v). auto. }
           destruct (V5 p Hp') as [a [b [c [q [H1 [H2 H3]]]]]]; [tauto|]. exists a, b, c, q. split; [exact H1|]. split; [lia | exact H3].
        -- intros k p H. rewrite CS in H. destruct (NTH k p H) as [[X Y]|[X Y]].
           ++ assert (E : Nat.eqb k (length cur + 1) = false) by (apply Nat.eqb_neq; lia). rewrite E.
              destruct (V6 k p Y) as [E1 E2]. split; [exact E1 | lia].
           ++ subst k p. rewrite Nat.eqb_refl. split; [exact HP | lia].
        -- intros j k H1 H2. rewrite <- LEN in H2.
           assert (E : Nat.eqb j (length cur + 1) = false) by (apply Nat.eqb_neq; lia). rewrite E.
           destruct (Nat.eqb k (length cur + 1)) eqn:E2.
           ++ assert (X : nth_error (chips_of start cur) j <> None) by (apply nth_error_Some; lia).
              destruct (nth_error (chips_of start cur) j) as [p|] eqn:Y; [|contradiction].
              destruct (V6 j p Y) as [_ Z]. lia.
           ++ apply Nat.eqb_neq in E2. apply V7; lia.
        -- intros x Hx. apply in_app_iff in Hx. destruct Hx as [Hx|[<-|[]]]; [exact (V8 x Hx)|].
           exact (nth_error_In _ _ Hn).
Qed.

Lemma path_without_loops_spec : forall R start nodes, chain R start nodes -> no_return start nodes ->
  let l := path_without_loops start nodes in
  chain R start l /\ last_xy start l = last_xy start nodes /\ NoDup (chips_of start l) /\ incl l nodes.
Proof.
  intros R start nodes CH NR l. unfold l, path_without_loops.
  destruct (loops_correct R start nodes CH NR (length nodes) 0 [] [(start, 0)] (fun k => 0)) as [cur [seen [pos [E V]]]].
  - constructor.
    + exact I.
    + reflexivity.
    + constructor; [intros [] | constructor].
    + intros k p H. destruct k as [|k]; [|destruct k; discriminate]. cbn in H. injection H as <-.
      cbn [dget]. rewrite (proj2 (xy_eqb_eq start start) eq_refl). reflexivity.
    + intros p [<-|[]] H. exfalso. apply H. left. reflexivity.
    + intros k p H. destruct k as [|k]; [|destruct k; discriminate]. cbn in H. injection H as <-. split; [reflexivity | lia].
    + intros j k H1 H2. cbn in H2. lia.
    + intros x [].
  - lia.
  - lia.
  - cbn [app length] in E. rewrite skipn_O in E. rewrite E.
    destruct V as [V1 V2 V3 _ _ _ _ V8]. rewrite firstn_all in V2. auto.
Qed.

(** A path without repeated chips is left as it is. *)
Lemma no_repeat_no_return : forall start l, NoDup (chips_of start l) -> no_return start l.
Proof.
  intros start l N a b c d p q H1 H2 A C B D.
  assert (a = c); [|lia]. apply (proj1 (NoDup_nth_error _) N).
  - apply nth_error_Some. congruence.
  - congruence.
Qed.

(** * Together *)
Lemma chain_walk : forall m l p, chain (works m) p l <-> walk m p l.
Proof.
  induction l as [|n l IH]; intros p; [reflexivity|]. cbn [chain walk]. rewrite IH. reflexivity.
Qed.

Lemma path_without_errors_spec : forall m source nodes l0, named m source nodes ->
  repaired m source nodes = Ok l0 -> no_return source l0 ->
  exists l, path_without_errors m source nodes = Ok l /\
    walk m source l /\ last_xy source l = last_xy source nodes /\ NoDup (chips_of source l).
Proof.
  intros m source nodes l0 N E NR. pose proof (repaired_spec m nodes source N) as H. rewrite E in H.
  destruct H as [W L]. unfold path_without_errors. rewrite E. cbn [bind]. eexists. split; [reflexivity|].
  destruct (path_without_loops_spec (works m) source l0) as [A [B [C D]]]; [apply chain_walk; exact W | exact NR|].
  split; [apply chain_walk; exact A|]. split; [congruence | exact C].
Qed.

Lemma linked_named : forall m l p, linked m p l -> (forall n, In n l -> fst n < 6) -> named m p l.
Proof.
  induction l as [|[d q] l IH]; intros p L H; [exact I|]. destruct L as [L1 L2].
  split; [exact (H (d, q) (or_introl eq_refl))|]. split; [exact L1|]. apply IH; [exact L2|].
  intros n Hn. apply H. right. exact Hn.
Qed.

Lemma ldf_named : forall m v p, named m p (longest_dimension_first m v p).
Proof.
  intros m [[x y] z] p. destruct (ldf_spec m x y z p) as [A _]. apply linked_named; [exact A|].
  destruct (ldf_longest m x y z p) as [d1 [d2 [d3 [_ [_ [_ E]]]]]].
  intros n Hn. apply (in_map fst) in Hn. rewrite E in Hn. apply in_flat_map in Hn. destruct Hn as [d [_ Hd]].
  apply repeat_spec in Hd. rewrite Hd. clear.
  unfold axis_link. generalize (if (0 <? snd d)%Z then fst d else fst d + 3). intros k.
  do 6 (destruct k as [|k]; [cbn; lia|]). destruct k; cbn; lia.
Qed.

(** On a machine without faults the direct path is used. *)
Lemma repaired_ok : forall m nodes c, walk m c nodes -> repaired m c nodes = Ok nodes.
Proof.
  assert (T : forall m nodes c, walk m c nodes -> take_ok m c nodes = (nodes, last_xy c nodes, [])).
  { induction nodes as [|n nodes IH]; intros c W; [reflexivity|]. destruct W as [[W1 [W2 [W3 W4]]] W5].
    cbn [take_ok]. unfold is_ok. rewrite W2, W4. cbn [andb]. rewrite (IH _ W5), last_cons. reflexivity. }
  intros m nodes c W. unfold repaired. destruct nodes as [|n nodes]; [reflexivity|].
  cbn [length errors_loop]. rewrite (T _ _ _ W). cbn [skip_bad length Nat.eqb bind].
  destruct (length nodes); cbn [errors_loop bind]; rewrite app_nil_r; reflexivity.
Qed.

Lemma loops_id : forall start nodes, NoDup (chips_of start nodes) -> path_without_loops start nodes = nodes.
Proof.
  intros start nodes N.
  assert (G : forall fuel pre post seen, nodes = pre ++ post ->
     (forall p, dmem xy_eqb seen p = true -> In p (chips_of start pre)) ->
     loops_loop fuel nodes (length pre) seen = nodes).
  { induction fuel as [|fuel IH]; intros pre post seen E K; [reflexivity|]. cbn [loops_loop].
    destruct post as [|[d q] post].
    - rewrite app_nil_r in E. subst pre. rewrite (proj2 (nth_error_None nodes (length nodes))) by lia. reflexivity.
    - assert (Hn : nth_error nodes (length pre) = Some (d, q)).
      { rewrite E, nth_error_app2, Nat.sub_diag by lia. reflexivity. }
      rewrite Hn. destruct (dget xy_eqb seen q) as [ls|] eqn:G.
      + exfalso. assert (X : In q (chips_of start pre)) by (apply K; unfold dmem; rewrite G; reflexivity).
        rewrite E in N. unfold chips_of in N, X. rewrite map_app, app_comm_cons in N. cbn [map snd] in N.
        apply NoDup_remove_2 in N. apply N. apply in_app_iff. left. exact X.
      + replace (length pre + 1) with (length (pre ++ [(d, q)])) by (rewrite app_length; reflexivity).
        apply (IH _ post); [rewrite E, <- app_assoc; reflexivity|].
        intros p Hp. unfold dmem in Hp. rewrite (dget_dset _ xy_eqb_eq) in Hp.
        unfold chips_of. rewrite map_app, app_comm_cons, in_app_iff.
        destruct (xy_eqb q p) eqn:Q.
        * apply xy_eqb_eq in Q. right. left. exact Q.
        * left. apply K. exact Hp. }
  unfold path_without_loops. apply (G (length nodes) [] nodes); [reflexivity|].
  intros p Hp. left. unfold dmem in Hp. cbn [dget] in Hp. destruct (xy_eqb start p) eqn:E; [apply xy_eqb_eq in E; exact E | discriminate].
Qed.

(** The whole path of a vector. *)
Lemma direct_exact : forall m v s,
  match repaired m s (longest_dimension_first m v s) with
  | Ok l0 => walk m s l0 /\ last_xy s l0 = last_xy s (longest_dimension_first m v s) /\
      (no_return s l0 -> exists l, direct_path m v s = Ok l /\ walk m s l /\
         last_xy s l = last_xy s (longest_dimension_first m v s) /\ NoDup (s :: map snd l))
  | Err e => direct_path m v s = Err RoutingException /\ no_detour m s (longest_dimension_first m v s)
  end.
Proof.
  intros m v s. pose proof (ldf_named m v s) as N. pose proof (repaired_spec m _ s N) as H.
  destruct (repaired m s (longest_dimension_first m v s)) as [l0|e] eqn:E.
  - destruct H as [W L]. split; [exact W|]. split; [exact L|]. intros NR.
    exact (path_without_errors_spec m s _ l0 N E NR).
  - subst e. split; [unfold direct_path, path_without_errors; rewrite E; reflexivity|].
    exact (errors_loop_err _ m _ s _ N (Nat.le_refl _) E).
Qed.

Lemma direct_spec : forall m v s,
  match repaired m s (longest_dimension_first m v s) with
  | Ok l0 => walk m s l0 /\ last_xy s l0 = last_xy s (longest_dimension_first m v s) /\
      (no_return s l0 -> exists l, direct_path m v s = Ok l /\ walk m s l /\
         last_xy s l = last_xy s (longest_dimension_first m v s) /\ NoDup (s :: map snd l))
  | Err e => direct_path m v s = Err RoutingException
  end.
Proof.
  intros m v s. pose proof (direct_exact m v s) as H. destruct (repaired m s (longest_dimension_first m v s)); [exact H | exact (proj1 H)].
Qed.

Lemma direct_connected : forall m v s, connected m -> is_chip m s = true ->
  is_chip m (last_xy s (longest_dimension_first m v s)) = true ->
  exists l0, repaired m s (longest_dimension_first m v s) = Ok l0 /\
    direct_path m v s = Ok (path_without_loops s l0).
Proof.
  intros m v s K H1 H2. destruct (errors_loop_connected _ m _ s K (ldf_named m v s) (Nat.le_refl _) H1 H2) as [l E].
  exists l. split; [exact E|]. unfold direct_path, path_without_errors, repaired. rewrite E. reflexivity.
Qed.

Lemma direct_faultless : forall m v s, walk m s (longest_dimension_first m v s) ->
  NoDup (s :: map snd (longest_dimension_first m v s)) ->
  direct_path m v s = Ok (longest_dimension_first m v s).
Proof.
  intros m v s W N. unfold direct_path, path_without_errors. rewrite (repaired_ok _ _ _ W). cbn [bind].
  rewrite (loops_id _ _ N). reflexivity.
Qed.
