(** When the repair of a direct path succeeds, on machines on which every way can be
    gone back (C66). *)
From Coq Require Import List ZArith Arith Bool Lia.
From Verif Require Import Base Dict TreeModel MachModel LdfModel LdfProofs PathModel PathProofs.
Import ListNotations.
Local Open Scope nat_scope.

Definition reaches (m : machine) (p q : xy) : Prop := exists l, walk m p l /\ last_xy p l = q.
Definition two_way (m : machine) : Prop := forall p q, reaches m p q -> reaches m q p.
(** Each working step of a path starts on a chip that can be reached. *)
Definition steps_reached (m : machine) (s : xy) (nodes : list node) : Prop :=
  forall a n b, nodes = a ++ n :: b -> works m (last_xy s a) n -> reaches m s (last_xy s a).

Lemma reaches_trans : forall m p q r, reaches m p q -> reaches m q r -> reaches m p r.
Proof.
  intros m p q r [l [W E]] [l' [W' E']]. exists (l ++ l'). rewrite walk_app, last_xy_app, E. auto.
Qed.
Lemma works_is_ok : forall m p n, works m p n -> is_ok m p n = true.
Proof. intros m p n [_ [A [_ B]]]. unfold is_ok. rewrite A, B. reflexivity. Qed.
Lemma app_split : forall {A} (l r a : list A) n b, l ++ r = a ++ n :: b ->
  (exists l', l = a ++ n :: l') \/ (exists a', a = l ++ a' /\ r = a' ++ n :: b).
Proof.
  intros A. induction l as [|x l IH]; intros r a n b E; cbn [app] in E.
  - right. exists a. auto.
  - destruct a as [|y a]; cbn [app] in E; injection E as <- E.
    + left. exists l. reflexivity.
    + destruct (IH r a n b E) as [[l' ->]|[a' [-> ->]]]; [left; exists l'; reflexivity|]. right. exists a'. auto.
Qed.

Lemma errors_loop_reached : forall fuel m nodes c l, named m c nodes -> errors_loop fuel m c nodes = Ok l -> length nodes <= fuel ->
  steps_reached m c nodes.
Proof.
  induction fuel as [|fuel IH]; intros m nodes c l N H F.
  - destruct nodes; [|cbn in F; lia]. intros a n b E. destruct a; discriminate.
  - destruct nodes as [|n0 nodes]; [intros a n b E; destruct a; discriminate|].
    cbn [errors_loop] in H.
    destruct (take_ok m c (n0 :: nodes)) as [[l1 c1] r1] eqn:T.
    destruct (take_ok_spec m _ c l1 c1 r1 N T) as [E1 [W1 [C1 [N1 B1]]]].
    destruct (skip_bad m c1 r1) as [c2 r2] eqn:S.
    destruct (skip_bad_spec m r1 c1 c2 r2 N1 S) as [b0 [E2 [C2 [N2 B2]]]].
    destruct (skip_bad_all _ _ _ _ _ S) as [b' [E' B']]. rewrite E2 in E'. apply app_inv_tail in E'. subst b'.
    assert (LEN : length r2 <= fuel).
    { assert (length (n0 :: nodes) = length l1 + length r1) by (rewrite E1, app_length; reflexivity).
      assert (length r1 = length b0 + length r2) by (rewrite E2, app_length; reflexivity).
      cbn [length] in *.
      destruct l1 as [|x l1]; [|cbn [length] in *; lia].
      destruct b0 as [|x b0]; [|cbn [length] in *; lia]. exfalso.
      cbn [app] in E1, E2. subst r1 r2. cbn in C2. subst c2.
      pose proof (B1 n0 nodes eq_refl) as X. rewrite (B2 n0 nodes eq_refl) in X. discriminate. }
    apply bind_Ok_inv in H. destruct H as [l2 [H2 H]]. apply bind_Ok_inv in H. destruct H as [l3 [H3 _]].
    assert (R2 : reaches m c c2).
    { apply reaches_trans with c1; [exists l1; auto|]. destruct (Nat.eqb_spec (length r2) (length r1)) as [Q|Q].
      - exists []. split; [exact I|]. subst c2. destruct b0 as [|x b0]; [reflexivity|]. rewrite E2, app_length in Q. cbn [length] in Q. lia.
      - pose proof (find_path_spec m c1 c2) as FP. rewrite H2 in FP. exists l2. exact FP. }
    intros a n b E WK. rewrite E1 in E. destruct (app_split _ _ _ _ _ E) as [[l' ->]|[a' [-> E3]]].
    + exists a. split; [|reflexivity]. apply walk_app in W1. exact (proj1 W1).
    + rewrite E2 in E3. rewrite last_xy_app, <- C1 in *. destruct (app_split _ _ _ _ _ E3) as [[l' ->]|[a2 [-> E4]]].
      * apply works_is_ok in WK. rewrite (B' a' n l' eq_refl) in WK. discriminate.
      * rewrite last_xy_app, <- C2 in *. apply reaches_trans with c2; [exact R2|]. exact (IH m r2 c2 l3 N2 H3 LEN a2 n b E4 WK).
Qed.

Lemma errors_loop_finds : forall fuel m nodes c, two_way m -> named m c nodes -> length nodes <= fuel ->
  reaches m c (last_xy c nodes) -> steps_reached m c nodes -> exists l, errors_loop fuel m c nodes = Ok l.
Proof.
  induction fuel as [|fuel IH]; intros m nodes c TW N F RE RS.
  - destruct nodes; [|cbn in F; lia]. cbn. eauto.
  - destruct nodes as [|n0 nodes]; [cbn; eauto|]. cbn [errors_loop].
    destruct (take_ok m c (n0 :: nodes)) as [[l1 c1] r1] eqn:T.
    destruct (take_ok_spec m _ c l1 c1 r1 N T) as [E1 [W1 [C1 [N1 B1]]]].
    destruct (skip_bad m c1 r1) as [c2 r2] eqn:S.
    destruct (skip_bad_spec m r1 c1 c2 r2 N1 S) as [b0 [E2 [C2 [N2 B2]]]].
    assert (LEN : length r2 <= fuel).
    { assert (length (n0 :: nodes) = length l1 + length r1) by (rewrite E1, app_length; reflexivity).
      assert (length r1 = length b0 + length r2) by (rewrite E2, app_length; reflexivity).
      cbn [length] in *.
      destruct l1 as [|x l1]; [|cbn [length] in *; lia].
      destruct b0 as [|x b0]; [|cbn [length] in *; lia]. exfalso.
      cbn [app] in E1, E2. subst r1 r2. cbn in C2. subst c2.
      pose proof (B1 n0 nodes eq_refl) as X. rewrite (B2 n0 nodes eq_refl) in X. discriminate. }
    assert (LAST : last_xy c (n0 :: nodes) = last_xy c2 r2).
    { rewrite E1, last_xy_app, <- C1, E2, last_xy_app, <- C2. reflexivity. }
    assert (AT : c2 = last_xy c (l1 ++ b0)) by (rewrite last_xy_app, <- C1; exact C2).
    assert (R1 : reaches m c c1) by (exists l1; auto).
    assert (R2 : reaches m c c2).
    { destruct r2 as [|n2 r2'].
      - rewrite LAST in RE. exact RE.
      - rewrite AT. apply (RS (l1 ++ b0) n2 r2'); [rewrite <- app_assoc; congruence|]. rewrite <- AT.
        destruct N2 as [M1 [M2 _]]. pose proof (B2 n2 r2' eq_refl) as X. unfold is_ok in X. apply andb_true_iff in X.
        destruct X as [X1 X2]. split; [exact M1|]. split; [exact X1|]. split; [exact M2 | exact X2]. }
    destruct (IH m r2 c2 TW N2 LEN) as [l3 E3].
    + rewrite <- LAST. apply reaches_trans with c; [apply TW; exact R2 | exact RE].
    + intros a n b E WK. apply reaches_trans with c; [apply TW; exact R2|]. rewrite AT, <- last_xy_app.
      apply (RS ((l1 ++ b0) ++ a) n b); [rewrite <- !app_assoc; congruence|]. rewrite last_xy_app, <- AT. exact WK.
    + rewrite E3. destruct (Nat.eqb (length r2) (length r1)); cbn [bind]; [eauto|].
      pose proof (find_path_spec m c1 c2) as FP. destruct (find_path m c1 c2) as [l2|e]; cbn [bind]; [eauto|].
      exfalso. destruct FP as [_ FP]. destruct (reaches_trans m c1 c c2 (TW _ _ R1) R2) as [l [Wl Ll]]. exact (FP l Wl Ll).
Qed.

Lemma direct_iff : forall m v s, two_way m ->
  (exists l, direct_path m v s = Ok l) <->
  (reaches m s (last_xy s (longest_dimension_first m v s)) /\ steps_reached m s (longest_dimension_first m v s)).
Proof.
  intros m v s TW. assert (N := ldf_named m v s). split.
  - intros [l H]. unfold direct_path, path_without_errors in H. apply bind_Ok_inv in H. destruct H as [l0 [H _]].
    pose proof (repaired_spec m _ s N) as R. rewrite H in R. split; [exists l0; exact R|].
    exact (errors_loop_reached _ m _ s l0 N H (Nat.le_refl _)).
  - intros [RE RS]. destruct (errors_loop_finds _ m _ s TW N (Nat.le_refl _) RE RS) as [l0 H].
    exists (path_without_loops s l0). unfold direct_path, path_without_errors, repaired. rewrite H. reflexivity.
Qed.

Lemma links_two_way : forall m, (forall p n, works m p n -> exists d, works m (snd n) (d, p)) -> two_way m.
Proof.
  intros m H p q [l [W E]]. revert p W E. induction l as [|n l IH]; intros p W E.
  - exists []. split; [exact I|]. unfold last_xy in *. cbn in *. congruence.
  - destruct W as [W1 W2]. rewrite last_cons in E. destruct (H p n W1) as [d D].
    apply reaches_trans with (snd n); [exact (IH _ W2 E)|]. exists [(d, p)]. split; [split; [exact D | exact I]|]. reflexivity.
Qed.
Lemma route_iff : forall m v s, (forall p n, works m p n -> exists d, works m (snd n) (d, p)) ->
  (exists l, direct_path m v s = Ok l) <->
  ((exists l, walk m s l /\ last_xy s l = last_xy s (longest_dimension_first m v s)) /\
   (forall a n b, longest_dimension_first m v s = a ++ n :: b -> works m (last_xy s a) n ->
      exists l, walk m s l /\ last_xy s l = last_xy s a)).
Proof. intros m v s H. exact (direct_iff m v s (links_two_way m H)). Qed.
