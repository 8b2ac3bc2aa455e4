(** Proofs about the estimate of the chip counter (SdramModel.v): leaving out
    requests, adding requests without SDRAM, and the distance to the best packing
    in any order. *)
From Coq Require Import List ZArith Bool Lia Permutation.
From Verif Require Import Base SdramModel SdramProofs.
Import ListNotations.
Local Open Scope Z_scope.

Lemma count_cons_fold : forall pc ps l, count pc ps l = fold_left (add_core pc ps) l new_counter.
Proof. reflexivity. Qed.

(** * Leaving out requests *)

(** [a] is not behind [b]. *)
Definition not_behind (a b : counter) : Prop :=
  cc_chips a < cc_chips b \/
  cc_chips a = cc_chips b /\ cc_cores b <= cc_cores a /\ cc_sdram b <= cc_sdram a.

Lemma not_behind_both : forall pc ps a b x, 1 <= pc -> x <= ps -> 0 <= cc_cores a <= pc -> cc_sdram a <= ps ->
  0 <= cc_cores b <= pc -> cc_sdram b <= ps ->
  not_behind a b -> not_behind (add_core pc ps a x) (add_core pc ps b x).
Proof.
  intros pc ps a b x P X A A' B B' H. unfold not_behind, add_core in *.
  destruct (Z.eqb_spec (cc_cores a) 0), (Z.ltb_spec (cc_sdram a) x),
    (Z.eqb_spec (cc_cores b) 0), (Z.ltb_spec (cc_sdram b) x);
    cbn [orb cc_cores cc_sdram cc_chips]; lia.
Qed.

Lemma not_behind_more : forall pc ps a b x, 0 <= x -> not_behind a b ->
  not_behind a (add_core pc ps b x).
Proof.
  intros pc ps a b x X H. unfold not_behind, add_core in *.
  destruct (Z.eqb_spec (cc_cores b) 0), (Z.ltb_spec (cc_sdram b) x);
    cbn [orb cc_cores cc_sdram cc_chips]; lia.
Qed.

Lemma add_core_range : forall pc ps c x, 1 <= pc -> 0 <= x -> 0 <= ps ->
  0 <= cc_cores c <= pc -> cc_sdram c <= ps ->
  0 <= cc_cores (add_core pc ps c x) <= pc /\ cc_sdram (add_core pc ps c x) <= ps.
Proof.
  intros pc ps c x P X S A B. unfold add_core.
  destruct (Z.eqb_spec (cc_cores c) 0), (Z.ltb_spec (cc_sdram c) x);
    cbn [orb cc_cores cc_sdram cc_chips]; lia.
Qed.

Lemma filter_not_behind : forall (A : Type) (f : A -> Z) (p : A -> bool) pc ps l a b,
  1 <= pc -> 0 <= ps -> Forall (fun x => 0 <= f x <= ps) l ->
  0 <= cc_cores a <= pc -> cc_sdram a <= ps -> 0 <= cc_cores b <= pc -> cc_sdram b <= ps ->
  not_behind a b ->
  not_behind (fold_left (add_core pc ps) (map f (filter p l)) a) (fold_left (add_core pc ps) (map f l) b).
Proof.
  intros A f p pc ps l. induction l as [|x l IH]; intros a b P S F A1 A2 B1 B2 H; [exact H|].
  apply Forall_cons_iff in F. destruct F as [Fx F]. cbn [filter map fold_left].
  destruct (add_core_range pc ps a (f x) P (proj1 Fx) S A1 A2) as [A1' A2'].
  destruct (add_core_range pc ps b (f x) P (proj1 Fx) S B1 B2) as [B1' B2'].
  destruct (p x); cbn [map fold_left]; apply IH; auto.
  - apply not_behind_both; auto; lia.
  - apply not_behind_more; auto; lia.
Qed.

Lemma count_filter : forall (A : Type) (f : A -> Z) (p : A -> bool) pc ps l,
  1 <= pc -> 0 <= ps -> Forall (fun x => 0 <= f x <= ps) l ->
  cc_chips (count pc ps (map f (filter p l))) <= cc_chips (count pc ps (map f l)).
Proof.
  intros A f p pc ps l P S F.
  assert (H : not_behind (count pc ps (map f (filter p l))) (count pc ps (map f l))).
  { apply filter_not_behind; auto; cbn; try lia. right. cbn. lia. }
  unfold not_behind in H. lia.
Qed.

(** * Adding a request without SDRAM *)

Lemma split_concat : forall (chips : list (list Z)) l1 l2, concat chips = l1 ++ l2 -> chips <> [] ->
  exists before a b after, chips = before ++ (a ++ b) :: after /\
    l1 = concat before ++ a /\ l2 = b ++ concat after.
Proof.
  induction chips as [|c chips IH]; intros l1 l2 E NE; [contradiction|]. cbn [concat] in E.
  destruct (Nat.le_gt_cases (length l1) (length c)) as [L|L].
  - exists [], l1, (skipn (length l1) c), chips.
    assert (E1 : l1 = firstn (length l1) c).
    { apply (f_equal (firstn (length l1))) in E. rewrite firstn_app in E.
      replace (length l1 - length c)%nat with 0%nat in E by lia.
      rewrite firstn_O, app_nil_r, firstn_app, Nat.sub_diag, firstn_O, app_nil_r, firstn_all in E. auto. }
    split; [cbn [app]; f_equal; rewrite <- (firstn_skipn (length l1) c) at 1; now rewrite <- E1|].
    split; [reflexivity|].
    rewrite <- (firstn_skipn (length l1) c), <- E1, <- app_assoc in E. apply app_inv_head in E. auto.
  - assert (E1 : l1 = c ++ skipn (length c) l1).
    { rewrite <- (firstn_skipn (length c) l1) at 1. f_equal.
      apply (f_equal (firstn (length c))) in E. rewrite !firstn_app, Nat.sub_diag, firstn_O, app_nil_r, firstn_all in E.
      replace (length c - length l1)%nat with 0%nat in E by lia. rewrite firstn_O, app_nil_r in E. auto. }
    rewrite E1, <- app_assoc in E. apply app_inv_head in E.
    destruct chips as [|c' chips].
    + cbn in E. symmetry in E. apply app_eq_nil in E. destruct E as [E _].
      rewrite E1, E, app_nil_r in L. lia.
    + destruct (IH _ _ E) as (be & a & b & af & -> & E2 & E3); [discriminate|].
      exists (c :: be), a, b, af. cbn [concat app]. split; [reflexivity|]. split; [|exact E3].
      rewrite E1, E2. now rewrite app_assoc.
Qed.

Lemma sum_app : forall l m, fold_right Z.add 0 (l ++ m) = fold_right Z.add 0 l + fold_right Z.add 0 m.
Proof. induction l as [|x l IH]; intros m; cbn [app fold_right]; [lia | rewrite IH; lia]. Qed.

Lemma sum_nonneg : forall l, Forall (fun x => 0 <= x) l -> 0 <= fold_right Z.add 0 l.
Proof. intros l H. induction H; cbn [fold_right]; lia. Qed.

Lemma count_zero : forall pc ps l1 l2, 1 <= pc -> 0 <= ps -> Forall (fun x => 0 <= x <= ps) (l1 ++ l2) ->
  cc_chips (count pc ps (l1 ++ 0 :: l2)) <= cc_chips (count pc ps (l1 ++ l2)) + 1.
Proof.
  intros pc ps l1 l2 P S F.
  assert (F0 : Forall (fun x => 0 <= x) (l1 ++ 0 :: l2)).
  { apply Forall_app in F. destruct F as [F1 F2]. apply Forall_app. split; [|constructor; [lia|]];
      eapply Forall_impl; try eassumption; cbn; intros; lia. }
  destruct (count_greedy pc ps (l1 ++ l2) P) as (chips & E & C & Fit & _).
  { eapply Forall_impl; [|exact F]. cbn; intros; lia. }
  rewrite <- E. destruct chips as [|c0 chips0] eqn:Ch.
  - cbn in C. symmetry in C. apply app_eq_nil in C. destruct C as [-> ->]. cbn [app length].
    unfold count, add_core. cbn. destruct (0 <? 0); cbn; lia.
  - rewrite <- Ch in *. assert (NE : chips <> []) by (rewrite Ch; discriminate). clear Ch c0 chips0.
    destruct (split_concat chips l1 l2 C NE) as (be & a & b & af & -> & -> & ->).
    apply Forall_app in Fit. destruct Fit as [Fb Fit]. apply Forall_cons_iff in Fit. destruct Fit as [[L T] Fa].
    rewrite app_length in L. rewrite sum_app in T.
    assert (N : Forall (fun x => 0 <= x) a /\ Forall (fun x => 0 <= x) b).
    { apply Forall_app in F0. destruct F0 as [F1 F2]. apply Forall_app in F1. apply Forall_cons_iff in F2.
      destruct F2 as [_ F2]. apply Forall_app in F2. tauto. }
    destruct N as [Na Nb]. apply sum_nonneg in Na. apply sum_nonneg in Nb.
    etransitivity.
    + apply count_least with (chips := be ++ (match b with [] => [a; [0]] | _ => [a ++ [0]; b] end) ++ af); [exact F0| |].
      * rewrite !concat_app. destruct b; cbn [concat app]; rewrite ?app_nil_r, <- ?app_assoc; reflexivity.
      * apply Forall_app. split; [exact Fb|]. apply Forall_app. split; [|exact Fa].
        destruct b as [|y b]; constructor; try (constructor; [|constructor]); split;
          rewrite ?app_length, ?sum_app; cbn [length fold_right] in *; lia.
    + rewrite !app_length. destruct b; cbn [length]; lia.
Qed.

(** Adding any number of them. *)
Lemma count_zeros : forall (A : Type) (f : A -> Z) (p : A -> bool) pc ps l l0, 1 <= pc -> 0 <= ps ->
  Forall (fun x => 0 <= x <= ps) l0 ->
  Forall (fun x => 0 <= f x <= ps) l -> (forall x, In x l -> p x = false -> f x = 0) ->
  cc_chips (count pc ps (l0 ++ map f l)) <=
  cc_chips (count pc ps (l0 ++ map f (filter p l))) + Z.of_nat (length (filter (fun x => negb (p x)) l)).
Proof.
  intros A f p pc ps l. induction l as [|x l IH]; intros l0 P S F0 F Z0.
  - cbn. lia.
  - apply Forall_cons_iff in F. destruct F as [Fx F].
    assert (Z1 : forall y, In y l -> p y = false -> f y = 0) by (intros y I; apply Z0; now right).
    cbn [filter map]. destruct (p x) eqn:E; cbn [negb map length].
    + specialize (IH (l0 ++ [f x]) P S). rewrite <- !app_assoc in IH. cbn [app] in IH. apply IH; auto.
      apply Forall_app. split; [exact F0|]. constructor; [exact Fx | constructor].
    + rewrite (Z0 x (or_introl eq_refl) E).
      pose proof (count_zero pc ps l0 (map f l) P S) as H.
      assert (G : Forall (fun x => 0 <= x <= ps) (l0 ++ map f l)).
      { apply Forall_app. split; [exact F0|]. apply Forall_map. exact F. }
      specialize (H G). specialize (IH l0 P S F0 F Z1). lia.
Qed.

(** * The distance to the best packing *)

(** The chips but the current one were left because their cores or because their
    SDRAM had run out. *)
Lemma count_parts : forall pc ps l, 1 <= pc -> 0 <= ps -> Forall (fun x => 0 <= x <= ps) l -> l <> [] ->
  exists n1 n2, 0 <= n1 /\ 0 <= n2 /\ cc_chips (count pc ps l) = n1 + n2 + 1 /\
    0 <= cc_cores (count pc ps l) < pc /\ 0 <= cc_sdram (count pc ps l) <= ps /\
    n1 * pc + (pc - cc_cores (count pc ps l)) <= Z.of_nat (length l) /\
    ps - cc_sdram (count pc ps l) <= fold_right Z.add 0 l /\
    (n2 = 0 \/ n2 * ps < 2 * fold_right Z.add 0 l - (ps - cc_sdram (count pc ps l))).
Proof.
  intros pc ps l P S. induction l as [|x l IH] using rev_ind; intros F NE; [contradiction|]. clear NE.
  apply Forall_app in F. destruct F as [F Fx]. inversion Fx as [|? ? X _]; subst. clear Fx.
  rewrite count_app, fold_add_app, app_length. cbn [length].
  destruct l as [|y l].
  - exists 0, 0. unfold count, add_core. cbn [fold_left new_counter cc_cores cc_sdram cc_chips Z.eqb orb length fold_right].
    cbn [fold_left new_counter cc_cores cc_sdram cc_chips Z.eqb orb length fold_right]. lia.
  - destruct (IH F) as (n1 & n2 & N1 & N2 & K & C & D & E & G & H); [discriminate|]. clear IH.
    set (c := count pc ps (y :: l)) in *. set (t := fold_right Z.add 0 (y :: l)) in *.
    set (n := length (y :: l)) in *. clearbody c t n.
    unfold add_core. destruct (Z.eqb_spec (cc_cores c) 0) as [Q|Q].
    + exists (n1 + 1), n2. cbn [orb cc_cores cc_sdram cc_chips].
      repeat split; lia.
    + destruct (Z.ltb_spec (cc_sdram c) x) as [L|L]; cbn [orb cc_cores cc_sdram cc_chips].
      * exists n1, (n2 + 1). repeat split; lia.
      * exists n1, n2. repeat split; lia.
Qed.

Lemma sum_perm : forall l m, Permutation l m -> fold_right Z.add 0 l = fold_right Z.add 0 m.
Proof. intros l m H. induction H; cbn [fold_right]; lia. Qed.

Lemma packing_bounds : forall pc ps chips, Forall (fits_chip pc ps) chips ->
  Z.of_nat (length (concat chips)) <= Z.of_nat (length chips) * pc /\
  fold_right Z.add 0 (concat chips) <= Z.of_nat (length chips) * ps.
Proof.
  intros pc ps chips H. induction H as [|c chips [A B] H IH]; cbn [concat length fold_right]; [lia|].
  rewrite app_length, sum_app. lia.
Qed.

Lemma count_best : forall pc ps l chips, 1 <= pc -> Forall (fun x => 0 <= x <= ps) l -> l <> [] ->
  Permutation (concat chips) l -> Forall (fits_chip pc ps) chips ->
  cc_chips (count pc ps l) <= 3 * Z.of_nat (length chips) - 1.
Proof.
  intros pc ps l chips P F NE Pm Fit.
  assert (S : 0 <= ps). { destruct l as [|x l]; [contradiction|]. inversion F; subst. lia. }
  destruct (packing_bounds pc ps chips Fit) as [B1 B2].
  rewrite (Permutation_length Pm) in B1. rewrite (sum_perm _ _ Pm) in B2.
  destruct (count_parts pc ps l P S F NE) as (n1 & n2 & N1 & N2 & -> & C & D & E & G & H).
  set (m := Z.of_nat (length chips)) in *.
  assert (n1 < m) by nia.
  assert (n2 = 0 \/ n2 < 2 * m) by (destruct H as [H|H]; [now left | right; nia]). lia.
Qed.

(** * Requests of at most an even share *)
Lemma count_light_state : forall pc ps l, 1 <= pc -> Forall (fun x => 0 <= x /\ pc * x <= ps) l ->
  Z.of_nat (length l) = cc_chips (count pc ps l) * pc - cc_cores (count pc ps l) /\
  0 <= cc_cores (count pc ps l) < pc /\ 0 <= cc_chips (count pc ps l) /\
  (forall x, 0 <= x -> pc * x <= ps -> cc_cores (count pc ps l) <> 0 -> x <= cc_sdram (count pc ps l)) /\
  cc_cores (count pc ps l) * ps <= pc * cc_sdram (count pc ps l).
Proof.
  intros pc ps l P. induction l as [|x l IH] using rev_ind; intros F.
  - cbn. repeat split; try lia.
  - apply Forall_app in F. destruct F as [F Fx]. inversion Fx as [|? ? [X Y] _]; subst. clear Fx.
    destruct (IH F) as (A & B & K & C & D). clear IH. rewrite count_app, app_length. cbn [length].
    set (c := count pc ps l) in *. set (n := length l) in *. clearbody c n.
    unfold add_core. destruct (Z.eqb_spec (cc_cores c) 0) as [Q|Q]; cbn [orb].
    + cbn [cc_cores cc_sdram cc_chips].
      repeat split; try nia.
    + specialize (C x X Y Q). destruct (Z.ltb_spec (cc_sdram c) x) as [L|L]; [lia|].
      cbn [cc_cores cc_sdram cc_chips]. repeat split; try nia.
Qed.

Lemma count_light : forall pc ps l, 1 <= pc -> Forall (fun x => 0 <= x /\ pc * x <= ps) l ->
  cc_chips (count pc ps l) = (Z.of_nat (length l) + pc - 1) / pc.
Proof.
  intros pc ps l P F. destruct (count_light_state pc ps l P F) as (A & B & K & _).
  apply Z.div_unique with (r := pc - 1 - cc_cores (count pc ps l)); lia.
Qed.
