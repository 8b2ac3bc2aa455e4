(** Machines with faults at one chip only. *)
From Coq Require Import List ZArith Arith Bool Lia Permutation.
From Verif Require Import Base Dict TreeModel MachModel LdfModel LdfProofs PathModel PathProofs WholeProofs DetourProofs.
Import ListNotations.
Local Open Scope Z_scope.

(** Only the chip [x] or links from or to it are missing. *)
Record fault_at (m : machine) (x : xy) : Prop := mkFaultAt {
  fa_inside : forall p, is_chip m p = true -> inside m p;
  fa_chips : forall p, inside m p -> p <> x -> is_chip m p = true;
  fa_links : forall p l, (l < 6)%nat -> inside m p -> inside m (over_link m p l) -> p <> x -> over_link m p l <> x ->
    is_link m p l = true }.

(** A vector with the fewest steps. *)
Definition fewest (m : machine) (s : xy) (v : Z * Z * Z) : Prop :=
  let '(x, y, z) := v in forall x' y' z',
  place m (fst s + x' - z', snd s + y' - z') = place m (fst s + x - z, snd s + y - z) ->
  Z.abs x + Z.abs y + Z.abs z <= Z.abs x' + Z.abs y' + Z.abs z'.

(** Every way is one of a vector with no more steps. *)
Lemma named_vector : forall m w s, place m s = s -> named m s w -> exists x y z,
  last_xy s w = place m (fst s + x - z, snd s + y - z) /\ Z.abs x + Z.abs y + Z.abs z <= Z.of_nat (length w).
Proof.
  intros m w. induction w as [|[l q] w IH]; intros s P N.
  - exists 0, 0, 0. unfold last_xy. cbn [last snd length Z.of_nat]. rewrite !Z.add_0_r, !Z.sub_0_r, <- surjective_pairing, P. split; [reflexivity|lia].
  - destruct N as (L6 & E & N). cbn [fst snd] in *.
    assert (Q : q = place m (plus s (link_vector l))) by (rewrite <- over_place, P; exact E).
    assert (PQ : place m q = q) by (rewrite Q; unfold place; cbn [fst snd]; now rewrite !wrap_idem).
    destruct (IH q PQ N) as (x & y & z & A & B). rewrite last_cons. cbn [snd]. rewrite A.
    assert (G : forall a b, place m (fst q + a, snd q + b) = place m (fst s + fst (link_vector l) + a, snd s + snd (link_vector l) + b)).
    { intros a b. rewrite Q. unfold place, plus. cbn [fst snd]. now rewrite !wrap_add. }
    replace (fst q + x - z) with (fst q + (x - z)) by lia. replace (snd q + y - z) with (snd q + (y - z)) by lia. rewrite G.
    cbn [length]. rewrite Nat2Z.inj_succ.
    clear - L6 B. destruct l as [|[|[|[|[|[|l]]]]]]; cbn [link_vector fst snd]; [| | | | | |lia].
    + exists (x + 1), y, z. split; [f_equal; f_equal; lia|lia].
    + exists x, y, (z - 1). split; [f_equal; f_equal; lia|lia].
    + exists x, (y + 1), z. split; [f_equal; f_equal; lia|lia].
    + exists (x - 1), y, z. split; [f_equal; f_equal; lia|lia].
    + exists x, y, (z + 1). split; [f_equal; f_equal; lia|lia].
    + exists x, (y - 1), z. split; [f_equal; f_equal; lia|lia].
Qed.

Lemma fewest_steps : forall m v s, inside m s -> fewest m s v ->
  forall w, named m s w -> last_xy s w = last_xy s (longest_dimension_first m v s) ->
  (length (longest_dimension_first m v s) <= length w)%nat.
Proof.
  intros m [[x y] z] s I F w N E. pose proof (place_inside m s I) as PS.
  destruct (ldf_spec m x y z s) as (A & B & C). destruct (named_vector m w s PS N) as (x' & y' & z' & D & G).
  assert (PE : place m (last_xy s (longest_dimension_first m (x, y, z) s)) = last_xy s (longest_dimension_first m (x, y, z) s))
    by (now apply linked_last_place).
  unfold fewest in F. specialize (F x' y' z'). rewrite <- D, E, <- C, PE in F. specialize (F eq_refl). lia.
Qed.

(** * All the broken steps of a path that comes to no chip twice are one after another *)
Lemma touch_gap : forall m x l s, NoDup (s :: map snd l) ->
  (forall a n b, l = a ++ n :: b -> last_xy s a <> x -> snd n <> x -> works m (last_xy s a) n) ->
  one_gap m s l.
Proof.
  intros m x.
  assert (G0 : forall l s, ~ In x (s :: map snd l) ->
    (forall a n b, l = a ++ n :: b -> last_xy s a <> x -> snd n <> x -> works m (last_xy s a) n) -> walk m s l).
  { induction l as [|n l IH]; intros s NI H; [exact I|]. cbn [map In] in NI. split.
    - apply (H [] n l eq_refl); [intros E|intros E]; apply NI; [left; exact E|right; left; exact E].
    - apply IH; [intros J; apply NI; right; exact J|]. intros a k b E U V.
      specialize (H (n :: a) k b). rewrite last_cons in H. apply H; auto. now rewrite E. }
  assert (G1 : forall l, NoDup (x :: map snd l) ->
    (forall a n b, l = a ++ n :: b -> last_xy x a <> x -> snd n <> x -> works m (last_xy x a) n) -> one_gap m x l /\
    exists B P2, l = B ++ P2 /\ broken m x B /\ walk m (last_xy x B) P2).
  { intros l ND H. destruct l as [|n l].
    - split; [exists [], [], []|exists [], []]; repeat split.
    - assert (NX : ~ In x (snd n :: map snd l)) by (inversion ND; assumption).
      assert (WL : walk m (snd n) l).
      { apply G0; [exact NX|]. intros a k b E U V. specialize (H (n :: a) k b). rewrite last_cons in H. apply H; auto. now rewrite E. }
      assert (D : works m x n \/ ~ works m x n).
      { unfold works. destruct (lt_dec (fst n) 6); [|right; tauto]. destruct (is_link m x (fst n)); [|right; intros (_ & X & _); discriminate].
        destruct (xy_dec (snd n) (over_link m x (fst n))); [|right; tauto]. destruct (is_chip m (snd n)); [left; auto|right; intros (_ & _ & _ & X); discriminate]. }
      destruct D as [D|D].
      + split; [exists [], [], (n :: l)|exists [], (n :: l)]; repeat split; auto; apply D.
      + split; [exists [], [n], l|exists [n], l]; repeat split; auto. }
  induction l as [|n l IH]; intros s ND H.
  - exists [], [], []. repeat split.
  - destruct (xy_dec s x) as [->|NS]; [now apply G1|].
    assert (ND' : NoDup (snd n :: map snd l)) by (inversion ND; assumption).
    assert (H' : forall a k b, l = a ++ k :: b -> last_xy (snd n) a <> x -> snd k <> x -> works m (last_xy (snd n) a) k).
    { intros a k b E U V. specialize (H (n :: a) k b). rewrite last_cons in H. apply H; auto. now rewrite E. }
    destruct (xy_dec (snd n) x) as [EX|NX].
    + (* into the chip *)
      rewrite EX in ND', H'. destruct (G1 l ND' H') as [_ (B & P2 & -> & WB & WP)].
      assert (D : works m s n \/ ~ works m s n).
      { unfold works. destruct (lt_dec (fst n) 6); [|right; tauto]. destruct (is_link m s (fst n)); [|right; intros (_ & X & _); discriminate].
        destruct (xy_dec (snd n) (over_link m s (fst n))); [|right; tauto]. destruct (is_chip m (snd n)); [left; auto|right; intros (_ & _ & _ & X); discriminate]. }
      destruct D as [D|D].
      * exists [n], B, P2. split; [reflexivity|]. split; [split; [exact D|exact I]|].
        change ([n] ++ B) with (n :: B). rewrite !last_cons. unfold last_xy at 1. cbn [last snd]. rewrite EX. auto.
      * exists [], (n :: B), P2. split; [reflexivity|]. split; [exact I|]. cbn [app]. rewrite last_cons. unfold last_xy at 1. cbn [last snd broken].
        rewrite EX. auto.
    + destruct (IH (snd n) ND' H') as (P1 & B & P2 & -> & W1 & WB & W2). exists (n :: P1), B, P2. split; [reflexivity|].
      split; [split; [apply (H [] n _ eq_refl); auto|exact W1]|]. rewrite <- app_comm_cons, !last_cons. auto.
Qed.

(** * Paths on such machines *)
(** The machine without its faults. *)
Definition rect (m : machine) : list xy :=
  list_prod (map Z.of_nat (seq 0 (Z.to_nat (m_width m)))) (map Z.of_nat (seq 0 (Z.to_nat (m_height m)))).
Definition healed (m : machine) : machine :=
  mkMachine (m_width m) (m_height m) (m_wrap_x m) (m_wrap_y m) (rect m) (list_prod (rect m) (seq 0 6)).

Lemma rect_In : forall m p, In p (rect m) <-> inside m p.
Proof.
  intros m [x y]. unfold rect, inside. rewrite in_prod_iff, !in_map_iff. cbn [fst snd]. split.
  - intros [(a & <- & A) (b & <- & B)]. apply in_seq in A. apply in_seq in B. lia.
  - intros [A B]. split; [exists (Z.to_nat x) | exists (Z.to_nat y)]; (split; [lia|]); apply in_seq; lia.
Qed.
Lemma healed_whole : forall m, whole (healed m).
Proof.
  intros m. assert (C : forall p, is_chip (healed m) p = true <-> inside (healed m) p).
  { intros p. unfold is_chip. rewrite xy_in_spec. exact (rect_In m p). }
  split; [exact C|]. intros p l L P Q. unfold is_link. rewrite (proj2 (C p) P). cbn [andb].
  apply existsb_exists. exists (p, l). cbn [fst snd]. split; [|rewrite (proj2 (xy_eqb_eq p p) eq_refl), Nat.eqb_refl; reflexivity].
  cbn [healed m_links]. apply in_prod_iff. split; [exact (proj2 (rect_In m p) P)|]. apply in_seq. lia.
Qed.

Lemma steps_healed : forall m n link p, steps (healed m) n link p = steps m n link p.
Proof. intros m n. induction n as [|n IH]; intros link p; [reflexivity|]. cbn [steps]. f_equal. apply IH. Qed.
Lemma ldf_healed : forall m v p, longest_dimension_first (healed m) v p = longest_dimension_first m v p.
Proof.
  intros m [[x y] z] p. unfold longest_dimension_first. generalize (sort_dims [(0%nat, x); (1%nat, y); (2%nat, z)]). intros ds.
  revert p. induction ds as [|[d a] ds IH]; intros p; [reflexivity|]. cbn [vector_to_nodes].
  destruct (a =? 0); [apply IH|]. rewrite steps_healed. f_equal. apply IH.
Qed.

Lemma fault_gap : forall m x v s t, fault_at m x -> inside m s -> inside m t -> straight m v ->
  (let '(a, b, c) := v in place m (fst s + a - c, snd s + b - c) = t) ->
  let l := longest_dimension_first m v s in
  last_xy s l = t /\ one_gap m s l.
Proof.
  intros m x [[a b] c] s t F IS IT ST E l.
  destruct (whole_path (healed m) a b c s t (healed_whole m) IS IT ST E) as (_ & W & ND & L & _).
  rewrite ldf_healed in W, ND, L. fold l in W, ND, L. split; [exact L|]. apply (touch_gap m x); [exact ND|].
  intros p n q EL NP NN. rewrite EL in W. apply walk_app in W. destruct W as [WP [WN _]].
  destruct WN as (N1 & _ & N3 & N4).
  assert (IP : inside m (last_xy s p)).
  { apply (wh_chips _ (healed_whole m)). apply walk_chip; [now apply (wh_chips _ (healed_whole m))|exact WP]. }
  assert (IN : inside m (snd n)) by (now apply (wh_chips _ (healed_whole m)) in N4).
  change (over_link (healed m) (last_xy s p) (fst n)) with (over_link m (last_xy s p) (fst n)) in N3.
  split; [exact N1|]. split; [apply (fa_links m x F); auto; rewrite <- N3; auto|]. split; [exact N3|]. now apply (fa_chips m x F).
Qed.

Lemma fault_path : forall m x v s t, fault_at m x -> both_ways m -> is_chip m s = true -> is_chip m t = true ->
  straight m v -> fewest m s v -> (let '(a, b, c) := v in place m (fst s + a - c, snd s + b - c) = t) ->
  (exists w, walk m s w /\ last_xy s w = t) ->
  exists l, direct_path m v s = Ok l /\ walk m s l /\ last_xy s l = t /\ NoDup (s :: map snd l).
Proof.
  intros m x v s t F BW CS CT ST FE E R. pose proof (fa_inside m x F s CS) as IS. pose proof (fa_inside m x F t CT) as IT.
  destruct (fault_gap m x v s t F IS IT ST E) as [L G].
  rewrite <- L. rewrite <- L in CT, R. apply gap_path; auto. now apply fewest_steps.
Qed.

Lemma fault_no_return : forall m x v s t l, fault_at m x -> both_ways m -> is_chip m s = true -> is_chip m t = true ->
  straight m v -> fewest m s v -> (let '(a, b, c) := v in place m (fst s + a - c, snd s + b - c) = t) ->
  repaired m s (longest_dimension_first m v s) = Ok l -> no_return s l.
Proof.
  intros m x v s t l F BW CS CT ST FE E R. pose proof (fa_inside m x F s CS) as IS. pose proof (fa_inside m x F t CT) as IT.
  destruct (fault_gap m x v s t F IS IT ST E) as [L G].
  apply (gap_no_return m s (longest_dimension_first m v s) l); auto; [apply ldf_named|].
  intros w C EW. apply fewest_steps; auto. now apply named_chain.
Qed.
