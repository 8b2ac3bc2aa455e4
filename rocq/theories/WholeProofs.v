(** Machines without faults: the paths along the vectors are used as they are. *)
From Coq Require Import List ZArith Arith Bool Lia Permutation.
From Verif Require Import Base Dict TreeModel MachModel LdfModel LdfProofs PathModel PathProofs.
Import ListNotations.
Local Open Scope Z_scope.

(** * What is meant *)
(** All chips of the rectangle are there, and a link works if it leads to one of them. *)
Record whole (m : machine) : Prop := mkWhole {
  wh_chips : forall p, is_chip m p = true <-> inside m p;
  wh_links : forall p l, (l < 6)%nat -> inside m p -> inside m (over_link m p l) -> is_link m p l = true }.

(** A vector with which no step is taken back by another and no dimension is gone
    around. *)
Definition straight (m : machine) (v : Z * Z * Z) : Prop :=
  let '(x, y, z) := v in
  (x = 0 \/ y = 0 \/ z = 0) /\ x * z <= 0 /\ y * z <= 0 /\
  Z.abs x < m_width m /\ Z.abs y < m_height m /\ Z.abs z < m_width m /\ Z.abs z < m_height m.

(** * Steps in one direction *)
Definition plus (p v : xy) : xy := (fst p + fst v, snd p + snd v).
Definition times (k : nat) (v : xy) : xy := (Z.of_nat k * fst v, Z.of_nat k * snd v).

Lemma over_place : forall m u l, over_link m (place m u) l = place m (plus u (link_vector l)).
Proof. intros m u l. unfold over_link, place, plus. cbn [fst snd]. now rewrite !wrap_add. Qed.

Lemma steps_map : forall m n link u,
  map snd (steps m n link (place m u)) = map (fun k => place m (plus u (times k (link_vector link)))) (seq 1 n).
Proof.
  intros m n link. induction n as [|n IH]; intros u; [reflexivity|]. cbn [steps map seq]. rewrite over_place. cbn [snd]. f_equal.
  - f_equal. unfold plus, times. cbn [fst snd]. f_equal; lia.
  - rewrite IH. rewrite <- (seq_shift n 1), map_map. apply map_ext. intros k. f_equal.
    unfold plus, times. cbn [fst snd]. f_equal; lia.
Qed.

Lemma steps_last : forall m n link u,
  last_xy (place m u) (steps m n link (place m u)) = place m (plus u (times n (link_vector link))).
Proof.
  intros m n link. induction n as [|n IH]; intros u.
  - unfold last_xy, plus, times. cbn [steps last snd]. f_equal. destruct u as [a b]. cbn [fst snd]. f_equal; lia.
  - cbn [steps]. rewrite last_xy_cons, over_place, IH. f_equal. unfold plus, times. cbn [fst snd]. f_equal; lia.
Qed.

Lemma steps_walk : forall m n link u, whole m -> (link < 6)%nat ->
  (forall k, (k <= n)%nat -> inside m (place m (plus u (times k (link_vector link))))) ->
  walk m (place m u) (steps m n link (place m u)).
Proof.
  intros m n link u W L. revert u. induction n as [|n IH]; intros u H; [exact I|]. cbn [steps walk fst snd].
  assert (P0 : inside m (place m u)).
  { specialize (H 0%nat (Nat.le_0_l _)). unfold plus, times in H. cbn [fst snd] in H.
    replace (fst u + Z.of_nat 0 * fst (link_vector link)) with (fst u) in H by lia.
    replace (snd u + Z.of_nat 0 * snd (link_vector link)) with (snd u) in H by lia. now rewrite <- surjective_pairing in H. }
  assert (P1 : inside m (over_link m (place m u) link)).
  { rewrite over_place. specialize (H 1%nat (le_n_S _ _ (Nat.le_0_l _))). unfold plus, times in *. cbn [fst snd] in *.
    replace (Z.of_nat 1 * fst (link_vector link)) with (fst (link_vector link)) in H by lia.
    replace (Z.of_nat 1 * snd (link_vector link)) with (snd (link_vector link)) in H by lia. exact H. }
  split.
  - split; [exact L|]. split; [now apply (wh_links m W)|]. split; [reflexivity|]. now apply (wh_chips m W).
  - rewrite over_place. apply IH. intros k Hk. specialize (H (S k) (le_n_S _ _ Hk)).
    replace (plus (plus u (link_vector link)) (times k (link_vector link))) with (plus u (times (S k) (link_vector link))); [exact H|].
    unfold plus, times. cbn [fst snd]. f_equal; lia.
Qed.

(** * At most two dimensions *)
Definition nonzero (d : nat * Z) : bool := negb (snd d =? 0).
Lemma vtn_filter : forall m dm p, vector_to_nodes m dm p = vector_to_nodes m (filter nonzero dm) p.
Proof.
  intros m. induction dm as [|[d a] dm IH]; intros p; [reflexivity|]. cbn [vector_to_nodes filter]. unfold nonzero at 1. cbn [snd].
  destruct (a =? 0) eqn:E; cbn [negb]; [apply IH|]. cbn [vector_to_nodes]. rewrite E, IH. reflexivity.
Qed.

Lemma filter_perm : forall {A} (f : A -> bool) a b, Permutation a b -> Permutation (filter f a) (filter f b).
Proof.
  intros A f a b P. induction P; cbn [filter]; try (destruct (f x)); try (destruct (f y)); auto.
  - apply perm_swap.
  - eapply perm_trans; eauto.
Qed.

(** The directions of the steps and their number. *)
Definition dir (d : nat * Z) : xy := link_vector (dim_link (fst d) (snd d)).
Definition len (d : nat * Z) : nat := Z.to_nat (Z.abs (snd d)).

Lemma dir_cases : forall d, snd d <> 0 -> (fst d < 3)%nat ->
  (fst d = 0%nat /\ dir d = (Z.sgn (snd d), 0)) \/ (fst d = 1%nat /\ dir d = (0, Z.sgn (snd d))) \/
  (fst d = 2%nat /\ dir d = (- Z.sgn (snd d), - Z.sgn (snd d))).
Proof.
  intros [d a] H L. unfold dir, dim_link. cbn [fst snd] in *.
  destruct (Z.ltb_spec 0 a); destruct d as [|[|[|d]]]; try lia; cbn [link_vector];
    [left | right; left | right; right | left | right; left | right; right]; (split; [reflexivity|]);
    [rewrite (Z.sgn_pos a) by lia | rewrite (Z.sgn_pos a) by lia | rewrite (Z.sgn_pos a) by lia
    |rewrite (Z.sgn_neg a) by lia | rewrite (Z.sgn_neg a) by lia | rewrite (Z.sgn_neg a) by lia]; reflexivity.
Qed.

Lemma link_six : forall d a, (dim_link d a < 6)%nat.
Proof. intros d a. unfold dim_link. destruct (0 <? a); destruct d as [|[|d]]; lia. Qed.

Lemma wrap_inj : forall w s a b, Z.abs (a - b) < s -> wrap w s a = wrap w s b -> a = b.
Proof.
  intros [|] s a b L E; unfold wrap in E; [|exact E].
  assert (D : (a - b) mod s = 0) by (rewrite Zminus_mod, E, Z.sub_diag; apply Z.mod_0_l; lia).
  apply Z.mod_divide in D; [|lia]. destruct D as [k D]. assert (k = 0) by nia. subst k. lia.
Qed.

Lemma NoDup_map_on : forall {A B} (f : A -> B) l, NoDup l ->
  (forall x y, In x l -> In y l -> f x = f y -> x = y) -> NoDup (map f l).
Proof.
  intros A B f l N. induction N as [|x l NI N IH]; intros H; cbn [map]; [constructor|]. constructor.
  - intros I. apply in_map_iff in I. destruct I as (y & E & Y). apply NI.
    rewrite (H x y (or_introl eq_refl) (or_intror Y) (eq_sym E)). exact Y.
  - apply IH. intros y z Y Z. apply H; now right.
Qed.

(** Where a path of two directions is after [k] steps. *)
Definition along (u : xy) (d e : nat * Z) (k : nat) : xy :=
  plus (plus u (times (Nat.min k (len d)) (dir d))) (times (k - len d) (dir e)).

Lemma two_map : forall m d e u, snd d <> 0 -> snd e <> 0 ->
  place m u :: map snd (vector_to_nodes m [d; e] (place m u)) =
  map (fun k => place m (along u d e k)) (seq 0 (S (len d + len e))).
Proof.
  intros m [d a] [e b] u A B. cbn [snd] in A, B. cbn [vector_to_nodes].
  destruct (Z.eqb_spec a 0) as [|_]; [contradiction|]. destruct (Z.eqb_spec b 0) as [|_]; [contradiction|].
  rewrite app_nil_r, map_app, steps_map, steps_last, steps_map. cbn [seq map]. f_equal.
  - unfold along, plus, times. cbn [Nat.min fst snd Nat.sub]. destruct u. cbn [fst snd]. f_equal. f_equal; lia.
  - rewrite seq_app, map_app. f_equal.
    + apply map_ext_in. intros k K. apply in_seq in K. unfold along, dir, len in *. cbn [fst snd] in *.
      rewrite Nat.min_l by lia. replace (k - Z.to_nat (Z.abs a))%nat with 0%nat by lia.
      f_equal. unfold plus, times. cbn [fst snd]. f_equal; lia.
    + replace (1 + len (d, a))%nat with (len (d, a) + 1)%nat by lia.
      assert (S1 : forall n c, seq (n + 1) c = map (fun k => (n + k)%nat) (seq 1 c)).
      { clear. intros n c. induction n as [|n IH]; [cbn; rewrite map_id; reflexivity|].
        cbn [Nat.add]. rewrite <- seq_shift, IH, map_map. reflexivity. }
      rewrite S1, map_map. apply map_ext_in. intros k K. apply in_seq in K. unfold along. rewrite Nat.min_r by lia.
      replace (len (d, a) + k - len (d, a))%nat with k by lia. reflexivity.
Qed.

(** No dimension is gone around. *)
Definition short (m : machine) (d : nat * Z) : Prop :=
  (fst d < 3)%nat /\ (fst d <> 1%nat -> Z.abs (snd d) < m_width m) /\ (fst d <> 0%nat -> Z.abs (snd d) < m_height m).

Lemma two_nodup : forall m d e u, snd d <> 0 -> snd e <> 0 -> short m d -> short m e -> fst d <> fst e ->
  NoDup (place m u :: map snd (vector_to_nodes m [d; e] (place m u))).
Proof.
  intros m d e u A B SD SE NE. rewrite two_map by assumption. apply NoDup_map_on; [apply seq_NoDup|].
  assert (G : forall i j, (i < j)%nat -> (j <= len d + len e)%nat -> place m (along u d e i) <> place m (along u d e j)).
  { intros i j L J E. unfold place in E. injection E as E1 E2.
    destruct SD as (D1 & D2 & D3), SE as (S1 & S2 & S3).
    assert (LD : Z.of_nat (len d) = Z.abs (snd d)) by (unfold len; rewrite Z2Nat.id; [reflexivity|apply Z.abs_nonneg]).
    assert (LE : Z.of_nat (len e) = Z.abs (snd e)) by (unfold len; rewrite Z2Nat.id; [reflexivity|apply Z.abs_nonneg]).
    assert (GD : Z.sgn (snd d) = 1 \/ Z.sgn (snd d) = -1) by (destruct (snd d); cbn; auto; contradiction).
    assert (GE : Z.sgn (snd e) = 1 \/ Z.sgn (snd e) = -1) by (destruct (snd e); cbn; auto; contradiction).
    rewrite <- LD in D2, D3. rewrite <- LE in S2, S3. clear LD LE.
    assert (AB : exists A B, 0 <= A <= Z.of_nat (len d) /\ 0 <= B <= Z.of_nat (len e) /\ 0 < A + B /\
      Z.of_nat (Nat.min j (len d)) = Z.of_nat (Nat.min i (len d)) + A /\ Z.of_nat (j - len d) = Z.of_nat (i - len d) + B).
    { clear - L J. exists (Z.of_nat (Nat.min j (len d)) - Z.of_nat (Nat.min i (len d))), (Z.of_nat (j - len d) - Z.of_nat (i - len d)). lia. }
    destruct AB as (P & Q & BP & BQ & PQ & EP & EQ).
    unfold along, plus, times in E1, E2. cbn [fst snd] in E1, E2. rewrite EP, EQ in E1, E2.
    remember (Z.of_nat (Nat.min i (len d))) as i1 eqn:X1. remember (Z.of_nat (i - len d)) as i2 eqn:X2. clear X1 X2 EP EQ L J.
    remember (Z.of_nat (len d)) as n eqn:X1. remember (Z.of_nat (len e)) as c eqn:X2. clear X1 X2.
    assert (X : Z.abs (P * fst (dir d) + Q * fst (dir e)) < m_width m -> P * fst (dir d) + Q * fst (dir e) = 0).
    { intros X. apply wrap_inj in E1; [lia|]. rewrite <- Z.abs_opp. eapply Z.le_lt_trans; [|exact X]. apply Z.eq_le_incl. f_equal. lia. }
    assert (Y : Z.abs (P * snd (dir d) + Q * snd (dir e)) < m_height m -> P * snd (dir d) + Q * snd (dir e) = 0).
    { intros Y. apply wrap_inj in E2; [lia|]. rewrite <- Z.abs_opp. eapply Z.le_lt_trans; [|exact Y]. apply Z.eq_le_incl. f_equal. lia. }
    clear E1 E2.
    destruct (dir_cases d A D1) as [(F & DD)|[(F & DD)|(F & DD)]];
    destruct (dir_cases e B S1) as [(F' & DE)|[(F' & DE)|(F' & DE)]]; try congruence;
      rewrite DD, DE in X, Y; cbn [fst snd] in X, Y; rewrite F in D2, D3; rewrite F' in S2, S3;
      clear D1 S1 F F' DD DE NE A B;
      destruct GD as [GD|GD], GE as [GE|GE];
      try (specialize (D2 ltac:(discriminate))); try (specialize (D3 ltac:(discriminate)));
      try (specialize (S2 ltac:(discriminate))); try (specialize (S3 ltac:(discriminate)));
      (assert (Q = 0 \/ P = 0) as [-> | ->] by (first [left; lia | right; lia])); lia. }
  intros i j I J E. apply in_seq in I. apply in_seq in J.
  destruct (Nat.lt_trichotomy i j) as [L|[L|L]]; [|exact L|]; exfalso.
  - apply (G i j); auto; lia.
  - apply (G j i); auto; lia.
Qed.

Lemma one_nodup : forall m d u, snd d <> 0 -> short m d ->
  NoDup (place m u :: map snd (vector_to_nodes m [d] (place m u))).
Proof.
  intros m d u A (D1 & D2 & D3). destruct d as [d a]. cbn [fst snd] in *. cbn [vector_to_nodes].
  destruct (Z.eqb_spec a 0) as [|_]; [contradiction|]. rewrite app_nil_r, steps_map.
  assert (E : place m u = place m (plus u (times 0 (link_vector (dim_link d a))))).
  { f_equal. unfold plus, times. destruct u. cbn [fst snd]. f_equal; lia. }
  rewrite E at 1. change (NoDup (map (fun k => place m (plus u (times k (link_vector (dim_link d a))))) (seq 0 (S (Z.to_nat (Z.abs a)))))).
  apply NoDup_map_on; [apply seq_NoDup|]. intros i j I J H. apply in_seq in I. apply in_seq in J.
  unfold place, plus, times in H. cbn [fst snd] in H. injection H as H1 H2.
  assert (LA : Z.of_nat (Z.to_nat (Z.abs a)) = Z.abs a) by (rewrite Z2Nat.id; [reflexivity|apply Z.abs_nonneg]).
  assert (G : Z.sgn a = 1 \/ Z.sgn a = -1) by (destruct a; cbn; auto; contradiction).
  change (link_vector (dim_link d a)) with (dir (d, a)) in *.
  destruct (dir_cases (d, a) A D1) as [(F & DD)|[(F & DD)|(F & DD)]]; cbn [fst snd] in F; rewrite DD in H1, H2; cbn [fst snd] in H1, H2; subst d.
  - apply wrap_inj in H1; [|specialize (D2 ltac:(discriminate))]; destruct G as [G|G]; rewrite G in *; lia.
  - apply wrap_inj in H2; [|specialize (D3 ltac:(discriminate))]; destruct G as [G|G]; rewrite G in *; lia.
  - apply wrap_inj in H1; [|specialize (D2 ltac:(discriminate))]; destruct G as [G|G]; rewrite G in *; lia.
Qed.

(** * The path along a straight vector *)
Definition dims (v : Z * Z * Z) : list (nat * Z) := let '(x, y, z) := v in [(0%nat, x); (1%nat, y); (2%nat, z)].

Lemma ldf_dims : forall m v p, (let '(x, y, z) := v in x = 0 \/ y = 0 \/ z = 0) -> exists ds,
  longest_dimension_first m v p = vector_to_nodes m ds p /\
  (forall c, In c ds <-> In c (dims v) /\ snd c <> 0) /\
  (ds = [] \/ (exists d, ds = [d]) \/ exists d e, ds = [d; e] /\ fst d <> fst e).
Proof.
  intros m [[x y] z] p H. exists (filter nonzero (sort_dims (dims (x, y, z)))).
  pose proof (sort_perm (dims (x, y, z))) as P. split; [unfold longest_dimension_first; apply vtn_filter|]. split.
  - intros c. rewrite filter_In. unfold nonzero. rewrite negb_true_iff, Z.eqb_neq.
    split; intros [A B]; (split; [|exact B]); [eapply Permutation_in; [exact P|exact A]|].
    eapply Permutation_in; [apply Permutation_sym; exact P|exact A].
  - pose proof (filter_perm nonzero _ _ P) as PF.
    assert (L : (length (filter nonzero (dims (x, y, z))) <= 2)%nat).
    { cbn [dims filter nonzero snd]. unfold nonzero. cbn [snd].
      destruct (Z.eqb_spec x 0), (Z.eqb_spec y 0), (Z.eqb_spec z 0); cbn [negb length]; lia. }
    assert (ND : NoDup (map fst (filter nonzero (dims (x, y, z))))).
    { cbn [dims filter]. destruct (nonzero (0%nat, x)), (nonzero (1%nat, y)), (nonzero (2%nat, z)); cbn [map fst];
        repeat constructor; cbn; intuition discriminate. }
    apply (Permutation_NoDup (Permutation_map fst (Permutation_sym PF))) in ND.
    rewrite <- (Permutation_length PF) in L.
    destruct (filter nonzero (sort_dims (dims (x, y, z)))) as [|d [|e [|? ?]]]; cbn [length] in L; [now left | | | lia].
    + right. left. eauto.
    + right. right. exists d, e. split; [reflexivity|]. inversion ND as [|? ? NI _]; subst. intros C. apply NI. left. auto.
Qed.

Lemma inside_place : forall m q, 0 < m_width m -> 0 < m_height m ->
  (m_wrap_x m = false -> 0 <= fst q < m_width m) -> (m_wrap_y m = false -> 0 <= snd q < m_height m) -> inside m (place m q).
Proof.
  intros m q W H X Y. unfold inside, place, wrap. cbn [fst snd]. split.
  - destruct (m_wrap_x m); [apply Z.mod_pos_bound; exact W | auto].
  - destruct (m_wrap_y m); [apply Z.mod_pos_bound; exact H | auto].
Qed.

Lemma dims_short : forall m v c, straight m v -> In c (dims v) -> short m c.
Proof.
  intros m [[x y] z] c (_ & _ & _ & X & Y & Z1 & Z2) I. cbn [dims In] in I.
  destruct I as [<-|[<-|[<-|[]]]]; unfold short; cbn [fst snd]; (split; [lia|]); split; intros; try lia; congruence.
Qed.

(** Each part of the way along the vector lies between the ends. *)
Definition between (a b c : Z) : Prop := a <= c <= b \/ b <= c <= a.

Lemma way_between : forall m v ds, straight m v -> (forall c, In c ds <-> In c (dims v) /\ snd c <> 0) ->
  forall d e k j, ds = [d; e] -> fst d <> fst e -> (k <= len d)%nat -> (j <= len e)%nat ->
  let '(x, y, z) := v in
  between 0 (x - z) (Z.of_nat k * fst (dir d) + Z.of_nat j * fst (dir e)) /\
  between 0 (y - z) (Z.of_nat k * snd (dir d) + Z.of_nat j * snd (dir e)).
Proof.
  intros m [[x y] z] ds (S1 & S2 & S3 & _) DS d e k j -> NE K J.
  destruct (proj1 (DS d) (or_introl eq_refl)) as [D1 D2]. destruct (proj1 (DS e) (or_intror (or_introl eq_refl))) as [E1 E2].
  assert (LD : Z.of_nat k <= Z.abs (snd d)) by (unfold len in K; lia).
  assert (LE : Z.of_nat j <= Z.abs (snd e)) by (unfold len in J; lia). clear K J DS.
  assert (K0 : 0 <= Z.of_nat k) by lia. assert (J0 : 0 <= Z.of_nat j) by lia.
  remember (Z.of_nat k) as kk eqn:X1. remember (Z.of_nat j) as jj eqn:X2. clear X1 X2.
  assert (B1 : (fst d < 3)%nat) by (cbn [dims In] in D1; destruct D1 as [<-|[<-|[<-|[]]]]; cbn; lia).
  assert (B2 : (fst e < 3)%nat) by (cbn [dims In] in E1; destruct E1 as [<-|[<-|[<-|[]]]]; cbn; lia).
  pose proof (dir_cases d D2 B1) as CD. pose proof (dir_cases e E2 B2) as CE.
  cbn [dims In] in D1, E1. unfold between.
  destruct D1 as [D1|[D1|[D1|[]]]], E1 as [E1|[E1|[E1|[]]]]; subst d e; cbn [fst snd] in *; try congruence;
    (destruct CD as [(F & DD)|[(F & DD)|(F & DD)]]; try discriminate F);
    (destruct CE as [(F' & DE)|[(F' & DE)|(F' & DE)]]; try discriminate F');
    rewrite DD, DE; cbn [fst snd]; clear F F' DD DE B1 B2 NE.
  - assert (z = 0) by lia. subst z. destruct (Z.lt_total x 0) as [X|[X|X]], (Z.lt_total y 0) as [Y|[Y|Y]]; try lia;
      rewrite ?(Z.sgn_neg x), ?(Z.sgn_pos x), ?(Z.sgn_neg y), ?(Z.sgn_pos y) by lia; lia.
  - assert (y = 0) by lia. subst y. destruct (Z.lt_total x 0) as [X|[X|X]], (Z.lt_total z 0) as [Y|[Y|Y]]; try lia; try nia;
      rewrite ?(Z.sgn_neg x), ?(Z.sgn_pos x), ?(Z.sgn_neg z), ?(Z.sgn_pos z) by lia; lia.
  - assert (z = 0) by lia. subst z. destruct (Z.lt_total x 0) as [X|[X|X]], (Z.lt_total y 0) as [Y|[Y|Y]]; try lia;
      rewrite ?(Z.sgn_neg x), ?(Z.sgn_pos x), ?(Z.sgn_neg y), ?(Z.sgn_pos y) by lia; lia.
  - assert (x = 0) by lia. subst x. destruct (Z.lt_total y 0) as [X|[X|X]], (Z.lt_total z 0) as [Y|[Y|Y]]; try lia; try nia;
      rewrite ?(Z.sgn_neg y), ?(Z.sgn_pos y), ?(Z.sgn_neg z), ?(Z.sgn_pos z) by lia; lia.
  - assert (y = 0) by lia. subst y. destruct (Z.lt_total x 0) as [X|[X|X]], (Z.lt_total z 0) as [Y|[Y|Y]]; try lia; try nia;
      rewrite ?(Z.sgn_neg x), ?(Z.sgn_pos x), ?(Z.sgn_neg z), ?(Z.sgn_pos z) by lia; lia.
  - assert (x = 0) by lia. subst x. destruct (Z.lt_total y 0) as [X|[X|X]], (Z.lt_total z 0) as [Y|[Y|Y]]; try lia; try nia;
      rewrite ?(Z.sgn_neg y), ?(Z.sgn_pos y), ?(Z.sgn_neg z), ?(Z.sgn_pos z) by lia; lia.
Qed.

Lemma way_one : forall m v ds, straight m v -> (forall c, In c ds <-> In c (dims v) /\ snd c <> 0) ->
  forall d k, ds = [d] -> (k <= len d)%nat ->
  let '(x, y, z) := v in
  between 0 (x - z) (Z.of_nat k * fst (dir d)) /\ between 0 (y - z) (Z.of_nat k * snd (dir d)).
Proof.
  intros m [[x y] z] ds _ DS d k -> K.
  destruct (proj1 (DS d) (or_introl eq_refl)) as [D1 D2].
  assert (O : forall c, In c (dims (x, y, z)) -> snd c = 0 \/ c = d).
  { intros c C. destruct (Z.eq_dec (snd c) 0) as [|N]; [now left|]. right. destruct (proj2 (DS c) (conj C N)) as [|[]]; auto. }
  assert (LD : Z.of_nat k <= Z.abs (snd d)) by (unfold len in K; lia). clear K DS.
  assert (K0 : 0 <= Z.of_nat k) by lia. remember (Z.of_nat k) as kk eqn:X1. clear X1.
  assert (B1 : (fst d < 3)%nat) by (cbn [dims In] in D1; destruct D1 as [<-|[<-|[<-|[]]]]; cbn; lia).
  pose proof (dir_cases d D2 B1) as CD.
  assert (OX : x = 0 \/ (0%nat, x) = d) by (apply (O (0%nat, x)); cbn; tauto).
  assert (OY : y = 0 \/ (1%nat, y) = d) by (apply (O (1%nat, y)); cbn; tauto).
  assert (OZ : z = 0 \/ (2%nat, z) = d) by (apply (O (2%nat, z)); cbn; tauto). clear O.
  cbn [dims In] in D1. unfold between.
  destruct D1 as [D1|[D1|[D1|[]]]]; subst d; cbn [fst snd] in *;
    (destruct CD as [(F & DD)|[(F & DD)|(F & DD)]]; try discriminate F); rewrite DD; cbn [fst snd].
  - destruct OY as [->|C]; [|discriminate C]. destruct OZ as [->|C]; [|discriminate C]. clear - LD K0 D2.
    destruct (Z.lt_total x 0) as [X|[X|X]]; [rewrite Z.sgn_neg by lia | lia | rewrite Z.sgn_pos by lia]; lia.
  - destruct OX as [->|C]; [|discriminate C]. destruct OZ as [->|C]; [|discriminate C]. clear - LD K0 D2.
    destruct (Z.lt_total y 0) as [X|[X|X]]; [rewrite Z.sgn_neg by lia | lia | rewrite Z.sgn_pos by lia]; lia.
  - destruct OX as [->|C]; [|discriminate C]. destruct OY as [->|C]; [|discriminate C]. clear - LD K0 D2.
    destruct (Z.lt_total z 0) as [X|[X|X]]; [rewrite Z.sgn_neg by lia | lia | rewrite Z.sgn_pos by lia]; lia.
Qed.

Lemma whole_path : forall m x y z s t, whole m -> inside m s -> inside m t -> straight m (x, y, z) ->
  place m (fst s + x - z, snd s + y - z) = t ->
  let l := longest_dimension_first m (x, y, z) s in
  direct_path m (x, y, z) s = Ok l /\ walk m s l /\ NoDup (s :: map snd l) /\ last_xy s l = t /\
  Z.of_nat (length l) = Z.abs x + Z.abs y + Z.abs z.
Proof.
  intros m x y z s t W IS IT ST E l.
  assert (PS : place m s = s) by now apply place_inside.
  destruct (ldf_reaches m x y z s t IS IT E) as (_ & LA & LN). fold l in LA, LN.
  enough (G : walk m s l /\ NoDup (s :: map snd l)).
  { destruct G as [G1 G2]. split; [now apply direct_faultless|]. auto. }
  clear LA LN. assert (SZ : 0 < m_width m /\ 0 < m_height m) by (destruct IS; lia).
  assert (TX : m_wrap_x m = false -> 0 <= fst s + x - z < m_width m).
  { intros F. destruct IT as [IT _]. rewrite <- E in IT. unfold place, wrap in IT. cbn [fst] in IT. now rewrite F in IT. }
  assert (TY : m_wrap_y m = false -> 0 <= snd s + y - z < m_height m).
  { intros F. destruct IT as [_ IT]. rewrite <- E in IT. unfold place, wrap in IT. cbn [snd] in IT. now rewrite F in IT. }
  assert (BT : forall a b, between 0 (x - z) a -> between 0 (y - z) b -> inside m (place m (fst s + a, snd s + b))).
  { intros a b A B. destruct IS as [I1 I2]. apply inside_place; [lia|lia| |]; cbn [fst snd]; intros F.
    - specialize (TX F). unfold between in A. lia.
    - specialize (TY F). unfold between in B. lia. }
  destruct (ldf_dims m (x, y, z) s (proj1 ST)) as (ds & EL & DS & C). unfold l. rewrite EL.
  destruct C as [->|[[d ->]|(d & e & -> & NE)]].
  - split; [exact I|]. cbn. repeat constructor. intros [].
  - destruct (proj1 (DS d) (or_introl eq_refl)) as [D1 D2]. split.
    + destruct d as [d a]. cbn [snd] in D2. cbn [vector_to_nodes]. destruct (Z.eqb_spec a 0) as [|_]; [contradiction|].
      rewrite app_nil_r. rewrite <- PS. apply steps_walk; [exact W|apply link_six|]. intros k K.
      destruct (way_one m (x, y, z) _ ST DS (d, a) k eq_refl K) as [A B]. exact (BT _ _ A B).
    + rewrite <- PS. apply one_nodup; [exact D2|]. exact (dims_short m _ _ ST D1).
  - destruct (proj1 (DS d) (or_introl eq_refl)) as [D1 D2]. destruct (proj1 (DS e) (or_intror (or_introl eq_refl))) as [E1 E2]. split.
    + destruct d as [d a], e as [e b]. cbn [snd] in D2, E2. cbn [vector_to_nodes].
      destruct (Z.eqb_spec a 0) as [|_]; [contradiction|]. destruct (Z.eqb_spec b 0) as [|_]; [contradiction|].
      rewrite app_nil_r. apply walk_app. rewrite <- PS. split.
      * apply steps_walk; [exact W|apply link_six|]. intros k K.
        destruct (way_between m (x, y, z) _ ST DS (d, a) (e, b) k 0 eq_refl NE K (Nat.le_0_l _)) as [A B].
        cbn [Z.of_nat] in A, B. rewrite Z.mul_0_l, Z.add_0_r in A, B. exact (BT _ _ A B).
      * rewrite steps_last. apply steps_walk; [exact W|apply link_six|]. intros k K.
        destruct (way_between m (x, y, z) _ ST DS (d, a) (e, b) (len (d, a)) k eq_refl NE (Nat.le_refl _) K) as [A B].
        specialize (BT _ _ A B). unfold plus, times. cbn [fst snd]. rewrite <- !Z.add_assoc. exact BT.
    + rewrite <- PS. apply two_nodup; auto; [exact (dims_short m _ _ ST D1) | exact (dims_short m _ _ ST E1)].
Qed.
