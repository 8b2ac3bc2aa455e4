(** Detours around one broken stretch of a path: they are shortest, and going along
    them never loops so that the removal of loops goes wrong. *)
From Coq Require Import List ZArith Arith Bool Lia.
From Verif Require Import Base Dict TreeModel MachModel LdfModel LdfProofs PathModel PathProofs.
Import ListNotations.
Local Open Scope nat_scope.

(** * _find_path finds shortest paths *)
Definition least (m : machine) (s p : xy) (n : nat) : Prop :=
  forall w, walk m s w -> last_xy s w = p -> n <= length w.

(** The waiting items: first those with [n] steps, then those with one more. *)
Definition level (n : nat) (q : list (xy * list node)) : Prop :=
  exists a b, q = a ++ b /\ (forall it, In it a -> length (snd it) = n) /\ (forall it, In it b -> length (snd it) = S n).

Lemma level_head : forall n it q, level n (it :: q) -> exists k, length (snd it) = k /\ level k (it :: q) /\ level k q /\
  forall it', In it' (it :: q) -> k <= length (snd it').
Proof.
  intros n it q (a & b & E & A & B). destruct a as [|x a].
  - cbn [app] in E. subst b. exists (S n). split; [apply B; now left|].
    assert (L : forall q', (forall i, In i q' -> In i (it :: q)) -> level (S n) q').
    { intros q' I. exists q', []. rewrite app_nil_r. split; [reflexivity|]. split; [auto|]. intros i []. }
    split; [apply L; auto|]. split; [apply L; intros i Hi; now right|]. intros i Hi. rewrite (B i Hi). lia.
  - cbn [app] in E. injection E as <- ->. exists n. split; [apply A; now left|].
    split; [exists (it :: a), b; auto|]. split; [exists a, b; split; [reflexivity|]; split; [intros i Hi; apply A; now right|exact B]|].
    intros i Hi. rewrite app_comm_cons in Hi. apply in_app_iff in Hi. destruct Hi as [Hi|Hi]; [rewrite (A i Hi)|rewrite (B i Hi)]; lia.
Qed.

Lemma level_more : forall n q r, level n q -> (forall it, In it r -> length (snd it) = S n) -> level n (q ++ r).
Proof.
  intros n q r (a & b & -> & A & B) R. exists a, (b ++ r). rewrite app_assoc. split; [reflexivity|]. split; [exact A|].
  intros it H. apply in_app_iff in H. destruct H; auto.
Qed.

Lemma find_next_exact : forall m vis p path n, works m p n -> ~ In (snd n) vis ->
  In (snd n, path ++ [n]) (find_next m vis p path).
Proof.
  intros m vis p path [d q] [W1 [W2 [W3 W4]]] Hv. cbn [fst snd] in *.
  unfold find_next. apply in_flat_map. exists d. split; [apply in_seq; lia|]. rewrite W2, <- W3, W4.
  assert (E : xy_in q vis = false).
  { destruct (xy_in q vis) eqn:X; [|reflexivity]. apply xy_in_spec in X. contradiction. }
  rewrite E. left. reflexivity.
Qed.

(** Visited chips were left at their least distance. *)
Definition settled (m : machine) (s : xy) (vis : list xy) (q : list (xy * list node)) : Prop :=
  forall p, In p vis -> exists n, least m s p n /\
    forall st, works m p st -> In (snd st) vis \/ exists path, In (snd st, path) q /\ length path <= S n.

Lemma waiting : forall m s vis q, settled m s vis q -> In s vis \/ In (s, []) q ->
  forall w, walk m s w -> ~ In (last_xy s w) vis -> exists it, In it q /\ length (snd it) <= length w.
Proof.
  intros m s vis q S S0 w W N.
  assert (G : forall l pre, walk m s pre -> walk m (last_xy s pre) l -> In (last_xy s pre) vis ->
    ~ In (last_xy s (pre ++ l)) vis -> exists it, In it q /\ length (snd it) <= length pre + length l).
  { induction l as [|n l IH]; intros pre P L V NV.
    - rewrite app_nil_r in NV. contradiction.
    - destruct L as [L1 L2]. destruct (S _ V) as (k & K1 & K2). specialize (K1 pre P eq_refl).
      destruct (K2 n L1) as [H|(path & H & LE)].
      + assert (E : last_xy s (pre ++ [n]) = snd n) by (rewrite last_xy_app, last_cons; reflexivity).
        destruct (IH (pre ++ [n])) as (it & I & LI).
        * apply walk_app. split; [exact P|]. split; [exact L1|exact Logic.I].
        * rewrite E. exact L2.
        * rewrite E. exact H.
        * rewrite <- app_assoc. exact NV.
        * exists it. split; [exact I|]. rewrite app_length in LI. cbn [length] in *. lia.
      + exists (snd n, path). split; [exact H|]. cbn [snd length]. lia. }
  destruct S0 as [S0|S0].
  - apply (G w []); auto; exact Logic.I.
  - exists (s, []). split; [exact S0|]. cbn. lia.
Qed.

Lemma find_loop_least : forall fuel m s target vis q n path,
  level n q -> settled m s vis q -> (In s vis \/ In (s, []) q) -> (forall it, In it q -> good_item m s it) ->
  find_loop fuel m target vis q = Ok path -> least m s target (length path).
Proof.
  induction fuel as [|fuel IH]; intros m s target vis q n path LV ST S0 G H.
  - destruct q as [|[p pa] q]; discriminate H.
  - destruct q as [|[p pa] q]; [discriminate H|]. cbn [find_loop] in H.
    destruct (level_head _ _ _ LV) as (k & K1 & K2 & K3 & K4). cbn [snd] in K1.
    destruct (xy_in p vis) eqn:V.
    + apply xy_in_spec in V. apply (IH m s target vis q k path); auto.
      * intros r R. destruct (ST r R) as (j & J1 & J2). exists j. split; [exact J1|]. intros st W.
        destruct (J2 st W) as [X|(pa' & [X|X] & LE)]; [now left| |right; eauto]. left. injection X as E _. now rewrite <- E.
      * destruct S0 as [X|[X|X]]; [now left| |now right]. injection X as -> _. now left.
      * intros it I. apply G. now right.
    + assert (NV : ~ In p vis) by (rewrite <- xy_in_spec; congruence).
      assert (LP : least m s p k).
      { intros w W E. destruct (waiting m s vis _ ST S0 w W) as (it & I & LE); [now rewrite E|].
        specialize (K4 it I). lia. }
      destruct (xy_eqb p target) eqn:E.
      * apply xy_eqb_eq in E. subst target. injection H as <-. now rewrite K1.
      * apply (IH m s target (p :: vis) (q ++ find_next m (p :: vis) p pa) k path); auto.
        -- apply level_more; [exact K3|]. intros [x y] I. apply find_next_spec in I. destruct I as (d & _ & -> & _).
           cbn [snd]. rewrite app_length. cbn [length]. lia.
        -- intros r [<-|R].
           ++ exists k. split; [exact LP|]. intros st W. destruct (in_dec xy_dec (snd st) (p :: vis)) as [D|D]; [now left|].
              right. exists (pa ++ [st]). split; [apply in_app_iff; right; now apply find_next_exact|].
              rewrite app_length. cbn [length]. lia.
           ++ destruct (ST r R) as (j & J1 & J2). exists j. split; [exact J1|]. intros st W.
              destruct (J2 st W) as [X|(pa' & [X|X] & LE)]; [left; now right| |].
              ** injection X as X _. left. left. exact X.
              ** right. exists pa'. split; [apply in_app_iff; now left|exact LE].
        -- destruct S0 as [X|[X|X]]; [left; now right| |right; apply in_app_iff; now left]. injection X as -> _. left. now left.
        -- intros it I. apply in_app_iff in I. destruct I as [I|I]; [apply G; now right|].
           destruct (G (p, pa) (or_introl eq_refl)) as [G1 G2]. cbn [fst snd] in G1, G2.
           destruct it as [q' pa']. apply find_next_spec in I. destruct I as (d & W & -> & _). split; cbn [fst snd].
           ++ apply walk_app. split; [exact G1|]. rewrite G2. split; [exact W|exact Logic.I].
           ++ rewrite last_xy_app. reflexivity.
Qed.

Lemma find_path_least : forall m s t path, find_path m s t = Ok path -> least m s t (length path).
Proof.
  intros m s t path H. unfold find_path in H. revert H. apply (find_loop_least _ m s t [] [(s, [])] 0 path).
  - exists [(s, [])], []. split; [reflexivity|]. split; [intros it [<-|[]]; reflexivity|]. intros it [].
  - intros p [].
  - right. now left.
  - intros it [<-|[]]. split; [exact I|reflexivity].
Qed.

(** * Positions in a path *)
Definition at_ (s : xy) (l : list node) (k : nat) : xy := last_xy s (firstn k l).

Lemma nth_at : forall l s k p, nth_error (chips_of s l) k = Some p <-> k <= length l /\ at_ s l k = p.
Proof.
  unfold at_, chips_of. induction l as [|n l IH]; intros s k p.
  - destruct k as [|k]; cbn [map nth_error firstn length].
    + unfold last_xy. cbn. split; [intros H; injection H as ->; auto | intros [_ ->]; reflexivity].
    + split; [destruct k; discriminate | lia].
  - destruct k as [|k].
    + cbn [map nth_error firstn length]. unfold last_xy. cbn. split; [intros H; injection H as ->; split; [lia|reflexivity] | intros [_ ->]; reflexivity].
    + cbn [map nth_error firstn length]. rewrite last_cons. specialize (IH (snd n) k p). cbn [nth_error] in IH.
      rewrite IH. split; intros [A B]; (split; [lia|exact B]).
Qed.

Lemma at_app_l : forall l r s k, k <= length l -> at_ s (l ++ r) k = at_ s l k.
Proof. intros. unfold at_. rewrite firstn_app. replace (k - length l) with 0 by lia. cbn [firstn]. now rewrite app_nil_r. Qed.
Lemma at_app_r : forall l r s k, at_ s (l ++ r) (length l + k) = at_ (last_xy s l) r k.
Proof. intros. unfold at_. rewrite firstn_app_2, last_xy_app. reflexivity. Qed.
Lemma at_0 : forall s l, at_ s l 0 = s.
Proof. reflexivity. Qed.
Lemma at_end : forall s l, at_ s l (length l) = last_xy s l.
Proof. intros. unfold at_. now rewrite firstn_all. Qed.

Lemma skip_skip : forall {A} (l : list A) i j, skipn j (skipn i l) = skipn (i + j) l.
Proof.
  induction l as [|x l IH]; intros i j; [now rewrite !skipn_nil|]. destruct i as [|i]; [reflexivity|]. cbn [skipn plus Nat.add]. apply IH.
Qed.
Lemma cut : forall (l : list node) i j, i <= j <= length l -> l = firstn i l ++ firstn (j - i) (skipn i l) ++ skipn j l.
Proof.
  intros l i j H. rewrite <- (firstn_skipn i l) at 1. f_equal. rewrite <- (firstn_skipn (j - i) (skipn i l)) at 1. f_equal.
  rewrite skip_skip. f_equal. lia.
Qed.

(** The part between two positions. *)
Lemma part : forall R s l i j, chain R s l -> i <= j <= length l ->
  exists w, chain R (at_ s l i) w /\ last_xy (at_ s l i) w = at_ s l j /\ length w = j - i.
Proof.
  intros R s l i j C H. exists (firstn (j - i) (skipn i l)). rewrite (cut l i j H) in C. rewrite !chain_app in C.
  destruct C as (_ & C & _). split; [exact C|]. split.
  - unfold at_. rewrite <- last_xy_app. f_equal. rewrite <- (firstn_skipn i (firstn j l)). f_equal.
    + rewrite firstn_firstn. f_equal. lia.
    + symmetry. apply skipn_firstn_comm.
  - rewrite firstn_length, skipn_length. lia.
Qed.

(** No other way to the end has fewer steps. *)
Definition geo (R : xy -> node -> Prop) (s : xy) (l : list node) : Prop :=
  forall w, chain R s w -> last_xy s w = last_xy s l -> length l <= length w.

Lemma geo_part : forall R s l i j w, geo R s l -> chain R s l -> i <= j <= length l ->
  chain R (at_ s l i) w -> last_xy (at_ s l i) w = at_ s l j -> j - i <= length w.
Proof.
  intros R s l i j w G C H W E. pose proof (cut l i j H) as K. pose proof C as C'. rewrite K in C'. rewrite !chain_app in C'.
  destruct C' as (C1 & C2 & C3).
  assert (X : last_xy (last_xy s (firstn i l)) (firstn (j - i) (skipn i l)) = at_ s l j).
  { unfold at_. rewrite <- last_xy_app. f_equal. symmetry. rewrite <- (firstn_skipn i (firstn j l)) at 1. f_equal.
    - rewrite firstn_firstn. f_equal. lia.
    - apply skipn_firstn_comm. }
  rewrite X in C3. specialize (G (firstn i l ++ w ++ skipn j l)).
  rewrite !chain_app in G. unfold at_ in W at 1. unfold at_ in E at 1. rewrite E in G. specialize (G (conj C1 (conj W C3))).
  assert (LE : last_xy s (firstn i l ++ w ++ skipn j l) = last_xy s l).
  { transitivity (last_xy s (firstn i l ++ firstn (j - i) (skipn i l) ++ skipn j l)); [|now rewrite <- K].
    rewrite !last_xy_app, E, X. reflexivity. }
  specialize (G LE). rewrite !app_length, firstn_length, skipn_length in G. lia.
Qed.

Lemma geo_once : forall R s l i j, geo R s l -> chain R s l -> i <= j <= length l -> at_ s l i = at_ s l j -> i = j.
Proof.
  intros R s l i j G C H E. pose proof (geo_part R s l i j [] G C H Logic.I) as X. cbn [length] in X.
  assert (j - i <= 0); [apply X; exact E|]. lia.
Qed.

(** * One detour *)
(** Steps that only say where they lead. *)
Definition leads (m : machine) (p : xy) (n : node) : Prop := fst n < 6 /\ snd n = over_link m p (fst n).

Lemma named_chain : forall m l p, named m p l <-> chain (leads m) p l.
Proof. induction l as [|n l IH]; intros p; [reflexivity|]. cbn [named chain]. rewrite IH. unfold leads. tauto. Qed.
Lemma chain_impl : forall (R R' : xy -> node -> Prop) l p, (forall x n, R x n -> R' x n) -> chain R p l -> chain R' p l.
Proof. induction l as [|n l IH]; intros p I C; [exact C|]. destruct C as [C1 C2]. split; [now apply I|now apply IH]. Qed.
Lemma walk_leads : forall m l p, walk m p l -> chain (leads m) p l.
Proof. intros m l p W. apply chain_walk in W. revert W. apply chain_impl. intros x n (A & _ & B & _). split; auto. Qed.

(** Links work both ways. *)
Definition both_ways (m : machine) : Prop :=
  forall p l q, is_chip m p = true -> works m p (l, q) -> exists l', works m q (l', p).

Lemma walk_back : forall m, both_ways m -> forall l p, is_chip m p = true -> walk m p l ->
  exists r, walk m (last_xy p l) r /\ last_xy (last_xy p l) r = p /\ length r = length l.
Proof.
  intros m B l. induction l as [|[d q] l IH]; intros p P W.
  - exists []. split; [exact I|]. split; reflexivity.
  - destruct W as [W1 W2]. destruct (B p d q P W1) as [d' D]. rewrite last_cons. cbn [snd] in *.
    destruct W1 as (_ & _ & _ & Q). cbn [snd] in Q. destruct (IH q Q W2) as (r & R1 & R2 & R3).
    exists (r ++ [(d', p)]). split; [|split].
    + apply walk_app. split; [exact R1|]. rewrite R2. split; [exact D|exact I].
    + rewrite last_xy_app, R2, last_cons. reflexivity.
    + rewrite app_length, R3. cbn [length]. lia.
Qed.

Lemma detour : forall m s P1 B P2 D, both_ways m -> is_chip m s = true ->
  named m s (P1 ++ B ++ P2) -> geo (leads m) s (P1 ++ B ++ P2) ->
  walk m s P1 -> walk m (last_xy s (P1 ++ B)) P2 ->
  walk m (last_xy s P1) D -> last_xy (last_xy s P1) D = last_xy s (P1 ++ B) -> least m (last_xy s P1) (last_xy s (P1 ++ B)) (length D) ->
  no_return s (P1 ++ D ++ P2).
Proof.
  intros m s P1 B P2 D BW CS NM GL W1 W2 WD ED LD.
  remember (last_xy s P1) as c1 eqn:C1. remember (last_xy s (P1 ++ B)) as c2 eqn:C2.
  remember (length P1) as n1 eqn:N1. remember (length D) as nd eqn:ND. remember (length B) as nb eqn:NB.
  set (W := P1 ++ D ++ P2). set (L := P1 ++ B ++ P2).
  assert (CL : chain (leads m) s L) by (now apply named_chain).
  assert (WW : walk m s W).
  { unfold W. apply walk_app. split; [exact W1|]. rewrite <- C1. apply walk_app. split; [exact WD|]. rewrite ED. exact W2. }
  assert (GD : geo (works m) c1 D).
  { intros w Cw Ew. apply chain_walk in Cw. rewrite <- ND. apply LD; [exact Cw|]. now rewrite Ew. }
  assert (CD : chain (works m) c1 D) by (now apply chain_walk).
  assert (LW : length W = n1 + nd + length P2) by (unfold W; rewrite !app_length; lia).
  assert (LL : length L = n1 + nb + length P2) by (unfold L; rewrite !app_length; lia).
  (* positions of W in L and in D *)
  assert (Z1 : forall k, k <= n1 -> at_ s W k = at_ s L k).
  { intros k K. unfold W, L. rewrite !at_app_l by lia. reflexivity. }
  assert (Z2 : forall k, n1 <= k <= n1 + nd -> at_ s W k = at_ c1 D (k - n1)).
  { intros k K. unfold W. replace k with (length P1 + (k - n1)) at 1 by lia. rewrite at_app_r, <- C1. apply at_app_l. lia. }
  assert (Z3 : forall k, n1 + nd <= k -> at_ s W k = at_ s L (k - nd + nb)).
  { intros k K. unfold W, L. replace k with (length P1 + (length D + (k - n1 - nd))) at 1 by lia. rewrite at_app_r, at_app_r.
    replace (k - nd + nb) with (length P1 + (length B + (k - n1 - nd))) by lia. rewrite at_app_r, at_app_r.
    rewrite <- C1, ED. f_equal. rewrite C2, last_xy_app, C1. reflexivity. }
  assert (CH : forall k, k <= length W -> is_chip m (at_ s W k) = true).
  { intros k K. unfold at_. apply walk_chip; [exact CS|].
    rewrite <- (firstn_skipn k W) in WW. apply walk_app in WW. apply WW. }
  (* ways along W and back *)
  assert (FW : forall i j, i <= j <= length W -> exists w, walk m (at_ s W i) w /\ last_xy (at_ s W i) w = at_ s W j /\ length w = j - i).
  { intros i j IJ. apply chain_walk in WW. destruct (part _ _ _ i j WW IJ) as (w & A & B' & C). apply chain_walk in A. eauto. }
  assert (BK : forall i j, i <= j <= length W -> exists w, walk m (at_ s W j) w /\ last_xy (at_ s W j) w = at_ s W i /\ length w = j - i).
  { intros i j IJ. destruct (FW i j IJ) as (w & A & B' & C). destruct (walk_back m BW w (at_ s W i)) as (r & R1 & R2 & R3); [apply CH; lia|exact A|].
    rewrite B' in R1, R2. exists r. split; [exact R1|]. split; [exact R2|]. lia. }
  (* lower bounds *)
  assert (GE : forall i j w, i <= j <= length L -> walk m (at_ s L i) w -> last_xy (at_ s L i) w = at_ s L j -> j - i <= length w).
  { intros i j w IJ Ww Ew. apply (geo_part (leads m) s L i j w); auto. now apply walk_leads. }
  assert (GE2 : forall i j w, n1 <= i -> i <= j <= n1 + nd -> walk m (at_ s W i) w -> last_xy (at_ s W i) w = at_ s W j -> j - i <= length w).
  { intros i j w I1 IJ Ww Ew. rewrite (Z2 i) in Ww, Ew by lia. rewrite (Z2 j) in Ew by lia.
    assert (X : (j - n1) - (i - n1) <= length w); [|lia].
    apply (geo_part (works m) c1 D); auto; [lia|]. now apply chain_walk. }
  assert (ONE : forall i j, i < j <= length W -> (j <= n1 \/ n1 + nd <= i \/ (i <= n1 /\ n1 + nd <= j)) -> 0 < nb \/ nd = 0 \/ ~ (i = n1 /\ j = n1 + nd) -> at_ s W i <> at_ s W j).
  { intros i j IJ C NE E. destruct C as [C|[C|[C3 C4]]].
    - rewrite !Z1 in E by lia. apply (geo_once (leads m)) in E; auto; lia.
    - rewrite !Z3 in E by lia. apply (geo_once (leads m)) in E; auto; lia.
    - rewrite Z1 in E by lia. rewrite Z3 in E by lia. apply (geo_once (leads m)) in E; auto; lia. }
  assert (TWO : forall i j, n1 <= i -> i < j <= n1 + nd -> at_ s W i <> at_ s W j).
  { intros i j I1 IJ E. pose proof (GE2 i j [] I1) as X. cbn [length walk] in X. assert (j - i <= 0); [|lia].
    apply X; [lia|exact Logic.I|exact E]. }
  assert (KIND : forall i j, i < j <= length W -> at_ s W i = at_ s W j ->
     (i < n1 < j /\ j < n1 + nd) \/ (n1 < i < n1 + nd /\ n1 + nd < j)).
  { intros i j IJ E. destruct (le_lt_dec n1 i) as [A|A]; destruct (le_lt_dec j (n1 + nd)) as [C|C].
    - exfalso. apply (TWO i j); auto; lia.
    - destruct (le_lt_dec (n1 + nd) i) as [X|X]; [exfalso; apply (ONE i j); auto; lia|].
      destruct (Nat.eq_dec i n1) as [->|Y]; [|right; lia]. exfalso. apply (ONE n1 j); auto; lia.
    - destruct (le_lt_dec j n1) as [X|X]; [exfalso; apply (ONE i j); auto; lia|].
      destruct (Nat.eq_dec j (n1 + nd)) as [->|Y]; [|left; lia]. exfalso. apply (ONE i (n1 + nd)); auto; lia.
    - exfalso. apply (ONE i j); auto; lia. }
  intros a b c d p q AB CD' HA HC HB HD.
  apply nth_at in HA. apply nth_at in HC. apply nth_at in HB. apply nth_at in HD. fold W in HA, HB, HC, HD.
  destruct HA as [LA HA], HB as [LB HB], HC as [LC HC], HD as [LDd HD].
  destruct (KIND a c) as [K|K]; [lia|congruence| |].
  - destruct (KIND b d) as [K'|K']; [lia|congruence| |].
    + (* both inside the first part and the detour *)
      destruct (BK b n1) as (w & A1 & A2 & A3); [lia|].
      assert (X1 : d - n1 <= length w) by (apply (GE2 n1 d w); [lia|lia|exact A1|rewrite A2; congruence]).
      destruct (BK n1 c) as (w' & B1 & B2 & B3); [lia|].
      assert (X2 : n1 - a <= length w').
      { apply (GE a n1 w'); [lia| |]; rewrite <- !Z1 by lia; rewrite HA, <- HC; [exact B1|exact B2]. }
      lia.
    + destruct (BK a n1) as (w & A1 & A2 & A3); [lia|].
      assert (X1 : c - n1 <= length w) by (apply (GE2 n1 c w); [lia|lia|exact A1|rewrite A2; congruence]).
      destruct (BK b c) as (w' & B1 & B2 & B3); [lia|].
      assert (X2 : d - nd + nb - a <= length w').
      { apply (GE a (d - nd + nb) w'); [lia| |]; rewrite <- Z1 by lia; rewrite HA, <- HC; [exact B1|].
        rewrite <- Z3 by lia. rewrite HD, <- HB. exact B2. }
      lia.
  - destruct (KIND b d) as [K'|K']; [lia|congruence|lia|].
    destruct (BK (n1 + nd) c) as (w & A1 & A2 & A3); [lia|].
    assert (X1 : n1 + nd - a <= length w).
    { apply (GE2 a (n1 + nd) w); [lia|lia| |]; rewrite HA, <- HC; [exact A1|exact A2]. }
    destruct (BK b (n1 + nd)) as (w' & B1 & B2 & B3); [lia|].
    assert (X2 : (d - nd + nb) - (n1 + nb) <= length w').
    { apply (GE (n1 + nb) (d - nd + nb) w'); [lia| |];
        (replace (at_ s L (n1 + nb)) with (at_ s W (n1 + nd)) by (rewrite Z3 by lia; f_equal; lia)).
      - exact B1.
      - rewrite <- Z3 by lia. rewrite HD, <- HB. exact B2. }
    lia.
Qed.

(** * The repaired path *)
(** Every step is broken. *)
Fixpoint broken (m : machine) (p : xy) (l : list node) : Prop :=
  match l with
  | [] => True
  | n :: rest => ~ works m p n /\ broken m (snd n) rest
  end.

(** At most one stretch of a path is broken. *)
Definition one_gap (m : machine) (s : xy) (l : list node) : Prop :=
  exists P1 B P2, l = P1 ++ B ++ P2 /\ walk m s P1 /\ broken m (last_xy s P1) B /\ walk m (last_xy s (P1 ++ B)) P2.

Lemma works_ok : forall m p n, leads m p n -> (is_ok m p n = true <-> works m p n).
Proof. intros m p n [L1 L2]. unfold is_ok, works. rewrite andb_true_iff. tauto. Qed.

Lemma take_walk : forall m P1 r s, walk m s P1 -> (forall n r', r = n :: r' -> is_ok m (last_xy s P1) n = false) ->
  take_ok m s (P1 ++ r) = (P1, last_xy s P1, r).
Proof.
  intros m P1 r. induction P1 as [|n P1 IH]; intros s W H.
  - cbn [app]. destruct r as [|n r]; [reflexivity|]. cbn [take_ok]. specialize (H n r eq_refl). unfold last_xy in *. cbn [last snd] in *.
    now rewrite H.
  - destruct W as [W1 W2]. cbn [app take_ok]. rewrite last_cons in *.
    assert (L : leads m s n) by (destruct W1 as (A & _ & B & _); split; auto).
    rewrite (proj2 (works_ok m s n L) W1). now rewrite (IH (snd n) W2 H).
Qed.

Lemma skip_broken : forall m B r p, named m p (B ++ r) -> broken m p B -> (forall n r', r = n :: r' -> is_ok m (last_xy p B) n = true) ->
  skip_bad m p (B ++ r) = (last_xy p B, r).
Proof.
  intros m B r. induction B as [|n B IH]; intros p N W H.
  - cbn [app]. destruct r as [|n r]; [reflexivity|]. cbn [skip_bad]. specialize (H n r eq_refl). unfold last_xy in *. cbn [last snd] in *.
    now rewrite H.
  - destruct W as [W1 W2]. cbn [app] in N. destruct N as (N1 & N2 & N3). cbn [app skip_bad]. rewrite last_cons in *.
    destruct (is_ok m p n) eqn:E; [|now apply IH]. exfalso. apply W1. apply works_ok; [split; auto|exact E].
Qed.

Lemma errors_walk : forall f m s l, length l <= f -> walk m s l -> errors_loop f m s l = Ok l.
Proof.
  intros f m s l F W. destruct l as [|n l]; [destruct f; reflexivity|]. destruct f as [|f]; [cbn in F; lia|]. cbn [errors_loop].
  assert (T : take_ok m s (n :: l) = (n :: l, last_xy s (n :: l), [])).
  { rewrite <- (app_nil_r (n :: l)) at 1. apply take_walk; [exact W|]. intros x y X. discriminate. }
  rewrite T. cbn [skip_bad length Nat.eqb bind]. destruct f; cbn [errors_loop bind app]; now rewrite app_nil_r.
Qed.

Lemma gap_repaired : forall m s P1 B P2, named m s (P1 ++ B ++ P2) -> B <> [] -> walk m s P1 -> broken m (last_xy s P1) B ->
  walk m (last_xy s (P1 ++ B)) P2 ->
  repaired m s (P1 ++ B ++ P2) = (let* d := find_path m (last_xy s P1) (last_xy s (P1 ++ B)) in Ok (P1 ++ d ++ P2)).
Proof.
  intros m s P1 B P2 N NB W1 WB W2. unfold repaired.
  assert (NM : named m (last_xy s P1) (B ++ P2)) by (apply named_chain; apply named_chain in N; apply chain_app in N; apply N).
  assert (FB : forall n r, B ++ P2 = n :: r -> is_ok m (last_xy s P1) n = false).
  { intros n r E. destruct B as [|n' B]; [contradiction|]. cbn [app] in E. injection E as -> _. destruct WB as [WB _].
    destruct (is_ok m (last_xy s P1) n) eqn:X; [|reflexivity]. exfalso. apply WB. destruct NM as (A1 & A2 & _).
    apply works_ok; [split; auto|exact X]. }
  assert (F2 : forall n r, P2 = n :: r -> is_ok m (last_xy (last_xy s P1) B) n = true).
  { intros n r ->. destruct W2 as [W2 _]. rewrite last_xy_app in W2. unfold is_ok. destruct W2 as (_ & A & _ & C). now rewrite A, C. }
  assert (LEN : exists f, length (P1 ++ B ++ P2) = S f /\ length P2 <= f).
  { rewrite !app_length. destruct B as [|b B]; [contradiction|]. exists (length P1 + length B + length P2). cbn [length]. lia. }
  destruct LEN as (f & LEN & LF).
  destruct (P1 ++ B ++ P2) as [|n0 l0] eqn:E0; [discriminate|]. rewrite LEN. cbn [errors_loop]. rewrite <- E0.
  rewrite (take_walk m P1 (B ++ P2) s W1 FB), (skip_broken m B P2 _ NM WB F2).
  assert (Q : Nat.eqb (length P2) (length (B ++ P2)) = false).
  { apply Nat.eqb_neq. rewrite app_length. destruct B; [contradiction|]. cbn [length]. lia. }
  rewrite Q, <- last_xy_app. rewrite (errors_walk f m _ P2 LF W2).
  destruct (find_path m (last_xy s P1) (last_xy s (P1 ++ B))); reflexivity.
Qed.

Lemma gap_no_return : forall m s l r, both_ways m -> is_chip m s = true -> named m s l -> geo (leads m) s l -> one_gap m s l ->
  repaired m s l = Ok r -> no_return s r.
Proof.
  intros m s l r BW CS NM GE (P1 & B & P2 & -> & W1 & WB & W2) R.
  destruct B as [|b B].
  - cbn [app] in *. assert (W : walk m s (P1 ++ P2)) by (apply walk_app; rewrite app_nil_r in W2; auto).
    rewrite (repaired_ok m _ s W) in R. injection R as <-. apply no_repeat_no_return. apply NoDup_nth_error. intros i j I E.
    destruct (nth_error (chips_of s (P1 ++ P2)) i) as [p|] eqn:HI; [|apply nth_error_Some in I; contradiction].
    symmetry in E. apply nth_at in HI. apply nth_at in E. destruct HI as [HI1 HI2], E as [HJ1 HJ2]. apply named_chain in NM.
    destruct (le_ge_dec i j) as [LE|GE'].
    + apply (geo_once (leads m) s (P1 ++ P2) i j); auto. congruence.
    + symmetry. apply (geo_once (leads m) s (P1 ++ P2) j i); auto. congruence.
  - rewrite gap_repaired in R; auto; [|discriminate].
    pose proof (find_path_spec m (last_xy s P1) (last_xy s (P1 ++ b :: B))) as F.
    pose proof (find_path_least m (last_xy s P1) (last_xy s (P1 ++ b :: B))) as G.
    destruct (find_path m (last_xy s P1) (last_xy s (P1 ++ b :: B))) as [d|e]; [|discriminate R]. cbn [bind] in R. injection R as <-.
    destruct F as [F1 F2]. eapply detour; eauto.
Qed.

(** If the end can be reached at all, the path is repaired. *)
Lemma gap_found : forall m s l, both_ways m -> is_chip m s = true -> named m s l -> one_gap m s l ->
  is_chip m (last_xy s l) = true ->
  (exists w, walk m s w /\ last_xy s w = last_xy s l) -> exists r, repaired m s l = Ok r.
Proof.
  intros m s l BW CS NM (P1 & B & P2 & -> & W1 & WB & W2) CE (w & Ww & Ew).
  destruct B as [|b B].
  - cbn [app] in *. exists (P1 ++ P2). apply repaired_ok. apply walk_app. rewrite app_nil_r in W2. auto.
  - rewrite gap_repaired; auto; [|discriminate].
    pose proof (find_path_spec m (last_xy s P1) (last_xy s (P1 ++ b :: B))) as F.
    destruct (find_path m (last_xy s P1) (last_xy s (P1 ++ b :: B))) as [d|e]; [cbn [bind]; eauto|]. exfalso.
    destruct F as [_ F].
    destruct (walk_back m BW P1 s CS W1) as (r1 & A1 & A2 & _).
    assert (C2 : is_chip m (last_xy s (P1 ++ b :: B)) = true).
    { destruct P2 as [|n P2]; [rewrite app_nil_r in CE; exact CE|]. destruct W2 as [(_ & X & _) _]. unfold is_link in X.
      now apply andb_true_iff in X. }
    destruct (walk_back m BW P2 _ C2 W2) as (r2 & B1 & B2 & _).
    assert (EL : last_xy s (P1 ++ (b :: B) ++ P2) = last_xy (last_xy s (P1 ++ b :: B)) P2) by (rewrite app_assoc, last_xy_app; reflexivity).
    rewrite <- Ew in EL. rewrite <- EL in B1, B2. apply (F (r1 ++ w ++ r2)).
    + apply walk_app. split; [exact A1|]. rewrite A2. apply walk_app. split; [exact Ww|exact B1].
    + rewrite (last_xy_app r1), A2, (last_xy_app w). exact B2.
Qed.

Lemma gap_path : forall m v s, both_ways m -> is_chip m s = true ->
  let l := longest_dimension_first m v s in
  one_gap m s l -> is_chip m (last_xy s l) = true ->
  (forall w, named m s w -> last_xy s w = last_xy s l -> length l <= length w) ->
  (exists w, walk m s w /\ last_xy s w = last_xy s l) ->
  exists r, direct_path m v s = Ok r /\ walk m s r /\ last_xy s r = last_xy s l /\ NoDup (s :: map snd r).
Proof.
  intros m v s BW CS l OG CE SH RE.
  assert (NM : named m s l) by apply ldf_named.
  assert (G : geo (leads m) s l) by (intros w C E; apply SH; [now apply named_chain|exact E]).
  destruct (gap_found m s l BW CS NM OG CE RE) as (r0 & R).
  pose proof (gap_no_return m s l r0 BW CS NM G OG R) as NR.
  destruct (path_without_errors_spec m s l r0 NM R NR) as (r & A & B & C & D). exists r. auto.
Qed.
