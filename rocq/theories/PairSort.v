(** The sorting and histogram steps of the pair compressor succeed and permute. *)
From Coq Require Import List Arith NArith ZArith Bool Lia Permutation Sorted.
From Verif Require Import Base RouteSpec KeyMask PairModel PairProofs.
Import ListNotations.

(** * Insertion sort *)
Lemma insertM_spec : forall {A} (cmp : A -> A -> res Z) x l,
  (forall y, In y l -> exists c, cmp x y = Ok c) ->
  exists l', insertM cmp x l = Ok l' /\ Permutation (x :: l) l'.
Proof.
  induction l as [|y l IH]; intros H; simpl.
  - eauto.
  - destruct (H y) as (c & ->); [now left|]. cbn [bind].
    destruct (Z.ltb c 0); [eauto|].
    destruct IH as (l' & -> & P); [intros; apply H; now right|]. cbn [bind].
    eexists; split; [reflexivity|].
    rewrite perm_swap. now constructor.
Qed.

Lemma sortM_acc_spec : forall {A} (cmp : A -> A -> res Z) l acc,
  (forall x y, In x (acc ++ l) -> In y (acc ++ l) -> exists c, cmp x y = Ok c) ->
  exists l', sortM_acc cmp acc l = Ok l' /\ Permutation (acc ++ l) l'.
Proof.
  induction l as [|x l IH]; intros acc H; simpl.
  - rewrite app_nil_r. eauto.
  - destruct (insertM_spec cmp x acc) as (acc' & -> & P).
    { intros y Hy. apply H; apply in_or_app; [right; now left|now left]. }
    cbn [bind].
    assert (P2 : Permutation (acc ++ x :: l) (acc' ++ l)).
    { rewrite <- P. simpl. symmetry. apply Permutation_middle. }
    destruct (IH acc') as (l' & -> & P').
    { intros a b Ha Hb. apply H; eapply Permutation_in; try eassumption; now symmetry. }
    eexists; split; [reflexivity|]. now rewrite P2.
Qed.

Lemma sortM_spec : forall {A} (cmp : A -> A -> res Z) l,
  (forall x y, In x l -> In y l -> exists c, cmp x y = Ok c) ->
  exists l', sortM cmp l = Ok l' /\ Permutation l l'.
Proof. intros A cmp l H. exact (sortM_acc_spec cmp l [] H). Qed.

(** * Swaps *)
Lemma aset_lt : forall {A} (l : list A) i x, i < length l -> aset l i x = Ok (upd l i x).
Proof.
  intros. unfold aset. destruct (Nat.ltb_spec i (length l)); [reflexivity|lia].
Qed.

Lemma upd_same : forall {A} (l : list A) i x, nth_error l i = Some x -> upd l i x = l.
Proof.
  induction l; intros [|i] x H; simpl in *; try congruence. f_equal. auto.
Qed.

Lemma perm_upd : forall {A} (l : list A) j x y,
  nth_error l j = Some y -> Permutation (x :: l) (y :: upd l j x).
Proof.
  induction l as [|a l IH]; intros [|j] x y H; simpl in *; try discriminate.
  - injection H as ->. apply perm_swap.
  - rewrite perm_swap. rewrite (perm_swap a y). constructor. now apply IH.
Qed.

Lemma perm_upd2 : forall {A} (l : list A) i j x y,
  nth_error l i = Some x -> nth_error l j = Some y ->
  Permutation l (upd (upd l i y) j x).
Proof.
  induction l as [|a l IH]; intros [|i] [|j] x y Hi Hj; simpl in *; try discriminate.
  - injection Hi as ->. constructor. reflexivity.
  - injection Hi as ->. now apply perm_upd.
  - injection Hj as ->.
    pose proof (perm_upd l i y x Hi) as P.
    symmetry in P. rewrite <- P. reflexivity.
  - constructor. now apply IH.
Qed.

Lemma upd_app_l : forall {A} (p q : list A) i x, i < length p -> upd (p ++ q) i x = upd p i x ++ q.
Proof.
  induction p; intros q [|i] x H; simpl in *; try lia; auto. f_equal. apply IHp. lia.
Qed.

Lemma swap_spec : forall {A} (l : list A) c i j,
  i < c -> j < c -> c <= length l ->
  exists l', swap l i j = Ok l' /\ length l' = length l /\
    Permutation (firstn c l) (firstn c l') /\ skipn c l = skipn c l'.
Proof.
  intros A l c i j Hi Hj Hc.
  rewrite <- (firstn_skipn c l).
  set (p := firstn c l). set (q := skipn c l).
  assert (Lp : length p = c) by (unfold p; now apply firstn_length_le).
  unfold swap.
  destruct (aget_lt p i) as (x & Hx); [lia|].
  destruct (aget_lt p j) as (y & Hy); [lia|].
  rewrite aget_Ok_iff in Hx, Hy.
  assert (Hx' : aget (p ++ q) i = Ok x).
  { apply aget_Ok_iff. rewrite nth_error_app1 by lia. assumption. }
  assert (Hy' : aget (p ++ q) j = Ok y).
  { apply aget_Ok_iff. rewrite nth_error_app1 by lia. assumption. }
  rewrite Hx', Hy'. cbn [bind].
  rewrite aset_lt by (rewrite app_length; lia). cbn [bind].
  rewrite aset_lt by (rewrite upd_length, app_length; lia).
  rewrite upd_app_l by lia.
  rewrite upd_app_l by (rewrite upd_length; lia).
  eexists; split; [reflexivity|].
  split; [rewrite !app_length, !upd_length; lia|].
  assert (Lu : length (upd (upd p i y) j x) = c) by (rewrite !upd_length; lia).
  split.
  - rewrite !firstn_app.
    replace (c - length p) with 0 by lia. rewrite Lu, Nat.sub_diag. simpl.
    rewrite !app_nil_r. rewrite !firstn_all2 by lia. now apply perm_upd2.
  - rewrite !skipn_app. rewrite Lp, Lu, Nat.sub_diag.
    rewrite (skipn_all2 p), (skipn_all2 (upd (upd p i y) j x)) by lia. reflexivity.
Qed.

(** * compare_routes *)
Definition known (h : hist) (r : N) : Prop := In r (firstn (h_count h) (h_routes h)).

Lemma compare_loop_ok : forall routes a b n i,
  i + n <= length routes ->
  In a (firstn n (skipn i routes)) ->
  exists c, compare_loop routes a b i n = Ok c.
Proof.
  induction n as [|n IH]; intros i Hl Hin; simpl in *; [contradiction|].
  destruct (aget_lt routes i) as (r & Hr); [lia|]. rewrite Hr. cbn [bind].
  destruct (N.eqb_spec r a); [eauto|]. destruct (N.eqb r b); [eauto|].
  apply IH; [lia|].
  rewrite aget_Ok_iff in Hr.
  assert (E : skipn i routes = r :: skipn (S i) routes).
  { clear - Hr. revert i Hr. induction routes; intros [|i] Hr; simpl in *; try congruence.
    now apply IHroutes. }
  rewrite E in Hin. simpl in Hin. destruct Hin; [congruence|assumption].
Qed.

Lemma compare_routes_ok : forall h a b,
  h_count h <= length (h_routes h) -> known h a ->
  exists c, compare_routes h a b = Ok c.
Proof.
  intros h a b Hl Hk. unfold compare_routes. destruct (N.eqb a b); [eauto|].
  apply compare_loop_ok; [lia|exact Hk].
Qed.

(** * Quicksort of the table *)
Lemma partition_table_ok : forall fuel h arr pivot low check high,
  h_count h <= length (h_routes h) ->
  (forall e, In e arr -> known h (e_route e)) ->
  low < check -> check <= S high -> high < length arr -> S high - check < fuel ->
  exists arr' low' check',
    partition_table fuel h arr pivot low check high = Ok (arr', low', check') /\
    Permutation arr arr' /\ low <= low' /\ low' < check' /\ check' <= S high /\ check <= check'.
Proof.
  induction fuel as [|fuel IH]; intros h arr pivot low check high Hl Hk H1 H2 H3 Hf; [lia|].
  cbn [partition_table]. destruct (Nat.leb_spec check high).
  - destruct (aget_lt arr check) as (e & He); [lia|]. rewrite He. cbn [bind].
    destruct (compare_routes_ok h (e_route e) pivot Hl) as (c & ->).
    { apply Hk. rewrite aget_Ok_iff in He. eapply nth_error_In; eauto. }
    cbn [bind].
    assert (SW : forall i, i < length arr -> exists arr', swap arr i check = Ok arr' /\
              length arr' = length arr /\ Permutation arr arr').
    { intros i Hi. destruct (swap_spec arr (length arr) i check) as (arr' & E & L & P & _);
        try lia. exists arr'. rewrite firstn_all in P.
      rewrite firstn_all2 in P by lia. auto. }
    destruct (Z.ltb c 0); [|destruct (Z.gtb c 0)].
    + destruct (SW low) as (arr1 & -> & L & P); [lia|]. cbn [bind].
      destruct (IH h arr1 pivot (S low) (S check) high) as (arr' & l' & c' & E & P' & R);
        try lia; auto.
      { intros a Ha. apply Hk. eapply Permutation_in; [symmetry; eassumption|assumption]. }
      exists arr', l', c'. split; [assumption|]. split; [now rewrite P|lia].
    + destruct (SW high) as (arr1 & -> & L & P); [lia|]. cbn [bind].
      destruct (IH h arr1 pivot low check (high - 1)) as (arr' & l' & c' & E & P' & R);
        try lia; auto.
      { intros a Ha. apply Hk. eapply Permutation_in; [symmetry; eassumption|assumption]. }
      exists arr', l', c'. split; [assumption|]. split; [now rewrite P|lia].
    + destruct (IH h arr pivot low (S check) high) as (arr' & l' & c' & E & P' & R);
        try lia; auto.
      exists arr', l', c'. split; [assumption|]. split; [assumption|lia].
  - exists arr, low, check. repeat split; try lia; auto.
Qed.

Lemma quicksort_table_ok : forall fuel h arr low high,
  h_count h <= length (h_routes h) ->
  (forall e, In e arr -> known h (e_route e)) ->
  (high < length arr \/ high <= low) -> high - low < fuel ->
  exists arr', quicksort_table fuel h arr low high = Ok arr' /\ Permutation arr arr'.
Proof.
  induction fuel as [|fuel IH]; intros h arr low high Hl Hk Hh Hf; [lia|].
  cbn [quicksort_table]. destruct (Nat.ltb_spec low high).
  - destruct (aget_lt arr low) as (p & ->); [lia|]. cbn [bind].
    destruct (partition_table_ok (S (S high - low)) h arr (e_route p) low (S low) high)
      as (arr1 & l & r & -> & P & R1 & R2 & R3 & R4); try lia; auto.
    cbn [bind].
    assert (La : length arr1 = length arr) by (now rewrite P).
    destruct (IH h arr1 low (l - 1)) as (arr2 & -> & P2); try lia; auto.
    { intros a Ha. apply Hk. eapply Permutation_in; [symmetry; eassumption|assumption]. }
    cbn [bind].
    assert (Lb : length arr2 = length arr1) by (now rewrite P2).
    destruct (IH h arr2 r high) as (arr3 & -> & P3); try lia; auto.
    { intros a Ha. apply Hk. eapply Permutation_in; [symmetry; rewrite P; exact P2|assumption]. }
    exists arr3. split; [reflexivity|]. now rewrite P, P2.
  - eauto.
Qed.

(** * Quicksort of the routes: the first [count] cells are permuted. *)
Definition hperm (h h' : hist) : Prop :=
  h_count h' = h_count h /\ length (h_routes h') = length (h_routes h) /\
  length (h_freq h') = length (h_freq h) /\
  Permutation (firstn (h_count h) (h_routes h)) (firstn (h_count h) (h_routes h')).

Lemma hperm_refl h : hperm h h.
Proof. repeat split; reflexivity. Qed.

Lemma hperm_trans a b c : hperm a b -> hperm b c -> hperm a c.
Proof.
  intros (A1 & A2 & A3 & A4) (B1 & B2 & B3 & B4).
  repeat split; try congruence. rewrite A4, <- A1. assumption.
Qed.

Lemma swap_routes_ok h i j :
  h_count h <= length (h_routes h) -> h_count h <= length (h_freq h) ->
  i < h_count h -> j < h_count h ->
  exists h', swap_routes h i j = Ok h' /\ hperm h h'.
Proof.
  intros H1 H2 Hi Hj. unfold swap_routes.
  destruct (swap_spec (h_freq h) (h_count h) i j) as (f' & -> & Lf & _); try lia.
  cbn [bind].
  destruct (swap_spec (h_routes h) (h_count h) i j) as (r' & -> & Lr & P & _); try lia.
  cbn [bind]. eexists; split; [reflexivity|]. repeat split; simpl; auto.
Qed.

Lemma partition_routes_ok : forall fuel h pivot low check high,
  h_count h <= length (h_routes h) -> h_count h <= length (h_freq h) ->
  low < check -> check <= S high -> high < h_count h -> S high - check < fuel ->
  exists h' low' check',
    partition_routes fuel h pivot low check high = Ok (h', low', check') /\
    hperm h h' /\ low <= low' /\ low' < check' /\ check' <= S high /\ check <= check'.
Proof.
  induction fuel as [|fuel IH]; intros h pivot low check high Hl Hk H1 H2 H3 Hf; [lia|].
  cbn [partition_routes]. destruct (Nat.leb_spec check high).
  - destruct (aget_lt (h_freq h) check) as (f & ->); [lia|]. cbn [bind].
    destruct (Nat.ltb pivot f); [|destruct (Nat.ltb f pivot)].
    + destruct (swap_routes_ok h low check) as (h1 & -> & P); try lia. cbn [bind].
      pose proof P as (P1 & P2 & P3 & _).
      destruct (IH h1 pivot (S low) (S check) high) as (h' & l' & c' & E & P' & R);
        try lia.
      exists h', l', c'. split; [assumption|]. split; [eapply hperm_trans; eauto|lia].
    + destruct (swap_routes_ok h high check) as (h1 & -> & P); try lia. cbn [bind].
      pose proof P as (P1 & P2 & P3 & _).
      destruct (IH h1 pivot low check (high - 1)) as (h' & l' & c' & E & P' & R);
        try lia.
      exists h', l', c'. split; [assumption|]. split; [eapply hperm_trans; eauto|lia].
    + destruct (IH h pivot low (S check) high) as (h' & l' & c' & E & P' & R); try lia.
      exists h', l', c'. split; [assumption|]. split; [assumption|lia].
  - exists h, low, check. split; [reflexivity|]. split; [apply hperm_refl|lia].
Qed.

Lemma quicksort_routes_ok : forall fuel h low high,
  h_count h <= length (h_routes h) -> h_count h <= length (h_freq h) ->
  (high < h_count h \/ high <= low) -> high - low < fuel ->
  exists h', quicksort_routes fuel h low high = Ok h' /\ hperm h h'.
Proof.
  induction fuel as [|fuel IH]; intros h low high Hl Hk Hh Hf; [lia|].
  cbn [quicksort_routes]. destruct (Nat.ltb_spec low high).
  - destruct (aget_lt (h_freq h) low) as (p & ->); [lia|]. cbn [bind].
    destruct (partition_routes_ok (S (S high - low)) h p low (S low) high)
      as (h1 & l & r & -> & P & R1 & R2 & R3 & R4); try lia.
    cbn [bind]. pose proof P as (P1 & P2 & P3 & _).
    destruct (IH h1 low (l - 1)) as (h2 & -> & Q); try lia.
    cbn [bind]. pose proof Q as (Q1 & Q2 & Q3 & _).
    destruct (IH h2 r high) as (h3 & -> & S3); try lia.
    exists h3. split; [reflexivity|].
    eapply hperm_trans; [exact P|]. eapply hperm_trans; eauto.
  - exists h. split; [reflexivity|]. apply hperm_refl.
Qed.

(** * The histogram *)

(** Number of different routes in a table. *)
Definition n_distinct_routes (t : list entry) : nat :=
  length (nodup N.eq_dec (map e_route t)).

Definition hist_inv (n : nat) (seen : list entry) (h : hist) : Prop :=
  exists us fs,
    NoDup us /\ (forall r, In r us <-> In r (map e_route seen)) /\
    length us = h_count h /\ h_count h <= n /\
    h_routes h = us ++ repeat 0%N (n - h_count h) /\
    length fs = h_count h /\ Forall (fun f => 1 <= f) fs /\
    h_freq h = fs ++ repeat 0 (n - h_count h).

Lemma find_route_spec : forall route us2 us1 pad,
  ~ In route us1 ->
  (In route us2 /\ exists i, length us1 <= i < length (us1 ++ us2) /\
     find_route (us1 ++ us2 ++ pad) route (length us1) (length us2) = Ok (Some i))
  \/ (~ In route us2 /\
      find_route (us1 ++ us2 ++ pad) route (length us1) (length us2) = Ok None).
Proof.
  induction us2 as [|u us2 IH]; intros us1 pad Hn.
  - right. split; auto.
  - cbn [find_route length].
    rewrite (aget_app us1 u (us2 ++ pad) : aget (us1 ++ (u :: us2) ++ pad) _ = _).
    cbn [bind]. destruct (N.eqb_spec u route) as [->|Hne].
    + left. split; [now left|]. exists (length us1). split; [lens|reflexivity].
    + specialize (IH (us1 ++ [u]) pad).
      replace ((us1 ++ [u]) ++ us2 ++ pad) with (us1 ++ (u :: us2) ++ pad) in IH by reass.
      replace (length (us1 ++ [u])) with (S (length us1)) in IH by lens.
      destruct IH as [(Hin & i & Hi & E)|(Hin & E)].
      * intros C. apply in_app_or in C. destruct C as [C|[C|[]]]; auto.
      * left. split; [now right|]. exists i. split; [|assumption].
        revert Hi. lens.
      * right. split; [|assumption]. intros [C|C]; auto.
Qed.

Lemma upd_app_r : forall {A} (p : list A) q i x,
  length p <= i -> upd (p ++ q) i x = p ++ upd q (i - length p) x.
Proof.
  induction p; intros q i x H; simpl in *.
  - now rewrite Nat.sub_0_r.
  - destruct i; [lia|]. simpl. f_equal. apply IHp. lia.
Qed.

Lemma update_frequency_spec : forall n seen h e,
  hist_inv n seen h ->
  (h_count h < n \/ In (e_route e) (map e_route seen)) ->
  exists h', update_frequency h e = Ok h' /\ hist_inv n (seen ++ [e]) h'.
Proof.
  intros n seen h e (us & fs & ND & Hus & Lus & Hn & Er & Lf & Ff & Ef) Hc.
  unfold update_frequency.
  pose proof (find_route_spec (e_route e) us [] (repeat 0%N (n - h_count h))) as FR.
  simpl app in FR. simpl length in FR. rewrite <- Er, Lus in FR.
  destruct FR as [(Hin & i & Hi & E)|(Hin & E)]; [auto| |]; rewrite E; cbn [bind].
  - simpl in Hi.
    destruct (aget_lt (h_freq h) i) as (f & Hf).
    { rewrite Ef, app_length, Lf, repeat_length. lia. }
    rewrite Hf. cbn [bind]. rewrite aset_lt.
    2:{ rewrite Ef, app_length, Lf, repeat_length. lia. }
    cbn [bind]. eexists; split; [reflexivity|].
    exists us, (upd fs i (S f)). simpl.
    split; [assumption|]. split.
    { intros r. rewrite Hus, map_app, in_app_iff. simpl. split; [tauto|].
      intros [H|[<-|[]]]; [assumption|]. now apply Hus. }
    split; [assumption|]. split; [assumption|]. split; [assumption|].
    split; [now rewrite upd_length|]. split.
    { apply Forall_forall. intros x Hx.
      apply In_nth_error in Hx. destruct Hx as (j & Hj).
      destruct (Nat.eq_dec i j) as [<-|Hij].
      - rewrite nth_error_upd_eq in Hj by lia. injection Hj as <-. lia.
      - rewrite nth_error_upd_neq in Hj by assumption.
        rewrite Forall_forall in Ff. apply Ff. eapply nth_error_In; eauto. }
    rewrite Ef. apply upd_app_l. lia.
  - assert (Hlt : h_count h < n).
    { destruct Hc as [Hc|Hc]; [assumption|]. apply Hus in Hc. contradiction. }
    destruct (n - h_count h) as [|d] eqn:Ed; [lia|].
    simpl repeat in Er, Ef. rewrite Er, Ef.
    rewrite aset_at by (symmetry; assumption). cbn [bind].
    rewrite aset_at by (symmetry; assumption). cbn [bind].
    eexists; split; [reflexivity|].
    exists (us ++ [e_route e]), (fs ++ [1]). simpl.
    replace (n - S (h_count h)) with d by lia.
    split.
    { apply (Permutation_NoDup (l := e_route e :: us)).
      - apply Permutation_cons_append.
      - constructor; assumption. }
    split.
    { intros r. rewrite in_app_iff, map_app, in_app_iff, Hus. simpl. tauto. }
    split; [lens|]. split; [lia|]. split; [reass|]. split; [lens|].
    split; [|reass].
    apply Forall_app. split; [assumption|]. repeat constructor.
Qed.

Lemma nodup_length_eq (us : list N) (l : list N) :
  NoDup us -> (forall r, In r us <-> In r l) -> length us = length (nodup N.eq_dec l).
Proof.
  intros ND H. apply Nat.le_antisymm.
  - apply NoDup_incl_length; [assumption|]. intros r Hr. apply nodup_In. now apply H.
  - apply NoDup_incl_length; [apply NoDup_nodup|]. intros r Hr. apply nodup_In in Hr.
    now apply H.
Qed.

Lemma nodup_length_mono (a b : list N) :
  incl a b -> length (nodup N.eq_dec a) <= length (nodup N.eq_dec b).
Proof.
  intros H. apply NoDup_incl_length; [apply NoDup_nodup|].
  intros r Hr. apply nodup_In. apply H. now apply nodup_In in Hr.
Qed.

Lemma hist_count n seen h : hist_inv n seen h -> h_count h = n_distinct_routes seen.
Proof.
  intros (us & fs & ND & Hus & Lus & _). rewrite <- Lus.
  unfold n_distinct_routes. now apply nodup_length_eq.
Qed.

Lemma histogram_ok : forall n t seen h,
  hist_inv n seen h -> n_distinct_routes (seen ++ t) <= n ->
  exists h', foldM update_frequency h t = Ok h' /\ hist_inv n (seen ++ t) h'.
Proof.
  induction t as [|e t IH]; intros seen h I H; simpl.
  - rewrite app_nil_r. eauto.
  - destruct (update_frequency_spec n seen h e I) as (h1 & -> & I1).
    { destruct (in_dec N.eq_dec (e_route e) (map e_route seen)) as [Hin|Hin]; [now right|].
      left. pose proof (hist_count _ _ _ I) as E.
      assert (n_distinct_routes seen < n_distinct_routes (seen ++ e :: t)); [|lia].
      unfold n_distinct_routes in *. rewrite map_app. simpl.
      assert (L : length (e_route e :: nodup N.eq_dec (map e_route seen))
                  <= length (nodup N.eq_dec (map e_route seen ++ e_route e :: map e_route t))).
      { apply NoDup_incl_length.
        - constructor; [now rewrite nodup_In|apply NoDup_nodup].
        - intros r [<-|Hr]; apply nodup_In, in_or_app; [right; now left|left].
          now apply nodup_In in Hr. }
      simpl in L. lia. }
    cbn [bind].
    destruct (IH (seen ++ [e]) h1 I1) as (h' & E & I').
    { rewrite <- app_assoc. exact H. }
    exists h'. split; [assumption|]. rewrite <- app_assoc in I'. exact I'.
Qed.

(** With more different routes than the histogram has room for, the code
    writes past the end of its arrays. *)
Lemma histogram_overflow : forall n t seen h,
  hist_inv n seen h -> n < n_distinct_routes (seen ++ t) ->
  foldM update_frequency h t = Err IndexError.
Proof.
  induction t as [|e t IH]; intros seen h I H; simpl.
  - rewrite app_nil_r in H. rewrite <- (hist_count _ _ _ I) in H.
    destruct I as (us & fs & _ & _ & _ & Hn & _). lia.
  - destruct (Nat.ltb_spec (h_count h) n) as [Hlt|Hge].
    + destruct (update_frequency_spec n seen h e I) as (h1 & -> & I1); [now left|].
      cbn [bind]. apply (IH (seen ++ [e])); [assumption|]. rewrite <- app_assoc. exact H.
    + destruct (in_dec N.eq_dec (e_route e) (map e_route seen)) as [Hin|Hin].
      * destruct (update_frequency_spec n seen h e I) as (h1 & -> & I1); [now right|].
        cbn [bind]. apply (IH (seen ++ [e])); [assumption|]. rewrite <- app_assoc. exact H.
      * clear IH. destruct I as (us & fs & ND & Hus & Lus & Hn & Er & Lf & Ff & Ef).
        assert (Hc : h_count h = n) by lia.
        unfold update_frequency.
        pose proof (find_route_spec (e_route e) us [] (repeat 0%N (n - h_count h))) as FR.
        simpl app in FR. simpl length in FR. rewrite <- Er, Lus in FR.
        destruct FR as [(C & _)|(_ & E)]; [auto| |]; [exfalso; apply Hin; now apply Hus|].
        rewrite E. cbn [bind]. rewrite Er, Hc, Nat.sub_diag. simpl repeat.
        rewrite app_nil_r. unfold aset.
        destruct (Nat.ltb_spec n (length us)); [lia|reflexivity].
Qed.

Lemma hist_inv_init n : hist_inv n [] (mkHist (repeat 0%N n) (repeat 0 n) 0).
Proof.
  exists [], []. simpl. rewrite Nat.sub_0_r.
  repeat split; auto; try constructor; try lia; intros [].
Qed.

(** * The built-in sort of the histogram *)
Section DescSort.
  Context {A : Type} (k : A -> Z).
  Let cmp := fun x y : A => Ok (k y - k x)%Z.
  Let desc := fun a b : A => (k b <= k a)%Z.

  Lemma insertM_desc : forall x l l',
    StronglySorted desc l -> insertM cmp x l = Ok l' -> StronglySorted desc l'.
  Proof.
    induction l as [|y l IH]; intros l' HS H; simpl in H.
    - injection H as <-. repeat constructor.
    - unfold cmp in H at 1. cbn [bind] in H.
      inversion HS as [|? ? HS1 HF]; subst.
      destruct (Z.ltb_spec (k y - k x) 0) as [Hc|Hc].
      + injection H as <-. constructor; [assumption|]. constructor.
        * unfold desc. lia.
        * eapply Forall_impl; [|exact HF]. unfold desc. intros; lia.
      + destruct (bind_Ok_inv _ _ _ H) as (t' & Ht & E). injection E as <-.
        constructor; [eapply IH; eauto|].
        assert (P : Permutation (x :: l) t').
        { destruct (insertM_spec cmp x l) as (t2 & E2 & P); [intros; unfold cmp; eauto|].
          change (insertM cmp x l = Ok t') in Ht.
          rewrite E2 in Ht. now injection Ht as ->. }
        apply Forall_forall. intros z Hz.
        apply (Permutation_in (l' := x :: l)) in Hz; [|now symmetry].
        destruct Hz as [<-|Hz]; [unfold desc; lia|].
        rewrite Forall_forall in HF. now apply HF.
  Qed.

  Lemma sortM_acc_desc : forall l acc l',
    StronglySorted desc acc -> sortM_acc cmp acc l = Ok l' -> StronglySorted desc l'.
  Proof.
    induction l as [|x l IH]; intros acc l' HS H; simpl in H.
    - now injection H as <-.
    - destruct (bind_Ok_inv _ _ _ H) as (acc' & E1 & E2).
      eapply IH; [|exact E2]. eapply insertM_desc; eauto.
  Qed.

  Lemma sortM_desc : forall l l', sortM cmp l = Ok l' -> StronglySorted desc l'.
  Proof. intros l l' H. eapply sortM_acc_desc; [|exact H]. constructor. Qed.

  (** In a descending list the elements above a threshold come first. *)
  Lemma desc_filter : forall (p : Z) l, StronglySorted desc l ->
    l = filter (fun x => Z.leb p (k x)) l ++ filter (fun x => negb (Z.leb p (k x))) l.
  Proof.
    induction l as [|x l IH]; intros HS; [reflexivity|].
    inversion HS as [|? ? HS1 HF]; subst. simpl.
    destruct (Z.leb_spec p (k x)); simpl.
    - f_equal. now apply IH.
    - assert (E : filter (fun x => Z.leb p (k x)) l = []).
      { clear - HF H. induction l as [|y l IH]; [reflexivity|]. simpl.
        inversion HF as [|? ? H1 H2]; subst. unfold desc in H1.
        destruct (Z.leb_spec p (k y)); [lia|]. now apply IH. }
      rewrite E. simpl. f_equal.
      rewrite <- (app_nil_l (filter _ l)). rewrite <- E at 1. now apply IH.
  Qed.
End DescSort.

Lemma filter_perm : forall {A} (f : A -> bool) l l',
  Permutation l l' -> Permutation (filter f l) (filter f l').
Proof.
  intros A f l l' P. induction P; simpl.
  - constructor.
  - destruct (f x); [now constructor|assumption].
  - destruct (f x), (f y); try apply perm_swap; reflexivity.
  - etransitivity; eauto.
Qed.

Lemma combine_app : forall {A B} (a1 : list A) (b1 : list B) a2 b2,
  length a1 = length b1 -> combine (a1 ++ a2) (b1 ++ b2) = combine a1 b1 ++ combine a2 b2.
Proof.
  induction a1; intros [|b b1] a2 b2 H; simpl in *; try discriminate; [reflexivity|].
  f_equal. apply IHa1. lia.
Qed.

Lemma combine_repeat : forall {A B} (a : A) (b : B) n,
  combine (repeat a n) (repeat b n) = repeat (a, b) n.
Proof. induction n; simpl; congruence. Qed.

Lemma map_snd_combine : forall {A B} (a : list A) (b : list B),
  length a = length b -> map snd (combine a b) = b.
Proof. induction a; intros [|y b] H; simpl in *; try discriminate; f_equal; auto. Qed.

Lemma sort_hist_ok n seen h :
  hist_inv n seen h -> 0 < n ->
  exists h', sort_hist h = Ok h' /\ h_count h' = h_count h /\
    h_count h' <= length (h_routes h') /\
    (forall e, In e seen -> known h' (e_route e)).
Proof.
  intros (us & fs & ND & Hus & Lus & Hn & Er & Lf & Ff & Ef) Hpos.
  unfold sort_hist.
  set (pairs := combine (h_freq h) (h_routes h)).
  set (cmp := fun x y : nat * N => Ok (Z.of_nat (fst y) - Z.of_nat (fst x))%Z).
  destruct (sortM_spec cmp pairs) as (sorted & Es & P); [unfold cmp; eauto|].
  rewrite Es. cbn [bind].
  assert (Epairs : pairs = combine fs us ++ repeat (0, 0%N) (n - h_count h)).
  { unfold pairs. rewrite Er, Ef, combine_app by congruence.
    now rewrite combine_repeat. }
  assert (Lp : length pairs = n).
  { rewrite Epairs, app_length, combine_length, repeat_length. lia. }
  assert (Ls : length sorted = n) by (now rewrite <- P).
  destruct sorted as [|s0 sorted']; [simpl in Ls; lia|].
  set (sorted := s0 :: sorted') in *.
  eexists; split; [reflexivity|]. simpl h_count. simpl h_routes.
  split; [reflexivity|].
  change (snd s0 :: map snd sorted') with (map snd sorted).
  split; [rewrite map_length; lia|].
  pose proof (sortM_desc (fun x : nat * N => Z.of_nat (fst x)) pairs sorted Es) as HS.
  pose proof (desc_filter (fun x : nat * N => Z.of_nat (fst x)) 1 sorted HS) as EF.
  set (pos := filter (fun x : nat * N => (1 <=? Z.of_nat (fst x))%Z) sorted) in EF.
  assert (Pp : Permutation (combine fs us) pos).
  { unfold pos. rewrite <- (filter_perm _ _ _ P), Epairs, filter_app.
    assert (E0 : filter (fun x : nat * N => (1 <=? Z.of_nat (fst x))%Z)
              (repeat (0, 0%N) (n - h_count h)) = []).
    { clear. induction (n - h_count h); simpl; auto. }
    rewrite E0, app_nil_r.
    assert (E1 : filter (fun x : nat * N => (1 <=? Z.of_nat (fst x))%Z) (combine fs us)
                 = combine fs us).
    { clear - Ff. revert us. induction fs as [|f fs IH]; intros us; [reflexivity|].
      inversion Ff; subst. destruct us as [|u us]; [reflexivity|]. simpl.
      destruct (Z.leb_spec 1 (Z.of_nat f)); [|lia]. f_equal. now apply IH. }
    now rewrite E1. }
  assert (Lpos : length pos = h_count h).
  { rewrite <- Pp, combine_length. lia. }
  intros e He. unfold known. simpl h_count. simpl h_routes.
  change (snd s0 :: map snd sorted') with (map snd sorted).
  rewrite firstn_map. rewrite EF, firstn_app, Lpos, Nat.sub_diag. simpl.
  rewrite app_nil_r, firstn_all2 by lia.
  apply (Permutation_in (l := map snd (combine fs us))).
  - now apply Permutation_map.
  - rewrite map_snd_combine by congruence. apply Hus. now apply in_map.
Qed.

(** * Sorting as a whole *)
Lemma sort_entries_ok c_sort n t h :
  hist_inv n t h -> 0 < n ->
  exists arr, sort_entries c_sort h t = Ok arr /\ Permutation t arr.
Proof.
  intros I Hn. unfold sort_entries. destruct c_sort.
  - pose proof I as (us & fs & ND & Hus & Lus & Hc & Er & Lf & Ff & Ef).
    assert (L1 : length (h_routes h) = n) by (rewrite Er, app_length, repeat_length; lia).
    assert (L2 : length (h_freq h) = n) by (rewrite Ef, app_length, repeat_length; lia).
    destruct (quicksort_routes_ok (S (h_count h)) h 0 (h_count h - 1)) as (h' & -> & HP);
      try lia.
    cbn [bind]. destruct HP as (P1 & P2 & P3 & P4).
    apply quicksort_table_ok; try lia.
    intros e He. unfold known. rewrite P1.
    eapply Permutation_in; [exact P4|].
    rewrite Er, firstn_app, <- Lus, Nat.sub_diag, firstn_all. simpl. rewrite app_nil_r.
    apply Hus. now apply in_map.
  - destruct (sort_hist_ok n t h I Hn) as (h' & -> & H1 & H2 & H3). cbn [bind].
    apply sortM_spec. intros x y Hx Hy. unfold compare_entries.
    apply compare_routes_ok; auto.
Qed.

(** * The whole compressor *)
Lemma compress_table_spec ordered c_sort n t :
  Forall entry_ok t -> route_consistent t -> 0 < n -> n_distinct_routes t <= n ->
  exists out, compress_table ordered c_sort n t = Ok out
    /\ length out <= length t
    /\ Forall entry_ok out
    /\ (forall e k, In e t -> entry_matches k e -> routes_to out k (e_route e))
    /\ (ordered = false -> route_consistent out)
    /\ (forall o, In o out -> In (e_route o) (map e_route t)).
Proof.
  intros Hok RC Hn Hd. unfold compress_table.
  destruct (histogram_ok n t [] _ (hist_inv_init n)) as (h & -> & I); [exact Hd|].
  cbn [bind]. simpl app in I.
  destruct (sort_entries_ok c_sort n t h I Hn) as (arr & -> & P). cbn [bind].
  destruct (loop_spec (S (length arr)) ordered [] [] arr []) as (arr' & w & E & Lw & INV).
  - lia.
  - apply Forall_forall. intros e He. rewrite Forall_forall in Hok. apply Hok.
    eapply Permutation_in; [symmetry; eassumption|assumption].
  - intros a b k Ha Hb Ma Mb. apply (RC a b k); auto;
      eapply Permutation_in; try eassumption; now symmetry.
  - split; [intros e k []|]. split; [intros o d k []|]. split; [intros _ a b k []|].
    split; [intros o []|constructor].
  - cbn [app length] in E. rewrite E. cbn [bind]. eexists; split; [reflexivity|].
    simpl app in INV. destruct INV as (I1 & I2 & I3 & I4 & I5).
    split; [|split; [assumption|split; [|split; [assumption|]]]].
    + rewrite firstn_length. simpl in Lw. rewrite <- P in Lw. lia.
    + intros e k He M. apply I1; [|assumption]. eapply Permutation_in; eauto.
    + intros o Ho. destruct (I4 o Ho) as (d & Hd' & <-). apply in_map.
      eapply Permutation_in; [symmetry; eassumption|assumption].
Qed.

Lemma compress_table_too_many_routes ordered c_sort n t :
  n < n_distinct_routes t -> compress_table ordered c_sort n t = Err IndexError.
Proof.
  intros H. unfold compress_table.
  rewrite (histogram_overflow n t [] _ (hist_inv_init n)) by exact H. reflexivity.
Qed.

Lemma pair_preserves_consistent : forall ordered c_sort n_routes table out,
    Forall entry_ok table -> route_consistent table ->
    compress_table ordered c_sort n_routes table = Ok out ->
    forall e k, In e table -> entry_matches k e -> routes_to out k (e_route e).
Proof.
  intros ordered c_sort n t out Hok RC E e k He M.
  destruct (Nat.ltb_spec n (n_distinct_routes t)) as [Hlt|Hge].
  - rewrite compress_table_too_many_routes in E by assumption. discriminate.
  - assert (0 < n).
    { destruct n; [|lia]. exfalso.
      assert (In (e_route e) (nodup N.eq_dec (map e_route t))).
      { apply nodup_In. now apply in_map. }
      unfold n_distinct_routes in Hge.
      destruct (nodup N.eq_dec (map e_route t)); [contradiction|simpl in Hge; lia]. }
    destruct (compress_table_spec ordered c_sort n t Hok RC H Hge)
      as (out' & E' & _ & _ & R & _).
    rewrite E in E'. injection E' as <-. now apply R.
Qed.

Lemma pair_preserves_routing : forall ordered c_sort n_routes table out,
    Forall entry_ok table -> orthogonal table ->
    compress_table ordered c_sort n_routes table = Ok out ->
    forall e k, In e table -> entry_matches k e -> routes_to out k (e_route e).
Proof.
  intros. eapply pair_preserves_consistent; eauto. now apply orthogonal_route_consistent.
Qed.

Lemma pair_unordered_any_order : forall c_sort n_routes table out out',
    Forall entry_ok table -> route_consistent table ->
    compress_table false c_sort n_routes table = Ok out ->
    Permutation out out' ->
    forall e k, In e table -> entry_matches k e -> routes_to out' k (e_route e).
Proof.
  intros c_sort n t out out' Hok RC E P e k He M.
  pose proof (pair_preserves_consistent _ _ _ _ _ Hok RC E e k He M) as (o & Fo & Ro).
  apply first_match_Some in Fo. destruct Fo as [Ho Mo].
  destruct (first_match_exists out' k o) as (o' & Fo'); auto.
  { eapply Permutation_in; eauto. }
  exists o'. split; [assumption|]. rewrite <- Ro.
  apply first_match_Some in Fo'. destruct Fo' as [Ho' Mo'].
  assert (Ho2 : In o' out) by (eapply Permutation_in; [symmetry; eassumption|assumption]).
  assert (RCo : route_consistent out).
  { destruct (Nat.ltb_spec n (n_distinct_routes t)) as [Hlt|Hge].
    - rewrite compress_table_too_many_routes in E by assumption. discriminate.
    - assert (0 < n).
      { destruct n; [|lia]. exfalso.
        assert (In (e_route e) (nodup N.eq_dec (map e_route t))).
        { apply nodup_In. now apply in_map. }
        unfold n_distinct_routes in Hge.
        destruct (nodup N.eq_dec (map e_route t)); [contradiction|simpl in Hge; lia]. }
      destruct (compress_table_spec false c_sort n t Hok RC H Hge)
        as (out2 & E' & _ & _ & _ & R & _).
      rewrite E in E'. injection E' as <-. now apply R. }
  now apply (RCo o' o k).
Qed.

Lemma pair_total_and_shrinks : forall ordered c_sort n_routes table,
    Forall entry_ok table -> route_consistent table ->
    0 < n_routes ->
    length (nodup N.eq_dec (map e_route table)) <= n_routes ->
    exists out,
      compress_table ordered c_sort n_routes table = Ok out /\
      length out <= length table /\
      Forall entry_ok out /\
      (forall o, In o out -> In (e_route o) (map e_route table)).
Proof.
  intros ordered c_sort n t Hok RC Hn Hd.
  destruct (compress_table_spec ordered c_sort n t Hok RC Hn Hd)
    as (out & E & L & O & _ & _ & R). eauto.
Qed.

(** Tactic for concrete tables: orthogonality by computing [intersect]. *)
Definition orthogonalb (t : list entry) : bool :=
  (fix go l := match l with
               | [] => true
               | a :: l' => forallb (fun b => negb (entry_intersect a b)) l' && go l'
               end) t.

Lemma orthogonalb_sound t : orthogonalb t = true -> orthogonal t.
Proof.
  induction t as [|a t IH]; intros H; [constructor|].
  simpl in H. apply andb_true_iff in H. destruct H as [H1 H2].
  constructor; [|now apply IH].
  apply Forall_forall. intros b Hb. rewrite forallb_forall in H1. specialize (H1 b Hb).
  apply negb_true_iff in H1. now apply entry_intersect_false.
Qed.

Definition tables_okb (t : list entry) : bool :=
  forallb (fun e => N.eqb (N.land (e_key e) (e_mask e)) (e_key e)) t.

Lemma tables_okb_sound t : tables_okb t = true -> Forall entry_ok t.
Proof.
  unfold tables_okb. rewrite forallb_forall. intros H. apply Forall_forall.
  intros e He. apply N.eqb_eq. now apply H.
Qed.

Lemma pair_always_returns_refuted :
  exists table, Forall entry_ok table /\ orthogonal table /\
    forall ordered c_sort, compress_table ordered c_sort 2 table = Err IndexError.
Proof.
  exists [mkEntry 0 15 1 false; mkEntry 1 15 2 false; mkEntry 2 15 4 true]%N.
  split; [apply tables_okb_sound; reflexivity|].
  split; [apply orthogonalb_sound; reflexivity|].
  intros [] []; vm_compute; reflexivity.
Qed.

Lemma pair_example :
  let t := [mkEntry 0 15 1 false; mkEntry 1 15 2 false; mkEntry 2 15 2 true;
            mkEntry 3 15 2 true; mkEntry 7 15 1 false]%N in
  Forall entry_ok t /\ orthogonal t /\
  compress_table true false 10 t
  = Ok [mkEntry 0 15 1 false; mkEntry 7 15 1 false; mkEntry 0 12 2 false]%N.
Proof.
  split; [apply tables_okb_sound; reflexivity|].
  split; [apply orthogonalb_sound; reflexivity|]. vm_compute. reflexivity.
Qed.
