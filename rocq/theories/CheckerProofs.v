(** Proofs about the compression checker. *)
From Coq Require Import List Arith NArith Bool Lia.
From Verif Require Import Base RouteSpec KeyMask CheckerModel.
Import ListNotations.

(** * Specification: keys as bit strings *)
Definition char_has (c : tchar) (b : bool) : Prop :=
  match c with T0 => b = false | T1 => b = true | TS => True end.
Definition code_has (c : code) (bs : list bool) : Prop := Forall2 char_has c bs.
(** The [n] low bits of a key, most significant first. *)
Definition bits (n : nat) (k : N) : list bool :=
  map (fun i => N.testbit k (N.of_nat i)) (rev (seq 0 n)).

Lemma code_eqb_eq a : forall b, code_eqb a b = true <-> a = b.
Proof.
  induction a as [|x a IH]; intros [|y b]; simpl; try (split; [discriminate|congruence]);
    [tauto|].
  rewrite andb_true_iff, IH. split.
  - intros [H ->]. f_equal. now destruct x, y.
  - intros [= -> ->]. split; [now destruct y|reflexivity].
Qed.

Lemma Forall2_map {A B C} (P : B -> C -> Prop) (f : A -> B) (g : A -> C) l :
  Forall2 P (map f l) (map g l) <-> Forall (fun x => P (f x) (g x)) l.
Proof.
  induction l as [|a l IH]; simpl.
  - split; constructor.
  - split; intros H; inversion H; subst; constructor; tauto.
Qed.

Lemma codify_has e n k :
  (e_key e < 2 ^ N.of_nat n)%N -> (e_mask e < 2 ^ N.of_nat n)%N -> entry_ok e ->
  (code_has (codify e n) (bits n k) <-> entry_matches k e).
Proof.
  intros Hk Hm OK. unfold code_has, codify, bits. rewrite Forall2_map.
  unfold entry_matches, key_matches. rewrite Forall_forall.
  assert (HB : forall x i, (x < 2 ^ N.of_nat n)%N -> (N.of_nat n <= i)%N -> N.testbit x i = false).
  { intros x i Hx Hi. destruct (N.eq_dec x 0) as [->|]; [apply N.bits_0|].
    apply N.bits_above_log2. apply N.log2_lt_pow2 in Hx; lia. }
  split.
  - intros H. apply N.bits_inj. intros i. rewrite N.land_spec.
    destruct (N.ltb_spec i (N.of_nat n)).
    + specialize (H (N.to_nat i)). rewrite <- in_rev, in_seq, N2Nat.id in H.
      specialize (H ltac:(lia)).
      assert (Ob : N.testbit (e_key e) i = N.testbit (e_key e) i && N.testbit (e_mask e) i)
        by (rewrite <- N.land_spec, OK; reflexivity).
      destruct (N.testbit (e_mask e) i), (N.testbit (e_key e) i), (N.testbit k i);
        simpl in *; congruence.
    + rewrite (HB (e_mask e)), (HB (e_key e)) by assumption. apply andb_false_r.
  - intros H i Hi. rewrite <- H, N.land_spec.
    destruct (N.testbit (e_mask e) (N.of_nat i)), (N.testbit k (N.of_nat i)); reflexivity.
Qed.

(** * Remainders *)
Lemma code_has_length c bs : code_has c bs -> length c = length bs.
Proof. intros H. induction H; simpl; congruence. Qed.

Lemma code_nonempty c : exists bs, code_has c bs.
Proof.
  induction c as [|x c (bs & IH)]; [exists []; constructor|].
  exists (match x with T1 => true | _ => false end :: bs). constructor; [|assumption].
  destruct x; simpl; auto.
Qed.

Lemma code_has_dec c : forall bs, {code_has c bs} + {~ code_has c bs}.
Proof.
  induction c as [|x c IH]; intros [|b bs].
  - left. constructor.
  - right. intros H. inversion H.
  - right. intros H. inversion H.
  - destruct (IH bs) as [H|H].
    + assert ({char_has x b} + {~ char_has x b}) as [Hx|Hx]
        by (destruct x, b; simpl; auto; right; discriminate).
      * left. now constructor.
      * right. intros C. inversion C; subst. contradiction.
    + right. intros C. inversion C; subst. contradiction.
Qed.

Lemma covers_chars_iff o : forall c, length o = length c ->
  (covers_chars o c = true <-> exists bs, code_has o bs /\ code_has c bs).
Proof.
  induction o as [|x o IH]; intros [|y c] L; simpl in L; try discriminate.
  - simpl. split; [|reflexivity]. intros _. exists []. split; constructor.
  - injection L as L. specialize (IH c L). cbn [covers_chars].
    assert (R : covers_chars o c = true ->
      (forall b, char_has x b -> char_has y b ->
       exists bs, code_has (x :: o) bs /\ code_has (y :: c) bs)).
    { intros H b Hx Hy. apply IH in H. destruct H as (bs & H1 & H2).
      exists (b :: bs). split; constructor; assumption. }
    assert (R' : (exists bs, code_has (x :: o) bs /\ code_has (y :: c) bs) ->
       covers_chars o c = true /\ exists b, char_has x b /\ char_has y b).
    { intros (bs & H1 & H2). inversion H1; subst. inversion H2; subst. split; [apply IH|]; eauto. }
    destruct x, y; split; intros H;
      try discriminate;
      try (now apply R');
      try (apply (R H true); reflexivity);
      try (apply (R H false); reflexivity);
      try (destruct (R' H) as (_ & b & B1 & B2); simpl in *; congruence).
Qed.

Lemma covers_iff o c : length o = length c ->
  (covers o c = true <-> exists bs, code_has o bs /\ code_has c bs).
Proof.
  intros L. unfold covers. destruct (code_eqb o c) eqn:E; [|now apply covers_chars_iff].
  apply code_eqb_eq in E. subst c. split; [|reflexivity]. intros _.
  destruct (code_nonempty o) as (bs & H). now exists bs.
Qed.

Lemma calc_remainders_spec o : forall c, length o = length c -> covers o c = true ->
  exists rs, calc_remainders o c = Ok rs /\
    Forall (fun r => length r = length o) rs /\
    (forall bs, (exists r, In r rs /\ code_has r bs) <-> code_has o bs /\ ~ code_has c bs).
Proof.
  induction o as [|x o IH]; intros [|y c] L Cv; simpl in L; try discriminate.
  - exists []. split; [reflexivity|]. split; [constructor|].
    intros bs. split; [intros (r & [] & _)|intros [H1 H2]; contradiction].
  - injection L as L. cbn [calc_remainders].
    destruct (code_eqb (x :: o) (y :: c)) eqn:E.
    + apply code_eqb_eq in E. rewrite E. exists []. split; [reflexivity|].
      split; [constructor|]. intros bs.
      split; [intros (r & [] & _)|intros [H1 H2]; contradiction].
    + assert (Cv' : covers o c = true).
      { apply covers_iff; [assumption|]. apply covers_iff in Cv; [|simpl; congruence].
        destruct Cv as (bs & H1 & H2). inversion H1; subst. inversion H2; subst. eauto. }
      assert (Cx : exists b, char_has x b /\ char_has y b).
      { apply covers_iff in Cv; [|simpl; congruence].
        destruct Cv as (bs & H1 & H2). inversion H1; subst. inversion H2; subst. eauto. }
      destruct (IH c L Cv') as (ts & -> & Lt & Hts). cbn [bind].
      eexists. split; [reflexivity|]. split.
      * apply Forall_app. split.
        { rewrite Forall_forall in *. intros r Hr. apply in_map_iff in Hr.
          destruct Hr as (t & <- & Ht). simpl. f_equal. now apply Lt. }
        destruct x, y; repeat constructor.
      * intros bs. split.
        -- intros (r & Hr & Mr). apply in_app_or in Hr. destruct Hr as [Hr|Hr].
           ++ apply in_map_iff in Hr. destruct Hr as (t & <- & Ht).
              inversion Mr as [|? b ? bs' Hb Hbs]; subst.
              destruct (proj1 (Hts bs') (ex_intro _ t (conj Ht Hbs))) as [A B].
              split; [now constructor|]. intros C. inversion C; subst. contradiction.
           ++ destruct x, y; simpl in Hr; try contradiction;
                destruct Hr as [<-|[]]; inversion Mr as [|? b ? bs' Hb Hbs]; subst;
                simpl in Hb; subst b; (split; [constructor; [exact I|assumption]|]);
                intros C; inversion C; subst; discriminate.
        -- intros [Ho Hc]. inversion Ho as [|? b ? bs' Hb Hbs]; subst.
           destruct (code_has_dec c bs') as [Hin|Hin].
           ++ (* tail in c: the head differs *)
              assert (Nb : ~ char_has y b) by (intros C; apply Hc; now constructor).
              destruct x, y; destruct b; simpl in *; try congruence; try tauto;
                try (destruct Cx as ([] & X1 & X2); congruence);
                (eexists; split; [apply in_or_app; right; left; reflexivity|];
                 constructor; [reflexivity|assumption]).
           ++ destruct (proj2 (Hts bs') (conj Hbs Hin)) as (t & Ht & Mt).
              exists (x :: t). split; [apply in_or_app; left; now apply in_map|].
              now constructor.
Qed.

(** * Keys and bit strings *)
Lemma bits_S n k : bits (S n) k = N.testbit k (N.of_nat n) :: bits n k.
Proof.
  unfold bits. rewrite seq_S. rewrite rev_app_distr. reflexivity.
Qed.

Lemma bits_surj n : forall bs, length bs = n -> exists k, (k < 2 ^ N.of_nat n)%N /\ bits n k = bs.
Proof.
  induction n as [|n IH]; intros bs L.
  - destruct bs; [|discriminate]. exists 0%N. split; [reflexivity|]. reflexivity.
  - destruct bs as [|b bs]; [discriminate|]. injection L as L.
    destruct (IH bs L) as (k & Hk & Hb).
    assert (P2 : (2 ^ N.of_nat (S n) = 2 * 2 ^ N.of_nat n)%N).
    { rewrite Nat2N.inj_succ, N.pow_succ_r'. reflexivity. }
    exists (if b then N.setbit k (N.of_nat n) else k).
    assert (Kn : forall i, (N.of_nat n <= i)%N -> N.testbit k i = false).
    { intros i Hi. destruct (N.eq_dec k 0) as [->|]; [apply N.bits_0|].
      apply N.bits_above_log2. apply N.log2_lt_pow2 in Hk; lia. }
    split.
    + destruct b; [|lia]. rewrite N.setbit_spec'.
      apply lor_lt_pow2.
      * lia.
      * rewrite P2. assert (2 ^ N.of_nat n <> 0)%N by (apply N.pow_nonzero; lia). lia.
    + rewrite bits_S. f_equal.
      * destruct b; [apply N.setbit_eq|apply Kn; lia].
      * rewrite <- Hb. unfold bits. apply map_ext_in. intros i Hi.
        rewrite <- in_rev, in_seq in Hi.
        destruct b; [|reflexivity]. apply N.setbit_neq. lia.
Qed.

Lemma bits_length n k : length (bits n k) = n.
Proof. unfold bits. rewrite map_length, rev_length, seq_length. reflexivity. Qed.
Lemma codify_length e n : length (codify e n) = n.
Proof. unfold codify. rewrite map_length, rev_length, seq_length. reflexivity. Qed.

(** A well-formed 32-bit entry. *)
Definition e32 (e : entry) : Prop :=
  entry_ok e /\ (e_key e < 2 ^ 32)%N /\ (e_mask e < 2 ^ 32)%N.

Lemma codify_has32 e k : e32 e -> (code_has (codify e 32) (bits 32 k) <-> entry_matches k e).
Proof. intros (A & B & C). now apply codify_has. Qed.

Lemma codify_inj a b : e32 a -> e32 b -> codify a 32 = codify b 32 ->
  e_key a = e_key b /\ e_mask a = e_mask b.
Proof.
  intros Ea Eb H.
  assert (Hb : forall i, i < 32 ->
    N.testbit (e_mask a) (N.of_nat i) = N.testbit (e_mask b) (N.of_nat i) /\
    N.testbit (e_key a) (N.of_nat i) = N.testbit (e_key b) (N.of_nat i)).
  { intros i Hi. unfold codify in H.
    assert (X : forall l : list nat, In i l ->
       map (fun i => if N.testbit (e_mask a) (N.of_nat i)
                then (if N.testbit (e_key a) (N.of_nat i) then T1 else T0) else TS) l =
       map (fun i => if N.testbit (e_mask b) (N.of_nat i)
                then (if N.testbit (e_key b) (N.of_nat i) then T1 else T0) else TS) l ->
       (if N.testbit (e_mask a) (N.of_nat i)
                then (if N.testbit (e_key a) (N.of_nat i) then T1 else T0) else TS) =
       (if N.testbit (e_mask b) (N.of_nat i)
                then (if N.testbit (e_key b) (N.of_nat i) then T1 else T0) else TS)).
    { induction l as [|x l IH]; intros I E; [contradiction|].
      cbn [map] in E. injection E as E1 E2. destruct I as [->|I]; auto. }
    specialize (X (rev (seq 0 32))). rewrite <- in_rev, in_seq in X.
    specialize (X ltac:(lia) H).
    destruct Ea as (Oa & _), Eb as (Ob & _).
    assert (Pa : N.testbit (e_key a) (N.of_nat i) =
                 N.testbit (e_key a) (N.of_nat i) && N.testbit (e_mask a) (N.of_nat i))
      by (rewrite <- N.land_spec, Oa; reflexivity).
    assert (Pb : N.testbit (e_key b) (N.of_nat i) =
                 N.testbit (e_key b) (N.of_nat i) && N.testbit (e_mask b) (N.of_nat i))
      by (rewrite <- N.land_spec, Ob; reflexivity).
    destruct (N.testbit (e_mask a) (N.of_nat i)), (N.testbit (e_mask b) (N.of_nat i)),
      (N.testbit (e_key a) (N.of_nat i)), (N.testbit (e_key b) (N.of_nat i));
      simpl in *; split; congruence. }
  assert (HB : forall x i, (x < 2 ^ 32)%N -> (32 <= i)%N -> N.testbit x i = false).
  { intros x i Hx Hi. destruct (N.eq_dec x 0) as [->|]; [apply N.bits_0|].
    apply N.bits_above_log2. apply N.log2_lt_pow2 in Hx; lia. }
  destruct Ea as (_ & Ka & Ma), Eb as (_ & Kb & Mb).
  split; apply N.bits_inj; intros i; (destruct (N.ltb_spec i 32);
    [specialize (Hb (N.to_nat i)); rewrite N2Nat.id in Hb; apply Hb; lia
    |rewrite !HB by assumption; reflexivity]).
Qed.

(** * The dictionary *)
Definition dict_ok (d : cdict) : Prop := Forall (fun p => fst p = codify (snd p) 32 /\ e32 (snd p)) d.

Lemma dict_set_ok d e : dict_ok d -> e32 e -> dict_ok (dict_set d (codify e 32) e).
Proof.
  intros Hd He. induction Hd as [|[c x] d [H1 H2] Hd IH]; cbn [dict_set].
  - constructor; [|constructor]. auto.
  - destruct (code_eqb c (codify e 32)) eqn:E.
    + apply code_eqb_eq in E. constructor; auto.
    + constructor; auto.
Qed.

Lemma codify_table_ok t : Forall e32 t -> dict_ok (codify_table t 32).
Proof.
  unfold codify_table. intros H.
  assert (G : forall d, dict_ok d ->
    dict_ok (fold_left (fun d e => dict_set d (codify e 32) e) t d)).
  { induction H as [|e t He Ht IH]; intros d Hd; cbn [fold_left]; [assumption|].
    apply IH. now apply dict_set_ok. }
  apply G. constructor.
Qed.

Lemma dict_set_fresh d c e : (forall p, In p d -> fst p <> c) -> dict_set d c e = d ++ [(c, e)].
Proof.
  induction d as [|[c' x] d IH]; intros H; cbn [dict_set]; [reflexivity|].
  destruct (code_eqb c' c) eqn:E.
  - apply code_eqb_eq in E. exfalso. apply (H (c', x)); simpl; auto.
  - cbn [app]. f_equal. apply IH. intros p Hp. apply H. now right.
Qed.

Lemma codify_table_nodup t : Forall e32 t -> NoDup (map (fun e => (e_key e, e_mask e)) t) ->
  map snd (codify_table t 32) = t.
Proof.
  unfold codify_table. intros H ND.
  assert (G : forall t0 t, Forall e32 t0 -> Forall e32 t ->
    NoDup (map (fun e => (e_key e, e_mask e)) (t0 ++ t)) ->
    fold_left (fun d e => dict_set d (codify e 32) e) t (map (fun e => (codify e 32, e)) t0)
    = map (fun e => (codify e 32, e)) (t0 ++ t)).
  { clear. intros t0 t H0 H. revert t0 H0. induction H as [|e t He Ht IH]; intros t0 H0 ND.
    - cbn [fold_left]. now rewrite app_nil_r.
    - cbn [fold_left]. rewrite dict_set_fresh.
      + replace (map (fun e0 : entry => (codify e0 32, e0)) t0 ++ [(codify e 32, e)])
          with (map (fun e0 : entry => (codify e0 32, e0)) (t0 ++ [e]))
          by (rewrite map_app; reflexivity).
        rewrite IH.
        * now rewrite <- app_assoc.
        * apply Forall_app. auto.
        * now rewrite <- app_assoc.
      + intros p Hp C. apply in_map_iff in Hp. destruct Hp as (x & <- & Hx). cbn [fst] in C.
        rewrite Forall_forall in H0. destruct (codify_inj x e (H0 x Hx) He C) as [E1 E2].
        rewrite map_app in ND. cbn [map] in ND. apply NoDup_remove_2 in ND. apply ND.
        apply in_or_app. left. apply in_map_iff. exists x. rewrite E1, E2. auto. }
  specialize (G [] t (Forall_nil _) H ND). cbn [map app] in G. rewrite G, map_map.
  cbn [snd]. apply map_id.
Qed.

Lemma route_eq_parts a b :
  processor_ids a = processor_ids b -> link_ids a = link_ids b -> e_route a = e_route b.
Proof.
  unfold processor_ids, link_ids. intros H1 H2.
  apply N.bits_inj. intros i. destruct (N.ltb_spec i 6).
  - assert (E : N.testbit (N.land (e_route a) 63) i = N.testbit (N.land (e_route b) 63) i) by congruence.
    rewrite !N.land_spec in E. change 63%N with (N.ones 6) in E.
    rewrite N.ones_spec_low in E by assumption. now rewrite !andb_true_r in E.
  - assert (E : N.testbit (N.shiftr (e_route a) 6) (i - 6) = N.testbit (N.shiftr (e_route b) 6) (i - 6)) by congruence.
    rewrite !N.shiftr_spec in E by lia. replace (i - 6 + 6)%N with i in E by lia. exact E.
Qed.

Section Compare.
  Variable entry_eq : entry -> entry -> bool.

  (** A loop that stops at the first exception succeeds iff every step does. *)
  Lemma fold_all_ok {A} (f : A -> res unit) l :
    fold_left (fun acc x => let* _ := acc in f x) l (Ok tt) = Ok tt <-> Forall (fun x => f x = Ok tt) l.
  Proof.
    assert (E : forall l e, fold_left (fun acc x => let* _ := acc in f x) l (Err e) = Err e).
    { induction l0 as [|a l0 IH]; intros e; simpl; auto. }
    induction l as [|a l IH]; cbn [fold_left].
    - split; [constructor|reflexivity].
    - cbn [bind]. destruct (f a) as [[]|e] eqn:F.
      + rewrite IH. split; [now constructor|]. intros H. now inversion H.
      + rewrite E. split; [discriminate|]. intros H. inversion H; congruence.
  Qed.

  Lemma compare_route_sound d : dict_ok d -> forall o oc k,
    length oc = 32 ->
    compare_route entry_eq o oc d = Ok tt -> code_has oc (bits 32 k) ->
    routes_to (map snd d) k (e_route o) \/ (first_match (map snd d) k = None /\ e_def o = true).
  Proof.
    intros Hd. induction Hd as [|[cc c] d [H1 H2] Hd IH]; intros o oc k L Hc Hk.
    - cbn [compare_route] in Hc. destruct (e_def o) eqn:D; [|discriminate]. right. auto.
    - cbn [fst snd] in H1, H2. subst cc. cbn [compare_route] in Hc. cbn [map snd first_match].
      unfold routes_to. cbn [first_match].
      assert (Lc : length oc = length (codify c 32)) by (rewrite codify_length; assumption).
      destruct (covers oc (codify c 32)) eqn:Cv.
      + destruct (N.eqb_spec (processor_ids o) (processor_ids c)) as [P1|]; [|discriminate].
        destruct (N.eqb_spec (link_ids o) (link_ids c)) as [P2|]; [|discriminate].
        cbn [negb] in Hc.
        destruct (entry_matchesb k c) eqn:M.
        { left. exists c. split; [reflexivity|]. symmetry. now apply route_eq_parts. }
        assert (NM : ~ code_has (codify c 32) (bits 32 k)).
        { rewrite codify_has32 by assumption. rewrite <- entry_matchesb_iff. congruence. }
        destruct (negb (e_def o) && e_def c)%bool.
        * destruct (entry_eq o c); [discriminate|]. eapply IH; eauto.
        * destruct (calc_remainders_spec oc (codify c 32) Lc Cv) as (rs & E & Lr & Hr).
          rewrite E in Hc. cbn [bind] in Hc. apply fold_all_ok in Hc.
          destruct (proj2 (Hr (bits 32 k)) (conj Hk NM)) as (r & Ir & Mr).
          rewrite Forall_forall in Hc, Lr. eapply IH; [rewrite (Lr r Ir); assumption| |exact Mr]. now apply Hc.
      + destruct (entry_matchesb k c) eqn:M.
        * exfalso. apply not_true_iff_false in Cv. apply Cv. apply covers_iff; [assumption|].
          exists (bits 32 k). split; [assumption|]. rewrite codify_has32 by assumption.
          now apply entry_matchesb_iff.
        * eapply IH; eauto.
  Qed.

  (** What the checker wants of the entry that a key meets first. *)
  Definition serves (t : list entry) (k : N) (o : entry) : Prop :=
    (exists c, first_match t k = Some c /\ e_route c = e_route o /\
       (e_def c = true -> e_def o = true)) \/
    (first_match t k = None /\ e_def o = true).

  Lemma compare_route_complete d : dict_ok d -> forall o oc,
    length oc = 32 ->
    (forall k, (k < 2 ^ 32)%N -> code_has oc (bits 32 k) -> serves (map snd d) k o) ->
    compare_route entry_eq o oc d = Ok tt.
  Proof.
    intros Hd. induction Hd as [|[cc c] d [H1 H2] Hd IH]; intros o oc L H.
    - cbn [compare_route]. destruct (code_nonempty oc) as (bs & Hbs).
      destruct (bits_surj 32 bs) as (k & Hk & Eb).
      { rewrite <- (code_has_length _ _ Hbs). assumption. }
      rewrite <- Eb in Hbs. destruct (H k Hk Hbs) as [(e & F & _)|[_ D]].
      + discriminate.
      + now rewrite D.
    - cbn [fst snd] in H1, H2. subst cc. cbn [compare_route]. unfold serves in H.
      cbn [map snd first_match] in H.
      assert (Lc : length oc = length (codify c 32)) by (rewrite codify_length; assumption).
      assert (Sub : forall r, length r = 32 ->
        (forall k, code_has r (bits 32 k) -> code_has oc (bits 32 k) /\ ~ entry_matches k c) ->
        compare_route entry_eq o r d = Ok tt).
      { intros r Lr Hr. apply IH; [assumption|].
        intros k Hk Mk. destruct (Hr k Mk) as [Mo NM]. specialize (H k Hk Mo).
        rewrite <- entry_matchesb_iff in NM. destruct (entry_matchesb k c); [congruence|].
        exact H. }
      destruct (covers oc (codify c 32)) eqn:Cv.
      + assert (W : exists k, (k < 2 ^ 32)%N /\ code_has oc (bits 32 k) /\ entry_matches k c).
        { apply covers_iff in Cv; [|assumption]. destruct Cv as (bs & Ho & Hc).
          destruct (bits_surj 32 bs) as (k & Hk & Eb).
          { rewrite <- (code_has_length _ _ Ho). assumption. }
          subst bs. exists k. split; [assumption|]. split; [assumption|].
          now apply codify_has32. }
        destruct W as (k & Hk & Mo & Mc).
        assert (R : e_route c = e_route o /\ (e_def c = true -> e_def o = true)).
        { specialize (H k Hk Mo). apply entry_matchesb_iff in Mc. rewrite Mc in H.
          destruct H as [(e & F & R)|[F _]]; [|discriminate].
          injection F as <-. assumption. }
        destruct R as [R D].
        unfold processor_ids, link_ids. rewrite R, !N.eqb_refl. cbn [negb].
        assert (DD : (negb (e_def o) && e_def c)%bool = false).
        { destruct (e_def c); [rewrite D by reflexivity; reflexivity|apply andb_false_r]. }
        rewrite DD.
        destruct (calc_remainders_spec oc (codify c 32) Lc Cv) as (rs & E & Lr & Hr).
        rewrite E. cbn [bind]. apply fold_all_ok. rewrite Forall_forall in *.
        intros r Ir. apply Sub; [rewrite (Lr r Ir); assumption|].
        intros k' Mr. destruct (proj1 (Hr (bits 32 k')) (ex_intro _ r (conj Ir Mr))) as [A B].
        split; [assumption|]. now rewrite <- codify_has32.
      + apply Sub; [assumption|]. intros k Mk. split; [assumption|].
        intros Mc. apply not_true_iff_false in Cv. apply Cv. apply covers_iff; [assumption|].
        exists (bits 32 k). split; [assumption|]. now apply codify_has32.
  Qed.

  (** The checker accepts an entry that one of the table holds, when those before it that
      share a key have its route and another key or mask. *)
  Lemma compare_route_held d : dict_ok d ->
    (forall a b, entry_eq a b = true -> e_key a = e_key b /\ e_mask a = e_mask b) ->
    forall o oc pre h post,
    length oc = 32 ->
    map snd d = pre ++ h :: post ->
    (forall k, code_has oc (bits 32 k) -> entry_matches k h) ->
    e_route h = e_route o -> (e_def h = true -> e_def o = true) ->
    (forall c k, In c pre -> code_has oc (bits 32 k) -> entry_matches k c ->
       e_route c = e_route o /\ (e_key c, e_mask c) <> (e_key o, e_mask o)) ->
    compare_route entry_eq o oc d = Ok tt.
  Proof.
    intros Hd Heq. induction Hd as [|[cc c] d [H1 H2] Hd IH]; intros o oc pre h post L E Hh Rh Dh Hp.
    - destruct pre; discriminate.
    - cbn [fst snd] in H1, H2. subst cc. cbn [compare_route].
      assert (Lc : length oc = length (codify c 32)) by (rewrite codify_length; assumption).
      destruct (covers oc (codify c 32)) eqn:Cv.
      + assert (W : exists k, code_has oc (bits 32 k) /\ entry_matches k c).
        { apply covers_iff in Cv; [|assumption]. destruct Cv as (bs & Ho & Hc).
          destruct (bits_surj 32 bs) as (k & Hk & Eb).
          { rewrite <- (code_has_length _ _ Ho). assumption. }
          subst bs. exists k. split; [assumption|]. now apply codify_has32. }
        destruct W as (k & Mo & Mc).
        destruct (calc_remainders_spec oc (codify c 32) Lc Cv) as (rs & Er & Lr & Hr).
        destruct pre as [|c' pre]; cbn [map snd app] in E; injection E as E1 E2.
        * subst h. unfold processor_ids, link_ids. rewrite Rh, !N.eqb_refl. cbn [negb].
          assert (DD : (negb (e_def o) && e_def c)%bool = false).
          { destruct (e_def c); [rewrite Dh by reflexivity; reflexivity|apply andb_false_r]. }
          rewrite DD, Er. cbn [bind]. apply fold_all_ok. rewrite Forall_forall in *.
          intros r Ir. exfalso.
          destruct (code_nonempty r) as (bs & Hbs).
          destruct (bits_surj 32 bs) as (k' & _ & Eb).
          { rewrite <- (code_has_length _ _ Hbs), (Lr r Ir). assumption. }
          subst bs. destruct (proj1 (Hr (bits 32 k')) (ex_intro _ r (conj Ir Hbs))) as [A B].
          apply B. apply codify_has32; [assumption|]. now apply Hh.
        * subst c'. destruct (Hp c k) as [R NE]; auto; [now left|].
          unfold processor_ids, link_ids. rewrite R, !N.eqb_refl. cbn [negb].
          assert (Hp' : forall r, (forall k', code_has r (bits 32 k') -> code_has oc (bits 32 k')) ->
            length r = 32 -> compare_route entry_eq o r d = Ok tt).
          { intros r Sub Lr'. apply (IH o r pre h post); auto.
            intros c0 k0 I0 M0. apply Hp; [now right|now apply Sub]. }
          destruct (negb (e_def o) && e_def c)%bool.
          -- destruct (entry_eq o c) eqn:Eo; [|now apply Hp'].
             exfalso. apply NE. destruct (Heq _ _ Eo) as [K1 K2]. now rewrite K1, K2.
          -- rewrite Er. cbn [bind]. apply fold_all_ok. rewrite Forall_forall in *.
             intros r Ir. apply Hp'; [|rewrite (Lr r Ir); assumption].
             intros k' Mr. apply (proj1 (Hr (bits 32 k')) (ex_intro _ r (conj Ir Mr))).
      + destruct pre as [|c' pre]; cbn [map snd app] in E; injection E as E1 E2.
        * exfalso. subst h. apply not_true_iff_false in Cv. apply Cv. apply covers_iff; [assumption|].
          destruct (code_nonempty oc) as (bs & Hbs).
          destruct (bits_surj 32 bs) as (k' & _ & Eb).
          { rewrite <- (code_has_length _ _ Hbs). assumption. }
          subst bs. exists (bits 32 k'). split; [assumption|]. apply codify_has32; [assumption|]. now apply Hh.
        * apply (IH o oc pre h post); auto. intros c0 k0 I0. apply Hp. now right.
  Qed.

  Lemma checker_sound original compressed :
    Forall e32 original -> Forall e32 compressed ->
    NoDup (map (fun e => (e_key e, e_mask e)) compressed) ->
    compare_tables entry_eq original compressed = Ok tt ->
    forall o k, In o original -> entry_matches k o ->
      routes_to compressed k (e_route o) \/ (first_match compressed k = None /\ e_def o = true).
  Proof.
    intros Ho Hc ND H o k Io Mk. unfold compare_tables in H. apply fold_all_ok in H.
    rewrite Forall_forall in H, Ho.
    rewrite <- (codify_table_nodup compressed Hc ND).
    eapply compare_route_sound; [now apply codify_table_ok| |now apply H|].
    - apply codify_length.
    - apply codify_has32; auto.
  Qed.

  Lemma checker_complete original compressed :
    Forall e32 original -> Forall e32 compressed ->
    NoDup (map (fun e => (e_key e, e_mask e)) compressed) ->
    (forall o k, In o original -> (k < 2 ^ 32)%N -> entry_matches k o ->
       (exists c, first_match compressed k = Some c /\ e_route c = e_route o /\
          (e_def c = true -> e_def o = true)) \/
       (first_match compressed k = None /\ e_def o = true)) ->
    compare_tables entry_eq original compressed = Ok tt.
  Proof.
    intros Ho Hc ND H. unfold compare_tables. apply fold_all_ok.
    rewrite Forall_forall in *. intros o Io.
    assert (Hc' : Forall e32 compressed) by now apply Forall_forall.
    apply compare_route_complete; [now apply codify_table_ok|apply codify_length|].
    intros k Hk Mk. rewrite codify_table_nodup by assumption. apply H; auto.
    apply codify_has32; auto.
  Qed.

  Lemma checker_held original compressed :
    (forall a b, entry_eq a b = true -> e_key a = e_key b /\ e_mask a = e_mask b) ->
    Forall e32 original -> Forall e32 compressed ->
    NoDup (map (fun e => (e_key e, e_mask e)) compressed) ->
    (forall o, In o original -> exists pre h post, compressed = pre ++ h :: post /\
       (forall k, entry_matches k o -> entry_matches k h) /\ e_route h = e_route o /\
       (e_def h = true -> e_def o = true) /\
       forall c k, In c pre -> entry_matches k c -> entry_matches k o ->
         e_route c = e_route o /\ (e_key c, e_mask c) <> (e_key o, e_mask o)) ->
    compare_tables entry_eq original compressed = Ok tt.
  Proof.
    intros Heq Ho Hc ND H. unfold compare_tables. apply fold_all_ok.
    rewrite Forall_forall in *. intros o Io.
    assert (Hc' : Forall e32 compressed) by now apply Forall_forall.
    destruct (H o Io) as (pre & h & post & E & Ch & Rh & Dh & Hp).
    apply (compare_route_held _ (codify_table_ok _ Hc') Heq o _ pre h post); auto.
    - now rewrite codify_table_nodup.
    - intros k Mk. apply Ch. now apply codify_has32; [apply Ho|].
    - intros c k Ic Mk Mc. apply (Hp c k); auto. now apply codify_has32; [apply Ho|].
  Qed.
End Compare.
