(** Proofs about [remove_default_routes]. *)
From Coq Require Import List Arith NArith Bool Lia.
From Verif Require Import Base RouteSpec KeyMask PairSort DefaultModel.
Import ListNotations.

(** Specification: [sub l' l] - [l'] is a subsequence of [l] obtained by
    dropping entries that satisfy [P]. *)
Inductive dropped {A} (P : A -> Prop) : list A -> list A -> Prop :=
| dr_nil : dropped P [] []
| dr_keep x l l' : dropped P l l' -> dropped P (x :: l) (x :: l')
| dr_drop x l l' : P x -> dropped P l l' -> dropped P (x :: l) l'.

(** The entries may be dropped one by one without touching other keys. *)
Lemma drop_checked_dropped t : dropped (fun e => e_def e = true) t (drop_checked t).
Proof.
  induction t as [|e t IH]; simpl; [constructor|].
  destruct (e_def e) eqn:D; simpl; [|now constructor].
  destruct (existsb _ t); now constructor.
Qed.

Lemma filter_dropped t : dropped (fun e => e_def e = true) t (filter (fun e => negb (e_def e)) t).
Proof.
  induction t as [|e t IH]; simpl; [constructor|].
  destruct (e_def e) eqn:D; simpl; now constructor.
Qed.

Definition default_safe (t out : list entry) : Prop :=
  forall k, match first_match t k with
            | None => first_match out k = None
            | Some e => first_match out k = Some e \/ (e_def e = true /\ first_match out k = None)
            end.

Lemma drop_checked_none t k : first_match t k = None -> first_match (drop_checked t) k = None.
Proof.
  induction t as [|e t IH]; [reflexivity|].
  cbn [first_match drop_checked]. destruct (entry_matchesb k e) eqn:M; [discriminate|].
  intros H. specialize (IH H).
  destruct (e_def e); cbn [negb]; [destruct (existsb _ t)|];
    cbn [first_match]; rewrite ?M; assumption.
Qed.

Lemma drop_checked_safe t : Forall entry_ok t -> default_safe t (drop_checked t).
Proof.
  intros OK k. induction OK as [|e t Oe Ot IH]; [reflexivity|].
  cbn [first_match drop_checked]. destruct (entry_matchesb k e) eqn:M.
  - destruct (e_def e) eqn:D; cbn [negb].
    + destruct (existsb _ t) eqn:X.
      * cbn [first_match]. rewrite M. now left.
      * right. split; [reflexivity|]. apply drop_checked_none.
        apply first_match_None. intros d Hd Md.
        assert (I : intersect (e_key e) (e_mask e) (e_key d) (e_mask d) = true).
        { apply intersect_iff; auto.
          - rewrite Forall_forall in Ot. now apply Ot.
          - exists k. split; [|exact Md]. now apply entry_matchesb_iff in M. }
        assert (existsb (fun d => intersect (e_key e) (e_mask e) (e_key d) (e_mask d)) t = true).
        { apply existsb_exists. now exists d. }
        congruence.
    + cbn [first_match]. rewrite M. now left.
  - destruct (e_def e); cbn [negb]; [destruct (existsb _ t)|];
      cbn [first_match]; rewrite ?M; assumption.
Qed.

(** Without aliases the two loops agree. *)
Definition no_alias (t : list entry) : Prop :=
  ForallOrdPairs (fun e d => intersect (e_key e) (e_mask e) (e_key d) (e_mask d) = false) t.

Lemma no_alias_same t : no_alias t -> drop_checked t = filter (fun e => negb (e_def e)) t.
Proof.
  intros H. induction H as [|e t He Ht IH]; [reflexivity|].
  cbn [drop_checked filter]. destruct (e_def e); cbn [negb].
  - replace (existsb _ t) with false; [assumption|].
    symmetry. apply not_true_iff_false. intros X. apply existsb_exists in X.
    destruct X as (d & Hd & Id). rewrite Forall_forall in He. specialize (He d Hd). congruence.
  - now rewrite IH.
Qed.

Lemma nodup_length_NoDup (l : list N) : length l = set_size l -> NoDup l.
Proof.
  unfold set_size. induction l as [|a l IH]; [constructor|].
  cbn [nodup]. destruct (in_dec N.eq_dec a l) as [I|NI].
  - intros H. assert (L : length (nodup N.eq_dec l) <= length l).
    { apply NoDup_incl_length; [apply NoDup_nodup|]. intros x. apply nodup_In. }
    simpl in H. lia.
  - intros H. simpl in H. constructor; [assumption|]. apply IH. lia.
Qed.

Lemma set_size_1 (l : list N) : set_size l = 1 -> forall a b, In a l -> In b l -> a = b.
Proof.
  unfold set_size. intros H a b Ha Hb.
  apply (nodup_In N.eq_dec) in Ha. apply (nodup_In N.eq_dec) in Hb.
  destruct (nodup N.eq_dec l) as [|x [|y t]]; try discriminate.
  simpl in *. intuition congruence.
Qed.

Lemma shortcut_no_alias t :
  Forall entry_ok t ->
  set_size (map e_mask t) = 1 -> length t = set_size (map e_key t) -> no_alias t.
Proof.
  intros OK HM HK.
  assert (ND : NoDup (map e_key t)) by (apply nodup_length_NoDup; rewrite map_length; assumption).
  assert (SM : forall a b, In a t -> In b t -> e_mask a = e_mask b).
  { intros a b Ha Hb. apply (set_size_1 _ HM); now apply in_map. }
  clear HM HK. unfold no_alias. induction OK as [|e t Oe Ot IH]; constructor.
  - apply Forall_forall. intros d Hd. apply not_true_iff_false. intros I.
    apply intersect_iff in I; [|exact Oe|rewrite Forall_forall in Ot; now apply Ot].
    destruct I as (k & K1 & K2). rewrite (SM e d) in K1 by (simpl; auto).
    inversion ND as [|? ? NI ND']; subst. apply NI.
    rewrite <- K1, K2. now apply in_map.
  - apply IH.
    + now inversion ND.
    + intros a b Ha Hb. apply SM; now right.
Qed.

(** What the function returns when it returns. *)
Definition reduced (table : list entry) (check : bool) : list entry :=
  if needs_check table check then drop_checked table
  else filter (fun e => negb (e_def e)) table.

Lemma reduced_checked t : Forall entry_ok t -> reduced t true = drop_checked t.
Proof.
  intros OK. unfold reduced, needs_check.
  destruct (Nat.eqb_spec (set_size (map e_mask t)) 1); [|reflexivity].
  destruct (Nat.eqb_spec (length t) (set_size (map e_key t))); [|reflexivity].
  simpl. symmetry. apply no_alias_same. now apply shortcut_no_alias.
Qed.

Lemma orthogonal_no_alias t : Forall entry_ok t -> orthogonal t -> no_alias t.
Proof.
  intros OK O. induction O as [|e t He Ht IH]; constructor.
  - inversion OK as [|? ? Oe Ot]; subst. apply Forall_forall. intros d Hd.
    apply not_true_iff_false. intros I.
    rewrite Forall_forall in He, Ot.
    apply intersect_iff in I; [|exact Oe|now apply Ot].
    destruct I as (k & K1 & K2). apply (He d Hd k). split; assumption.
  - apply IH. now inversion OK.
Qed.

Lemma remove_default_ok t target check out :
  remove_default_routes t target check = Ok out -> out = reduced t check.
Proof.
  unfold remove_default_routes. fold (reduced t check).
  destruct target as [[|n]|]; try (intros H; now injection H).
  destruct (Nat.ltb (S n) (length (reduced t check))); [discriminate|].
  intros H; now injection H.
Qed.

Lemma remove_default_safe t target check out :
  Forall entry_ok t -> (check = true \/ orthogonal t) ->
  remove_default_routes t target check = Ok out ->
  dropped (fun e => e_def e = true) t out /\ default_safe t out.
Proof.
  intros OK C H. apply remove_default_ok in H. subst out.
  assert (E : reduced t check = drop_checked t).
  { destruct check; [now apply reduced_checked|].
    destruct C as [C|C]; [discriminate|]. unfold reduced; simpl.
    symmetry. apply no_alias_same. now apply orthogonal_no_alias. }
  rewrite E. split; [apply drop_checked_dropped|now apply drop_checked_safe].
Qed.

Lemma remove_default_fails t n check :
  remove_default_routes t (Some (S n)) check =
  (if Nat.leb (length (reduced t check)) (S n) then Ok (reduced t check) else Err MinimisationFailed).
Proof.
  unfold remove_default_routes. fold (reduced t check).
  destruct (Nat.ltb_spec (S n) (length (reduced t check))),
    (Nat.leb_spec (length (reduced t check)) (S n)); try reflexivity; lia.
Qed.

(** Exact characterisation: a defaultable entry is kept iff some later entry of
    the original table matches one of its keys. *)
Inductive default_reduction : list entry -> list entry -> Prop :=
| red_nil : default_reduction [] []
| red_plain e l l' : e_def e = false -> default_reduction l l' ->
    default_reduction (e :: l) (e :: l')
| red_alias e d k l l' : e_def e = true -> In d l -> entry_matches k e -> entry_matches k d ->
    default_reduction l l' -> default_reduction (e :: l) (e :: l')
| red_drop e l l' : e_def e = true ->
    (forall d k, In d l -> entry_matches k e -> ~ entry_matches k d) ->
    default_reduction l l' -> default_reduction (e :: l) l'.

Lemma drop_checked_reduction t : Forall entry_ok t -> default_reduction t (drop_checked t).
Proof.
  intros OK. induction OK as [|e t Oe Ot IH]; [constructor|].
  rewrite Forall_forall in Ot. cbn [drop_checked].
  destruct (e_def e) eqn:D; cbn [negb]; [|now constructor].
  destruct (existsb _ t) eqn:X.
  - apply existsb_exists in X. destruct X as (d & Hd & I).
    apply intersect_iff in I; [|exact Oe|now apply Ot].
    destruct I as (k & K1 & K2). eapply red_alias; eauto.
  - apply red_drop; auto. intros d k Hd Me Md.
    assert (existsb (fun d => intersect (e_key e) (e_mask e) (e_key d) (e_mask d)) t = true); [|congruence].
    apply existsb_exists. exists d. split; [assumption|].
    apply intersect_iff; [exact Oe|now apply Ot|]. exists k. split; assumption.
Qed.

Lemma remove_default_exact t out :
  Forall entry_ok t -> remove_default_routes t None true = Ok out -> default_reduction t out.
Proof.
  intros OK H. apply remove_default_ok in H. subst out. rewrite reduced_checked by assumption.
  now apply drop_checked_reduction.
Qed.

Lemma remove_default_total t n check :
  exists out, remove_default_routes t None check = Ok out /\
    remove_default_routes t (Some (S n)) check =
      (if Nat.leb (length out) (S n) then Ok out else Err MinimisationFailed).
Proof.
  exists (reduced t check). split; [reflexivity|]. apply remove_default_fails.
Qed.
