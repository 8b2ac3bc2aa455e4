(** Python dictionaries as association lists in insertion order: assignment to
    an existing key keeps its position.  Nothing here is specific to PACMAN. *)
From Coq Require Import List Arith Bool Lia.
From Verif Require Import Base.
Import ListNotations.

Section Dict.
  Context {K V : Type}.
  Variable eqb : K -> K -> bool.

  Fixpoint dget (d : list (K * V)) (k : K) : option V :=
    match d with
    | [] => None
    | (k', v) :: d' => if eqb k' k then Some v else dget d' k
    end.

  Fixpoint dset (d : list (K * V)) (k : K) (v : V) : list (K * V) :=
    match d with
    | [] => [(k, v)]
    | (k', v') :: d' => if eqb k' k then (k', v) :: d' else (k', v') :: dset d' k v
    end.

  Definition dmem (d : list (K * V)) (k : K) : bool :=
    match dget d k with Some _ => true | None => false end.

  (** [d[k]]. *)
  Definition dgetE (d : list (K * V)) (k : K) : res V :=
    match dget d k with Some v => Ok v | None => Err KeyError end.

  Definition ddel (d : list (K * V)) (k : K) : list (K * V) :=
    filter (fun p => negb (eqb (fst p) k)) d.

  Hypothesis eqb_spec : forall a b, eqb a b = true <-> a = b.

  Lemma eqb_refl' : forall a, eqb a a = true.
  Proof. intro a. now apply eqb_spec. Qed.

  Lemma eqb_neq' : forall a b, a <> b -> eqb a b = false.
  Proof.
    intros a b H. destruct (eqb a b) eqn:E; [|reflexivity].
    apply eqb_spec in E. contradiction.
  Qed.

  Lemma dget_In : forall d k v, dget d k = Some v -> In (k, v) d.
  Proof.
    induction d as [|[k' v'] d IH]; intros k v; simpl; [discriminate|].
    destruct (eqb k' k) eqn:E.
    - intros [= ->]. apply eqb_spec in E. subst. auto.
    - intros H. right. auto.
  Qed.

  Lemma dget_None : forall d k, dget d k = None <-> ~ In k (map fst d).
  Proof.
    induction d as [|[k' v'] d IH]; intros k; simpl; [tauto|].
    destruct (eqb k' k) eqn:E.
    - apply eqb_spec in E. split; [discriminate|]. intros H. exfalso. auto.
    - rewrite IH. split; [|tauto]. intros H [C|C]; [|tauto].
      subst. rewrite eqb_refl' in E. discriminate.
  Qed.

  Lemma dget_Some_iff : forall d k v, NoDup (map fst d) ->
    (dget d k = Some v <-> In (k, v) d).
  Proof.
    intros d k v ND. split; [apply dget_In|].
    induction d as [|[k' v'] d IH]; simpl; [tauto|].
    inversion ND as [|? ? N1 N2]; subst. intros [H|H].
    - inversion H; subst. now rewrite eqb_refl'.
    - rewrite eqb_neq'; [auto|]. intros ->. apply N1.
      change k with (fst (k, v)). now apply in_map.
  Qed.

  Lemma dget_dset_eq : forall d k v, dget (dset d k v) k = Some v.
  Proof.
    induction d as [|[k' v'] d IH]; intros k v; simpl.
    - now rewrite eqb_refl'.
    - destruct (eqb k' k) eqn:E; simpl; rewrite E; auto.
  Qed.

  Lemma dget_dset_neq : forall d k k' v, k <> k' -> dget (dset d k v) k' = dget d k'.
  Proof.
    induction d as [|[k0 v0] d IH]; intros k k' v H; simpl.
    - now rewrite eqb_neq'.
    - destruct (eqb k0 k) eqn:E; simpl.
      + apply eqb_spec in E. subst. now rewrite eqb_neq'.
      + destruct (eqb k0 k'); auto.
  Qed.

  Lemma dget_dset : forall d k k' v,
    dget (dset d k v) k' = if eqb k k' then Some v else dget d k'.
  Proof.
    intros. destruct (eqb k k') eqn:E.
    - apply eqb_spec in E. subst. apply dget_dset_eq.
    - apply dget_dset_neq. intros ->. rewrite eqb_refl' in E. discriminate.
  Qed.

  Lemma dset_keys : forall d k v,
    map fst (dset d k v) = if dmem d k then map fst d else map fst d ++ [k].
  Proof.
    unfold dmem. induction d as [|[k' v'] d IH]; intros k v; simpl; [reflexivity|].
    destruct (eqb k' k) eqn:E; simpl; [reflexivity|]. rewrite IH.
    destruct (dget d k); reflexivity.
  Qed.

  Lemma dset_NoDup : forall d k v, NoDup (map fst d) -> NoDup (map fst (dset d k v)).
  Proof.
    intros d k v ND. rewrite dset_keys. unfold dmem.
    destruct (dget d k) eqn:E; [assumption|].
    apply dget_None in E. clear - ND E.
    induction (map fst d) as [|x l IH]; simpl in *.
    - constructor; [tauto|constructor].
    - inversion ND; subst. constructor.
      + rewrite in_app_iff. simpl. intuition.
      + apply IH; auto.
  Qed.

  Lemma dset_In : forall d k v k' v', In (k', v') (dset d k v) ->
    (k' = k /\ v' = v) \/ In (k', v') d.
  Proof.
    induction d as [|[k0 v0] d IH]; intros k v k' v'; simpl.
    - intros [H|[]]. inversion H. auto.
    - destruct (eqb k0 k) eqn:E; simpl.
      + apply eqb_spec in E. subst. intros [H|H]; [inversion H; auto|auto].
      + intros [H|H]; [auto|]. apply IH in H. tauto.
  Qed.

  Lemma dset_In_new : forall d k v, In (k, v) (dset d k v).
  Proof. intros. apply dget_In. apply dget_dset_eq. Qed.

  Lemma dset_In_old : forall d k v k' v', k' <> k -> In (k', v') d -> In (k', v') (dset d k v).
  Proof.
    induction d as [|[k0 v0] d IH]; intros k v k' v' N; simpl; [tauto|].
    destruct (eqb k0 k) eqn:E; simpl.
    - apply eqb_spec in E. subst. intros [H|H]; [inversion H; congruence|auto].
    - intros [H|H]; auto.
  Qed.

  Lemma dmem_true : forall d k, dmem d k = true <-> In k (map fst d).
  Proof.
    intros. unfold dmem. destruct (dget d k) eqn:E.
    - split; auto. intros _. apply dget_In in E.
      change k with (fst (k, v)). now apply in_map.
    - apply dget_None in E. split; [discriminate|tauto].
  Qed.

  Lemma dset_length : forall d k v,
    length (dset d k v) = if dmem d k then length d else S (length d).
  Proof.
    intros. rewrite <- (map_length fst), dset_keys. unfold dmem.
    destruct (dget d k); rewrite ?app_length, map_length; simpl; lia.
  Qed.

  Lemma ddel_get_eq : forall d k, dget (ddel d k) k = None.
  Proof.
    intros. apply dget_None. unfold ddel. rewrite in_map_iff.
    intros ([k' v] & H & Hin). simpl in H. subst. apply filter_In in Hin.
    destruct Hin as [_ H]. simpl in H. now rewrite eqb_refl' in H.
  Qed.

  Lemma ddel_get_neq : forall d k k', k <> k' -> dget (ddel d k) k' = dget d k'.
  Proof.
    induction d as [|[k0 v0] d IH]; intros k k' H; simpl; [reflexivity|].
    destruct (eqb k0 k) eqn:E; simpl.
    - apply eqb_spec in E. subst. rewrite eqb_neq' by assumption. now apply IH.
    - destruct (eqb k0 k'); auto.
  Qed.
End Dict.

(** Equality of pairs. *)
Definition pair_eqb {A B} (ea : A -> A -> bool) (eb : B -> B -> bool) (x y : A * B) : bool :=
  (ea (fst x) (fst y) && eb (snd x) (snd y))%bool.

Lemma pair_eqb_spec : forall {A B} (ea : A -> A -> bool) (eb : B -> B -> bool),
  (forall a b, ea a b = true <-> a = b) -> (forall a b, eb a b = true <-> a = b) ->
  forall x y, pair_eqb ea eb x y = true <-> x = y.
Proof.
  intros A B ea eb Ha Hb [a b] [c d]. unfold pair_eqb. simpl.
  rewrite andb_true_iff, Ha, Hb. split; [intros [-> ->]|intros [= -> ->]]; auto.
Qed.
