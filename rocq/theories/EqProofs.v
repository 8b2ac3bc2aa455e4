(** Proofs about equality and hashing of value classes. *)
From Coq Require Import List Arith NArith ZArith Bool Lia.
From Verif Require Import Base RouteSpec SliceModel TablesModel TagsModel EqModel.
Import ListNotations.

Lemma list_eqb_eq {A} (eqb : A -> A -> bool) : (forall a b, eqb a b = true <-> a = b) ->
  forall l m, list_eqb eqb l m = true <-> l = m.
Proof.
  intros H. induction l as [|x l IH]; intros [|y m]; cbn [list_eqb]; try (split; congruence).
  rewrite andb_true_iff, H, IH. split; [now intros [-> ->] | now intros [= -> ->]].
Qed.

Lemma opt_eqb_eq {A} (eqb : A -> A -> bool) : (forall a b, eqb a b = true <-> a = b) ->
  forall o p, opt_eqb eqb o p = true <-> o = p.
Proof.
  intros H [x|] [y|]; cbn [opt_eqb]; try (split; congruence).
  rewrite H. split; [now intros -> | now intros [= ->]].
Qed.

Lemma slice_eq_iff a b : slice_eq a b = true <->
  sl_lo a = sl_lo b /\ sl_shape a = sl_shape b /\ sl_start a = sl_start b /\ sl_n a = sl_n b.
Proof.
  unfold slice_eq.
  destruct (Z.eqb_spec (sl_lo a) (sl_lo b)) as [E|E]; cbn [negb]; [|split; [discriminate|tauto]].
  destruct (list_eqb Z.eqb (sl_shape a) (sl_shape b)) eqn:S; cbn [negb].
  - apply (list_eqb_eq Z.eqb Z.eqb_eq) in S.
    destruct (list_eqb Z.eqb (sl_start a) (sl_start b)) eqn:T; cbn [negb].
    + apply (list_eqb_eq Z.eqb Z.eqb_eq) in T. rewrite Z.eqb_eq. tauto.
    + split; [discriminate|]. intros (_ & _ & C & _). apply (list_eqb_eq Z.eqb Z.eqb_eq) in C. congruence.
  - split; [discriminate|]. intros (_ & C & _). apply (list_eqb_eq Z.eqb Z.eqb_eq) in C. congruence.
Qed.

(** Values whose comparison looks at contents only and cannot raise. *)
Definition simple (v : value) : Prop :=
  match v with VIPtag _ | VUncompressed _ | VCompressed _ => False | _ => True end.

Lemma slices_equal entry_eq s t : py_eq entry_eq (VSlice s) (VSlice t) = Some true <-> s = t.
Proof.
  unfold py_eq, method_eq, mdslice_eq.
  destruct s as [lo n [[[sh st] ash]|]], t as [lo' n' [[[sh' st'] ash']|]]; cbn [sl_md];
    try (split; congruence).
  - split.
    + intros [= H]. apply andb_true_iff in H. destruct H as [H H'].
      apply slice_eq_iff in H. cbn in H. destruct H as (-> & -> & -> & ->).
      apply (list_eqb_eq Z.eqb Z.eqb_eq) in H'. now rewrite H'.
    + intros [= -> -> -> -> ->]. f_equal. apply andb_true_iff. split.
      * apply slice_eq_iff. auto.
      * now apply (list_eqb_eq Z.eqb Z.eqb_eq).
  - split.
    + intros [= H]. apply slice_eq_iff in H. cbn in H. destruct H as (-> & _ & _ & ->). reflexivity.
    + intros [= -> ->]. f_equal. apply slice_eq_iff. auto.
Qed.

Ltac kill := try (split; [congruence | split; congruence]).
Lemma simple_eq entry_eq a b : simple a ->
  py_eq entry_eq a b <> None /\ (py_eq entry_eq a b = Some true <-> a = b).
Proof.
  intros A. destruct a as [s|x y p|v x y p|k m|r|r|t|t]; try contradiction; clear A.
  - destruct b as [t|x y p|v x y p|k m|r|r|t|t]; try (cbn; split; [congruence | split; congruence]).
    split.
    + unfold py_eq, method_eq. destruct (sl_md s), (sl_md t); congruence.
    + rewrite slices_equal. split; congruence.
  - destruct b as [t|x' y' p'|v' x' y' p'|k m|r|r|t|t]; cbn [py_eq method_eq]; kill.
    split; [congruence|]. split.
    + intros [= H]. rewrite !andb_true_iff, !Z.eqb_eq in H. destruct H as [[-> ->] H].
      apply (opt_eqb_eq Z.eqb Z.eqb_eq) in H. congruence.
    + intros [= -> -> ->]. f_equal. rewrite !andb_true_iff, !Z.eqb_eq. split; [auto|].
      now apply (opt_eqb_eq Z.eqb Z.eqb_eq).
  - destruct b as [t|x' y' p'|v' x' y' p'|k m|r|r|t|t]; cbn [py_eq method_eq]; kill.
    split; [congruence|]. split.
    + intros [= H]. rewrite !andb_true_iff, !Nat.eqb_eq in H. destruct H as [[[-> ->] ->] ->]. reflexivity.
    + intros [= -> -> -> ->]. f_equal. rewrite !andb_true_iff, !Nat.eqb_eq. auto.
  - destruct b as [t|x' y' p'|v' x' y' p'|k' m'|r|r|t|t]; cbn [py_eq method_eq]; kill.
    split; [congruence|]. split.
    + intros [= H]. rewrite !andb_true_iff, !N.eqb_eq in H. destruct H as [-> ->]. reflexivity.
    + intros [= -> ->]. f_equal. rewrite !andb_true_iff, !N.eqb_eq. auto.
  - destruct b as [t|x' y' p'|v' x' y' p'|k' m'|r'|r'|t|t]; cbn [py_eq method_eq]; kill.
    split; [congruence|]. destruct r as [a b c], r' as [a' b' c']. cbn [rq_port rq_sdp rq_tag]. split.
    + intros [= H]. rewrite !andb_true_iff, Nat.eqb_eq in H. destruct H as [[H1 ->] H2].
      apply (opt_eqb_eq N.eqb N.eqb_eq) in H1. apply (opt_eqb_eq Nat.eqb Nat.eqb_eq) in H2. congruence.
    + intros [= -> -> ->]. f_equal. rewrite !andb_true_iff, Nat.eqb_eq. repeat split.
      * now apply (opt_eqb_eq N.eqb N.eqb_eq).
      * now apply (opt_eqb_eq Nat.eqb Nat.eqb_eq).
Qed.

Lemma iptag_eq entry_eq r r' : py_eq entry_eq (VIPtag r) (VIPtag r') <> None /\
  (py_eq entry_eq (VIPtag r) (VIPtag r') = Some true <-> r = r').
Proof.
  cbn [py_eq method_eq]. split; [congruence|].
  destruct r as [a b c d f], r' as [a' b' c' d' f']. cbn [iq_ip iq_port iq_strip iq_tag iq_traffic]. split.
  - intros [= H]. rewrite !andb_true_iff, !Nat.eqb_eq, eqb_true_iff in H.
    destruct H as [[[[-> H1] ->] H2] ->].
    apply (opt_eqb_eq N.eqb N.eqb_eq) in H1. apply (opt_eqb_eq Nat.eqb Nat.eqb_eq) in H2. congruence.
  - intros [= -> -> -> -> ->]. f_equal. rewrite !andb_true_iff, !Nat.eqb_eq, eqb_true_iff. repeat split.
    * now apply (opt_eqb_eq N.eqb N.eqb_eq).
    * now apply (opt_eqb_eq Nat.eqb Nat.eqb_eq).
Qed.

Lemma equal_hash hi ht hid o o' : simple (o_value o) \/ (exists r, o_value o = VIPtag r) ->
  o_value o = o_value o' -> hash hi ht hid o = hash hi ht hid o'.
Proof.
  intros S E. unfold hash. rewrite <- E.
  destruct (o_value o); try reflexivity; destruct S as [[]|(r & [=])].
Qed.

(** ** Sets *)
Section Sets.
  Variable entry_eq : entry -> entry -> bool.
  Variable hash_int : Z -> Z.
  Variable hash_tuple : list item -> Z.
  Variable hash_id : nat -> Z.
  Notation mem := (set_mem entry_eq hash_int hash_tuple hash_id).
  Notation build := (set_of entry_eq hash_int hash_tuple hash_id).

  (** Different objects have different identities. *)
  Definition one_each (l : list object) : Prop :=
    forall a b, In a l -> In b l -> o_id a = o_id b -> a = b.

  Lemma mem_iff s o : Forall (fun e => simple (o_value e)) s ->
    (forall e, In e s -> o_id e = o_id o -> e = o) ->
    exists b, mem s o = Some b /\ (b = true <-> In (o_value o) (map o_value s)).
  Proof.
    intros F I. induction s as [|e s IH]; cbn [set_mem map].
    - exists false. split; [reflexivity|]. split; [discriminate | intros []].
    - apply Forall_cons_iff in F. destruct F as [Fe F].
      destruct IH as (b & M & B); [assumption | intros z Z; apply I; now right|].
      destruct (Z.eqb_spec (hash hash_int hash_tuple hash_id e) (hash hash_int hash_tuple hash_id o)) as [H|H].
      + destruct (Nat.eqb_spec (o_id e) (o_id o)) as [D|D].
        * exists true. split; [reflexivity|]. split; [|reflexivity]. intros _. left.
          f_equal. apply I; [now left | assumption].
        * destruct (simple_eq entry_eq (o_value e) (o_value o) Fe) as [N Q].
          destruct (py_eq entry_eq (o_value e) (o_value o)) as [[|]|] eqn:P; [| |contradiction].
          -- exists true. split; [reflexivity|]. split; [|reflexivity]. intros _. left. now apply Q.
          -- exists b. split; [assumption|]. rewrite B. cbn [In]. split; [auto|]. intros [C|C]; [|assumption].
             apply Q in C. discriminate.
      + exists b. split; [assumption|]. rewrite B. cbn [In]. split; [auto|]. intros [C|C]; [|assumption].
        exfalso. apply H. apply equal_hash; [now left | assumption].
  Qed.

  Lemma build_spec os : forall s, one_each (s ++ os) ->
    Forall (fun e => simple (o_value e)) (s ++ os) -> NoDup (map o_value s) ->
    exists s', build s os = Some s' /\ NoDup (map o_value s') /\ incl s' (s ++ os) /\
      forall v, In v (map o_value s') <-> In v (map o_value (s ++ os)).
  Proof.
    induction os as [|o os IH]; intros s U F N; cbn [set_of].
    - exists s. rewrite app_nil_r. split; [reflexivity|]. split; [assumption|]. split; [apply incl_refl | tauto].
    - unfold set_add.
      assert (Fs : Forall (fun e => simple (o_value e)) s) by (apply Forall_app in F; tauto).
      destruct (mem_iff s o Fs) as (b & M & B).
      { intros e I E. apply U; [apply in_or_app; now left | apply in_or_app; right; now left | assumption]. }
      rewrite M.
      assert (R : (s ++ [o]) ++ os = s ++ o :: os) by (now rewrite <- app_assoc).
      destruct b.
      + destruct (IH s) as (s' & E & N' & In' & V).
        * intros a c A C. apply U; [apply in_app_or in A | apply in_app_or in C]; apply in_or_app; cbn [In]; tauto.
        * apply Forall_app in F. destruct F as [F1 F2]. apply Forall_app. split; [assumption|].
          now apply Forall_cons_iff in F2.
        * assumption.
        * exists s'. split; [assumption|]. split; [assumption|]. split.
          -- intros z Z. apply In' in Z. apply in_app_or in Z. apply in_or_app. cbn [In]. tauto.
          -- intros v. rewrite V, !map_app, !in_app_iff. cbn [map In]. split; [tauto|].
             intros [H|[<-|H]]; auto. left. now apply B.
      + destruct (IH (s ++ [o])) as (s' & E & N' & In' & V).
        * now rewrite R.
        * now rewrite R.
        * rewrite map_app. cbn [map]. pose proof (Add_app (o_value o) (map o_value s) []) as A.
          rewrite app_nil_r in A. apply (NoDup_Add A). split; [assumption|]. intros C. apply B in C. discriminate.
        * rewrite R in *. exists s'. auto.
  Qed.
End Sets.
