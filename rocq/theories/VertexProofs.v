(** Proofs about fixed locations and sizes. *)
From Coq Require Import List Arith ZArith QArith Qround Qabs Bool Lia Lqa.
From Verif Require Import Base Dict VertexModel.
Import ListNotations.
Local Open Scope Z_scope.

Lemma place_eqb_eq : forall a b, place_eqb a b = true <-> a = b.
Proof.
  intros [x y p] [x' y' p']. unfold place_eqb, opt_eqb. cbn.
  rewrite !andb_true_iff, !Z.eqb_eq. split.
  - intros ((-> & ->) & H). destruct p, p'; try discriminate; [|reflexivity].
    apply Z.eqb_eq in H. now subst.
  - intros [= -> -> ->]. split; [auto|]. destruct p'; [apply Z.eqb_refl|reflexivity].
Qed.

(** Specification: the place in the first call for a vertex. *)
Fixpoint first_for (v : nat) (cs : list call) : option place :=
  match cs with
  | [] => None
  | c :: cs' => if Nat.eqb (c_vertex c) v then Some (c_place c) else first_for v cs'
  end.

Lemma run_spec : forall cs s,
  let (s', rs) := run_calls s cs in
  (forall v, dget Nat.eqb s' v = match dget Nat.eqb s v with Some l => Some l | None => first_for v cs end) /\
  length rs = length cs /\
  forall i c, nth_error cs i = Some c ->
    nth_error rs i = Some (if match (match dget Nat.eqb s (c_vertex c) with
                                     | Some l => Some l | None => first_for (c_vertex c) cs end) with
                              | Some l => place_eqb (c_place c) l | None => false end
                           then Ok tt else Err ConfigurationException).
Proof.
  induction cs as [|c cs IH]; intro s; cbn [run_calls].
  - split; [intro v; cbn; now destruct (dget Nat.eqb s v)|]. split; [reflexivity|].
    intros [|i] c H; discriminate.
  - unfold set_fixed_location. destruct c as [u [x y p]]. cbn [c_vertex c_place pl_x pl_y pl_p].
    destruct (dget Nat.eqb s u) as [old|] eqn:D.
    + assert (G : let (s', rs) := run_calls s cs in
        (forall v, dget Nat.eqb s' v = match dget Nat.eqb s v with Some l => Some l | None => first_for v (mkCall u (mkPlace x y p) :: cs) end) /\
        length rs = length cs /\
        forall i c, nth_error cs i = Some c ->
          nth_error rs i = Some (if match (match dget Nat.eqb s (c_vertex c) with
            | Some l => Some l | None => first_for (c_vertex c) (mkCall u (mkPlace x y p) :: cs) end) with
                              | Some l => place_eqb (c_place c) l | None => false end
                           then Ok tt else Err ConfigurationException)).
      { specialize (IH s). destruct (run_calls s cs) as [s' rs]. destruct IH as (A & B & C).
        split; [|split; [exact B|]].
        - intro v. rewrite A. cbn [first_for c_vertex]. destruct (Nat.eqb_spec u v) as [<-|N]; [now rewrite D|reflexivity].
        - intros i c H. rewrite (C i c H). cbn [first_for c_vertex].
          destruct (Nat.eqb_spec u (c_vertex c)) as [E|N]; [rewrite <- E, D; reflexivity|reflexivity]. }
      destruct (place_eqb (mkPlace x y p) old) eqn:Q; destruct (run_calls s cs) as [s' rs];
        destruct G as (A & B & C); (split; [exact A|]); (split; [cbn; now rewrite B|]);
        (intros [|i] c H; [|exact (C i c H)]); injection H as <-; cbn [nth_error c_vertex c_place];
        rewrite D, Q; reflexivity.
    + set (s1 := dset Nat.eqb s u (mkPlace x y p)). specialize (IH s1).
      destruct (run_calls s1 cs) as [s' rs]. destruct IH as (A & B & C).
      assert (E : forall v, match dget Nat.eqb s1 v with Some l => Some l | None => first_for v cs end =
                  match dget Nat.eqb s v with Some l => Some l
                  | None => first_for v (mkCall u (mkPlace x y p) :: cs) end).
      { intro v. unfold s1. cbn [first_for c_vertex c_place]. destruct (Nat.eqb_spec u v) as [<-|N].
        - rewrite (dget_dset_eq _ Nat.eqb_eq), D. reflexivity.
        - rewrite (dget_dset_neq _ Nat.eqb_eq) by congruence. reflexivity. }
      split; [intro v; rewrite A; apply E|]. split; [cbn; now rewrite B|].
      intros [|i] c H.
      * injection H as <-. cbn [nth_error c_vertex c_place]. rewrite D. cbn [first_for c_vertex c_place].
        rewrite Nat.eqb_refl, (proj2 (place_eqb_eq _ _) eq_refl). reflexivity.
      * cbn [nth_error] in *. rewrite (C i c H), E. reflexivity.
Qed.

(** * Sizes *)
Lemma Qlt_bool_iff : forall a b, Qlt_bool a b = true <-> (a < b)%Q.
Proof. intros a b. unfold Qlt_bool. rewrite Qlt_alt. destruct (a ?= b)%Q; intuition discriminate. Qed.

Lemma Qabs_val_eq : forall q, (Qabs_val q == Qabs q)%Q.
Proof.
  intro q. unfold Qabs_val. destruct (Qlt_bool q 0) eqn:E.
  - apply Qlt_bool_iff in E. rewrite Qabs_neg by lra. reflexivity.
  - assert (H : ~ (q < 0)%Q) by (intro C; apply Qlt_bool_iff in C; congruence).
    rewrite Qabs_pos by lra. reflexivity.
Qed.

Lemma near_unique : forall (y z : Z) (q : Q),
  (Qabs (inject_Z y - q) < 1 # 2)%Q -> (Qabs (inject_Z z - q) < 1 # 2)%Q -> y = z.
Proof.
  intros y z q A B. apply Qabs_Qlt_condition in A, B. destruct A as (A1 & A2), B as (B1 & B2).
  assert (U : (inject_Z y < inject_Z (z + 1))%Q) by (rewrite inject_Z_plus; change (inject_Z 1) with 1%Q; lra).
  assert (V : (inject_Z z < inject_Z (y + 1))%Q) by (rewrite inject_Z_plus; change (inject_Z 1) with 1%Q; lra).
  rewrite <- Zlt_Qlt in U, V. lia.
Qed.

Lemma round_near : forall q z, (Qabs (inject_Z z - q) < 1 # 2)%Q -> round_half_even q = z.
Proof.
  intros q z H. unfold round_half_even. pose proof (Qfloor_le q) as L. pose proof (Qlt_floor q) as U.
  rewrite inject_Z_plus in U. change (inject_Z 1) with 1%Q in U.
  apply Qabs_Qlt_condition in H. destruct H as (H1 & H2).
  destruct (Qcompare (q - inject_Z (Qfloor q)) (1 # 2)) eqn:C.
  - apply Qeq_alt in C. exfalso.
    assert (A : (inject_Z (Qfloor q) < inject_Z z)%Q) by lra.
    assert (B : (inject_Z z < inject_Z (Qfloor q + 1))%Q)
      by (rewrite inject_Z_plus; change (inject_Z 1) with 1%Q; lra).
    rewrite <- Zlt_Qlt in A, B. lia.
  - apply Qlt_alt in C. apply near_unique with q; apply Qabs_Qlt_condition; split; lra.
  - apply Qgt_alt in C. apply near_unique with q; [|apply Qabs_Qlt_condition; split; lra].
    rewrite inject_Z_plus. change (inject_Z 1) with 1%Q. apply Qabs_Qlt_condition. split; lra.
Qed.

Lemma tolerance_small : (tolerance < 1 # 2)%Q.
Proof. reflexivity. Qed.

Lemma round_float_iff : forall q z,
  round_n_atoms (PyFloat q) = Ok z <-> (Qabs (inject_Z z - q) < tolerance)%Q.
Proof.
  intros q z. unfold round_n_atoms.
  destruct (Qlt_bool (Qabs_val (inject_Z (round_half_even q) - q)) tolerance) eqn:E.
  - apply Qlt_bool_iff in E. rewrite Qabs_val_eq in E. split.
    + intros [= <-]. exact E.
    + intro H. f_equal. apply round_near. apply Qlt_trans with tolerance; [exact H|apply tolerance_small].
  - split; [discriminate|]. intro H. exfalso.
    assert (R : round_half_even q = z)
      by (apply round_near, Qlt_trans with tolerance; [exact H|apply tolerance_small]).
    assert (T : Qlt_bool (Qabs_val (inject_Z (round_half_even q) - q)) tolerance = true).
    { apply Qlt_bool_iff. rewrite Qabs_val_eq, R. exact H. }
    congruence.
Qed.

Lemma round_float_fails : forall q e, round_n_atoms (PyFloat q) = Err e ->
  e = InvalidParameter /\ forall z, ~ (Qabs (inject_Z z - q) < tolerance)%Q.
Proof.
  intros q e E. split.
  - unfold round_n_atoms in E. destruct (Qlt_bool _ _) in E; congruence.
  - intros z H. apply round_float_iff in H. congruence.
Qed.
