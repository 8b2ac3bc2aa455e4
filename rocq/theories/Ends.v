(** What it takes to see that the loops of the models end: a result is not that of a
    loop that ran out of fuel. *)
From Coq Require Import List.
From Verif Require Import Base.
Import ListNotations.

Definition ends {A} (r : res A) : Prop := r <> Err OutOfFuel.

Lemma ends_bind : forall {A B} (r : res A) (f : A -> res B),
  ends r -> (forall a, r = Ok a -> ends (f a)) -> ends (bind r f).
Proof.
  intros A B [a|x] f H1 H2; cbn [bind]; [apply H2; auto|]. unfold ends in *. congruence.
Qed.
Lemma ends_Ok : forall {A} (a : A), ends (Ok a).
Proof. discriminate. Qed.
Lemma ends_foldM : forall {A S} (f : S -> A -> res S) l s,
  (forall s a, In a l -> ends (f s a)) -> ends (foldM f s l).
Proof.
  intros A S f l. induction l as [|a l IH]; intros s H; cbn [foldM]; [discriminate|].
  apply ends_bind; [apply H; left; auto|]. intros s' _. apply IH. intros s2 b Hb. apply H. right; auto.
Qed.
Lemma ends_match : forall {A} (b : bool) (x y : res A), ends x -> ends y -> ends (if b then x else y).
Proof. intros A [] x y; auto. Qed.
