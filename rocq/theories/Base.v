(** Common vocabulary: Python exceptions as values, and lists used as Python
    arrays.  Nothing in this file is specific to PACMAN. *)
From Coq Require Import List Arith NArith ZArith Lia Bool.
Import ListNotations.

(** Exceptions that the modelled functions can raise.  [OutOfFuel] is not a
    Python exception: it marks a [while] loop that was still running when the
    fuel given to the model was used up. *)
Inductive exn : Type :=
| OutOfFuel
| IndexError
| KeyError
| ValueError
| TypeError
| AssertionError
| StopIteration
| NotImplemented
| UnboundLocal
| MinimisationFailed
| ElementAllocation
| RoutingException
| ConfigurationException
| InvalidParameter
| AlreadyExists
| NoSpace
| TooBig
| CanNotFindChip
| AlreadyPlaced
| ProcessorOccupied
| ProcessorNotOccupied
| NotPlaced
| RoutingAlreadyAllocated
| RouteInfoAllocation
| NotFound
| NoSuchRouting
| PartitionException
| ZeroDivision
| NotExist.

Inductive res (A : Type) : Type :=
| Ok (a : A)
| Err (e : exn).
Arguments Ok {A} _.
Arguments Err {A} _.

Definition bind {A B} (r : res A) (f : A -> res B) : res B :=
  match r with
  | Ok a => f a
  | Err e => Err e
  end.

Notation "'let*' x ':=' r 'in' k" := (bind r (fun x => k))
  (at level 200, x pattern, r at level 100, k at level 200, right associativity).

Lemma bind_Ok_inv : forall {A B} (r : res A) (f : A -> res B) b,
  bind r f = Ok b -> exists a, r = Ok a /\ f a = Ok b.
Proof. intros A B [a|e] f b H; simpl in H; [eauto | discriminate]. Qed.

(** [l[i]] with a non-negative index. *)
Definition aget {A} (l : list A) (i : nat) : res A :=
  match nth_error l i with
  | Some x => Ok x
  | None => Err IndexError
  end.

Fixpoint upd {A} (l : list A) (i : nat) (x : A) : list A :=
  match l, i with
  | [], _ => []
  | _ :: t, O => x :: t
  | h :: t, S j => h :: upd t j x
  end.

(** [l[i] = x] with a non-negative index. *)
Definition aset {A} (l : list A) (i : nat) (x : A) : res (list A) :=
  if Nat.ltb i (length l) then Ok (upd l i x) else Err IndexError.

Lemma upd_length : forall {A} (l : list A) i x, length (upd l i x) = length l.
Proof. induction l; intros [|i] x; simpl; auto. Qed.

Lemma upd_app : forall {A} (a : list A) y b x,
  upd (a ++ y :: b) (length a) x = a ++ x :: b.
Proof. induction a; intros; simpl; congruence. Qed.

Lemma aget_app : forall {A} (a : list A) y b,
  aget (a ++ y :: b) (length a) = Ok y.
Proof.
  intros. unfold aget. rewrite nth_error_app2 by lia.
  rewrite Nat.sub_diag. reflexivity.
Qed.

Lemma aset_app : forall {A} (a : list A) y b x,
  aset (a ++ y :: b) (length a) x = Ok (a ++ x :: b).
Proof.
  intros. unfold aset. rewrite app_length; simpl.
  destruct (Nat.ltb_spec (length a) (length a + S (length b))); [|lia].
  rewrite upd_app. reflexivity.
Qed.

Lemma aget_Ok_iff : forall {A} (l : list A) i x,
  aget l i = Ok x <-> nth_error l i = Some x.
Proof.
  intros. unfold aget. destruct (nth_error l i); split; intro H;
    inversion H; subst; auto.
Qed.

Lemma aget_lt : forall {A} (l : list A) i, i < length l -> exists x, aget l i = Ok x.
Proof.
  intros A l i H. unfold aget. destruct (nth_error l i) eqn:E; eauto.
  apply nth_error_None in E. lia.
Qed.

Lemma nth_error_upd_eq : forall {A} (l : list A) i x,
  i < length l -> nth_error (upd l i x) i = Some x.
Proof. induction l; intros [|i] x H; simpl in *; try lia; auto. apply IHl. lia. Qed.

Lemma nth_error_upd_neq : forall {A} (l : list A) i j x,
  i <> j -> nth_error (upd l i x) j = nth_error l j.
Proof.
  induction l; intros [|i] [|j] x H; simpl in *; auto; try congruence.
Qed.

(** Monadic map. *)
Fixpoint mapM {A B} (f : A -> res B) (l : list A) : res (list B) :=
  match l with
  | [] => Ok []
  | x :: t => let* y := f x in let* ys := mapM f t in Ok (y :: ys)
  end.

Fixpoint foldM {A S} (f : S -> A -> res S) (s : S) (l : list A) : res S :=
  match l with
  | [] => Ok s
  | x :: t => let* s' := f s x in foldM f s' t
  end.
