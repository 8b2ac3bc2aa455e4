(** The fixed route router ends. *)
From Coq Require Import List NArith ZArith Arith Bool Lia.
From Verif Require Import Base Ends Dict TreeModel MachModel RPartModel FixedModel.
Import ListNotations.
Local Open Scope nat_scope.

Lemma add_fixed_ends : forall t k a b, ends (add_fixed t k a b).
Proof. intros. unfold add_fixed. destruct (dmem _ _ _); discriminate. Qed.
Lemma fixed_pass_ends : forall m routed todo t found, ends (fixed_pass m routed t found todo).
Proof.
  intros m routed todo. induction todo as [|p todo IH]; intros; cbn [fixed_pass]; [discriminate|].
  destruct (first_link m routed p); [|apply IH]. apply ends_bind; [apply add_fixed_ends|]. intros. apply IH.
Qed.
Lemma fixed_pass_found : forall m routed todo t found t' f, fixed_pass m routed t found todo = Ok (t', f) ->
  incl f (found ++ todo).
Proof.
  intros m routed todo. induction todo as [|p todo IH]; intros t found t' f H; cbn [fixed_pass] in H.
  - injection H as <- <-. rewrite app_nil_r. apply incl_refl.
  - destruct (first_link m routed p).
    + apply bind_Ok_inv in H. destruct H as [t1 [_ H]]. apply IH in H. rewrite <- app_assoc in H. exact H.
    + apply IH in H. intros x X. apply H in X. rewrite in_app_iff in *. cbn [In]. tauto.
Qed.
Lemma filter_shorter : forall {A} (f : A -> bool) q l, In q l -> f q = false -> length (filter f l) < length l.
Proof.
  intros A f q l. induction l as [|x l IH]; intros I H; [destruct I|].
  assert (B : length (filter f l) <= length l).
  { clear. induction l as [|y l IH]; cbn [filter length]; [lia|]. destruct (f y); cbn [length]; lia. }
  cbn [filter length]. destruct I as [->|I].
  - rewrite H. lia.
  - specialize (IH I H). destruct (f x); cbn [length]; lia.
Qed.
Lemma fixed_loop_ends : forall fuel m t to_route routed, length to_route <= fuel ->
  ends (fixed_loop fuel m t to_route routed).
Proof.
  induction fuel as [|n IH]; intros m t to_route routed L; destruct to_route as [|p todo] eqn:E;
    try discriminate; [cbn [length] in L; lia|]. rewrite <- E in *. cbn [fixed_loop].
  rewrite E at 1. apply ends_bind; [apply fixed_pass_ends|]. intros [t' [|q found]] H; [discriminate|].
  apply IH. apply fixed_pass_found in H. cbn [app] in H.
  enough (X : length (filter (fun p => negb (xy_in p (q :: found))) to_route) < length to_route) by lia.
  apply (filter_shorter _ q); [apply H; left; auto|]. apply negb_false_iff. unfold xy_in. cbn [existsb].
  destruct q as [x y]. unfold xy_eqb, pair_eqb. rewrite !Z.eqb_refl. reflexivity.
Qed.
Lemma build_fixed_ends : forall m g boards, ends (build_fixed_routes m g boards).
Proof.
  intros m g boards. apply ends_foldM. intros t [e chips] _. unfold route_board.
  apply ends_match; [|discriminate]. apply ends_bind; [apply fixed_loop_ends; auto|]. intros t' _.
  destruct (g e); [apply add_fixed_ends|discriminate].
Qed.
