(** Proofs about longest_dimension_first. *)
From Coq Require Import List ZArith Arith Bool Lia Permutation.
From Verif Require Import Base TreeModel MachModel LdfModel.
Import ListNotations.
Local Open Scope Z_scope.

(** Every step goes over its link from where the last one ended. *)
Fixpoint linked (m : machine) (p : xy) (l : list node) : Prop :=
  match l with
  | [] => True
  | (link, q) :: rest => q = over_link m p link /\ linked m q rest
  end.

Lemma last_xy_cons : forall p d q l, last_xy p ((d, q) :: l) = last_xy q l.
Proof.
  intros p d q l. unfold last_xy. destruct l as [|n l]; [reflexivity|].
  change (last ((d, q) :: n :: l) (0%nat, p)) with (last (n :: l) (0%nat, p)).
  assert (H : forall l (n a b : node), last (n :: l) a = last (n :: l) b).
  { clear. induction l as [|x l IH]; intros n a b; [reflexivity|].
    change (last (x :: l) a = last (x :: l) b). apply IH. }
  f_equal. apply H.
Qed.

Lemma last_xy_app : forall l p r, last_xy p (l ++ r) = last_xy (last_xy p l) r.
Proof.
  induction l as [|[d q] l IH]; intros p r; [reflexivity|].
  rewrite <- app_comm_cons, !last_xy_cons. apply IH.
Qed.

Lemma linked_app : forall m l p r, linked m p (l ++ r) <-> linked m p l /\ linked m (last_xy p l) r.
Proof.
  induction l as [|[d q] l IH]; intros p r.
  - cbn [app linked]. unfold last_xy. cbn [last snd]. tauto.
  - rewrite <- app_comm_cons, last_xy_cons. cbn [linked]. rewrite IH. tauto.
Qed.

Lemma steps_linked : forall m n link p, linked m p (steps m n link p).
Proof. induction n as [|n IH]; intros link p; cbn [steps linked]; [exact I|]. split; [reflexivity | apply IH]. Qed.

Lemma steps_length : forall m n link p, length (steps m n link p) = n.
Proof. induction n as [|n IH]; intros; cbn [steps length]; [reflexivity | rewrite IH; reflexivity]. Qed.

(** Coordinates as the machine counts them. *)
Definition place (m : machine) (p : xy) : xy :=
  (wrap (m_wrap_x m) (m_width m) (fst p), wrap (m_wrap_y m) (m_height m) (snd p)).

Lemma wrap_add : forall w s a b, wrap w s (wrap w s a + b) = wrap w s (a + b).
Proof. intros [|] s a b; unfold wrap; [apply Zplus_mod_idemp_l | reflexivity]. Qed.

Lemma wrap_idem : forall w s a, wrap w s (wrap w s a) = wrap w s a.
Proof. intros. pose proof (wrap_add w s a 0) as H. rewrite !Z.add_0_r in H. exact H. Qed.

Lemma steps_end : forall m n link p,
  place m (last_xy p (steps m n link p)) =
  place m (fst p + Z.of_nat n * fst (link_vector link), snd p + Z.of_nat n * snd (link_vector link)).
Proof.
  intros m n link. induction n as [|n IH]; intros p.
  - unfold last_xy. cbn [steps last snd]. unfold place. cbn [fst snd]. do 2 f_equal; lia.
  - cbn [steps]. rewrite last_xy_cons, IH. unfold place, over_link. cbn [fst snd]. f_equal.
    + rewrite wrap_add. f_equal. lia.
    + rewrite wrap_add. f_equal. lia.
Qed.

(** The displacement of a list of dimensions. *)
Definition disp (dm : nat * Z) : xy :=
  match fst dm with 0%nat => (snd dm, 0) | 1%nat => (0, snd dm) | _ => (- snd dm, - snd dm) end.

Definition sum_xy (l : list xy) : xy :=
  (fold_right (fun p a => fst p + a) 0 l, fold_right (fun p a => snd p + a) 0 l).

Lemma dim_disp : forall d mag, mag <> 0 ->
  (Z.of_nat (Z.to_nat (Z.abs mag)) * fst (link_vector (dim_link d mag)) = fst (disp (d, mag))) /\
  (Z.of_nat (Z.to_nat (Z.abs mag)) * snd (link_vector (dim_link d mag)) = snd (disp (d, mag))).
Proof.
  intros d mag H. rewrite Z2Nat.id by lia. unfold disp, dim_link. cbn [fst snd].
  destruct (0 <? mag) eqn:E; [apply Z.ltb_lt in E | apply Z.ltb_ge in E];
  destruct d as [|[|d]]; cbn [link_vector fst snd]; lia.
Qed.

Lemma vtn_spec : forall m dm p,
  linked m p (vector_to_nodes m dm p) /\
  length (vector_to_nodes m dm p) = fold_right (fun d a => (Z.to_nat (Z.abs (snd d)) + a)%nat) 0%nat dm /\
  place m (last_xy p (vector_to_nodes m dm p)) =
    place m (fst p + fst (sum_xy (map disp dm)), snd p + snd (sum_xy (map disp dm))).
Proof.
  intros m. induction dm as [|[d mag] dm IH]; intros p.
  - cbn [vector_to_nodes map]. unfold last_xy, sum_xy. cbn [linked length fold_right last fst snd].
    rewrite !Z.add_0_r. split; [exact I|]. split; [reflexivity|]. destruct p; reflexivity.
  - cbn [vector_to_nodes]. destruct (mag =? 0) eqn:E.
    + apply Z.eqb_eq in E. subst mag. destruct (IH p) as [A [B C]]. split; [exact A|]. split.
      * cbn [fold_right snd]. exact B.
      * rewrite C. unfold sum_xy, disp. cbn [map fold_right fst snd].
        destruct d as [|[|d]]; cbn [fst snd]; unfold place; cbn [fst snd]; do 2 f_equal; lia.
    + apply Z.eqb_neq in E.
      destruct (IH (last_xy p (steps m (Z.to_nat (Z.abs mag)) (dim_link d mag) p))) as [A [B C]].
      pose proof (steps_end m (Z.to_nat (Z.abs mag)) (dim_link d mag) p) as SE.
      destruct (dim_disp d mag E) as [D1 D2]. rewrite D1, D2 in SE.
      split; [|split].
      * apply linked_app. split; [apply steps_linked | exact A].
      * rewrite app_length, steps_length, B. reflexivity.
      * rewrite last_xy_app, C. unfold place in *. cbn [fst snd] in *.
        injection SE as S1 S2. unfold sum_xy. cbn [map fold_right fst snd]. unfold sum_xy. cbn [fst snd]. f_equal.
        -- rewrite <- wrap_add, S1, wrap_add. f_equal. lia.
        -- rewrite <- wrap_add, S2, wrap_add. f_equal. lia.
Qed.

Lemma insert_perm : forall d l, Permutation (insert_dim d l) (d :: l).
Proof.
  induction l as [|e l IH]; [apply Permutation_refl|]. cbn [insert_dim].
  destruct (Z.abs (snd e) <? Z.abs (snd d)); [apply Permutation_refl|].
  eapply Permutation_trans; [apply perm_skip; exact IH|]. apply perm_swap.
Qed.

Lemma sort_perm : forall l, Permutation (sort_dims l) l.
Proof.
  intros l. unfold sort_dims.
  assert (G : forall l a, Permutation (fold_left (fun acc d => insert_dim d acc) l a) (a ++ l)).
  { clear. induction l as [|d l IH]; intros a; cbn [fold_left]; [rewrite app_nil_r; apply Permutation_refl|].
    eapply Permutation_trans; [apply IH|].
    eapply Permutation_trans; [apply Permutation_app_tail; apply insert_perm|].
    cbn [app]. apply Permutation_middle. }
  exact (G l []).
Qed.

Lemma sum_perm : forall (f : xy -> Z) l l', Permutation l l' ->
  fold_right (fun p a => f p + a) 0 l = fold_right (fun p a => f p + a) 0 l'.
Proof. induction 1; cbn [fold_right]; lia. Qed.

Lemma len_perm : forall l l' : list (nat * Z), Permutation l l' ->
  fold_right (fun d a => (Z.to_nat (Z.abs (snd d)) + a)%nat) 0%nat l =
  fold_right (fun d a => (Z.to_nat (Z.abs (snd d)) + a)%nat) 0%nat l'.
Proof. induction 1; cbn [fold_right]; lia. Qed.

Lemma ldf_spec : forall m x y z p,
  let l := longest_dimension_first m (x, y, z) p in
  linked m p l /\
  Z.of_nat (length l) = Z.abs x + Z.abs y + Z.abs z /\
  place m (last_xy p l) = place m (fst p + x - z, snd p + y - z).
Proof.
  intros m x y z p l. unfold l, longest_dimension_first.
  pose proof (sort_perm [(0%nat, x); (1%nat, y); (2%nat, z)]) as P.
  destruct (vtn_spec m (sort_dims [(0%nat, x); (1%nat, y); (2%nat, z)]) p) as [A [B C]].
  split; [exact A|]. split.
  - rewrite B, (len_perm _ _ P). cbn [fold_right snd]. lia.
  - rewrite C. unfold sum_xy.
    pose proof (Permutation_map disp P) as PD.
    cbn [fst snd].
    assert (E1 : fold_right (fun (p : xy) (a : Z) => fst p + a) 0 (map disp (sort_dims [(0%nat, x); (1%nat, y); (2%nat, z)])) = x - z).
    { rewrite (sum_perm fst _ _ PD). cbn [map fold_right disp fst snd]. lia. }
    assert (E2 : fold_right (fun (p : xy) (a : Z) => snd p + a) 0 (map disp (sort_dims [(0%nat, x); (1%nat, y); (2%nat, z)])) = y - z).
    { rewrite (sum_perm snd _ _ PD). cbn [map fold_right disp fst snd]. lia. }
    rewrite E1, E2.
    unfold place. cbn [fst snd]. do 2 f_equal; lia.
Qed.

(** A chip inside the machine is its own place. *)
Definition inside (m : machine) (p : xy) : Prop :=
  0 <= fst p < m_width m /\ 0 <= snd p < m_height m.

Lemma place_inside : forall m p, inside m p -> place m p = p.
Proof.
  intros m [a b] [H1 H2]. unfold place, wrap. cbn [fst snd] in *.
  destruct (m_wrap_x m), (m_wrap_y m); rewrite ?Z.mod_small by lia; reflexivity.
Qed.

Lemma linked_last_place : forall m l p, place m p = p -> linked m p l -> place m (last_xy p l) = last_xy p l.
Proof.
  intros m. induction l as [|[d q] l IH]; intros p P L.
  - unfold last_xy. cbn. exact P.
  - rewrite last_xy_cons. destruct L as [-> L]. apply IH; [|exact L].
    unfold place, over_link. cbn [fst snd]. rewrite !wrap_idem. reflexivity.
Qed.

(** If the vector leads from the start to a chip of the machine, so does the path. *)
Lemma ldf_reaches : forall m x y z p q, inside m p -> inside m q ->
  place m (fst p + x - z, snd p + y - z) = q ->
  let l := longest_dimension_first m (x, y, z) p in
  linked m p l /\ last_xy p l = q /\ Z.of_nat (length l) = Z.abs x + Z.abs y + Z.abs z.
Proof.
  intros m x y z p q Hp Hq H l. destruct (ldf_spec m x y z p) as [A [B C]]. fold l in A, B, C.
  split; [exact A|]. split; [|exact B].
  rewrite <- (linked_last_place m l p (place_inside m p Hp) A), C. exact H.
Qed.

(** The dimensions are used in the order of their size. *)
Lemma sorted_dims : forall l, (forall i j a b, (i <= j)%nat -> nth_error (sort_dims l) i = Some a ->
  nth_error (sort_dims l) j = Some b -> Z.abs (snd b) <= Z.abs (snd a)).
Proof.
  assert (S0 : forall l, (fix sorted l := match l with [] => True | a :: r =>
             (forall b, In b r -> Z.abs (snd b) <= Z.abs (@snd nat Z a)) /\ sorted r end) l ->
     forall i j a b, (i <= j)%nat -> nth_error l i = Some a -> nth_error l j = Some b -> Z.abs (snd b) <= Z.abs (snd a)).
  { induction l as [|c l IH]; intros S i j a b L A B; [destruct i; discriminate|]. destruct S as [S1 S2].
    destruct i as [|i].
    - cbn in A. injection A as ->. destruct j as [|j]; [cbn in B; injection B as ->; lia|].
      apply S1. cbn in B. apply nth_error_In in B. exact B.
    - destruct j as [|j]; [lia|]. cbn in A, B. apply (IH S2 i j); auto. lia. }
  intros l. apply S0. unfold sort_dims.
  assert (INS : forall d l, (fix sorted l := match l with [] => True | a :: r =>
             (forall b, In b r -> Z.abs (snd b) <= Z.abs (@snd nat Z a)) /\ sorted r end) l ->
      (fix sorted l := match l with [] => True | a :: r =>
             (forall b, In b r -> Z.abs (snd b) <= Z.abs (@snd nat Z a)) /\ sorted r end) (insert_dim d l)).
  { clear. intros d. induction l as [|e l IH]; intros S; [split; [intros b [] | exact I]|].
    cbn [insert_dim]. destruct (Z.abs (snd e) <? Z.abs (snd d)) eqn:E.
    - apply Z.ltb_lt in E. destruct S as [S1 S2]. split; [|split; [exact S1 | exact S2]].
      intros b [<-|H]; [lia|]. specialize (S1 b H). lia.
    - apply Z.ltb_ge in E. destruct S as [S1 S2]. split; [|exact (IH S2)].
      intros b H. apply (Permutation_in _ (insert_perm d l)) in H. destruct H as [<-|H]; [exact E | exact (S1 b H)]. }
  assert (G : forall l a, (fix sorted l := match l with [] => True | a :: r =>
             (forall b, In b r -> Z.abs (snd b) <= Z.abs (@snd nat Z a)) /\ sorted r end) a ->
      (fix sorted l := match l with [] => True | a :: r =>
             (forall b, In b r -> Z.abs (snd b) <= Z.abs (@snd nat Z a)) /\ sorted r end)
      (fold_left (fun acc d => insert_dim d acc) l a)).
  { clear - INS. induction l as [|d l IH]; intros a S; cbn [fold_left]; [exact S|]. apply IH. apply INS. exact S. }
  apply G. exact I.
Qed.

Lemma steps_links : forall m n link p, map fst (steps m n link p) = repeat link n.
Proof. induction n as [|n IH]; intros; cbn [steps map repeat fst]; [reflexivity | rewrite IH; reflexivity]. Qed.

Lemma vtn_links : forall m dm p, map fst (vector_to_nodes m dm p) =
  flat_map (fun d => repeat (dim_link (fst d) (snd d)) (Z.to_nat (Z.abs (snd d)))) dm.
Proof.
  intros m. induction dm as [|[d mag] dm IH]; intros p; [reflexivity|].
  cbn [vector_to_nodes flat_map fst snd]. destruct (mag =? 0) eqn:E.
  - apply Z.eqb_eq in E. subst mag. cbn [Z.abs Z.to_nat repeat app]. apply IH.
  - rewrite map_app, steps_links, IH. reflexivity.
Qed.

(** Which link leads along a dimension: x east or west, y north or south, z
    south-west or north-east. *)
Definition axis_link (dimension : nat) (positive : bool) : nat :=
  nth (if positive then dimension else dimension + 3) [0; 2; 4; 3; 5; 1]%nat 0%nat.

Lemma ldf_longest : forall m x y z p, exists d1 d2 d3,
  Permutation [d1; d2; d3] [(0%nat, x); (1%nat, y); (2%nat, z)] /\
  Z.abs (snd d2) <= Z.abs (snd d1) /\ Z.abs (snd d3) <= Z.abs (snd d2) /\
  map fst (longest_dimension_first m (x, y, z) p) =
    flat_map (fun d => repeat (axis_link (fst d) (0 <? snd d)) (Z.to_nat (Z.abs (snd d)))) [d1; d2; d3].
Proof.
  intros m x y z p.
  pose proof (sort_perm [(0%nat, x); (1%nat, y); (2%nat, z)]) as P.
  pose proof (sorted_dims [(0%nat, x); (1%nat, y); (2%nat, z)]) as S.
  unfold longest_dimension_first. rewrite vtn_links.
  remember (sort_dims [(0%nat, x); (1%nat, y); (2%nat, z)]) as l eqn:E. clear E.
  pose proof (Permutation_length P) as L.
  destruct l as [|d1 [|d2 [|d3 [|d4 l]]]]; try discriminate. exists d1, d2, d3. split; [exact P|].
  split; [apply (S 0 1)%nat; auto|]. split; [apply (S 1 2)%nat; auto|].
  assert (D : forall d, In d [d1; d2; d3] -> dim_link (fst d) (snd d) = axis_link (fst d) (0 <? snd d)).
  { intros d Hd. apply (Permutation_in _ P) in Hd. cbn [In] in Hd.
    destruct Hd as [<-|[<-|[<-|[]]]]; unfold dim_link, axis_link; cbn [fst snd];
    match goal with |- context [if ?c then _ else _] => destruct c end; reflexivity. }
  cbn [flat_map]. rewrite !D by (cbn; auto). reflexivity.
Qed.
