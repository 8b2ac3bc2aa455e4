(** In which order, and in how large blocks, the allocator hands out keys. *)
From Coq Require Import List Arith NArith Bool Lia Permutation Sorted.
From Verif Require Import Base Dict RouteSpec KeyMask UtilModel UtilProofs AllocModel AllocProofs.
Import ListNotations.
Local Open Scope N_scope.

(** As many bits as number the keys of each vertex of a partition, and the least such. *)
Definition enough_bits (e : graph_env) (a p : nat) (b : N) : Prop :=
  forall m, In m (ae_outgoing e a p) -> ae_n_keys e m p <= 2 ^ b.
Definition just_enough (e : graph_env) (a p : nat) (b : N) : Prop :=
  enough_bits e a p b /\ forall c, enough_bits e a p c -> b <= c.

(** [m] comes [n]th when the machine vertices [ms] are ordered by their first atom,
    those with the same first atom staying in order. *)
Definition comes_nth (e : graph_env) (ms : list nat) (m n : nat) : Prop :=
  exists l1 l2, ms = l1 ++ m :: l2 /\
    n = (length (filter (fun x => ae_lo_atom e x <=? ae_lo_atom e m)%N l1) +
         length (filter (fun x => ae_lo_atom e x <? ae_lo_atom e m)%N l2))%nat.

Lemma mask_of_pow : forall b, mask_of b = 2 ^ 32 - 2 ^ b.
Proof. intro b. unfold mask_of. pose proof (pow2_pos b). change (2 ^ 32) with 4294967296. lia. Qed.

Lemma enough_atom_bits : forall e a p b, enough_bits e a p b <-> atom_bits e a p <= b.
Proof.
  intros e a p b. unfold enough_bits, atom_bits. rewrite <- allocator_bits_least. split; intros H.
  - now apply max_keys_bound.
  - intros m Hm. pose proof (max_keys_le e a p m Hm). lia.
Qed.

Lemma just_atom_bits : forall e a p, just_enough e a p (atom_bits e a p).
Proof. intros e a p. split; [apply enough_atom_bits; lia|]. intros c. apply enough_atom_bits. Qed.

Lemma just_is : forall e a p b, just_enough e a p b -> b = atom_bits e a p.
Proof.
  intros e a p b [H1 H2]. destruct (just_atom_bits e a p) as [H3 H4].
  pose proof (H2 _ H3). pose proof (H4 _ H1). lia.
Qed.

Lemma insert_lo_sorted : forall e x l, StronglySorted (fun u v => ae_lo_atom e u <= ae_lo_atom e v) l ->
  StronglySorted (fun u v => ae_lo_atom e u <= ae_lo_atom e v) (insert_lo e x l).
Proof.
  intros e x. induction l as [|y l IH]; intros S; cbn [insert_lo]; [repeat constructor|].
  inversion S as [|? ? S' F]; subst. rewrite Forall_forall in F.
  destruct (N.leb_spec (ae_lo_atom e x) (ae_lo_atom e y)) as [L|L].
  - constructor; [exact S|]. apply Forall_forall. intros z [<-|Z]; [exact L|]. specialize (F z Z). lia.
  - constructor; [now apply IH|]. apply Forall_forall. intros z Z.
    apply (Permutation_in _ (Permutation_sym (insert_lo_perm e x l))) in Z. destruct Z as [<-|Z]; [lia|now apply F].
Qed.

Lemma sort_lo_sorted : forall e l, StronglySorted (fun u v => ae_lo_atom e u <= ae_lo_atom e v) (sort_lo e l).
Proof. intros e. induction l as [|x l IH]; [constructor|]. now apply insert_lo_sorted. Qed.

Lemma insert_lo_nth : forall e x l n m, Sorted.StronglySorted (fun u v => ae_lo_atom e u <= ae_lo_atom e v) l ->
  nth_error (insert_lo e x l) n = Some m ->
  m = x /\ n = length (filter (fun y => ae_lo_atom e y <? ae_lo_atom e x) l) \/
  nth_error l n = Some m /\ ae_lo_atom e m < ae_lo_atom e x \/
  exists n', n = S n' /\ nth_error l n' = Some m /\ ae_lo_atom e x <= ae_lo_atom e m.
Proof.
  intros e x. induction l as [|y l IH]; intros n m S H; cbn [insert_lo] in H.
  - destruct n as [|[|]]; try discriminate. injection H as <-. left. split; reflexivity.
  - inversion S as [|? ? S' F]; subst. destruct (N.leb_spec (ae_lo_atom e x) (ae_lo_atom e y)) as [L|L].
    + destruct n as [|n]; cbn [nth_error] in H.
      * injection H as <-. left. split; [reflexivity|]. cbn [filter].
        destruct (N.ltb_spec (ae_lo_atom e y) (ae_lo_atom e x)); [lia|].
        rewrite Forall_forall in F. clear - F L. induction l as [|z l IH]; [reflexivity|]. cbn [filter].
        destruct (N.ltb_spec (ae_lo_atom e z) (ae_lo_atom e x)) as [C|C];
          [specialize (F z (or_introl eq_refl)); lia|]. apply IH. intros w W. apply F. now right.
      * right. right. exists n. split; [reflexivity|]. split; [exact H|].
        destruct n as [|n]; cbn [nth_error] in H; [now injection H as <-|].
        rewrite Forall_forall in F. apply nth_error_In in H. specialize (F m H). lia.
    + destruct n as [|n]; cbn [nth_error] in H.
      * injection H as <-. right. left. split; [reflexivity|exact L].
      * destruct (IH n m S' H) as [(-> & ->)|[[H1 H2]|(n' & -> & H1 & H2)]].
        -- left. split; [reflexivity|]. cbn [filter]. destruct (N.ltb_spec (ae_lo_atom e y) (ae_lo_atom e x)); [reflexivity|lia].
        -- right. left. auto.
        -- right. right. exists (Datatypes.S n'). auto.
Qed.

Lemma sort_lo_nth : forall e l n m, nth_error (sort_lo e l) n = Some m -> comes_nth e l m n.
Proof.
  intros e. induction l as [|x l IH]; intros n m H; [destruct n; discriminate|].
  change (sort_lo e (x :: l)) with (insert_lo e x (sort_lo e l)) in H.
  apply insert_lo_nth in H; [|apply sort_lo_sorted].
  destruct H as [(-> & ->)|[[H1 H2]|(n' & -> & H1 & H2)]].
  - exists [], l. split; [reflexivity|]. cbn [filter length Nat.add].
    apply Permutation.Permutation_length.
    assert (G : forall (f : nat -> bool) a b, Permutation.Permutation a b -> Permutation.Permutation (filter f a) (filter f b)).
    { clear. intros f a b P. induction P; cbn [filter]; try (destruct (f x)); try (destruct (f y)); auto.
      - apply Permutation.perm_swap.
      - eapply Permutation.perm_trans; eauto. }
    apply G. apply Permutation.Permutation_sym, sort_lo_perm.
  - destruct (IH n m H1) as (l1 & l2 & -> & ->). exists (x :: l1), l2. split; [reflexivity|]. cbn [filter].
    destruct (N.leb_spec (ae_lo_atom e x) (ae_lo_atom e m)); [lia|reflexivity].
  - destruct (IH n' m H1) as (l1 & l2 & -> & ->). exists (x :: l1), l2. split; [reflexivity|]. cbn [filter].
    destruct (N.leb_spec (ae_lo_atom e x) (ae_lo_atom e m)); [reflexivity|lia].
Qed.


(** The machine vertices' blocks follow each other in the order of their atoms. *)
Lemma alloc_in_order : forall flexible e parts infos a p j,
  env_ok e parts -> allocate flexible e parts = Ok infos ->
  free_part e parts a p -> counted e a p -> is_app infos a p j ->
  exists b, enough_bits e a p b /\ (flexible = true -> just_enough e a p b) /\
    i_extra j = IApp (2 ^ 32 - 2 ^ b) b (N.of_nat (length (ae_outgoing e a p)) - 1) /\
    forall m i, is_mac infos e a p m i ->
      exists n, comes_nth e (ae_outgoing e a p) m n /\ i_extra i = IMac (N.of_nat n) /\
        i_km i = mkKM (km_key (i_km j) + N.of_nat n * 2 ^ b) (2 ^ 32 - 2 ^ b).
Proof.
  intros flexible e parts infos a p j EO H HF HC Hj.
  destruct (allocate_shape _ _ _ _ _ _ EO HF H) as (fixed & z' & used & aps & news & SH).
  destruct (sh_app _ _ _ _ _ _ _ _ _ SH a p j Hj) as (idx & nba & nbm & L1 & L2 & L3 & _).
  destruct (sh_free_app _ _ _ _ _ _ _ _ _ SH a p j HF Hj) as (idx' & J1 & J2 & _).
  assert (idx' = idx) by (eapply sh_index_fun; eauto). subst idx'.
  assert (X : atom_bits e a p <= nba /\ (flexible = true -> nba = atom_bits e a p)).
  { unfold field_sizes in L2. destruct flexible.
    - inversion L2; subst. split; [lia|]. auto.
    - destruct (N.leb_spec (atom_bits e a p) (z_atoms z')); inversion L2; subst; (split; [lia|discriminate]). }
  exists nba. split; [apply enough_atom_bits; lia|]. split.
  { intros F. rewrite (proj2 X F). apply just_atom_bits. }
  split; [rewrite <- mask_of_pow; exact L3|]. intros m i Hi.
  destruct (sh_free_mac _ _ _ _ _ _ _ _ _ EO SH a p m i HF HC Hi)
    as (idx2 & n & nba2 & nb & I1 & I2 & I3 & I4 & I5 & I6 & I7 & EK & _).
  assert (idx2 = idx) by (eapply sh_index_fun; eauto). subst idx2.
  assert (nba2 = nba) by congruence. subst nba2.
  exists n. split; [now apply sort_lo_nth|]. split; [exact I7|]. rewrite <- mask_of_pow, EK. f_equal.
  rewrite J2. cbn [km_key]. rewrite <- I3, lor_shiftl_add by exact I5. rewrite !N.shiftl_mul_pow2, N.pow_add_r.
  pose proof (pow2_pos nba). nia.
Qed.

(** In global mode one size of block is used for all partitions that do not need more. *)
Lemma alloc_global : forall e parts infos,
  env_ok e parts -> allocate false e parts = Ok infos ->
  exists c, forall a p j mask b mx, free_part e parts a p -> is_app infos a p j -> i_extra j = IApp mask b mx ->
    b = c \/ c < b /\ just_enough e a p b.
Proof.
  intros e parts infos EO H.
  destruct (existsb (fun ap => match ae_app_fixed e (fst ap) (snd ap) with None => true | Some _ => false end) parts) eqn:X.
  - apply existsb_exists in X. destruct X as ([a0 p0] & P0 & F0). cbn [fst snd] in F0.
    assert (FP : free_part e parts a0 p0) by (split; [exact P0|]; destruct (ae_app_fixed e a0 p0); congruence).
    destruct (allocate_shape _ _ _ _ _ _ EO FP H) as (fixed & z' & used & aps & news & SH).
    exists (z_atoms z'). intros a p j mask b mx HF Hj E.
    destruct (sh_app _ _ _ _ _ _ _ _ _ SH a p j Hj) as (idx & nba & nbm & L1 & L2 & L3 & _).
    rewrite L3 in E. injection E as _ <- _. unfold field_sizes in L2.
    destruct (N.leb_spec (atom_bits e a p) (z_atoms z')) as [L|L]; inversion L2; subst; [now left|].
    right. split; [exact L|apply just_atom_bits].
  - exists 0. intros a p j mask b mx [HI HN].
    assert (C : existsb (fun ap => match ae_app_fixed e (fst ap) (snd ap) with None => true | Some _ => false end) parts = true).
    { apply existsb_exists. exists (a, p). split; [exact HI|]. cbn [fst snd]. now rewrite HN. }
    congruence.
Qed.
