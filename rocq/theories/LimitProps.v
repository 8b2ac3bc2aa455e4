(** Property C213: limits of atoms per core that are not positive. *)
From Coq Require Import List ZArith Bool Lia.
From Verif Require Import Base Dict SdramModel SdramProofs SliceModel SliceProofs SliceProps
  SplitterModel SplitterProofs SplitterFinal.
Import ListNotations.
Local Open Scope Z_scope.

(** A negative limit is accepted, partitioning succeeds, and a vertex of five atoms has no
    machine vertices. *)
Theorem C213_no_vertices_refuted : exists a m,
  let w := run_on 3 1000 empty_world [NewVertex a (CLegacy (fun s => sl_n s)); NewSplitter FixedLegacy; SetSplitter 0 0] in
  let w1 := fst (set_max w 0 (Some m)) in
  let w2 := fst (partition 3 1000 w1) in
  av_n a = 5 /\ snd (set_max w 0 (Some m)) = None /\ snd (partition 3 1000 w1) = None /\
  option_map (fun x => (av_n (v_av x), length (v_mvs x))) (wv w2 0) = Some (5, 0%nat).
Proof. exists (mkAV 5 [5] (Some [2])), [-2]. vm_compute. auto. Qed.
Print Assumptions C213_no_vertices_refuted.

(** Two negative limits: there are slices, but of a negative size in each dimension, so
    that none has a point of the grid. *)
Theorem C213_no_points_refuted : exists v l, multi_slices v = Ok l /\ length l = 4%nat /\
  av_n v = prod (av_shape v) /\ Forall (fun a => 0 < a) (av_shape v) /\
  in_grid (av_shape v) [1; 1] /\ forall s g, In s l -> ~ in_slice g s.
Proof.
  exists (mkAV 16 [4; 4] (Some [-2; -2])). eexists. split; [vm_compute; reflexivity|]. split; [reflexivity|].
  split; [reflexivity|]. split; [repeat constructor|]. split; [repeat constructor; lia|].
  intros s g S0 I. unfold in_slice in I. cbn in S0.
  destruct S0 as [<-|[<-|[<-|[<-|[]]]]]; cbn in I; destruct g as [|x [|y [|? ?]]]; cbn in I; lia || tauto.
Qed.
Print Assumptions C213_no_points_refuted.

(** One dimension, every limit: the slices hold all atoms if the limit is positive; none
    are made if it is negative; 0 is a ZeroDivisionError. *)
Theorem C213_one_dimension_partial : forall n m, 0 < n ->
  (0 < m -> exists l, multi_slices (mkAV n [n] (Some [m])) = Ok l /\ tiles 0 l n) /\
  (m < 0 -> multi_slices (mkAV n [n] (Some [m])) = Ok []) /\
  (m = 0 -> multi_slices (mkAV n [n] (Some [m])) = Err ZeroDivision).
Proof.
  intros n m N. split; [|split].
  - intros M. destruct (C20_one_dimension (mkAV n [n] (Some [m])) n m) as (l & L & _ & T & _); [|reflexivity|reflexivity|].
    + split; [cbn; lia|]. split; repeat constructor; assumption.
    + exists l. auto.
  - intros M. unfold multi_slices, single_slices, get_max_per_dim, get_max_atoms_per_core, check_atoms_per_core.
    cbn [av_max av_shape av_n length Nat.eqb negb Nat.ltb Nat.leb bind prod fold_right].
    replace (n <? m * 1) with false by (symmetry; apply Z.ltb_ge; lia). cbn [aget nth_error bind]. unfold aget. cbn [nth_error bind].
    unfold ceil_div. replace (m =? 0) with false by (symmetry; apply Z.eqb_neq; lia). cbn [bind].
    replace (Z.to_nat (- (- n / m))) with 0%nat; [reflexivity|].
    assert (0 <= - n / m); [|lia]. replace (- n / m) with (n / - m); [apply Z.div_pos; lia|].
    rewrite <- (Z.div_opp_opp (- n) m) by lia. f_equal. lia.
  - intros ->. unfold multi_slices, single_slices, get_max_per_dim, get_max_atoms_per_core, check_atoms_per_core.
    cbn [av_max av_shape av_n length Nat.eqb negb Nat.ltb Nat.leb bind prod fold_right].
    replace (n <? 0 * 1) with false by (symmetry; apply Z.ltb_ge; lia). reflexivity.
Qed.
Print Assumptions C213_one_dimension_partial.

Lemma divisible_ok : forall mx shape, Forall2 (fun m d => m <> 0 /\ (m | d)) mx shape -> check_divisible mx shape = Ok tt.
Proof.
  intros mx shape H. induction H as [|m d mx shape [Z D] F IH]; cbn; [reflexivity|].
  replace (m =? 0) with false by (symmetry; apply Z.eqb_neq; exact Z).
  replace (d mod m =? 0) with true; [exact IH|]. symmetry. apply Z.eqb_eq. apply Z.mod_divide; assumption.
Qed.
Lemma numerators_sign : forall mx shape n, Forall2 (fun m d => m <> 0 /\ (m | d)) mx shape -> Forall (fun a => 0 < a) shape ->
  exists l k, numerators n (combine shape mx) = Ok (l, n * k) /\ (0 < k <-> 0 < prod mx) /\ (k < 0 <-> prod mx < 0).
Proof.
  intros mx shape n H. revert n. induction H as [|m d mx shape [Z [q Q]] F IH]; intros n P; cbn [combine numerators].
  - exists [], 1. rewrite Z.mul_1_r. cbn. split; [reflexivity | lia].
  - inversion P as [|? ? D P']; subst. unfold ceil_div. replace (m =? 0) with false by (symmetry; apply Z.eqb_neq; exact Z). cbn [bind].
    assert (E : - (- (q * m) / m) = q).
    { replace (- (q * m)) with ((- q) * m) by lia. rewrite Z.div_mul by exact Z. lia. }
    rewrite E. destruct (IH (n * q) P') as (l & k & -> & K1 & K2). cbn [bind]. eexists. exists (q * k).
    split; [rewrite Z.mul_assoc; reflexivity|]. cbn [prod fold_right]. fold (prod mx).
    assert (prod mx <> 0). { clear - F. induction F as [|a b mx shape [A _] F IH]; cbn; [lia|]. fold (prod mx). nia. }
    assert (k <> 0) by lia. split; split; intros; destruct (Z_lt_le_dec 0 m); nia.
Qed.

(** More dimensions: if an odd number of limits is negative, none are made. *)
Theorem C213_negative_partial : forall v mx, av_max v = Some mx -> (1 < length (av_shape v))%nat ->
  av_n v = prod (av_shape v) -> Forall (fun a => 0 < a) (av_shape v) ->
  Forall2 (fun m d => m <> 0 /\ (m | d)) mx (av_shape v) -> prod mx < 0 ->
  multi_slices v = Ok [].
Proof.
  intros v mx M L N P F NEG. assert (FL : length mx = length (av_shape v)) by (clear - F; induction F; cbn; congruence).
  assert (C : check_atoms_per_core v mx = Ok tt).
  { unfold check_atoms_per_core. rewrite FL, Nat.eqb_refl. cbn [negb]. apply Nat.ltb_lt in L. rewrite L. apply divisible_ok. exact F. }
  unfold multi_slices, get_max_per_dim, get_max_atoms_per_core. rewrite M, C. cbn [bind]. rewrite FL, Nat.eqb_refl. cbn [negb].
  replace (Nat.eqb (length (av_shape v)) 1) with false by (symmetry; apply Nat.eqb_neq; lia). 
  pose proof (prod_pos _ P). replace (av_n v <=? prod mx) with false by (symmetry; apply Z.leb_gt; lia).
  destruct (numerators_sign mx (av_shape v) 1 F P) as (l & k & -> & _ & K). cbn [bind].
  replace (Z.to_nat (1 * k)) with 0%nat by lia. reflexivity.
Qed.
Print Assumptions C213_negative_partial.

(** Positive limits: whenever slices are made they hold all atoms. *)
Theorem C213_positive_partial : forall v l, av_n v = prod (av_shape v) -> Forall (fun a => 0 < a) (av_shape v) ->
  Forall (fun m => 0 < m) (match av_max v with Some mx => mx | None => av_shape v end) ->
  multi_slices v = Ok l -> tiles 0 l (av_n v).
Proof.
  intros v l N P M E. assert (S0 : sized v) by (split; [exact N | split; [exact P | unfold limits; destruct (av_max v); exact M]]).
  destruct (C21_accepts_iff v S0) as [A _]. assert (X : splittable v) by (apply A; eauto).
  destruct (C21_partition v S0 X) as (l' & E' & T & _). congruence.
Qed.
Print Assumptions C213_positive_partial.
Example C213_example :
  multi_slices (mkAV 24 [6; 4] (Some [-3; 2])) = Ok [] /\ prod [-3; 2] < 0 /\ Forall2 (fun m d => m <> 0 /\ (m | d)) [-3; 2] [6; 4] /\
  (exists l, multi_slices (mkAV 24 [6; 4] (Some [3; 2])) = Ok l /\ length l = 4%nat).
Proof.
  split; [reflexivity|]. split; [reflexivity|]. split.
  - constructor; [split; [discriminate | exists (-2); reflexivity]|]. constructor; [split; [discriminate | exists 2; reflexivity] | constructor].
  - eexists. split; [vm_compute; reflexivity | reflexivity].
Qed.
