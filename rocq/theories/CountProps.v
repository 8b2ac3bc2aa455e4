(** Property C214: the chip counter when a request or a chip is out of the ordinary. *)
From Coq Require Import List ZArith Bool Lia.
From Verif Require Import Base SdramModel SdramProofs.
Import ListNotations.
Local Open Scope Z_scope.

(** The monitors leave no core: one chip is counted for any number of vertices that fit
    its SDRAM, since the number of free cores is -1 after the first and never 0. *)
Theorem C214_no_cores_refuted : forall n : nat, (0 < n)%nat -> exists pc ps l,
  pc = 0 /\ length l = n /\ Forall (fun x => 0 <= x <= ps) l /\ cc_chips (fold_left (add_core pc ps) l new_counter) = 1.
Proof.
  intros n N. exists 0, (100 * Z.of_nat n), (repeat 100 n). split; [reflexivity|]. split; [apply repeat_length|].
  split; [apply Forall_forall; intros x X; apply repeat_spec in X; lia|].
  destruct n as [|n]; [lia|]. cbn [repeat fold_left]. unfold add_core at 2. cbn [cc_cores cc_sdram cc_chips new_counter Z.eqb orb].
  assert (G : forall k c, cc_cores c < 0 -> 100 * Z.of_nat k <= cc_sdram c -> cc_chips (fold_left (add_core 0 (100 * Z.of_nat (S n))) (repeat 100 k) c) = cc_chips c).
  { induction k as [|k IH]; intros c C D; cbn [repeat fold_left]; [reflexivity|].
    assert (E : add_core 0 (100 * Z.of_nat (S n)) c 100 = mkCounter (cc_cores c - 1) (cc_sdram c - 100) (cc_chips c)).
    { unfold add_core. replace (cc_cores c =? 0) with false by (symmetry; apply Z.eqb_neq; lia).
      replace (cc_sdram c <? 100) with false by (symmetry; apply Z.ltb_ge; lia). reflexivity. }
    rewrite E, IH; cbn [cc_cores cc_sdram cc_chips]; lia. }
  rewrite G; cbn [cc_cores cc_sdram cc_chips]; lia.
Qed.
Print Assumptions C214_no_cores_refuted.

(** With a core for the application: whatever the requests (also larger than a chip), the
    chips counted hold the requests in their order, no chip has more vertices than cores,
    and each is within its SDRAM or holds only one vertex that is too large for any chip. *)
Theorem C214_packing_partial : forall pc ps l, 1 <= pc ->
  exists chips, Z.of_nat (length chips) = cc_chips (fold_left (add_core pc ps) l new_counter) /\ concat chips = l /\
    forall chip, In chip chips -> chip <> [] /\ Z.of_nat (length chip) <= pc /\
      (fold_right Z.add 0 chip <= ps \/ exists x, chip = [x] /\ ps < x).
Proof.
  intros pc ps l PC.
  set (good := fun chip => chip <> [] /\ Z.of_nat (length chip) <= pc /\ (fold_right Z.add 0 chip <= ps \/ exists x, chip = [x] /\ ps < x)).
  assert (ONE : forall x, good [x]).
  { intros x. split; [discriminate|]. split; [cbn; lia|]. destruct (Z_le_gt_dec x ps); [left; cbn; lia | right; exists x; split; [reflexivity | lia]]. }
  assert (SUM : forall a x, fold_right Z.add 0 (a ++ [x]) = fold_right Z.add 0 a + x).
  { induction a as [|b a IH]; intros x; cbn; [lia | rewrite IH; lia]. }
  assert (G : l = [] /\ fold_left (add_core pc ps) l new_counter = new_counter \/
    exists chips last, l = concat chips ++ last /\ (forall c, In c chips -> good c) /\ good last /\
      fold_left (add_core pc ps) l new_counter = mkCounter (pc - Z.of_nat (length last)) (ps - fold_right Z.add 0 last) (Z.of_nat (length chips) + 1)).
  { induction l as [|x l IH] using rev_ind; [left; auto|]. right. rewrite fold_left_app. cbn [fold_left].
    destruct IH as [[-> ->]|(chips & last & E & H & L & ->)].
    - exists [], [x]. split; [reflexivity|]. split; [intros c []|]. split; [apply ONE|].
      unfold add_core. cbn. f_equal; lia.
    - unfold add_core. cbn [cc_cores cc_sdram cc_chips].
      destruct ((pc - Z.of_nat (length last) =? 0) || (ps - fold_right Z.add 0 last <? x)) eqn:B; cbn [cc_cores cc_sdram cc_chips].
      + exists (chips ++ [last]), [x]. split; [rewrite concat_app; cbn; rewrite app_nil_r, E; reflexivity|].
        split; [intros c C; apply in_app_or in C; destruct C as [C|[<-|[]]]; auto|]. split; [apply ONE|].
        rewrite app_length. cbn. f_equal; lia.
      + apply orb_false_iff in B. destruct B as [B1 B2]. apply Z.eqb_neq in B1. apply Z.ltb_ge in B2.
        exists chips, (last ++ [x]). split; [rewrite E, app_assoc; reflexivity|]. split; [exact H|].
        rewrite SUM, app_length. cbn [length]. split.
        * destruct L as (L1 & L2 & _). split; [destruct last; discriminate|]. rewrite app_length. cbn [length]. split; [lia|]. left. rewrite SUM. lia.
        * f_equal; lia. }
  destruct G as [[-> E]|(chips & last & E & H & L & F)].
  - exists []. rewrite E. split; [reflexivity|]. split; [reflexivity | intros c []].
  - exists (chips ++ [last]). rewrite F. cbn [cc_chips]. rewrite app_length. cbn [length]. split; [lia|].
    split; [rewrite concat_app; cbn; rewrite app_nil_r, E; reflexivity|].
    intros c C. apply in_app_or in C. destruct C as [C|[<-|[]]]; [exact (H c C) | exact L].
Qed.
Print Assumptions C214_packing_partial.
Example C214_example : cc_chips (fold_left (add_core 3 100) [40; 500; 50; 20; 5; 5] new_counter) = 4 /\
  cc_chips (fold_left (add_core 0 100) [10; 10; 10; 10; 10] new_counter) = 1.
Proof. split; reflexivity. Qed.
