(** Proofs about SDRAM costs that are added up on a chip: which sums succeed, and
    how the total of a sum compares with that of another. *)
From Coq Require Import List ZArith QArith Qround Lqa Bool Lia Permutation.
From Verif Require Import Base Dict SdramModel SdramProofs.
Import ListNotations.
Local Open Scope Z_scope.

(** * Errors *)
Lemma merge_Err : forall other m x, merge_shared m other = Err x -> x = ConfigurationException.
Proof.
  induction other as [|[k v] r IH]; intros m x H; cbn [merge_shared] in H; [discriminate|].
  destruct (dget Nat.eqb m k) as [w|]; [destruct (eq v w); [|congruence]|]; eapply IH; exact H.
Qed.

Lemma add_Err : forall a b x, add a b = Err x -> x = ConfigurationException.
Proof.
  intros a b. revert a b. apply (phi_ind (fun a b => forall x, add a b = Err x -> x = ConfigurationException)).
  intros a b IH x H.
  assert (SW : (phi b a < phi a b)%nat -> add a b = add b a -> x = ConfigurationException).
  { intros L E. apply (IH b a L). now rewrite <- E. }
  rewrite add_eqn in H. destruct a as [z|f p|sh c|u], b as [z'|f' p'|sh' c'|u'];
    try (apply SW; [phi_lt|rewrite add_eqn; reflexivity]); try discriminate.
  - destruct (add c (Const z')) as [c2|y] eqn:E; cbn [bind] in H; [discriminate|]. injection H as <-.
    apply (IH c (Const z')); [phi_lt|exact E].
  - destruct (add c (Var f' p')) as [c2|y] eqn:E; cbn [bind] in H; [discriminate|]. injection H as <-.
    apply (IH c (Var f' p')); [phi_lt|exact E].
  - destruct (merge_shared sh sh') as [m|y] eqn:M; cbn [bind] in H.
    + destruct (add c c') as [c2|y] eqn:E; cbn [bind] in H; [discriminate|]. injection H as <-.
      apply (IH c c'); [phi_lt|exact E].
    + injection H as <-. eapply merge_Err; exact M.
  - apply (IH u (Const z')); [phi_lt|exact H].
  - apply (IH u (Var f' p')); [phi_lt|exact H].
  - apply (IH u (Shared sh' c')); [phi_lt|exact H].
  - apply (IH u (Multi u')); [phi_lt|exact H].
Qed.

Lemma total_Err : forall s t x, total t s = Err x -> x = ConfigurationException.
Proof.
  fix IH 1. intros [z|f p|sh c|u] t x H.
  - discriminate.
  - cbn [total] in H. destruct t; [discriminate|]. destruct (Qeq_bool p 0); congruence.
  - rewrite total_Shared in H. destruct (total t c) as [y|y] eqn:E; cbn [bind] in H.
    + clear E. revert y H. induction sh as [|(k, v) sh IHs]; intros y H; cbn [totals] in H; [discriminate|].
      destruct (total t v) as [w|w] eqn:E; cbn [bind] in H.
      * eapply IHs; exact H.
      * injection H as <-. apply (IH v t w E).
    + injection H as <-. apply (IH c t y E).
  - apply (IH u t x H).
Qed.

Section Sums.
Variable t : option Z.
(** The costs there are. *)
Variable U : sdram -> Prop.

(** Costs as a user makes them, with one value for each label, whose total can be
    had for this number of timesteps. *)
Record coherent : Prop := mkCoherent {
  co_wf : forall s, U s -> wf s;
  co_eq : forall s s' k v w, U s -> U s' -> In (k, v) (shared_of s) -> In (k, w) (shared_of s') -> eq v w = true;
  co_tot : forall s, U s -> exists z, total t s = Ok z }.

(** A cost put together from those. *)
Record from (s : sdram) : Prop := mkFrom {
  fr_wf : wf s;
  fr_in : forall k v, In (k, v) (shared_of s) -> exists s', U s' /\ In (k, v) (shared_of s');
  fr_tot : exists z, total t s = Ok z }.

Lemma U_from : coherent -> forall s, U s -> from s.
Proof.
  intros [C1 C2 C3] s H. constructor; [auto| |auto]. intros k v I. exists s. auto.
Qed.

Lemma zero_from : from (Const 0).
Proof. constructor; [exact I|intros k v []|]. exists 0. reflexivity. Qed.

(** The cost of its own, not shared. *)
Definition own (s : sdram) : Q :=
  (inject_Z (fixed (core_of s)) +
   match t with Some n => per_timestep (core_of s) * inject_Z n | None => 0 end)%Q.
Definition owns (l : list sdram) : Q := fold_right (fun s a => own s + a)%Q 0%Q l.
Definition has (k : nat) (s : sdram) : Prop := exists v, In (k, v) (shared_of s).

Lemma totals_Ok : forall l, (forall k v, In (k, v) l -> exists z, total t v = Ok z) ->
  exists z, forall acc, totals t l acc = Ok (acc + z).
Proof.
  induction l as [|(k, v) l IH]; intros H.
  - exists 0. intro acc. cbn [totals]. f_equal. lia.
  - destruct (H k v (or_introl eq_refl)) as (y & E). destruct IH as (z & Z).
    { intros k' v' I. apply (H k' v'). now right. }
    exists (y + z). intro acc. cbn [totals]. rewrite E. cbn [bind]. rewrite Z. f_equal. lia.
Qed.

Lemma totals_Ok_inv : forall l acc z, totals t l acc = Ok z ->
  forall k v, In (k, v) l -> exists y, total t v = Ok y.
Proof.
  induction l as [|(k, v) l IH]; intros acc z H k' v' I; [destruct I|]. cbn [totals] in H.
  destruct (total t v) as [y|y] eqn:E; cbn [bind] in H; [|discriminate].
  destruct I as [[= <- <-]|I]; [eauto|]. eapply IH; eassumption.
Qed.

(** The total of a cost is that of its own part and those of its shared parts. *)
Lemma own_cost : forall s z, cost t (fixed (core_of s)) (per_timestep (core_of s)) = Ok z -> z = Qceiling (own s).
Proof.
  intros s z H. unfold own. destruct t as [n|]; cbn [cost] in H.
  - injection H as <-. reflexivity.
  - destruct (Qeq_bool (per_timestep (core_of s)) 0); [|discriminate]. injection H as <-.
    rewrite <- (Qceiling_Z (fixed (core_of s))) at 1. apply Qceiling_comp. ring.
Qed.

Lemma total_own : forall s z, wf s -> total t s = Ok z ->
  cost t (fixed (core_of s)) (per_timestep (core_of s)) = Ok (Qceiling (own s)) /\
  totals t (shared_of s) (Qceiling (own s)) = Ok z.
Proof.
  intros s z W H. rewrite (total_wf s t W) in H.
  destruct (cost t (fixed (core_of s)) (per_timestep (core_of s))) as [x|x] eqn:E; cbn [bind] in H; [|discriminate].
  apply own_cost in E. subst x. auto.
Qed.

Lemma cost_add : forall a b c, add_ok a b (Ok c) -> forall x y,
  cost t (fixed (core_of a)) (per_timestep (core_of a)) = Ok x ->
  cost t (fixed (core_of b)) (per_timestep (core_of b)) = Ok y ->
  exists z, cost t (fixed (core_of c)) (per_timestep (core_of c)) = Ok z.
Proof.
  intros a b c (_ & _ & F & G) x y A B. destruct t as [n|]; cbn [cost] in *; [eauto|].
  destruct (Qeq_bool (per_timestep (core_of a)) 0) eqn:EA; [|discriminate].
  destruct (Qeq_bool (per_timestep (core_of b)) 0) eqn:EB; [|discriminate].
  apply Qeq_bool_iff in EA, EB.
  replace (Qeq_bool (per_timestep (core_of c)) 0) with true; [eauto|].
  symmetry. apply Qeq_bool_iff. rewrite G, EA, EB. reflexivity.
Qed.

Lemma own_add : forall a b c, add_ok a b (Ok c) -> (own c == own a + own b)%Q.
Proof.
  intros a b c (_ & _ & F & G). unfold own. rewrite F, inject_Z_plus. destruct t as [n|]; [|ring].
  rewrite G. ring.
Qed.

Lemma add_from : coherent -> forall a b, from a -> from b -> exists c, add a b = Ok c /\ from c.
Proof.
  intros CO a b [A1 A2 (za & A3)] [B1 B2 (zb & B3)]. pose proof (add_wf a b A1 B1) as AO.
  destruct (add a b) as [c|x].
  - exists c. split; [reflexivity|]. pose proof AO as (C & J & _). constructor.
    + exact C.
    + intros k v I. destruct (j_from _ _ _ J k v I); auto.
    + destruct (total_own a za A1 A3) as (CA & TA). destruct (total_own b zb B1 B3) as (CB & TB).
      destruct (cost_add a b c AO _ _ CA CB) as (x & X). rewrite (total_wf c t C), X. cbn [bind].
      destruct (totals_Ok (shared_of c)) as (z & Z); [|eauto]. intros k v I.
      destruct (j_from _ _ _ J k v I) as [H|H].
      * eapply totals_Ok_inv; [exact TA|exact H].
      * eapply totals_Ok_inv; [exact TB|exact H].
  - exfalso. destruct AO as (_ & k & v & w & H & E).
    destruct H as [(H1 & H2)|(H1 & H2)].
    + destruct (A2 k v H1) as (s1 & S1 & I1). destruct (B2 k w H2) as (s2 & S2 & I2).
      rewrite (co_eq CO s1 s2 k v w S1 S2 I1 I2) in E. discriminate.
    + destruct (B2 k v H1) as (s1 & S1 & I1). destruct (A2 k w H2) as (s2 & S2 & I2).
      rewrite (co_eq CO s1 s2 k v w S1 S2 I1 I2) in E. discriminate.
Qed.

Lemma fold_from : coherent -> forall l a, from a -> Forall from l -> exists r, foldM add a l = Ok r /\ from r.
Proof.
  intros CO. induction l as [|s l IH]; intros a A F; cbn [foldM]; [eauto|].
  pose proof (Forall_inv F) as S1. pose proof (Forall_inv_tail F) as S2.
  destruct (add_from CO a s A S1) as (c & -> & C). cbn [bind]. apply IH; assumption.
Qed.

Lemma sum_from_ok : coherent -> forall l, Forall from l -> exists r, sum l = Ok r /\ from r.
Proof. intros CO l F. apply fold_from; [exact CO|exact zero_from|exact F]. Qed.

(** * Comparing *)

(** A cost that is at least that of a list: at least as much of its own, and the
    same labels. *)
Record below (l : list sdram) (s : sdram) : Prop := mkBelow {
  be_own : (owns l <= own s)%Q;
  be_lab : forall k, (exists s', In s' l /\ has k s') <-> has k s }.

Lemma owns_app : forall a b, (owns (a ++ b) == owns a + owns b)%Q.
Proof.
  unfold owns. induction a as [|s a IH]; intro b; cbn [app fold_right]; [ring|]. rewrite IH. ring.
Qed.

Lemma own_zero : (own (Const 0) == 0)%Q.
Proof. unfold own. cbn [core_of fixed per_timestep]. destruct t; unfold inject_Z; ring. Qed.

Lemma below_nil : below [] (Const 0).
Proof.
  constructor.
  - rewrite own_zero. cbn. lra.
  - intro k. split; [intros (s & [] & _)|intros (v & [])].
Qed.

Lemma below_one : forall s, below [s] s.
Proof.
  intro s. constructor.
  - cbn [owns fold_right]. lra.
  - intro k. split; [intros (s' & [<-|[]] & H); exact H|]. intro H. exists s. split; [now left|exact H].
Qed.

Lemma has_add : forall a b c, add_ok a b (Ok c) -> forall k, has k c <-> has k a \/ has k b.
Proof.
  intros a b c (_ & J & _) k. split.
  - intros (v & I). destruct (j_from _ _ _ J k v I) as [H|H]; [left|right]; exists v; exact H.
  - intros H. assert (X : exists v, In (k, v) (shared_of a) \/ In (k, v) (shared_of b))
      by (destruct H as [(v & H)|(v & H)]; eauto).
    destruct X as (v & X). destruct (j_to _ _ _ J k v X) as (w & I & _). exists w. exact I.
Qed.

Lemma below_add_ok : forall l m a b c, add_ok a b (Ok c) -> below l a -> below m b -> below (l ++ m) c.
Proof.
  intros l m a b c AO [L1 L2] [M1 M2]. constructor.
  - rewrite owns_app, (own_add a b c AO). lra.
  - intro k. rewrite (has_add a b c AO), <- L2, <- M2. split.
    + intros (s & I & H). apply in_app_iff in I. destruct I as [I|I]; [left|right]; exists s; auto.
    + intros [(s & I & H)|(s & I & H)]; exists s; (split; [apply in_app_iff; auto|exact H]).
Qed.

Lemma below_add : forall l m a b c, wf a -> wf b -> add a b = Ok c -> below l a -> below m b -> below (l ++ m) c.
Proof.
  intros l m a b c A B E L M. pose proof (add_wf a b A B) as AO. rewrite E in AO.
  eapply below_add_ok; eassumption.
Qed.

Lemma below_add_rev : forall l m a b c, wf a -> wf b -> add b a = Ok c -> below l a -> below m b -> below (l ++ m) c.
Proof.
  intros l m a b c A B E L M. pose proof (add_wf b a B A) as AO. rewrite E in AO. apply add_ok_sym in AO.
  eapply below_add_ok; eassumption.
Qed.

Lemma below_fold : forall l a r m, wf a -> Forall wf l -> foldM add a l = Ok r -> below m a -> below (m ++ l) r.
Proof.
  induction l as [|s l IH]; intros a r m A F E B; cbn [foldM] in E.
  - injection E as <-. now rewrite app_nil_r.
  - pose proof (Forall_inv F) as S1. pose proof (Forall_inv_tail F) as S2.
    destruct (add a s) as [c|x] eqn:AD; cbn [bind] in E; [|discriminate].
    replace (m ++ s :: l) with ((m ++ [s]) ++ l) by (rewrite <- app_assoc; reflexivity).
    apply (IH c).
    + pose proof (add_wf a s A S1) as AO. rewrite AD in AO. apply AO.
    + exact S2.
    + exact E.
    + eapply below_add; [exact A|exact S1|exact AD|exact B|apply below_one].
Qed.

Lemma below_sum : forall l r, Forall wf l -> sum l = Ok r -> below l r.
Proof. intros l r F E. apply (below_fold l (Const 0) r [] I F E below_nil). Qed.

(** What a sum has of its own is the sum of what its parts have. *)
Lemma own_fold : forall l a r, wf a -> Forall wf l -> foldM add a l = Ok r -> wf r /\ (own r == own a + owns l)%Q.
Proof.
  induction l as [|s l IH]; intros a r A F E; cbn [foldM] in E.
  - injection E as <-. split; [exact A|]. cbn. lra.
  - pose proof (Forall_inv F) as S1. pose proof (Forall_inv_tail F) as S2.
    destruct (add a s) as [c|x] eqn:AD; cbn [bind] in E; [|discriminate].
    pose proof (add_wf a s A S1) as AO. rewrite AD in AO.
    destruct (IH c r) as (R1 & R2); [apply AO|exact S2|exact E|]. split; [exact R1|].
    rewrite R2, (own_add a s c AO). cbn [owns fold_right]. fold (owns l). ring.
Qed.

(** Parts with the same label cost the same. *)
Lemma from_same : coherent -> forall a b, from a -> from b -> forall k v w,
  In (k, v) (shared_of a) -> In (k, w) (shared_of b) -> same_cost v w.
Proof.
  intros CO a b [A1 A2 A3] [B1 B2 B3] k v w HA HB. destruct (A2 k v HA) as (s1 & S1 & I1). destruct (B2 k w HB) as (s2 & S2 & I2).
  apply eq_plain.
  - apply (proj2 (shared_wf a A1) k v HA).
  - apply (proj2 (shared_wf b B1) k w HB).
  - apply (co_eq CO s1 s2 k); assumption.
Qed.

Lemma totals_le : forall l a b x, a <= b -> totals t l b = Ok x -> exists y, totals t l a = Ok y /\ y <= x.
Proof.
  induction l as [|(k, v) l IH]; intros a b x L H; cbn [totals] in *.
  - injection H as <-. eauto.
  - destruct (total t v) as [y|y]; cbn [bind] in *; [|discriminate]. apply (IH (a + y) (b + y)); [lia|exact H].
Qed.

Lemma below_le : coherent -> forall l s, Forall from l -> from s -> below l s ->
  exists r x y, sum l = Ok r /\ total t r = Ok x /\ total t s = Ok y /\ x <= y.
Proof.
  intros CO l s F S [B1 B2]. destruct (sum_from_ok CO l F) as (r & E & R).
  destruct (fr_tot r R) as (x & X). destruct (fr_tot s S) as (y & Y).
  exists r, x, y. split; [exact E|]. split; [exact X|]. split; [exact Y|].
  assert (FW : Forall wf l) by (eapply Forall_impl; [|exact F]; intros a H; apply H).
  pose proof (below_sum l r FW E) as [_ L2].
  destruct (own_fold l (Const 0) r I FW E) as (_ & OW). rewrite own_zero in OW.
  destruct (total_own r x (fr_wf r R) X) as (_ & TX). destruct (total_own s y (fr_wf s S) Y) as (_ & TY).
  assert (AG : agree (shared_of r) (shared_of s)).
  { split; intros k v H.
    - assert (K : has k s) by (apply B2, L2; exists v; exact H). destruct K as (w & K). exists w. split; [exact K|].
      apply (from_same CO r s R S k); assumption.
    - assert (K : has k r) by (apply L2, B2; exists v; exact H). destruct K as (w & K). exists w. split; [exact K|].
      apply (from_same CO s r S R k); assumption. }
  destruct (shared_wf r (fr_wf r R)) as (N1 & P1). destruct (shared_wf s (fr_wf s S)) as (N2 & P2).
  rewrite (agree_totals t _ (shared_of s) _ N1 N2 P1 P2 AG) in TX.
  assert (LE : Qceiling (own r) <= Qceiling (own s)) by (apply Qceiling_resp_le; lra).
  destruct (totals_le _ _ _ _ LE TY) as (z & Z1 & Z2). congruence.
Qed.

(** * More costs cost more *)

(** No part is negative. *)
Definition parts_nonneg (s : sdram) : Prop :=
  (0 <= own s)%Q /\ forall k v z, In (k, v) (shared_of s) -> total t v = Ok z -> 0 <= z.

Lemma totals_cons_Ok : forall l acc x, totals t l acc = Ok x -> forall d, totals t l (acc + d) = Ok (x + d).
Proof.
  induction l as [|(k, v) l IH]; intros acc x H d; cbn [totals] in *.
  - injection H as <-. reflexivity.
  - destruct (total t v) as [y|y]; cbn [bind] in *; [|discriminate].
    replace (acc + d + y) with (acc + y + d) by lia. apply IH, H.
Qed.

Lemma totals_grow : forall a b x y acc, NoDup (map fst a) -> NoDup (map fst b) -> plain_vals a -> plain_vals b ->
  (forall k v, In (k, v) a -> exists w, In (k, w) b /\ same_cost v w) ->
  (forall k v z, In (k, v) b -> total t v = Ok z -> 0 <= z) ->
  totals t a acc = Ok x -> totals t b acc = Ok y -> x <= y.
Proof.
  induction a as [|(k, v) a IH]; intros b x y acc NA NB PA PB SUB NN HA HB.
  - cbn [totals] in HA. injection HA as <-. clear - NN HB. revert acc HB.
    induction b as [|(k, v) b IH]; intros acc HB; cbn [totals] in HB; [injection HB as <-; lia|].
    destruct (total t v) as [z|z] eqn:E; cbn [bind] in HB; [|discriminate].
    pose proof (NN k v z (or_introl eq_refl) E).
    assert (acc + z <= y) by (apply IH; [intros k' v' z' I; apply (NN k' v' z'); now right|exact HB]). lia.
  - cbn [map fst] in NA. inversion NA as [|? ? NK NA']; subst.
    destruct (SUB k v (or_introl eq_refl)) as (w & I & SC).
    apply in_split in I. destruct I as (b1 & b2 & ->).
    assert (PV : plain v) by (apply (PA k v); now left).
    assert (PW : plain w) by (apply (PB k w), in_app_iff; right; now left).
    assert (PERM : Permutation (b1 ++ (k, w) :: b2) ((k, w) :: b1 ++ b2)) by (symmetry; apply Permutation_middle).
    assert (NB2 : NoDup (map fst ((k, w) :: b1 ++ b2))).
    { eapply Permutation_NoDup; [|exact NB]. apply Permutation_map, PERM. }
    assert (HB2 : totals t ((k, w) :: b1 ++ b2) acc = Ok y).
    { rewrite <- HB. rewrite !totals_addup. apply addup_perm.
      - apply Permutation_map. symmetry. exact PERM.
      - intros e He. apply in_map_iff in He. destruct He as ((k', v') & E & _). eapply total_Err; exact E. }
    cbn [totals] in HA, HB2. rewrite <- (same_cost_total v w t PV PW SC) in HB2.
    destruct (total t v) as [z|z]; cbn [bind] in HA, HB2; [|discriminate].
    cbn [map fst] in NB2. inversion NB2 as [|? ? NK2 NB3]; subst.
    apply (IH (b1 ++ b2) x y (acc + z)); auto.
    + intros k' v' I. apply (PA k' v'). now right.
    + intros k' v' I. apply (PB k' v'). apply in_app_iff in I. apply in_app_iff. destruct I; auto. right. now right.
    + intros k' v' I. destruct (SUB k' v' (or_intror I)) as (w' & I' & S'). exists w'. split; [|exact S'].
      apply in_app_iff in I'. destruct I' as [I'|[[= <- _]|I']].
      * apply in_app_iff. auto.
      * exfalso. apply NK. apply in_map_iff. exists (k, v'). auto.
      * apply in_app_iff. auto.
    + intros k' v' z' I. apply (NN k' v' z'). apply in_app_iff in I. apply in_app_iff. destruct I; auto. right. now right.
Qed.

Definition kept_nonneg (s : sdram) : Prop :=
  forall k v z, In (k, v) (shared_of s) -> total t v = Ok z -> 0 <= z.

Lemma add_grow : coherent -> forall a b, from a -> from b -> kept_nonneg a -> parts_nonneg b ->
  exists c x z, add a b = Ok c /\ from c /\ kept_nonneg c /\ total t a = Ok x /\ total t c = Ok z /\ x <= z.
Proof.
  intros CO a b A B KA (NB1 & NB2). destruct (add_from CO a b A B) as (c & E & C).
  destruct (fr_tot a A) as (x & X). destruct (fr_tot c C) as (z & Z).
  exists c, x, z. split; [exact E|]. split; [exact C|].
  pose proof (add_wf a b (fr_wf a A) (fr_wf b B)) as AO. rewrite E in AO. pose proof AO as (_ & J & _).
  assert (KC : kept_nonneg c).
  { intros k v y I. destruct (j_from _ _ _ J k v I) as [H|H]; [apply (KA k v y H)|apply (NB2 k v y H)]. }
  split; [exact KC|]. split; [exact X|]. split; [exact Z|].
  destruct (total_own a x (fr_wf a A) X) as (_ & TX). destruct (total_own c z (fr_wf c C) Z) as (_ & TZ).
  assert (LE : Qceiling (own a) <= Qceiling (own c)) by (apply Qceiling_resp_le; rewrite (own_add a b c AO); lra).
  destruct (totals_le _ _ _ _ LE TZ) as (y & Y1 & Y2).
  destruct (shared_wf a (fr_wf a A)) as (N1 & P1). destruct (shared_wf c (fr_wf c C)) as (N2 & P2).
  pose proof (totals_grow (shared_of a) (shared_of c) x y (Qceiling (own a)) N1 N2 P1 P2
    (fun k v H => j_to _ _ _ J k v (or_introl H)) KC TX Y1). lia.
Qed.

Lemma fold_grow : coherent -> forall l a, from a -> kept_nonneg a -> Forall from l -> Forall parts_nonneg l ->
  exists r x z, foldM add a l = Ok r /\ total t a = Ok x /\ total t r = Ok z /\ x <= z.
Proof.
  intros CO. induction l as [|s l IH]; intros a A K F N; cbn [foldM].
  - destruct (fr_tot a A) as (x & X). exists a, x, x. split; [reflexivity|]. split; [exact X|]. split; [exact X|lia].
  - pose proof (Forall_inv F) as S1. pose proof (Forall_inv_tail F) as S2.
    pose proof (Forall_inv N) as N1. pose proof (Forall_inv_tail N) as N2.
    destruct (add_grow CO a s A S1 K N1) as (c & x & z & E & C & KC & X & Z & L). rewrite E. cbn [bind].
    destruct (IH c C KC S2 N2) as (r & x' & z' & R1 & R2 & R3 & R4). exists r, x, z'.
    split; [exact R1|]. split; [exact X|]. split; [exact R3|]. assert (x' = z) by congruence. lia.
Qed.

Lemma kept_sum : forall l r, Forall wf l -> Forall parts_nonneg l -> sum l = Ok r -> kept_nonneg r.
Proof.
  intros l r F N E. pose proof (sum_from l (Const 0) I F) as S. unfold sum in E. rewrite E in S.
  destruct S as (_ & [_ _ O _] & _). intros k v z H Z. destruct (O k v H) as (s & [<-|IS] & HS); [destruct HS|].
  rewrite Forall_forall in N. destruct (N s IS) as (_ & NS). eapply NS; eassumption.
Qed.

Lemma foldM_add_app : forall l m a, foldM add a (l ++ m) = let* b := foldM add a l in foldM add b m.
Proof.
  induction l as [|s l IH]; intros m a; cbn [app foldM bind]; [reflexivity|].
  destruct (add a s) as [b|x]; cbn [bind]; [apply IH|reflexivity].
Qed.

Lemma sum_app : forall l m, sum (l ++ m) = let* b := sum l in foldM add b m.
Proof. intros. apply foldM_add_app. Qed.

Lemma sum_snoc : forall l s, sum (l ++ [s]) = let* b := sum l in add b s.
Proof.
  intros. rewrite sum_app. destruct (sum l) as [b|x]; [|reflexivity]. cbn [bind foldM].
  destruct (add b s); reflexivity.
Qed.

Lemma sum_grow : coherent -> forall l m, Forall from l -> Forall from m ->
  Forall parts_nonneg l -> Forall parts_nonneg m ->
  exists a b x y, sum l = Ok a /\ sum (l ++ m) = Ok b /\ total t a = Ok x /\ total t b = Ok y /\ x <= y.
Proof.
  intros CO l m FL FM NL NM. destruct (sum_from_ok CO l FL) as (a & E & A).
  assert (FW : Forall wf l) by (eapply Forall_impl; [|exact FL]; intros s H; apply H).
  destruct (fold_grow CO m a A (kept_sum l a FW NL E) FM NM) as (b & x & y & B1 & B2 & B3 & B4).
  exists a, b, x, y. split; [exact E|]. split; [rewrite sum_app, E; exact B1|]. auto.
Qed.
End Sums.
