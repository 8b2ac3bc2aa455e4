(** Proofs about SDRAM costs and the chip counter. *)
From Coq Require Import List ZArith QArith Qround Bool Lia Permutation Setoid Morphisms.
From Verif Require Import Base Dict SdramModel.
Import ListNotations.
Local Open Scope Z_scope.

(** Values made only of constant, variable and multi-region SDRAM. *)
Fixpoint plain (s : sdram) : Prop :=
  match s with
  | Const _ | Var _ _ => True
  | Shared _ _ => False
  | Multi t => plain t
  end.

(** A value as a user makes it: shared SDRAM has distinct labels, and its parts
    are not themselves shared SDRAM. *)
Fixpoint wf (s : sdram) : Prop :=
  match s with
  | Const _ | Var _ _ => True
  | Shared sh c => plain c /\ NoDup (map fst sh) /\ (forall k v, In (k, v) sh -> plain v)
  | Multi t => wf t
  end.

(** What [get_total_sdram] must be for a fixed and a per-timestep cost. *)
Definition cost (t : option Z) (f : Z) (p : Q) : res Z :=
  match t with
  | Some n => Ok (Qceiling (inject_Z f + p * inject_Z n))
  | None => if Qeq_bool p 0 then Ok f else Err ConfigurationException
  end.

Lemma Qeq_bool_comp : forall a b c d, (a == b)%Q -> (c == d)%Q -> Qeq_bool a c = Qeq_bool b d.
Proof.
  intros a b c d H1 H2. apply Bool.eq_iff_eq_true.
  rewrite !Qeq_bool_iff, H1, H2. reflexivity.
Qed.

Lemma cost_comp : forall t f p q, (p == q)%Q -> cost t f p = cost t f q.
Proof.
  intros [n|] f p q H; cbn [cost].
  - f_equal. apply Qceiling_comp. rewrite H. reflexivity.
  - rewrite (Qeq_bool_comp p q 0 0 H (Qeq_refl 0)). reflexivity.
Qed.

Lemma cost_const : forall t z, cost t z 0 = Ok z.
Proof.
  intros [n|] z; cbn [cost].
  - f_equal. rewrite <- (Qceiling_Z z) at 2. apply Qceiling_comp.
    rewrite Qmult_0_l, Qplus_0_r. reflexivity.
  - reflexivity.
Qed.

Lemma total_plain : forall s t, plain s -> total t s = cost t (fixed s) (per_timestep s).
Proof.
  induction s as [z|f p|sh c IH|u IH]; intros t H; cbn [total fixed per_timestep].
  - symmetry. apply cost_const.
  - reflexivity.
  - destruct H.
  - apply IH. exact H.
Qed.

(** * The fuel of [add] is enough, so that [add] satisfies its equations. *)
Definition swaps (a b : sdram) : nat :=
  match a, b with
  | Const _, Const _ => 0
  | Const _, _ => 1
  | Var _ _, Shared _ _ | Var _ _, Multi _ => 1
  | Shared _ _, Multi _ => 1
  | _, _ => 0
  end%nat.
Definition phi (a b : sdram) : nat := (2 * (weight a + weight b) + swaps a b)%nat.

Lemma weight_pos : forall s, (1 <= weight s)%nat.
Proof. destruct s; cbn; lia. Qed.

Lemma swaps_le : forall a b, (swaps a b <= 1)%nat.
Proof. destruct a, b; cbn; lia. Qed.

Lemma add_fuel_irrel : forall n m a b, (phi a b <= n)%nat -> (phi a b <= m)%nat ->
  add_fuel n a b = add_fuel m a b.
Proof.
  induction n as [|n IH]; intros m a b Hn Hm.
  - exfalso. unfold phi in Hn. pose proof (weight_pos a). lia.
  - destruct m as [|m].
    { exfalso. unfold phi in Hm. pose proof (weight_pos a). lia. }
    assert (R : forall x y, (phi x y < phi a b)%nat -> add_fuel n x y = add_fuel m x y).
    { intros x y L. apply IH; lia. }
    destruct a as [z|f p|sh c|u], b as [z'|f' p'|sh' c'|u']; cbn [add_fuel]; try reflexivity;
      try (apply R; unfold phi; cbn [weight swaps]; try lia;
           match goal with |- context [swaps ?x ?y] => pose proof (swaps_le x y); lia end);
      try (rewrite R; [reflexivity|];
           unfold phi; cbn [weight swaps];
           match goal with |- context [swaps ?x ?y] => pose proof (swaps_le x y); lia end).
Qed.

Lemma add_fuel_add : forall n a b, (phi a b <= n)%nat -> add_fuel n a b = add a b.
Proof.
  intros n a b H. apply add_fuel_irrel; [exact H|].
  unfold phi. pose proof (swaps_le a b). lia.
Qed.

Lemma add_eqn : forall a b, add a b =
  match a, b with
  | Const x, Const y => Ok (Const (x + y))
  | Const _, _ => add b a
  | Var f p, Const y => Ok (Var (f + y) p)
  | Var f p, Var g q => Ok (Var (f + g) (Qplus p q))
  | Var _ _, _ => add b a
  | Shared sh c, Const _ | Shared sh c, Var _ _ =>
      let* c' := add c b in Ok (Shared sh c')
  | Shared sh c, Shared sh' c' =>
      let* m := merge_shared sh sh' in
      let* c2 := add c c' in Ok (Shared m c2)
  | Shared _ _, Multi _ => add b a
  | Multi t, _ => add t b
  end.
Proof.
  intros a b. unfold add at 1.
  assert (R : forall x y, (phi x y <= 2 * (weight a + weight b))%nat ->
            add_fuel (2 * (weight a + weight b)) x y = add x y)
    by (intros; apply add_fuel_add; assumption).
  destruct a as [z|f p|sh c|u], b as [z'|f' p'|sh' c'|u']; cbn [add_fuel]; try reflexivity;
    try (apply R; unfold phi; cbn [weight swaps]; try lia;
         match goal with |- context [swaps ?x ?y] => pose proof (swaps_le x y); lia end);
    try (rewrite R; [reflexivity|];
         unfold phi; cbn [weight swaps];
         match goal with |- context [swaps ?x ?y] => pose proof (swaps_le x y); lia end).
Qed.

Lemma phi_ind : forall P : sdram -> sdram -> Prop,
  (forall a b, (forall x y, (phi x y < phi a b)%nat -> P x y) -> P a b) -> forall a b, P a b.
Proof.
  intros P H a b. remember (phi a b) as n eqn:E. revert a b E.
  induction n as [n IH] using lt_wf_ind. intros a b E. apply H.
  intros x y L. apply (IH (phi x y)); [lia | reflexivity].
Qed.

Ltac phi_lt := unfold phi; cbn [weight swaps]; try lia;
  match goal with |- context [swaps ?x ?y] => pose proof (swaps_le x y); lia end.

Lemma add_plain : forall a b, plain a -> plain b ->
  exists c, add a b = Ok c /\ plain c /\ fixed c = fixed a + fixed b /\
            (per_timestep c == per_timestep a + per_timestep b)%Q.
Proof.
  apply (phi_ind (fun a b => plain a -> plain b ->
    exists c, add a b = Ok c /\ plain c /\ fixed c = fixed a + fixed b /\
            (per_timestep c == per_timestep a + per_timestep b)%Q)).
  intros a b IH Pa Pb. rewrite add_eqn.
  destruct a as [z|f p|sh c|u], b as [z'|f' p'|sh' c'|u']; cbn [plain] in Pa, Pb;
    try contradiction; cbn [fixed per_timestep].
  - eexists. split; [reflexivity|]. cbn. split; [exact I|]. split; [lia|]. reflexivity.
  - destruct (IH (Var f' p') (Const z)) as [c [E [C1 [C2 C3]]]]; [phi_lt|exact I|exact I|].
    exists c. cbn [fixed per_timestep] in *. split; [exact E|]. split; [exact C1|].
    split; [lia|]. rewrite C3. ring.
  - destruct (IH (Multi u') (Const z)) as [c [E [C1 [C2 C3]]]]; [phi_lt|exact Pb|exact I|].
    exists c. cbn [fixed per_timestep] in *. split; [exact E|]. split; [exact C1|].
    split; [lia|]. rewrite C3. ring.
  - eexists. split; [reflexivity|]. cbn. split; [exact I|]. split; [lia|]. ring.
  - eexists. split; [reflexivity|]. cbn. split; [exact I|]. split; [lia|]. reflexivity.
  - destruct (IH (Multi u') (Var f p)) as [c [E [C1 [C2 C3]]]]; [phi_lt|exact Pb|exact I|].
    exists c. cbn [fixed per_timestep] in *. split; [exact E|]. split; [exact C1|].
    split; [lia|]. rewrite C3. ring.
  - destruct (IH u (Const z')) as [c [E [C1 [C2 C3]]]]; [phi_lt|exact Pa|exact I|].
    exists c. cbn [fixed per_timestep] in *. auto.
  - destruct (IH u (Var f' p')) as [c [E [C1 [C2 C3]]]]; [phi_lt|exact Pa|exact I|].
    exists c. cbn [fixed per_timestep] in *. auto.
  - destruct (IH u (Multi u')) as [c [E [C1 [C2 C3]]]]; [phi_lt|exact Pa|exact Pb|].
    exists c. cbn [fixed per_timestep] in *. auto.
Qed.

(** * C39 *)
Lemma sum_parts : forall a b, plain a -> plain b ->
  exists c, add a b = Ok c /\ fixed c = fixed a + fixed b /\
            (per_timestep c == per_timestep a + per_timestep b)%Q /\
            forall t, total t c = cost t (fixed a + fixed b) (per_timestep a + per_timestep b).
Proof.
  intros a b Ha Hb. destruct (add_plain a b Ha Hb) as [c [E [P [F G]]]].
  exists c. split; [exact E|]. split; [exact F|]. split; [exact G|]. intros t.
  rewrite (total_plain c t P), F. apply cost_comp. exact G.
Qed.

Lemma ceil_add_bounds : forall x y : Q,
  (Qceiling (x + y) <= Qceiling x + Qceiling y <= Qceiling (x + y) + 1)%Z.
Proof.
  intros x y.
  pose proof (Qle_ceiling x) as X1. pose proof (Qle_ceiling y) as Y1.
  pose proof (Qle_ceiling (x + y)) as XY1.
  pose proof (Qceiling_lt x) as X2. pose proof (Qceiling_lt y) as Y2.
  pose proof (Qceiling_lt (x + y)) as XY2.
  split.
  - assert (inject_Z (Qceiling (x + y) - 1) < inject_Z (Qceiling x + Qceiling y))%Q as L.
    { eapply Qlt_le_trans; [exact XY2|]. rewrite inject_Z_plus. apply Qplus_le_compat; assumption. }
    rewrite <- Zlt_Qlt in L. lia.
  - assert (inject_Z ((Qceiling x - 1) + (Qceiling y - 1)) < inject_Z (Qceiling (x + y)))%Q as L.
    { eapply Qlt_le_trans; [|exact XY1]. rewrite inject_Z_plus.
      apply Qplus_lt_le_compat; [exact X2 | apply Qlt_le_weak; exact Y2]. }
    rewrite <- Zlt_Qlt in L. lia.
Qed.

Lemma cost_bounds : forall t f g p q x y,
  cost t f p = Ok x -> cost t g q = Ok y ->
  exists z, cost t (f + g) (p + q) = Ok z /\ z <= x + y <= z + 1.
Proof.
  intros [n|] f g p q x y H1 H2; cbn [cost] in *.
  - injection H1 as <-. injection H2 as <-. eexists. split; [reflexivity|].
    assert (E : Qceiling (inject_Z (f + g) + (p + q) * inject_Z n) =
                Qceiling ((inject_Z f + p * inject_Z n) + (inject_Z g + q * inject_Z n))).
    { apply Qceiling_comp. rewrite inject_Z_plus. ring. }
    rewrite E. apply ceil_add_bounds.
  - destruct (Qeq_bool p 0) eqn:Ep; [|discriminate].
    destruct (Qeq_bool q 0) eqn:Eq; [|discriminate].
    apply Qeq_bool_iff in Ep. apply Qeq_bool_iff in Eq.
    injection H1 as <-. injection H2 as <-.
    exists (f + g). split; [|lia].
    assert (E : (p + q == 0)%Q) by (rewrite Ep, Eq; reflexivity).
    apply Qeq_bool_iff in E. rewrite E. reflexivity.
Qed.

Lemma cost_integral : forall t f g p q x y i j,
  (p == inject_Z i)%Q -> (q == inject_Z j)%Q ->
  cost t f p = Ok x -> cost t g q = Ok y -> cost t (f + g) (p + q) = Ok (x + y).
Proof.
  intros t f g p q x y i j Hp Hq H1 H2.
  rewrite (cost_comp t f p _ Hp) in H1. rewrite (cost_comp t g q _ Hq) in H2.
  assert (E : (p + q == inject_Z (i + j))%Q) by (rewrite Hp, Hq, inject_Z_plus; reflexivity).
  rewrite (cost_comp t _ _ _ E).
  destruct t as [n|]; cbn [cost] in *.
  - rewrite <- inject_Z_mult, <- inject_Z_plus, Qceiling_Z in *.
    injection H1 as <-. injection H2 as <-. f_equal. ring.
  - destruct (Qeq_bool (inject_Z i) 0) eqn:Ei; [|discriminate].
    destruct (Qeq_bool (inject_Z j) 0) eqn:Ej; [|discriminate].
    apply Qeq_bool_iff in Ei. apply Qeq_bool_iff in Ej.
    injection H1 as <-. injection H2 as <-.
    assert (E0 : (inject_Z (i + j) == 0)%Q) by (rewrite inject_Z_plus, Ei, Ej; reflexivity).
    apply Qeq_bool_iff in E0. rewrite E0. reflexivity.
Qed.

Lemma total_bounds : forall a b c t x y, plain a -> plain b -> add a b = Ok c ->
  total t a = Ok x -> total t b = Ok y -> exists z, total t c = Ok z /\ z <= x + y <= z + 1.
Proof.
  intros a b c t x y Ha Hb E Hx Hy.
  destruct (sum_parts a b Ha Hb) as [c' [E' [_ [_ T]]]].
  assert (c' = c) by congruence. subst c'. rewrite T.
  rewrite total_plain in Hx, Hy by assumption. eapply cost_bounds; eassumption.
Qed.

Lemma total_integral : forall a b c t x y i j, plain a -> plain b -> add a b = Ok c ->
  (per_timestep a == inject_Z i)%Q -> (per_timestep b == inject_Z j)%Q ->
  total t a = Ok x -> total t b = Ok y -> total t c = Ok (x + y).
Proof.
  intros a b c t x y i j Ha Hb E Hi Hj Hx Hy.
  destruct (sum_parts a b Ha Hb) as [c' [E' [_ [_ T]]]].
  assert (c' = c) by congruence. subst c'. rewrite T.
  rewrite total_plain in Hx, Hy by assumption. eapply cost_integral; eassumption.
Qed.

Lemma add_comm_total : forall a b c d t, plain a -> plain b ->
  add a b = Ok c -> add b a = Ok d -> total t c = total t d.
Proof.
  intros a b c d t Ha Hb E1 E2.
  destruct (sum_parts a b Ha Hb) as [c' [E1' [_ [_ T1]]]].
  destruct (sum_parts b a Hb Ha) as [d' [E2' [_ [_ T2]]]].
  assert (c' = c) by congruence. assert (d' = d) by congruence. subst c' d'.
  rewrite T1, T2. rewrite (Z.add_comm (fixed b)). apply cost_comp. apply Qplus_comm.
Qed.

Lemma add_assoc_total : forall a b c ab bc l r t, plain a -> plain b -> plain c ->
  add a b = Ok ab -> add ab c = Ok l -> add b c = Ok bc -> add a bc = Ok r ->
  total t l = total t r.
Proof.
  intros a b c ab bc l r t Ha Hb Hc E1 E2 E3 E4.
  destruct (add_plain a b Ha Hb) as [ab' [E1' [P1 [F1 G1]]]].
  destruct (add_plain b c Hb Hc) as [bc' [E3' [P3 [F3 G3]]]].
  assert (ab' = ab) by congruence. assert (bc' = bc) by congruence. subst ab' bc'.
  destruct (sum_parts ab c P1 Hc) as [l' [E2' [_ [_ T1]]]].
  destruct (sum_parts a bc Ha P3) as [r' [E4' [_ [_ T2]]]].
  assert (l' = l) by congruence. assert (r' = r) by congruence. subst l' r'.
  rewrite T1, T2, F1, F3. rewrite Z.add_assoc. apply cost_comp. rewrite G1, G3. ring.
Qed.

(** * Equality *)
Definition same_cost (a b : sdram) : Prop :=
  fixed a = fixed b /\ (per_timestep a == per_timestep b)%Q.

Lemma same_cost_total : forall a b t, plain a -> plain b -> same_cost a b -> total t a = total t b.
Proof.
  intros a b t Ha Hb [F G]. rewrite !total_plain by assumption. rewrite F. apply cost_comp. exact G.
Qed.

Lemma same_cost_sym : forall a b, same_cost a b -> same_cost b a.
Proof. intros a b [F G]. split; [congruence | symmetry; exact G]. Qed.
Lemma same_cost_refl : forall a, same_cost a a.
Proof. intros a. split; reflexivity. Qed.
Lemma same_cost_trans : forall a b c, same_cost a b -> same_cost b c -> same_cost a c.
Proof. intros a b c [F G] [F' G']. split; [congruence | rewrite G; exact G']. Qed.

Lemma eq_plain : forall a b, plain a -> plain b -> eq a b = true -> same_cost a b.
Proof.
  induction a as [z|f p|sh c IH|u IH]; intros b Ha Hb E; cbn [plain] in Ha; try contradiction.
  - destruct b as [z'|f' p'|sh' c'|u']; cbn [eq] in E; try discriminate.
    apply Z.eqb_eq in E. subst. apply same_cost_refl.
  - destruct b as [z'|f' p'|sh' c'|u']; cbn [eq] in E; try discriminate;
      apply andb_prop in E; destruct E as [E1 E2].
    + apply Qeq_bool_iff in E1. apply Z.eqb_eq in E2. subst. split; [reflexivity | exact E1].
    + apply Z.eqb_eq in E1. apply Qeq_bool_iff in E2. subst. split; [reflexivity | symmetry; exact E2].
  - destruct b as [z'|f' p'|sh' c'|u']; cbn [eq] in E.
    + exact (IH (Const z') Ha I E).
    + exact (IH (Var f' p') Ha I E).
    + destruct Hb.
    + exact (IH u' Ha Hb E).
Qed.

(** ** Sums over the labels of a shared SDRAM *)
Fixpoint totals (t : option Z) (l : list (nat * sdram)) (acc : Z) : res Z :=
  match l with
  | [] => Ok acc
  | (_, x) :: l' => let* y := total t x in totals t l' (acc + y)
  end.

Lemma total_Shared : forall t sh c, total t (Shared sh c) =
  let* running := total t c in totals t sh running.
Proof.
  intros t sh c. cbn [total]. destruct (total t c) as [x|e]; cbn [bind]; [|reflexivity].
  revert x. induction sh as [|[k v] sh IH]; intros x; [reflexivity|].
  cbn [totals]. destruct (total t v) as [y|e]; cbn [bind]; [apply IH | reflexivity].
Qed.

Lemma cost_Err : forall t f p e, cost t f p = Err e -> e = ConfigurationException.
Proof.
  intros [n|] f p e; cbn [cost]; [discriminate|].
  destruct (Qeq_bool p 0); [discriminate | congruence].
Qed.

(** Adding up results, all failures being the same exception. *)
Fixpoint addup (l : list (res Z)) (acc : Z) : res Z :=
  match l with
  | [] => Ok acc
  | r :: l' => let* y := r in addup l' (acc + y)
  end.

Lemma totals_addup : forall t l acc, totals t l acc = addup (map (fun kv => total t (snd kv)) l) acc.
Proof.
  intros t. induction l as [|[k v] l IH]; intros acc; [reflexivity|].
  cbn [totals map addup snd]. destruct (total t v); [apply IH | reflexivity].
Qed.

Lemma addup_perm : forall l l', Permutation l l' ->
  (forall e, In (Err e) l -> e = ConfigurationException) -> forall acc, addup l acc = addup l' acc.
Proof.
  induction 1; intros HE acc; cbn [addup].
  - reflexivity.
  - destruct x as [y|e]; cbn [bind]; [|reflexivity]. apply IHPermutation.
    intros e He. apply HE. right; exact He.
  - destruct x as [x|e1], y as [y|e2]; cbn [bind]; try reflexivity.
    + f_equal. lia.
    + rewrite (HE e1), (HE e2); [reflexivity | left; reflexivity | right; left; reflexivity].
  - rewrite IHPermutation1 by exact HE. apply IHPermutation2.
    intros e He. apply HE. eapply Permutation_in; [apply Permutation_sym; exact H | exact He].
Qed.

Definition fixed_sum (l : list (nat * sdram)) : Z := fold_right (fun kv a => fixed (snd kv) + a) 0 l.
Definition per_sum (l : list (nat * sdram)) : Q :=
  fold_right (fun kv a => per_timestep (snd kv) + a)%Q 0%Q l.

Lemma fixed_Shared : forall sh c, fixed (Shared sh c) = fixed c + fixed_sum sh.
Proof.
  intros sh c. cbn [fixed]. generalize (fixed c) as a.
  induction sh as [|kv sh IH]; intros a; cbn [fold_left fixed_sum fold_right]; [lia|].
  rewrite IH. unfold fixed_sum. lia.
Qed.

Lemma per_Shared : forall sh c, (per_timestep (Shared sh c) == per_timestep c + per_sum sh)%Q.
Proof.
  intros sh c. cbn [per_timestep]. generalize (per_timestep c) as a.
  induction sh as [|kv sh IH]; intros a; cbn [fold_left per_sum fold_right]; [ring|].
  rewrite IH. unfold per_sum. ring.
Qed.

(** Two label tables that agree up to order and up to values of the same cost. *)
Definition agree (m m' : list (nat * sdram)) : Prop :=
  (forall k v, In (k, v) m -> exists w, In (k, w) m' /\ same_cost v w) /\
  (forall k v, In (k, v) m' -> exists w, In (k, w) m /\ same_cost v w).

Definition plain_vals (m : list (nat * sdram)) : Prop := forall k v, In (k, v) m -> plain v.

Lemma NoDup_map_keyed : forall {B} (f : nat * sdram -> nat * B) m,
  (forall kv, fst (f kv) = fst kv) -> NoDup (map fst m) -> NoDup (map f m).
Proof.
  intros B f m Hf. induction m as [|kv m IH]; intros H; cbn [map] in *; [constructor|].
  inversion H as [|? ? N D]; subst. constructor.
  - intros Hin. apply in_map_iff in Hin. destruct Hin as [kv' [E I']].
    apply N. apply in_map_iff. exists kv'. split; [|exact I'].
    rewrite <- (Hf kv'), <- (Hf kv), E. reflexivity.
  - apply IH. exact D.
Qed.

Lemma agree_perm : forall {B} (g : sdram -> B) m m',
  (forall v w, plain v -> plain w -> same_cost v w -> g v = g w) ->
  NoDup (map fst m) -> NoDup (map fst m') -> plain_vals m -> plain_vals m' -> agree m m' ->
  Permutation (map (fun kv => g (snd kv)) m) (map (fun kv => g (snd kv)) m').
Proof.
  intros B g m m' Hg N N' P P' [A1 A2].
  assert (Q : Permutation (map (fun kv : nat * sdram => (fst kv, g (snd kv))) m)
                          (map (fun kv : nat * sdram => (fst kv, g (snd kv))) m')).
  { apply NoDup_Permutation.
    - apply NoDup_map_keyed; [reflexivity | exact N].
    - apply NoDup_map_keyed; [reflexivity | exact N'].
    - intros [k b]. split; intros Hin; apply in_map_iff in Hin; destruct Hin as [[k' v] [E I']];
        cbn [fst snd] in E; injection E as -> <-.
      + destruct (A1 k v I') as [w [Iw Sw]]. apply in_map_iff. exists (k, w).
        cbn [fst snd]. split; [|exact Iw]. f_equal. symmetry. apply Hg; [eapply P|eapply P'|]; eassumption.
      + destruct (A2 k v I') as [w [Iw Sw]]. apply in_map_iff. exists (k, w).
        cbn [fst snd]. split; [|exact Iw]. f_equal. symmetry. apply Hg; [eapply P'|eapply P|]; eassumption. }
  apply (Permutation_map snd) in Q. rewrite !map_map in Q. exact Q.
Qed.

Lemma agree_totals : forall t m m' acc,
  NoDup (map fst m) -> NoDup (map fst m') -> plain_vals m -> plain_vals m' -> agree m m' ->
  totals t m acc = totals t m' acc.
Proof.
  intros t m m' acc N N' P P' A. rewrite !totals_addup. apply addup_perm.
  - apply (agree_perm (total t)); try assumption.
    intros v w Hv Hw S. apply same_cost_total; assumption.
  - intros e He. apply in_map_iff in He. destruct He as [[k v] [E I']]. cbn [snd] in E.
    rewrite total_plain in E by (eapply P; exact I'). eapply cost_Err; exact E.
Qed.

Lemma agree_fixed : forall m m',
  NoDup (map fst m) -> NoDup (map fst m') -> plain_vals m -> plain_vals m' -> agree m m' ->
  fixed_sum m = fixed_sum m'.
Proof.
  intros m m' N N' P P' A.
  pose proof (agree_perm fixed m m' (fun v w _ _ S => proj1 S) N N' P P' A) as Q.
  assert (E : forall l, fixed_sum l = fold_right Z.add 0 (map (fun kv => fixed (snd kv)) l)).
  { induction l as [|kv l IH]; [reflexivity|]. cbn [fixed_sum fold_right map].
    unfold fixed_sum in IH. rewrite IH. reflexivity. }
  rewrite !E. clear - Q. induction Q; cbn [fold_right]; lia.
Qed.

Lemma agree_per : forall m m',
  NoDup (map fst m) -> NoDup (map fst m') -> plain_vals m -> plain_vals m' -> agree m m' ->
  (per_sum m == per_sum m')%Q.
Proof.
  intros m m' N N' P P' A.
  assert (Q : Permutation (map (fun kv => Qred (per_timestep (snd kv))) m)
                          (map (fun kv => Qred (per_timestep (snd kv))) m')).
  { apply (agree_perm (fun v => Qred (per_timestep v))); try assumption.
    intros v w _ _ [_ S]. apply Qred_complete. exact S. }
  assert (E : forall l, (per_sum l == fold_right Qplus 0%Q (map (fun kv => Qred (per_timestep (snd kv))) l))%Q).
  { induction l as [|kv l IH]; [reflexivity|]. cbn [per_sum fold_right map].
    unfold per_sum in IH. rewrite IH, Qred_correct. reflexivity. }
  rewrite !E. clear - Q. induction Q; cbn [fold_right].
  - reflexivity.
  - rewrite IHQ. reflexivity.
  - ring.
  - rewrite IHQ1. exact IHQ2.
Qed.

(** [a == b] for two values with shared parts. *)
Fixpoint eq_all (sh' l : list (nat * sdram)) : bool :=
  match l with
  | [] => true
  | (k, x) :: l' =>
      match dget Nat.eqb sh' k with
      | Some y => eq x y && eq_all sh' l'
      | None => false
      end
  end.

Lemma eq_Shared : forall sh c sh' c', eq (Shared sh c) (Shared sh' c') =
  eq c c' && (Nat.eqb (length sh) (length sh') && eq_all sh' sh).
Proof.
  intros sh c sh' c'. cbn [eq]. f_equal. f_equal.
  induction sh as [|[k v] sh IH]; [reflexivity|]. cbn [eq_all].
  destruct (dget Nat.eqb sh' k) as [y|]; [|reflexivity]. f_equal. exact IH.
Qed.

Lemma eq_all_In : forall sh' l, eq_all sh' l = true ->
  forall k v, In (k, v) l -> exists w, In (k, w) sh' /\ eq v w = true.
Proof.
  intros sh'. induction l as [|[k0 v0] l IH]; intros H k v Hin; cbn [eq_all] in H; [destruct Hin|].
  destruct (dget Nat.eqb sh' k0) as [y|] eqn:D; [|discriminate].
  apply andb_prop in H. destruct H as [H1 H2]. destruct Hin as [E|Hin].
  - injection E as <- <-. exists y. split; [|exact H1].
    eapply dget_In; [exact Nat.eqb_eq | exact D].
  - exact (IH H2 k v Hin).
Qed.

Lemma eq_all_agree : forall sh sh', NoDup (map fst sh) -> NoDup (map fst sh') ->
  plain_vals sh -> plain_vals sh' -> length sh = length sh' -> eq_all sh' sh = true -> agree sh sh'.
Proof.
  intros sh sh' N N' P P' L E.
  assert (A1 : forall k v, In (k, v) sh -> exists w, In (k, w) sh' /\ same_cost v w).
  { intros k v Hin. destruct (eq_all_In _ _ E k v Hin) as [w [Iw Ew]].
    exists w. split; [exact Iw|]. apply eq_plain; [eapply P | eapply P' |]; eassumption. }
  split; [exact A1|].
  intros k v Hin.
  assert (K : incl (map fst sh') (map fst sh)).
  { apply NoDup_length_incl; [exact N | rewrite !map_length; lia |].
    intros k0 H0. apply in_map_iff in H0. destruct H0 as [[k1 v1] [E1 I1]]. cbn in E1. subst k1.
    destruct (A1 _ _ I1) as [w [Iw _]]. apply in_map_iff. exists (k0, w). auto. }
  assert (Hk : In k (map fst sh)) by (apply K; apply in_map_iff; exists (k, v); auto).
  apply in_map_iff in Hk. destruct Hk as [[k1 v1] [E1 I1]]. cbn in E1. subst k1.
  exists v1. split; [exact I1|]. destruct (A1 _ _ I1) as [w [Iw Sw]].
  assert (w = v).
  { apply (dget_Some_iff _ Nat.eqb_eq sh' k) in Iw; [|exact N'].
    apply (dget_Some_iff _ Nat.eqb_eq sh' k) in Hin; [|exact N']. congruence. }
  subst w. apply same_cost_sym. exact Sw.
Qed.

Lemma eq_total : forall a b, wf a -> wf b -> eq a b = true ->
  same_cost a b /\ forall t, total t a = total t b.
Proof.
  induction a as [z|f p|sh c IH|u IH]; intros b Ha Hb E.
  - destruct b as [z'|f' p'|sh' c'|u']; cbn [eq] in E; try discriminate.
    apply Z.eqb_eq in E. subst. split; [apply same_cost_refl | reflexivity].
  - destruct b as [z'|f' p'|sh' c'|u'];
      try (cbn [eq] in E; discriminate).
    + assert (S := eq_plain (Var f p) (Const z') I I E). split; [exact S|].
      intros t. apply same_cost_total; [exact I | exact I | exact S].
    + assert (S := eq_plain (Var f p) (Var f' p') I I E). split; [exact S|].
      intros t. apply same_cost_total; [exact I | exact I | exact S].
  - destruct b as [z'|f' p'|sh' c'|u']; try (cbn [eq] in E; discriminate).
    rewrite eq_Shared in E. apply andb_prop in E. destruct E as [E1 E2].
    apply andb_prop in E2. destruct E2 as [E2 E3]. apply Nat.eqb_eq in E2.
    destruct Ha as [Pc [N P]]. destruct Hb as [Pc' [N' P']].
    assert (S := eq_plain c c' Pc Pc' E1).
    assert (A := eq_all_agree sh sh' N N' P P' E2 E3).
    split.
    + destruct S as [F G]. split.
      * rewrite !fixed_Shared, F, (agree_fixed sh sh'); auto.
      * rewrite !per_Shared, G, (agree_per sh sh' N N' P P' A). reflexivity.
    + intros t. rewrite !total_Shared, (same_cost_total c c' t Pc Pc' S).
      destruct (total t c'); cbn [bind]; [|reflexivity]. apply agree_totals; assumption.
  - destruct b as [z'|f' p'|sh' c'|u']; cbn [eq] in E.
    + exact (IH (Const z') Ha I E).
    + exact (IH (Var f' p') Ha I E).
    + exact (IH (Shared sh' c') Ha Hb E).
    + exact (IH u' Ha Hb E).
Qed.

(** * C40 *)
Fixpoint shared_of (s : sdram) : list (nat * sdram) :=
  match s with
  | Const _ | Var _ _ => []
  | Shared sh _ => sh
  | Multi t => shared_of t
  end.
Fixpoint core_of (s : sdram) : sdram :=
  match s with
  | Const _ | Var _ _ => s
  | Shared _ c => c
  | Multi t => core_of t
  end.

Record joins (a b m : list (nat * sdram)) : Prop := mkJoins {
  j_nodup : NoDup (map fst m);
  j_plain : plain_vals m;
  j_from : forall k v, In (k, v) m -> In (k, v) a \/ In (k, v) b;
  j_to : forall k v, In (k, v) a \/ In (k, v) b -> exists w, In (k, w) m /\ same_cost v w
}.

Lemma joins_sym : forall a b m, joins a b m -> joins b a m.
Proof.
  intros a b m [N P F T]. constructor; [exact N | exact P | |].
  - intros k v H. destruct (F k v H); auto.
  - intros k v H. apply T. tauto.
Qed.

Lemma NoDup_keys_fun : forall (m : list (nat * sdram)) k v w,
  NoDup (map fst m) -> In (k, v) m -> In (k, w) m -> v = w.
Proof.
  intros m k v w N H1 H2.
  apply (dget_Some_iff _ Nat.eqb_eq m k) in H1; [|exact N].
  apply (dget_Some_iff _ Nat.eqb_eq m k) in H2; [|exact N]. congruence.
Qed.

Lemma merge_spec : forall other m, NoDup (map fst other) -> NoDup (map fst m) ->
  plain_vals other -> plain_vals m ->
  match merge_shared m other with
  | Ok m' => joins m other m'
  | Err e => e = ConfigurationException /\
             exists k v w, In (k, v) other /\ In (k, w) m /\ eq v w = false
  end.
Proof.
  induction other as [|[k v] rest IH]; intros m No Nm Po Pm; cbn [merge_shared].
  - constructor; auto. intros k v [H|[]]. exists v. split; [exact H | apply same_cost_refl].
  - cbn [map fst] in No. inversion No as [|? ? Nk Nr]; subst.
    assert (Pr : plain_vals rest) by (intros k0 v0 H; apply (Po k0 v0); right; exact H).
    assert (Pv : plain v) by (apply (Po k v); left; reflexivity).
    destruct (dget Nat.eqb m k) as [w|] eqn:D.
    + assert (Iw : In (k, w) m) by (eapply dget_In; [exact Nat.eqb_eq | exact D]).
      destruct (eq v w) eqn:E.
      * specialize (IH m Nr Nm Pr Pm). destruct (merge_shared m rest) as [m'|e].
        -- destruct IH as [N P F T]. constructor; [exact N | exact P | |].
           ++ intros k0 v0 H. destruct (F k0 v0 H); [auto | right; right; assumption].
           ++ intros k0 v0 [H|[H|H]]; [apply T; auto | | apply T; auto].
              injection H as <- <-. destruct (T k w (or_introl Iw)) as [w' [Iw' S']].
              exists w'. split; [exact Iw'|]. eapply same_cost_trans; [|exact S'].
              apply eq_plain; [exact Pv | apply (Pm k w Iw) | exact E].
        -- destruct IH as [Ee [k0 [v0 [w0 [H1 [H2 H3]]]]]]. split; [exact Ee|].
           exists k0, v0, w0. split; [right; exact H1 | auto].
      * split; [reflexivity|]. exists k, v, w. split; [left; reflexivity | auto].
    + assert (Nm1 : NoDup (map fst (dset Nat.eqb m k v))) by (apply dset_NoDup; [exact Nat.eqb_eq | exact Nm]).
      assert (Pm1 : plain_vals (dset Nat.eqb m k v)).
      { intros k0 v0 H. apply (dset_In _ Nat.eqb_eq) in H. destruct H as [[-> ->]|H]; [exact Pv | exact (Pm k0 v0 H)]. }
      assert (Nkm : ~ In k (map fst m)) by (apply (dget_None _ Nat.eqb_eq); exact D).
      specialize (IH _ Nr Nm1 Pr Pm1). destruct (merge_shared (dset Nat.eqb m k v) rest) as [m'|e].
      * destruct IH as [N P F T]. constructor; [exact N | exact P | |].
        -- intros k0 v0 H. destruct (F k0 v0 H) as [H'|H']; [|right; right; exact H'].
           apply (dset_In _ Nat.eqb_eq) in H'. destruct H' as [[-> ->]|H']; [right; left; reflexivity | auto].
        -- intros k0 v0 [H|[H|H]]; apply T; [left | left | right; exact H].
           ++ apply dset_In_old; [exact Nat.eqb_eq | | exact H]. intros ->.
              apply Nkm. apply in_map_iff. exists (k, v0). auto.
           ++ injection H as <- <-. apply dset_In_new. exact Nat.eqb_eq.
      * destruct IH as [Ee [k0 [v0 [w0 [H1 [H2 H3]]]]]]. split; [exact Ee|].
        exists k0, v0, w0. split; [right; exact H1|]. split; [|exact H3].
        apply (dset_In _ Nat.eqb_eq) in H2. destruct H2 as [[-> ->]|H2]; [|exact H2].
        exfalso. apply Nk. apply in_map_iff. exists (k, v0). auto.
Qed.

Definition conflict (a b : list (nat * sdram)) : Prop :=
  exists k v w, ((In (k, v) a /\ In (k, w) b) \/ (In (k, v) b /\ In (k, w) a)) /\ eq v w = false.

Lemma conflict_sym : forall a b, conflict a b -> conflict b a.
Proof. intros a b [k [v [w [H E]]]]. exists k, v, w. split; [tauto | exact E]. Qed.

Definition add_ok (a b : sdram) (r : res sdram) : Prop :=
  match r with
  | Ok c => wf c /\ joins (shared_of a) (shared_of b) (shared_of c) /\
            fixed (core_of c) = fixed (core_of a) + fixed (core_of b) /\
            (per_timestep (core_of c) == per_timestep (core_of a) + per_timestep (core_of b))%Q
  | Err e => e = ConfigurationException /\ conflict (shared_of a) (shared_of b)
  end.

Lemma add_ok_sym : forall a b r, add_ok a b r -> add_ok b a r.
Proof.
  intros a b [c|e] H; cbn [add_ok] in *.
  - destruct H as [W [J [F G]]]. split; [exact W|]. split; [apply joins_sym; exact J|].
    split; [lia|]. rewrite G. ring.
  - destruct H as [E C]. split; [exact E | apply conflict_sym; exact C].
Qed.

Lemma core_plain : forall s, wf s -> plain (core_of s).
Proof. induction s; cbn; auto. intros [H _]. exact H. Qed.

Lemma plain_shared : forall s, plain s -> shared_of s = [].
Proof. induction s; cbn; tauto. Qed.

Lemma plain_core : forall s, plain s -> fixed (core_of s) = fixed s /\ per_timestep (core_of s) = per_timestep s.
Proof. induction s; cbn; tauto. Qed.

Lemma plain_wf : forall s, plain s -> wf s.
Proof. induction s; cbn; tauto. Qed.

Lemma joins_nil_r : forall m, NoDup (map fst m) -> plain_vals m -> joins m [] m.
Proof.
  intros m N P. constructor; auto. intros k v [H|[]]. exists v. split; [exact H | apply same_cost_refl].
Qed.

Lemma add_wf : forall a b, wf a -> wf b -> add_ok a b (add a b).
Proof.
  apply (phi_ind (fun a b => wf a -> wf b -> add_ok a b (add a b))).
  intros a b IH Wa Wb.
  assert (SW : (phi b a < phi a b)%nat -> add a b = add b a -> add_ok a b (add a b)).
  { intros L E. rewrite E. apply add_ok_sym. apply IH; assumption. }
  rewrite add_eqn. destruct a as [z|f p|sh c|u], b as [z'|f' p'|sh' c'|u'];
    try (rewrite add_eqn in SW; apply SW; [phi_lt | reflexivity]).
  - cbn. split; [exact I|]. split; [apply joins_nil_r; [constructor | intros ? ? []]|].
    split; [reflexivity|]. reflexivity.
  - cbn. split; [exact I|]. split; [apply joins_nil_r; [constructor | intros ? ? []]|].
    split; [reflexivity|]. ring.
  - cbn. split; [exact I|]. split; [apply joins_nil_r; [constructor | intros ? ? []]|].
    split; [reflexivity|]. reflexivity.
  - destruct Wa as [Pc [N P]]. destruct (add_plain c (Const z') Pc I) as [c2 [E [P2 [F G]]]].
    rewrite E. cbn [bind add_ok]. split; [split; [exact P2 | split; assumption]|].
    split; [apply joins_nil_r; assumption|]. cbn [core_of]. split; assumption.
  - destruct Wa as [Pc [N P]]. destruct (add_plain c (Var f' p') Pc I) as [c2 [E [P2 [F G]]]].
    rewrite E. cbn [bind add_ok]. split; [split; [exact P2 | split; assumption]|].
    split; [apply joins_nil_r; assumption|]. cbn [core_of]. split; assumption.
  - destruct Wa as [Pc [N P]]. destruct Wb as [Pc' [N' P']].
    pose proof (merge_spec sh' sh N' N P' P) as M.
    destruct (merge_shared sh sh') as [m|e]; cbn [bind].
    + destruct (add_plain c c' Pc Pc') as [c2 [E [P2 [F G]]]]. rewrite E. cbn [bind add_ok].
      split; [split; [exact P2 | split; [exact (j_nodup _ _ _ M) | exact (j_plain _ _ _ M)]]|].
      split; [exact M|]. cbn [core_of]. split; assumption.
    + cbn [add_ok]. destruct M as [-> [k [v [w [H1 [H2 H3]]]]]]. split; [reflexivity|].
      exists k, v, w. cbn [shared_of]. split; [right; split; assumption | exact H3].
  - exact (IH u (Const z') ltac:(phi_lt) Wa Wb).
  - exact (IH u (Var f' p') ltac:(phi_lt) Wa Wb).
  - exact (IH u (Shared sh' c') ltac:(phi_lt) Wa Wb).
  - exact (IH u (Multi u') ltac:(phi_lt) Wa Wb).
Qed.

Definition core_fixed (l : list sdram) : Z := fold_right (fun s a => fixed (core_of s) + a) 0 l.
Definition core_per (l : list sdram) : Q := fold_right (fun s a => per_timestep (core_of s) + a)%Q 0%Q l.

(** [once] lists every label of the items exactly once, with its cost. *)
Record once_of (l : list sdram) (once : list (nat * sdram)) : Prop := mkOnce {
  o_nodup : NoDup (map fst once);
  o_plain : forall k v, In (k, v) once -> plain v;
  o_from : forall k v, In (k, v) once -> exists s, In s l /\ In (k, v) (shared_of s);
  o_to : forall s k v, In s l -> In (k, v) (shared_of s) -> exists w, In (k, w) once /\ same_cost v w
}.

Lemma shared_wf : forall s, wf s -> NoDup (map fst (shared_of s)) /\ plain_vals (shared_of s).
Proof.
  induction s as [z|f p|sh c IH|u IH]; intros W; cbn [shared_of].
  - split; [constructor | intros ? ? []].
  - split; [constructor | intros ? ? []].
  - destruct W as [_ [N P]]. split; assumption.
  - exact (IH W).
Qed.

Lemma total_wf : forall s t, wf s -> total t s =
  let* x := cost t (fixed (core_of s)) (per_timestep (core_of s)) in totals t (shared_of s) x.
Proof.
  induction s as [z|f p|sh c IH|u IH]; intros t W; cbn [core_of shared_of].
  - rewrite total_plain by exact I. cbn [fixed per_timestep]. rewrite cost_const. reflexivity.
  - rewrite total_plain by exact I. cbn [fixed per_timestep]. destruct (cost t f p); reflexivity.
  - destruct W as [P _]. rewrite total_Shared, total_plain by exact P. reflexivity.
  - exact (IH t W).
Qed.

Lemma fixed_wf : forall s, fixed s = fixed (core_of s) + fixed_sum (shared_of s).
Proof.
  induction s as [z|f p|sh c IH|u IH]; cbn [core_of shared_of].
  - cbn. lia.
  - cbn. lia.
  - apply fixed_Shared.
  - exact IH.
Qed.

Lemma sum_from : forall l acc, wf acc -> Forall wf l ->
  match foldM add acc l with
  | Ok r => wf r /\ once_of (acc :: l) (shared_of r) /\
            fixed (core_of r) = core_fixed (acc :: l) /\
            (per_timestep (core_of r) == core_per (acc :: l))%Q
  | Err e => e = ConfigurationException /\
             exists k v w s s', In s (acc :: l) /\ In s' (acc :: l) /\
               In (k, v) (shared_of s) /\ In (k, w) (shared_of s') /\ eq v w = false
  end.
Proof.
  induction l as [|x l IH]; intros acc Wa Wl; cbn [foldM].
  - split; [exact Wa|]. destruct (shared_wf acc Wa) as [N P]. split; [|split].
    + constructor; [exact N | exact P | |].
      * intros k v H. exists acc. split; [left; reflexivity | exact H].
      * intros s k v [<-|[]] H. exists v. split; [exact H | apply same_cost_refl].
    + cbn. lia.
    + cbn. ring.
  - inversion Wl as [|? ? Wx Wl']; subst.
    pose proof (add_wf acc x Wa Wx) as A. destruct (add acc x) as [c|e]; cbn [bind add_ok] in *.
    + destruct A as [Wc [J [F G]]]. specialize (IH c Wc Wl').
      destruct (foldM add c l) as [r|e].
      * destruct IH as [Wr [[N P OF OT] [F' G']]]. split; [exact Wr|]. split; [|split].
        -- constructor; [exact N | exact P | |].
           ++ intros k v H. destruct (OF k v H) as [s [[<-|Is] Hs]].
              ** destruct (j_from _ _ _ J k v Hs) as [H'|H'];
                   [exists acc; split; [left; reflexivity | exact H']
                   |exists x; split; [right; left; reflexivity | exact H']].
              ** exists s. split; [right; right; exact Is | exact Hs].
           ++ intros s k v Is Hs.
              assert (T : In (k, v) (shared_of acc) \/ In (k, v) (shared_of x) ->
                          exists w, In (k, w) (shared_of r) /\ same_cost v w).
              { intros H. destruct (j_to _ _ _ J k v H) as [w [Iw Sw]].
                destruct (OT c k w (or_introl eq_refl) Iw) as [w' [Iw' Sw']].
                exists w'. split; [exact Iw' | eapply same_cost_trans; eassumption]. }
              destruct Is as [<-|[<-|Is]]; [apply T; auto | apply T; auto |].
              apply (OT s k v); [right; exact Is | exact Hs].
        -- rewrite F'. cbn [core_fixed fold_right]. rewrite F. cbn [core_fixed fold_right]. lia.
        -- rewrite G'. cbn [core_per fold_right]. rewrite G. ring.
      * destruct IH as [Ee [k [v [w [s [s' [I1 [I2 [H1 [H2 H3]]]]]]]]]]. split; [exact Ee|].
        assert (R : forall s0 v0, In s0 (c :: l) -> In (k, v0) (shared_of s0) ->
                    exists s1, In s1 (acc :: x :: l) /\ In (k, v0) (shared_of s1)).
        { intros s0 v0 [<-|Is] Hs.
          - destruct (j_from _ _ _ J k v0 Hs) as [H'|H'];
              [exists acc; split; [left; reflexivity | exact H']
              |exists x; split; [right; left; reflexivity | exact H']].
          - exists s0. split; [right; right; exact Is | exact Hs]. }
        destruct (R s v I1 H1) as [s1 [J1 K1]]. destruct (R s' w I2 H2) as [s2 [J2 K2]].
        exists k, v, w, s1, s2. auto.
    + destruct A as [-> [k [v [w [H E]]]]]. split; [reflexivity|].
      destruct H as [[H1 H2]|[H1 H2]].
      * exists k, v, w, acc, x. split; [left; reflexivity|]. split; [right; left; reflexivity|]. auto.
      * exists k, v, w, x, acc. split; [right; left; reflexivity|]. split; [left; reflexivity|]. auto.
Qed.

Lemma sum_spec : forall l, Forall wf l ->
  match sum l with
  | Ok r => exists once, once_of l once /\
            fixed r = core_fixed l + fixed_sum once /\
            forall t, total t r = let* x := cost t (core_fixed l) (core_per l) in totals t once x
  | Err e => e = ConfigurationException /\
             exists k v w s s', In s l /\ In s' l /\
               In (k, v) (shared_of s) /\ In (k, w) (shared_of s') /\ eq v w = false
  end.
Proof.
  intros l W. pose proof (sum_from l (Const 0) I W) as S. unfold sum.
  destruct (foldM add (Const 0) l) as [r|e].
  - destruct S as [Wr [[N P OF OT] [F G]]]. exists (shared_of r). split; [|split].
    + constructor; [exact N | exact P | |].
      * intros k v H. destruct (OF k v H) as [s [[<-|Is] Hs]]; [destruct Hs | exists s; auto].
      * intros s k v Is. apply OT. right. exact Is.
    + rewrite fixed_wf, F. reflexivity.
    + intros t. rewrite total_wf by exact Wr. rewrite F. cbn [core_fixed fold_right core_of fixed].
      rewrite Z.add_0_l. erewrite cost_comp; [reflexivity|].
      rewrite G. unfold core_per. cbn [fold_right core_of per_timestep]. ring.
  - destruct S as [Ee [k [v [w [s [s' [I1 [I2 [H1 [H2 H3]]]]]]]]]]. split; [exact Ee|].
    exists k, v, w, s, s'.
    destruct I1 as [<-|I1]; [destruct H1|]. destruct I2 as [<-|I2]; [destruct H2|]. auto.
Qed.

Lemma once_agree : forall l l' m m', Permutation l l' -> once_of l m -> once_of l' m' -> agree m m'.
Proof.
  intros l l' m m' Q [N P F T] [N' P' F' T']. split; intros k v H.
  - destruct (F k v H) as [s [Is Hs]]. apply (T' s k v); [|exact Hs].
    eapply Permutation_in; [exact Q | exact Is].
  - destruct (F' k v H) as [s [Is Hs]]. apply (T s k v); [|exact Hs].
    eapply Permutation_in; [apply Permutation_sym; exact Q | exact Is].
Qed.

Lemma core_fixed_perm : forall l l', Permutation l l' -> core_fixed l = core_fixed l'.
Proof. induction 1; unfold core_fixed in *; cbn [fold_right]; lia. Qed.
Lemma core_per_perm : forall l l', Permutation l l' -> (core_per l == core_per l')%Q.
Proof.
  induction 1; unfold core_per in *; cbn [fold_right].
  - reflexivity.
  - rewrite IHPermutation. reflexivity.
  - ring.
  - rewrite IHPermutation1. exact IHPermutation2.
Qed.

Lemma sum_order : forall l l' r r' t, Forall wf l -> Permutation l l' ->
  sum l = Ok r -> sum l' = Ok r' -> total t r = total t r' /\ fixed r = fixed r'.
Proof.
  intros l l' r r' t W Q E E'.
  assert (W' : Forall wf l') by (rewrite Forall_forall in *; intros s Is; apply W;
    eapply Permutation_in; [apply Permutation_sym; exact Q | exact Is]).
  pose proof (sum_spec l W) as S. pose proof (sum_spec l' W') as S'. rewrite E in S. rewrite E' in S'.
  destruct S as [m [O [F T]]]. destruct S' as [m' [O' [F' T']]].
  pose proof (once_agree l l' m m' Q O O') as A.
  split.
  - rewrite T, T', (core_fixed_perm l l' Q), (cost_comp t _ _ _ (core_per_perm l l' Q)).
    destruct (cost t (core_fixed l') (core_per l')); cbn [bind]; [|reflexivity].
    apply agree_totals; [apply O | apply O' | exact (o_plain _ _ O) | exact (o_plain _ _ O') | exact A].
  - rewrite F, F', (core_fixed_perm l l' Q). f_equal.
    apply agree_fixed; [apply O | apply O' | exact (o_plain _ _ O) | exact (o_plain _ _ O') | exact A].
Qed.

Lemma sum_succeeds : forall l, Forall wf l ->
  (forall s s' k v w, In s l -> In s' l -> In (k, v) (shared_of s) -> In (k, w) (shared_of s') ->
     eq v w = true) ->
  exists r, sum l = Ok r.
Proof.
  intros l W C. pose proof (sum_spec l W) as S. destruct (sum l) as [r|e]; [eauto|].
  destruct S as [_ [k [v [w [s [s' [I1 [I2 [H1 [H2 H3]]]]]]]]]].
  rewrite (C s s' k v w I1 I2 H1 H2) in H3. discriminate.
Qed.

Lemma sum_same_cost : forall l r s s' k v w, Forall wf l -> sum l = Ok r ->
  In s l -> In s' l -> In (k, v) (shared_of s) -> In (k, w) (shared_of s') -> same_cost v w.
Proof.
  intros l r s s' k v w W E I1 I2 H1 H2. pose proof (sum_spec l W) as S. rewrite E in S.
  destruct S as [m [[N P F T] _]].
  destruct (T s k v I1 H1) as [x [Ix Sx]]. destruct (T s' k w I2 H2) as [y [Iy Sy]].
  assert (x = y) by (eapply NoDup_keys_fun; eassumption). subst y.
  eapply same_cost_trans; [exact Sx | apply same_cost_sym; exact Sy].
Qed.

(** * C43: the chip counter *)
Definition count (pc ps : Z) (l : list Z) : counter := fold_left (add_core pc ps) l new_counter.

(** A packing: consecutive runs of the requests, one run per chip. *)
Definition fits_chip (pc ps : Z) (chip : list Z) : Prop :=
  Z.of_nat (length chip) <= pc /\ fold_right Z.add 0 chip <= ps.

Lemma fold_add_app : forall l a, fold_right Z.add 0 (l ++ [a]) = fold_right Z.add 0 l + a.
Proof. induction l as [|x l IH]; intros a; cbn [app fold_right]; [lia | rewrite IH; lia]. Qed.

Lemma count_app : forall pc ps l x, count pc ps (l ++ [x]) = add_core pc ps (count pc ps l) x.
Proof. intros. unfold count. rewrite fold_left_app. reflexivity. Qed.

(** Greedy: a new chip is only started when the request does not fit with the
    requests of the current chip. *)
Lemma count_greedy : forall pc ps l, 1 <= pc -> Forall (fun x => x <= ps) l ->
  exists chips, Z.of_nat (length chips) = cc_chips (count pc ps l) /\ concat chips = l /\
    Forall (fits_chip pc ps) chips /\ Forall (fun ch => ch <> []) chips /\
    forall before c x next after, chips = before ++ c :: (x :: next) :: after ->
      ~ fits_chip pc ps (c ++ [x]).
Proof.
  intros pc ps l Hpc.
  assert (R : Forall (fun x => x <= ps) l ->
    (l = [] /\ count pc ps l = new_counter) \/
    exists done cur,
      l = concat done ++ cur /\ cur <> [] /\
      Forall (fits_chip pc ps) (done ++ [cur]) /\ Forall (fun ch => ch <> []) (done ++ [cur]) /\
      cc_chips (count pc ps l) = Z.of_nat (length done) + 1 /\
      cc_cores (count pc ps l) = pc - Z.of_nat (length cur) /\
      cc_sdram (count pc ps l) = ps - fold_right Z.add 0 cur /\
      forall before c x next after, done ++ [cur] = before ++ c :: (x :: next) :: after ->
        ~ fits_chip pc ps (c ++ [x])).
  { induction l as [|x l IH] using rev_ind; intros H.
    - left. split; reflexivity.
    - right. apply Forall_app in H. destruct H as [Hl Hx]. inversion Hx as [|? ? Hx' _]; subst.
      rewrite count_app. remember (count pc ps l) as c eqn:Ec. clear Ec.
      destruct (IH Hl) as [[-> ->]|[dn [cur [-> [NE [F [G [E1 [E2 [E3 GR]]]]]]]]]].
      + exists [], [x]. cbn. split; [reflexivity|]. split; [discriminate|].
        split; [constructor; [|constructor]; split; cbn; lia|].
        split; [constructor; [discriminate | constructor]|]. split; [lia|]. split; [lia|]. split; [lia|].
        intros before c y next after E. destruct before as [|b [|b' before]]; discriminate.
      + unfold add_core. destruct ((cc_cores c =? 0) || (cc_sdram c <? x)) eqn:B; cbn [cc_cores cc_sdram cc_chips].
        * exists (dn ++ [cur]), [x]. split; [rewrite concat_app; cbn; rewrite app_nil_r; reflexivity|].
          split; [discriminate|].
          split; [apply Forall_app; split; [exact F | constructor; [split; cbn; lia | constructor]]|].
          split; [apply Forall_app; split; [exact G | constructor; [discriminate | constructor]]|].
          rewrite app_length. cbn [length fold_right]. split; [lia|]. split; [lia|]. split; [lia|].
          intros before c0 y next after E.
          destruct (@exists_last _ ((y :: next) :: after)) as [init [lst El]]; [discriminate|].
          assert (E' : (dn ++ [cur]) ++ [[x]] = (before ++ c0 :: init) ++ [lst]).
          { rewrite E. change (c0 :: (y :: next) :: after) with ([c0] ++ ((y :: next) :: after)).
            rewrite El. rewrite <- !app_assoc. reflexivity. }
          apply app_inj_tail in E'. destruct E' as [E1' E2'].
          destruct after as [|a after].
          -- destruct init as [|i init]; [|destruct init; discriminate].
             cbn in El. injection El as El. rewrite <- El in E2'. injection E2' as -> _.
             apply app_inj_tail in E1'. destruct E1' as [_ ->].
             intros [L1 L2]. rewrite app_length in L1. rewrite fold_add_app in L2. cbn in L1.
             apply orb_prop in B. destruct B as [B|B]; [apply Z.eqb_eq in B | apply Z.ltb_lt in B]; lia.
          -- destruct init as [|i init]; [destruct after; discriminate|].
             cbn in El. injection El as Ei El. subst i.
             apply (GR before c0 y next init). exact E1'.
        * apply orb_false_elim in B. destruct B as [B1 B2]. apply Z.eqb_neq in B1. apply Z.ltb_ge in B2.
          apply Forall_app in F. destruct F as [F1 F2]. inversion F2 as [|? ? [L S] _]; subst.
          apply Forall_app in G. destruct G as [G1 _].
          exists dn, (cur ++ [x]). split; [rewrite app_assoc; reflexivity|].
          split; [destruct cur; discriminate|].
          split; [apply Forall_app; split; [exact F1 | constructor; [|constructor]]|].
          { split; [rewrite app_length; cbn; lia | rewrite fold_add_app; lia]. }
          split; [apply Forall_app; split; [exact G1 | constructor; [destruct cur; discriminate|constructor]]|].
          split; [exact E1|]. rewrite app_length, fold_add_app. cbn [length]. split; [lia|]. split; [lia|].
          intros before c0 y next after E.
          destruct (@exists_last _ ((y :: next) :: after)) as [init [lst El]]; [discriminate|].
          assert (E' : dn ++ [cur ++ [x]] = (before ++ c0 :: init) ++ [lst]).
          { rewrite E. change (c0 :: (y :: next) :: after) with ([c0] ++ ((y :: next) :: after)).
            rewrite El. rewrite <- !app_assoc. reflexivity. }
          apply app_inj_tail in E'. destruct E' as [E1' E2'].
          destruct after as [|a after].
          -- destruct init as [|i init]; [|destruct init; discriminate].
             cbn in El. injection El as El. rewrite <- El in E2'.
             destruct cur as [|y' cur]; [contradiction|]. cbn in E2'. injection E2' as -> E2'.
             apply (GR before c0 y cur []). rewrite E1', <- app_assoc. reflexivity.
          -- destruct init as [|i init]; [destruct after; discriminate|].
             cbn in El. injection El as Ei El. subst i.
             apply (GR before c0 y next (init ++ [cur])). rewrite E1', <- app_assoc. reflexivity. }
  intros H. destruct (R H) as [[-> ->]|[dn [cur [-> [_ [F [G [E [_ [_ GR]]]]]]]]]].
  - exists []. split; [reflexivity|]. split; [reflexivity|]. split; [constructor|]. split; [constructor|].
    intros before c x next after E. destruct before; discriminate.
  - exists (dn ++ [cur]). rewrite app_length. cbn [length]. split; [lia|].
    split; [rewrite concat_app; cbn; rewrite app_nil_r; reflexivity|].
    split; [exact F|]. split; [exact G|]. exact GR.
Qed.

Lemma count_monotone : forall pc ps l x,
  cc_chips (count pc ps l) <= cc_chips (count pc ps (l ++ [x])) <= cc_chips (count pc ps l) + 1.
Proof.
  intros. rewrite count_app. unfold add_core.
  destruct ((cc_cores (count pc ps l) =? 0) || (cc_sdram (count pc ps l) <? x)); cbn; lia.
Qed.

(** No way of putting the requests, in order, on chips uses fewer: the counter
    is never behind such a packing that is on chip [n] with [fc] cores and [fs]
    bytes left. *)
Definition ahead (c : counter) (n fc fs : Z) : Prop :=
  cc_chips c < n \/ cc_chips c = n /\ fc <= cc_cores c /\ fs <= cc_sdram c.

Lemma ahead_add : forall pc ps c n fc fs x, ahead c n fc fs ->
  1 <= fc <= pc -> x <= fs <= ps -> ahead (add_core pc ps c x) n (fc - 1) (fs - x).
Proof.
  intros pc ps c n fc fs x A F S. unfold add_core, ahead in *.
  destruct (Z.eqb_spec (cc_cores c) 0) as [Z0|Z0], (Z.ltb_spec (cc_sdram c) x) as [L|L];
    cbn [orb cc_cores cc_sdram cc_chips]; lia.
Qed.

Lemma ahead_chip : forall pc ps ch c n fc fs, Forall (fun x => 0 <= x) ch -> ahead c n fc fs ->
  Z.of_nat (length ch) <= fc <= pc -> fold_right Z.add 0 ch <= fs <= ps ->
  ahead (fold_left (add_core pc ps) ch c) n (fc - Z.of_nat (length ch)) (fs - fold_right Z.add 0 ch).
Proof.
  intros pc ps ch. induction ch as [|x ch IH]; intros c n fc fs P A F B;
    cbn [fold_left length fold_right] in *.
  - now rewrite !Z.sub_0_r.
  - apply Forall_cons_iff in P. destruct P as [Px P].
    assert (N : 0 <= fold_right Z.add 0 ch).
    { clear - P. induction P; cbn [fold_right]; lia. }
    replace (fc - Z.of_nat (S (length ch))) with (fc - 1 - Z.of_nat (length ch)) by lia.
    replace (fs - (x + fold_right Z.add 0 ch)) with (fs - x - fold_right Z.add 0 ch) by lia.
    apply IH; [assumption | apply ahead_add; [assumption|lia|lia] | lia | lia].
Qed.

Lemma ahead_all : forall pc ps chips c n fc fs, Forall (fun x => 0 <= x) (concat chips) ->
  Forall (fits_chip pc ps) chips -> ahead c n fc fs ->
  exists fc' fs', ahead (fold_left (add_core pc ps) (concat chips) c) (n + Z.of_nat (length chips)) fc' fs'.
Proof.
  intros pc ps chips. induction chips as [|ch chips IH]; intros c n fc fs P F A; cbn [concat length].
  - exists fc, fs. now rewrite Z.add_0_r.
  - cbn [concat] in P. apply Forall_app in P. destruct P as [P1 P2].
    apply Forall_cons_iff in F. destruct F as [[F1 F2] F3].
    rewrite fold_left_app.
    replace (n + Z.of_nat (S (length chips))) with (n + 1 + Z.of_nat (length chips)) by lia.
    eapply IH; [assumption | assumption|].
    apply (ahead_chip pc ps ch c (n + 1) pc ps); [assumption | | lia | lia].
    unfold ahead in *. lia.
Qed.

Lemma count_least : forall pc ps l chips, Forall (fun x => 0 <= x) l ->
  concat chips = l -> Forall (fits_chip pc ps) chips ->
  cc_chips (count pc ps l) <= Z.of_nat (length chips).
Proof.
  intros pc ps l chips P <- F.
  destruct (ahead_all pc ps chips new_counter 0 0 0 P F) as (fc & fs & A).
  - right. cbn. lia.
  - unfold count, ahead in *. cbn [Z.add] in A. lia.
Qed.
