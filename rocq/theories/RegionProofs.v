(** Proofs about MultiRegionSDRAM histories. *)
From Coq Require Import List Arith ZArith QArith Qround Bool Lia Setoid.
From Verif Require Import Base Dict SdramModel SdramProofs RegionModel.
Import ListNotations.
Local Open Scope nat_scope.

Definition ob (h : list obj) (i : nat) : obj := nth i h new_obj.

Lemma aget_ob : forall h i, i < length h -> aget h i = Ok (ob h i).
Proof.
  intros h i L. unfold aget, ob. rewrite (nth_error_nth' h new_obj L). reflexivity.
Qed.

Lemma aset_upd : forall (h : list obj) i x, i < length h -> aset h i x = Ok (upd h i x).
Proof. intros h i x L. unfold aset. apply Nat.ltb_lt in L. rewrite L. reflexivity. Qed.

Lemma ob_upd_eq : forall h i x, i < length h -> ob (upd h i x) i = x.
Proof.
  unfold ob. induction h as [|o h IH]; intros [|i] x L; cbn in *; try lia; [reflexivity|].
  apply IH. lia.
Qed.

Lemma ob_upd_neq : forall h i j x, i <> j -> ob (upd h i x) j = ob h j.
Proof.
  unfold ob. induction h as [|o h IH]; intros [|i] [|j] x N; cbn; try reflexivity; try lia.
  apply IH. lia.
Qed.

(** The histories in which an object given to nest or merge is not used again.
    [n] objects exist and those in [dead] have been given away. *)
Definition plain_value (s : sdram) : Prop :=
  match s with Const _ | Var _ _ => True | _ => False end.

Fixpoint linear (n : nat) (dead : list nat) (ops : list op) : Prop :=
  match ops with
  | [] => True
  | New :: r => linear (S n) dead r
  | AddCost i _ _ _ :: r => i < n /\ ~ In i dead /\ linear n dead r
  | NestV i _ s :: r => i < n /\ ~ In i dead /\ plain_value s /\ linear n dead r
  | NestR i _ j :: r | Merge i j :: r =>
      i < n /\ ~ In i dead /\ j < n /\ ~ In j dead /\ i <> j /\ linear n (j :: dead) r
  end.

(** Objects given away by a history. *)
Fixpoint given (ops : list op) : list nat :=
  match ops with
  | [] => []
  | NestR _ _ j :: r | Merge _ j :: r => j :: given r
  | _ :: r => given r
  end.

Fixpoint made (ops : list op) : nat :=
  match ops with
  | [] => 0
  | New :: r => S (made r)
  | _ :: r => made r
  end.

(** What each object has been charged: a list of region and cost, by object. *)
Definition charges := nat -> list (nat * sdram).
Definition charge1 (am : charges) (o : op) : charges :=
  match o with
  | New => am
  | AddCost i k f p => fun x => if Nat.eqb x i then am i ++ [(k, cost_of f p)] else am x
  | NestV i k s => fun x => if Nat.eqb x i then am i ++ [(k, s)] else am x
  | NestR i k j => fun x => if Nat.eqb x i then am i ++ map (fun ks => (k, snd ks)) (am j) else am x
  | Merge i j => fun x => if Nat.eqb x i then am i ++ am j else am x
  end.
Definition charged (ops : list op) : charges := fold_left charge1 ops (fun _ => []).

Section Measure.
(** A measure of costs that addition respects: instantiated below with the fixed
    and with the per-timestep cost. *)
Variable mu : sdram -> Q.
Hypothesis mu_zero : (mu (Const 0) == 0)%Q.
Hypothesis mu_multi : forall s, mu (Multi s) = mu s.
Hypothesis mu_add : forall a b, plain a -> plain b ->
  exists c, add a b = Ok c /\ plain c /\ (mu c == mu a + mu b)%Q.

Definition rc (h : list obj) (v : rv) : Q :=
  match v with RV s => mu s | RR j => mu (tot (ob h j)) end.

Definition sumr (h : list obj) (l : list (nat * rv)) : Q :=
  fold_right (fun kv a => rc h (snd kv) + a)%Q 0%Q l.

Definition regcost (h : list obj) (l : list (nat * rv)) (k : nat) : Q :=
  match dget Nat.eqb l k with Some v => rc h v | None => 0%Q end.

Definition mu_sum (l : list (nat * sdram)) : Q := fold_right (fun kv a => mu (snd kv) + a)%Q 0%Q l.
Definition in_region (k : nat) (l : list (nat * sdram)) : list (nat * sdram) :=
  filter (fun kv => Nat.eqb (fst kv) k) l.

Lemma mu_sum_app : forall a b, (mu_sum (a ++ b) == mu_sum a + mu_sum b)%Q.
Proof.
  unfold mu_sum. induction a as [|x a IH]; intros b; cbn [app fold_right]; [ring|].
  rewrite IH. ring.
Qed.

Lemma rc_ext : forall h h' v, (forall j, v = RR j -> tot (ob h j) = tot (ob h' j)) -> rc h v = rc h' v.
Proof. intros h h' [s|j] H; cbn [rc]; [reflexivity|]. rewrite (H j eq_refl). reflexivity. Qed.

Lemma sumr_ext : forall h h' l,
  (forall k j, In (k, RR j) l -> tot (ob h j) = tot (ob h' j)) -> sumr h l = sumr h' l.
Proof.
  intros h h'. induction l as [|[k v] l IH]; intros H; [reflexivity|].
  unfold sumr in *. cbn [fold_right snd]. rewrite IH; [|intros k' j Hin; apply (H k'); right; exact Hin].
  f_equal. apply rc_ext. intros j ->. apply (H k). left. reflexivity.
Qed.

Lemma regcost_ext : forall h h' l k,
  (forall k j, In (k, RR j) l -> tot (ob h j) = tot (ob h' j)) -> regcost h l k = regcost h' l k.
Proof.
  intros h h' l k H. unfold regcost. destruct (dget Nat.eqb l k) as [v|] eqn:D; [|reflexivity].
  apply rc_ext. intros j ->. apply (H k). apply (dget_In _ Nat.eqb_eq _ _ _ D).
Qed.

Lemma sumr_dset : forall h l k v, NoDup (map fst l) ->
  (sumr h (dset Nat.eqb l k v) == sumr h l - regcost h l k + rc h v)%Q.
Proof.
  intros h l k v. induction l as [|[k' v'] l IH]; intros N; cbn [dset].
  - unfold sumr, regcost. cbn. ring.
  - cbn [map fst] in N. inversion N as [|? ? Nk Nl]; subst. specialize (IH Nl).
    unfold regcost. cbn [dget]. destruct (Nat.eqb k' k) eqn:E.
    + unfold sumr. cbn [fold_right snd]. ring.
    + unfold sumr in *. cbn [fold_right snd]. rewrite IH. unfold regcost. ring.
Qed.

Lemma regcost_dset : forall h l k v k',
  regcost h (dset Nat.eqb l k v) k' = if Nat.eqb k k' then rc h v else regcost h l k'.
Proof.
  intros. unfold regcost. rewrite (dget_dset _ Nat.eqb_eq). destruct (Nat.eqb k k'); reflexivity.
Qed.

(** Sum over keys of the cost of each region. *)
Definition keysum (h : list obj) (l : list (nat * rv)) (ks : list nat) : Q :=
  fold_right (fun k a => regcost h l k + a)%Q 0%Q ks.

Lemma keysum_all : forall h l, NoDup (map fst l) -> (keysum h l (map fst l) == sumr h l)%Q.
Proof.
  intros h l N.
  assert (G : forall l2, NoDup (map fst l2) -> (forall k v, In (k, v) l2 -> dget Nat.eqb l k = Some v) ->
              (keysum h l (map fst l2) == sumr h l2)%Q).
  { induction l2 as [|[k v] l2 IH]; intros N2 H; [reflexivity|].
    cbn [map fst] in *. inversion N2 as [|? ? Nk Nl]; subst.
    unfold keysum, sumr in *. cbn [fold_right snd]. rewrite IH.
    - unfold regcost. rewrite (H k v); [reflexivity | left; reflexivity].
    - exact Nl.
    - intros k' v' Hin. apply H. right. exact Hin. }
  apply G; [exact N|]. intros k v Hin. apply (dget_Some_iff _ Nat.eqb_eq); assumption.
Qed.

(** * The invariant *)
Definition good_obj (o : obj) : Prop :=
  NoDup (map fst (regs o)) /\ plain (tot o) /\ forall k s, In (k, RV s) (regs o) -> plain s.

Record Inv (h : list obj) (dead : list nat) (own : nat -> Prop) : Prop := mkInv {
  i_own : forall j, own j -> In j dead /\ j < length h;
  i_good : forall i, i < length h -> ~ In i dead \/ own i -> good_obj (ob h i);
  i_ref : forall i k j, i < length h -> ~ In i dead \/ own i ->
            In (k, RR j) (regs (ob h i)) -> own j;
  i_uniq : forall i k i' k' j, i < length h -> ~ In i dead \/ own i ->
            i' < length h -> ~ In i' dead \/ own i' ->
            In (k, RR j) (regs (ob h i)) -> In (k', RR j) (regs (ob h i')) -> i = i' /\ k = k'
}.

Lemma as_sdram_plain : forall h v, (forall s, v = RV s -> plain s) ->
  (forall j, v = RR j -> j < length h /\ plain (tot (ob h j))) ->
  exists x, as_sdram h v = Ok x /\ plain x /\ mu x = rc h v.
Proof.
  intros h [s|j] H1 H2; cbn [as_sdram rc].
  - exists s. split; [reflexivity|]. split; [apply H1|]; reflexivity.
  - destruct (H2 j eq_refl) as [L P]. rewrite (aget_ob h j L). cbn [bind].
    exists (Multi (tot (ob h j))). split; [reflexivity|]. split; [exact P | apply mu_multi].
Qed.

Lemma add_total_spec : forall h i s, i < length h -> plain (tot (ob h i)) -> plain s ->
  exists t, add_total h i s = Ok (upd h i (mkObj (regs (ob h i)) t)) /\ plain t /\
            (mu t == mu (tot (ob h i)) + mu s)%Q.
Proof.
  intros h i s L P Ps. unfold add_total. rewrite (aget_ob h i L). cbn [bind].
  destruct (mu_add _ _ P Ps) as [t [E [Pt M]]]. rewrite E. cbn [bind].
  rewrite aset_upd by exact L. exists t. auto.
Qed.

(** nest of an immutable value: only object i changes. *)
Lemma nest_val_spec : forall h dead own i k s, Inv h dead own ->
  i < length h -> ~ In i dead -> plain s ->
  exists o', nest_val h i k s = Ok (upd h i o') /\ good_obj o' /\
    (mu (tot o') == mu (tot (ob h i)) + mu s)%Q /\
    (sumr h (regs o') == sumr h (regs (ob h i)) + mu s)%Q /\
    (forall k', regcost h (regs o') k' == regcost h (regs (ob h i)) k' + (if Nat.eqb k k' then mu s else 0))%Q /\
    (forall k' j, In (k', RR j) (regs o') -> In (k', RR j) (regs (ob h i)) /\ k' <> k).
Proof.
  intros h dead own i k s V L D Ps.
  destruct (i_good _ _ _ V i L (or_introl D)) as [N [Pt Pv]].
  unfold nest_val. destruct (add_total_spec h i s L Pt Ps) as [t [E [P' M]]].
  rewrite E. cbn [bind].
  assert (L1 : i < length (upd h i (mkObj (regs (ob h i)) t))) by (rewrite upd_length; exact L).
  rewrite (aget_ob _ _ L1), ob_upd_eq by exact L. cbn [bind regs].
  assert (UU : forall x y, upd (upd h i x) i y = upd h i y).
  { clear. revert i. induction h as [|o h IH]; intros [|i] x y; cbn; try reflexivity. rewrite IH. reflexivity. }
  assert (SR : forall v, set_region (upd h i (mkObj (regs (ob h i)) t)) i k v =
                Ok (upd h i (mkObj (dset Nat.eqb (regs (ob h i)) k v) t))).
  { intros v. unfold set_region. rewrite (aget_ob _ _ L1), ob_upd_eq by exact L. cbn [bind regs tot].
    rewrite aset_upd by exact L1. rewrite UU. reflexivity. }
  assert (R : forall y, plain y -> (mu y == regcost h (regs (ob h i)) k + mu s)%Q ->
     exists o', Ok (upd h i (mkObj (dset Nat.eqb (regs (ob h i)) k (RV y)) t)) = Ok (upd h i o') /\ good_obj o' /\
    (mu (tot o') == mu (tot (ob h i)) + mu s)%Q /\
    (sumr h (regs o') == sumr h (regs (ob h i)) + mu s)%Q /\
    (forall k', regcost h (regs o') k' == regcost h (regs (ob h i)) k' + (if Nat.eqb k k' then mu s else 0))%Q /\
    (forall k' j, In (k', RR j) (regs o') -> In (k', RR j) (regs (ob h i)) /\ k' <> k)).
  { intros y Py My. eexists. split; [reflexivity|]. cbn [regs tot]. split; [|split; [|split; [|split]]].
    - split; [|split].
      + apply dset_NoDup; [exact Nat.eqb_eq | exact N].
      + exact P'.
      + intros k' s' Hin. apply (dset_In _ Nat.eqb_eq) in Hin. destruct Hin as [[-> H]|H].
        * injection H as ->. exact Py.
        * exact (Pv k' s' H).
    - exact M.
    - rewrite sumr_dset by exact N. cbn [rc]. rewrite My. ring.
    - intros k'. rewrite regcost_dset. destruct (Nat.eqb k k') eqn:Ek.
      + apply Nat.eqb_eq in Ek. subst k'. cbn [rc]. exact My.
      + ring.
    - intros k' j Hin.
      assert (Hk : k' <> k).
      { intros ->.
        assert (In (k, RV y) (dset Nat.eqb (regs (ob h i)) k (RV y))) by (apply dset_In_new; exact Nat.eqb_eq).
        assert (N' : NoDup (map fst (dset Nat.eqb (regs (ob h i)) k (RV y)))) by (apply dset_NoDup; [exact Nat.eqb_eq | exact N]).
        apply (dget_Some_iff _ Nat.eqb_eq) in H; [|exact N'].
        apply (dget_Some_iff _ Nat.eqb_eq) in Hin; [|exact N']. congruence. }
      apply (dset_In _ Nat.eqb_eq) in Hin. destruct Hin as [[-> H]|H]; [contradiction|]. auto. }
  destruct (dget Nat.eqb (regs (ob h i)) k) as [v|] eqn:Dg.
  - assert (Hin := dget_In _ Nat.eqb_eq _ _ _ Dg).
    assert (NI : forall j, v = RR j -> j <> i).
    { intros j -> ->. destruct (i_own _ _ _ V i (i_ref _ _ _ V i k i L (or_introl D) Hin)) as [X _]. contradiction. }
    destruct (as_sdram_plain (upd h i (mkObj (regs (ob h i)) t)) v) as [x [Ex [Px Mx]]].
    { intros s' ->. exact (Pv k s' Hin). }
    { intros j ->. pose proof (i_ref _ _ _ V i k j L (or_introl D) Hin) as O.
      destruct (i_own _ _ _ V j O) as [_ Lj]. rewrite upd_length. split; [exact Lj|].
      rewrite ob_upd_neq by (apply not_eq_sym; apply NI; reflexivity).
      apply (i_good _ _ _ V j Lj (or_intror O)). }
    rewrite Ex. cbn [bind]. destruct (mu_add _ _ Px Ps) as [y [Ey [Py My]]]. rewrite Ey. cbn [bind].
    rewrite SR. apply R; [exact Py|]. rewrite My, Mx. unfold regcost. rewrite Dg.
    rewrite (rc_ext _ h v); [reflexivity|]. intros j ->. rewrite ob_upd_neq; [reflexivity|].
    apply not_eq_sym. apply NI. reflexivity.
  - rewrite SR. apply R; [exact Ps|]. unfold regcost. rewrite Dg. ring.
Qed.

Lemma upd_upd : forall (h : list obj) i x y, upd (upd h i x) i y = upd h i y.
Proof. induction h as [|o h IH]; intros [|i] x y; cbn; try reflexivity. rewrite IH. reflexivity. Qed.

(** Whether [k] is one of [ks]. *)
Definition kin (k : nat) (ks : list nat) : bool := existsb (Nat.eqb k) ks.

Lemma kin_In : forall k ks, kin k ks = true <-> In k ks.
Proof.
  intros k ks. unfold kin. rewrite existsb_exists. split.
  - intros [x [I E]]. apply Nat.eqb_eq in E. subst. exact I.
  - intros I. exists k. split; [exact I | apply Nat.eqb_refl].
Qed.

Definition refs_ok (h : list obj) (m : nat) (R : list (nat * rv)) : Prop :=
  forall k x, In (k, RR x) R -> x <> m /\ x < length h /\ plain (tot (ob h x)).
Definition vals_ok (R : list (nat * rv)) : Prop := forall k s, In (k, RV s) R -> plain s.

Lemma merge_loop : forall h m j T ks R,
  m < length h -> j < length h -> m <> j ->
  NoDup ks -> (forall k, In k ks -> In k (map fst (regs (ob h j)))) ->
  NoDup (map fst R) -> NoDup (map fst (regs (ob h j))) ->
  vals_ok R -> vals_ok (regs (ob h j)) -> refs_ok h m R -> refs_ok h m (regs (ob h j)) ->
  exists R', foldM (merge_one m j) (upd h m (mkObj R T)) ks = Ok (upd h m (mkObj R' T)) /\
    NoDup (map fst R') /\ vals_ok R' /\
    (sumr h R' == sumr h R + keysum h (regs (ob h j)) ks)%Q /\
    (forall k, regcost h R' k == regcost h R k + (if kin k ks then regcost h (regs (ob h j)) k else 0))%Q /\
    (forall k x, In (k, RR x) R' -> In (k, RR x) R \/ In k ks /\ In (k, RR x) (regs (ob h j))).
Proof.
  intros h m j T ks. induction ks as [|k ks IH]; intros R Lm Lj Nmj Nks Sub NR NJ VR VJ RR_ RJ.
  - exists R. cbn [foldM]. split; [reflexivity|]. split; [exact NR|]. split; [exact VR|].
    split; [unfold keysum; cbn; ring|]. split; [intros k; cbn; ring|]. auto.
  - inversion Nks as [|? ? Nk Nks']; subst. cbn [foldM].
    assert (Lm1 : forall x, m < length (upd h m x)) by (intros; rewrite upd_length; exact Lm).
    assert (Lj1 : forall x, j < length (upd h m x)) by (intros; rewrite upd_length; exact Lj).
    assert (Dj : exists w, dget Nat.eqb (regs (ob h j)) k = Some w).
    { specialize (Sub k (or_introl eq_refl)). apply in_map_iff in Sub. destruct Sub as [[k' w] [E I]].
      cbn in E. subst k'. exists w. apply (dget_Some_iff _ Nat.eqb_eq); assumption. }
    destruct Dj as [w Dj]. assert (Iw := dget_In _ Nat.eqb_eq _ _ _ Dj).
    assert (AS : forall v R0, (forall s, v = RV s -> plain s) -> (forall x, v = RR x -> x <> m /\ x < length h /\ plain (tot (ob h x))) ->
               exists x, as_sdram (upd h m (mkObj R0 T)) v = Ok x /\ plain x /\ mu x = rc h v).
    { intros v R0 H1 H2. destruct (as_sdram_plain (upd h m (mkObj R0 T)) v) as [x [Ex [Px Mx]]].
      - exact H1.
      - intros x ->. destruct (H2 x eq_refl) as [X1 [X2 X3]]. rewrite upd_length. split; [exact X2|].
        rewrite ob_upd_neq by auto. exact X3.
      - exists x. split; [exact Ex|]. split; [exact Px|]. rewrite Mx. apply rc_ext.
        intros x' ->. destruct (H2 x' eq_refl) as [X1 _]. rewrite ob_upd_neq by auto. reflexivity. }
    assert (SR : forall v, set_region (upd h m (mkObj R T)) m k v =
                Ok (upd h m (mkObj (dset Nat.eqb R k v) T))).
    { intros v. unfold set_region. rewrite (aget_ob _ _ (Lm1 _)), ob_upd_eq by exact Lm. cbn [bind regs tot].
      rewrite aset_upd by apply Lm1. rewrite upd_upd. reflexivity. }
    assert (ST : exists v, merge_one m j (upd h m (mkObj R T)) k = Ok (upd h m (mkObj (dset Nat.eqb R k v) T)) /\
               (rc h v == regcost h R k + regcost h (regs (ob h j)) k)%Q /\
               (forall s, v = RV s -> plain s) /\
               (forall x, v = RR x -> In (k, RR x) (regs (ob h j)))).
    { unfold merge_one. rewrite (aget_ob _ _ (Lm1 _)), ob_upd_eq by exact Lm. cbn [bind regs].
      rewrite (aget_ob _ _ (Lj1 _)), ob_upd_neq by exact Nmj. cbn [bind].
      unfold dgetE. rewrite Dj. cbn [bind].
      destruct (dget Nat.eqb R k) as [v|] eqn:Dm.
      - assert (Iv := dget_In _ Nat.eqb_eq _ _ _ Dm).
        destruct (AS v R) as [x [Ex [Px Mx]]]; [intros s ->; exact (VR k s Iv) | intros x ->; exact (RR_ k x Iv)|].
        destruct (AS w R) as [y [Ey [Py My]]]; [intros s ->; exact (VJ k s Iw) | intros x' ->; exact (RJ k x' Iw)|].
        rewrite Ex. cbn [bind]. rewrite Ey. cbn [bind].
        destruct (mu_add _ _ Px Py) as [z [Ez [Pz Mz]]]. rewrite Ez. cbn [bind]. rewrite SR.
        exists (RV z). split; [reflexivity|]. split; [|split].
        + cbn [rc]. rewrite Mz, Mx, My. unfold regcost. rewrite Dm, Dj. reflexivity.
        + intros s E. injection E as <-. exact Pz.
        + intros x0 E. discriminate.
      - rewrite SR. exists w. split; [reflexivity|]. split; [|split].
        + unfold regcost. rewrite Dm, Dj. ring.
        + intros s ->. exact (VJ k s Iw).
        + intros x ->. exact Iw. }
    destruct ST as [v [E1 [Mv [Pv Rv]]]]. rewrite E1. cbn [bind].
    destruct (IH (dset Nat.eqb R k v)) as [R' [E2 [N' [V' [S' [C' F']]]]]]; try assumption.
    { intros k' Hk. apply Sub. right. exact Hk. }
    { apply dset_NoDup; [exact Nat.eqb_eq | exact NR]. }
    { intros k' s Hin. apply (dset_In _ Nat.eqb_eq) in Hin. destruct Hin as [[-> H]|H]; [apply Pv; congruence | exact (VR k' s H)]. }
    { intros k' x Hin. apply (dset_In _ Nat.eqb_eq) in Hin. destruct Hin as [[-> H]|H]; [|exact (RR_ k' x H)].
      apply (RJ k x). apply Rv. congruence. }
    exists R'. split; [exact E2|]. split; [exact N'|]. split; [exact V'|]. split; [|split].
    + rewrite S', sumr_dset by exact NR. unfold keysum. cbn [fold_right]. rewrite Mv. ring.
    + intros k'. rewrite C', regcost_dset. unfold kin. cbn [existsb]. fold (kin k' ks).
      destruct (Nat.eqb k k') eqn:Ek.
      * apply Nat.eqb_eq in Ek. subst k'. rewrite Nat.eqb_refl. cbn [orb].
        destruct (kin k ks) eqn:Kk; [apply kin_In in Kk; contradiction|]. rewrite Mv. ring.
      * rewrite Nat.eqb_sym, Ek. cbn [orb]. reflexivity.
    + intros k' x Hin. destruct (F' k' x Hin) as [H|[H1 H2]]; [|right; split; [right; exact H1 | exact H2]].
      apply (dset_In _ Nat.eqb_eq) in H. destruct H as [[-> H]|H]; [|left; exact H].
      right. split; [left; reflexivity|]. apply Rv. congruence.
Qed.

Lemma merge_spec1 : forall h dead own m j, Inv h dead own ->
  m < length h -> ~ In m dead \/ own m -> j < length h -> ~ In j dead -> m <> j ->
  (forall k, ~ In (k, RR m) (regs (ob h m))) -> (forall k, ~ In (k, RR m) (regs (ob h j))) ->
  exists o', merge h m j = Ok (upd h m o') /\ good_obj o' /\
    (mu (tot o') == mu (tot (ob h m)) + mu (tot (ob h j)))%Q /\
    (sumr h (regs o') == sumr h (regs (ob h m)) + sumr h (regs (ob h j)))%Q /\
    (forall k, regcost h (regs o') k == regcost h (regs (ob h m)) k + regcost h (regs (ob h j)) k)%Q /\
    (forall k x, In (k, RR x) (regs o') -> In (k, RR x) (regs (ob h m)) \/ In (k, RR x) (regs (ob h j))).
Proof.
  intros h dead own m j V Lm Am Lj Dj Nmj Rm Rj.
  destruct (i_good _ _ _ V m Lm Am) as [N [Pt Pv]].
  destruct (i_good _ _ _ V j Lj (or_introl Dj)) as [N2 [Pt2 Pv2]].
  unfold merge. rewrite (aget_ob h j Lj). cbn [bind].
  destruct (add_total_spec h m (Multi (tot (ob h j))) Lm Pt Pt2) as [t [E [P' M]]].
  rewrite E. cbn [bind]. rewrite aget_ob by (rewrite upd_length; exact Lj).
  rewrite ob_upd_neq by exact Nmj. cbn [bind].
  destruct (merge_loop h m j t (map fst (regs (ob h j))) (regs (ob h m))) as [R' [E2 [N' [V' [S' [C' F']]]]]];
    try assumption.
  - auto.
  - intros k x Hin. pose proof (i_ref _ _ _ V m k x Lm Am Hin) as O.
    destruct (i_own _ _ _ V x O) as [_ Lx]. split; [|split; [exact Lx | apply (i_good _ _ _ V x Lx (or_intror O))]].
    intros ->. apply (Rm k). exact Hin.
  - intros k x Hin. pose proof (i_ref _ _ _ V j k x Lj (or_introl Dj) Hin) as O.
    destruct (i_own _ _ _ V x O) as [_ Lx]. split; [|split; [exact Lx | apply (i_good _ _ _ V x Lx (or_intror O))]].
    intros ->. apply (Rj k). exact Hin.
  - eexists. split; [exact E2|]. cbn [regs tot]. split; [split; [exact N' | split; [exact P' | exact V']]|].
    split; [rewrite M, mu_multi; reflexivity|].
    split; [rewrite S', keysum_all by exact N2; reflexivity|]. split.
    + intros k. rewrite C'. destruct (kin k (map fst (regs (ob h j)))) eqn:K; [reflexivity|].
      unfold regcost at 3. destruct (dget Nat.eqb (regs (ob h j)) k) as [v|] eqn:D; [|reflexivity].
      exfalso. apply Bool.not_true_iff_false in K. apply K. apply kin_In.
      apply in_map_iff. exists (k, v). split; [reflexivity|]. exact (dget_In _ Nat.eqb_eq _ _ _ D).
    + intros k x Hin. destruct (F' k x Hin) as [H|[_ H]]; auto.
Qed.

Definition act (dead : list nat) (own : nat -> Prop) (i : nat) : Prop := ~ In i dead \/ own i.

(** Replacing one object by another whose references come from it or from a
    live object that is given away. *)
Lemma Inv_replace : forall h dead own dead' i o',
  Inv h dead own -> (forall x, In x dead -> In x dead') -> i < length h -> act dead' own i -> good_obj o' ->
  (forall k x, In (k, RR x) (regs o') ->
     In (k, RR x) (regs (ob h i)) \/
     exists j, In j dead' /\ ~ In j dead /\ j < length h /\ In (k, RR x) (regs (ob h j))) ->
  (forall j j', In j dead' -> ~ In j dead -> In j' dead' -> ~ In j' dead -> j = j') ->
  Inv (upd h i o') dead' own.
Proof.
  intros h dead own dead' i o' V SD L A G RS ONE.
  assert (A0 : forall x, act dead' own x -> act dead own x).
  { intros x [H|H]; [left; intros X; apply H; apply SD; exact X | right; exact H]. }
  assert (NO : forall j, ~ In j dead -> ~ own j) by (intros j D O; apply D; apply (i_own _ _ _ V j O)).
  assert (NA : forall j, In j dead' -> ~ In j dead -> ~ act dead' own j).
  { intros j D1 D2 [X|X]; [contradiction | exact (NO j D2 X)]. }
  (* every reference of an active object has a source in the old heap *)
  assert (SRC : forall a k x, a < length h -> act dead' own a -> In (k, RR x) (regs (ob (upd h i o') a)) ->
     exists b, b < length h /\ act dead own b /\ In (k, RR x) (regs (ob h b)) /\
               (b = a \/ (a = i /\ In b dead' /\ ~ In b dead))).
  { intros a k x La Aa Hin. destruct (Nat.eq_dec a i) as [->|N].
    - rewrite ob_upd_eq in Hin by exact L. destruct (RS k x Hin) as [H|[j [D1 [D2 [Lj H]]]]].
      + exists i. split; [exact L|]. split; [apply A0; exact A|]. auto.
      + exists j. split; [exact Lj|]. split; [left; exact D2|]. auto.
    - rewrite ob_upd_neq in Hin by auto. exists a. auto. }
  constructor.
  - intros j O. rewrite upd_length. destruct (i_own _ _ _ V j O) as [H1 H2]. split; [apply SD; exact H1 | exact H2].
  - intros a La Aa. rewrite upd_length in La. destruct (Nat.eq_dec a i) as [->|N].
    + rewrite ob_upd_eq by exact L. exact G.
    + rewrite ob_upd_neq by auto. apply (i_good _ _ _ V); [exact La | apply A0; exact Aa].
  - intros a k x La Aa Hin. rewrite upd_length in La.
    destruct (SRC a k x La Aa Hin) as [b [Lb [Ab [Hb _]]]]. exact (i_ref _ _ _ V b k x Lb Ab Hb).
  - intros a k a' k' x La Aa La' Aa' Hin Hin'. rewrite upd_length in La, La'.
    destruct (SRC a k x La Aa Hin) as [b [Lb [Ab [Hb Sb]]]].
    destruct (SRC a' k' x La' Aa' Hin') as [b' [Lb' [Ab' [Hb' Sb']]]].
    destruct (i_uniq _ _ _ V b k b' k' x Lb Ab Lb' Ab' Hb Hb') as [Eb Ek].
    split; [|exact Ek]. subst b'.
    destruct Sb as [->|[-> [D1 D2]]], Sb' as [->|[-> [D1' D2']]]; auto.
    + exfalso. apply (NA a D1' D2'). exact Aa.
    + exfalso. apply (NA a' D1 D2). exact Aa'.
Qed.

(** A total can be changed freely as far as [Inv] is concerned. *)
Lemma Inv_tot : forall h dead own i t, Inv h dead own -> i < length h -> act dead own i -> plain t ->
  Inv (upd h i (mkObj (regs (ob h i)) t)) dead own.
Proof.
  intros h dead own i t V L A P. eapply Inv_replace; try eassumption; auto.
  - destruct (i_good _ _ _ V i L A) as [N [_ Pv]]. split; [exact N | split; [exact P | exact Pv]].
  - intros j j' D1 D2. contradiction.
Qed.

(** Object [j], live so far, becomes region [k] of the live object [i]. *)
Lemma Inv_adopt : forall h dead own i k j t, Inv h dead own -> i < length h -> ~ In i dead ->
  j < length h -> ~ In j dead -> i <> j -> plain t ->
  Inv (upd h i (mkObj (dset Nat.eqb (regs (ob h i)) k (RR j)) t)) (j :: dead) (fun x => own x \/ x = j).
Proof.
  intros h dead own i k j t V L D Lj Dj N P.
  assert (A0 : forall x, act (j :: dead) (fun x => own x \/ x = j) x -> act dead own x).
  { intros x [H|[H| ->]]; [left; intros X; apply H; right; exact X | right; exact H | left; exact Dj]. }
  assert (NO : ~ own j) by (intros O; apply Dj; apply (i_own _ _ _ V j O)).
  assert (NoDupi : NoDup (map fst (dset Nat.eqb (regs (ob h i)) k (RR j)))).
  { apply dset_NoDup; [exact Nat.eqb_eq|]. apply (i_good _ _ _ V i L (or_introl D)). }
  assert (SRC : forall a k' x, a < length h -> act (j :: dead) (fun x => own x \/ x = j) a ->
     In (k', RR x) (regs (ob (upd h i (mkObj (dset Nat.eqb (regs (ob h i)) k (RR j)) t)) a)) ->
     (x = j /\ a = i /\ k' = k) \/ In (k', RR x) (regs (ob h a))).
  { intros a k' x La Aa Hin. destruct (Nat.eq_dec a i) as [->|Na].
    - rewrite ob_upd_eq in Hin by exact L. cbn [regs] in Hin.
      apply (dset_In _ Nat.eqb_eq) in Hin. destruct Hin as [[-> H]|H]; [|right; exact H].
      injection H as ->. left. auto.
    - rewrite ob_upd_neq in Hin by auto. right. exact Hin. }
  constructor.
  - intros x O. rewrite upd_length. destruct O as [O| ->].
    + destruct (i_own _ _ _ V x O) as [H1 H2]. split; [right; exact H1 | exact H2].
    + split; [left; reflexivity | exact Lj].
  - intros a La Aa. rewrite upd_length in La. destruct (Nat.eq_dec a i) as [->|Na].
    + rewrite ob_upd_eq by exact L. destruct (i_good _ _ _ V i L (or_introl D)) as [Ni [_ Pv]].
      split; [exact NoDupi|]. split; [exact P|]. intros k' s Hin. cbn [regs] in Hin.
      apply (dset_In _ Nat.eqb_eq) in Hin. destruct Hin as [[_ H]|H]; [discriminate | exact (Pv k' s H)].
    + rewrite ob_upd_neq by auto. apply (i_good _ _ _ V); [exact La | apply A0; exact Aa].
  - intros a k' x La Aa Hin. rewrite upd_length in La.
    destruct (SRC a k' x La Aa Hin) as [[-> _]|H]; [right; reflexivity|].
    left. exact (i_ref _ _ _ V a k' x La (A0 a Aa) H).
  - intros a k1 a' k2 x La Aa La' Aa' Hin Hin'. rewrite upd_length in La, La'.
    destruct (SRC a k1 x La Aa Hin) as [[-> [-> ->]]|H];
    destruct (SRC a' k2 _ La' Aa' Hin') as [[Ex [-> ->]]|H'].
    + auto.
    + exfalso. apply NO. exact (i_ref _ _ _ V a' k2 j La' (A0 a' Aa') H').
    + subst x. exfalso. apply NO. exact (i_ref _ _ _ V a k1 j La (A0 a Aa) H).
    + exact (i_uniq _ _ _ V a k1 a' k2 x La (A0 a Aa) La' (A0 a' Aa') H H').
Qed.

(** * The whole state *)
Record Full (h : list obj) (dead : list nat) (own : nat -> Prop) (am : charges) : Prop := mkFull {
  f_inv : Inv h dead own;
  f_bal : forall i, i < length h -> act dead own i -> (mu (tot (ob h i)) == sumr h (regs (ob h i)))%Q;
  f_reg : forall i k, i < length h -> ~ In i dead ->
            (regcost h (regs (ob h i)) k == mu_sum (in_region k (am i)))%Q;
  f_tot : forall i, i < length h -> ~ In i dead -> (mu (tot (ob h i)) == mu_sum (am i))%Q;
  f_new : forall i, length h <= i -> am i = []
}.

Lemma in_region_app : forall k a b, in_region k (a ++ b) = in_region k a ++ in_region k b.
Proof. intros. apply filter_app. Qed.

(** References of an active object never point to a live object. *)
Lemma ref_dead : forall h dead own i k x, Inv h dead own -> i < length h -> act dead own i ->
  In (k, RR x) (regs (ob h i)) -> In x dead.
Proof.
  intros h dead own i k x V L A H. apply (i_own _ _ _ V x). exact (i_ref _ _ _ V i k x L A H).
Qed.

(** Changing the total of a live object is not seen by any region. *)
Lemma sumr_live : forall h dead own i o' a, Inv h dead own -> ~ In i dead ->
  a < length h -> act dead own a ->
  sumr (upd h i o') (regs (ob h a)) = sumr h (regs (ob h a)).
Proof.
  intros h dead own i o' a V D La Aa. apply sumr_ext. intros k j Hin.
  rewrite ob_upd_neq; [reflexivity|]. intros <-. apply D. eapply ref_dead; eassumption.
Qed.

Lemma regcost_live : forall h dead own i o' a k, Inv h dead own -> ~ In i dead ->
  a < length h -> act dead own a ->
  regcost (upd h i o') (regs (ob h a)) k = regcost h (regs (ob h a)) k.
Proof.
  intros h dead own i o' a k V D La Aa. apply regcost_ext. intros k' j Hin.
  rewrite ob_upd_neq; [reflexivity|]. intros <-. apply D. eapply ref_dead; eassumption.
Qed.

Lemma step_nest_val : forall h dead own am i k s, Full h dead own am ->
  i < length h -> ~ In i dead -> plain s ->
  exists h', nest_val h i k s = Ok h' /\ length h' = length h /\
    Full h' dead own (fun x => if Nat.eqb x i then am i ++ [(k, s)] else am x).
Proof.
  intros h dead own am i k s F L D Ps. pose proof (f_inv _ _ _ _ F) as V.
  destruct (nest_val_spec h dead own i k s V L D Ps) as [o' [E [G [T [S [C R]]]]]].
  exists (upd h i o'). split; [exact E|]. split; [apply upd_length|].
  assert (RI : forall k' j, In (k', RR j) (regs o') -> j <> i).
  { intros k' j Hin ->. destruct (R k' i Hin) as [H _]. apply D. eapply ref_dead; [exact V | exact L | left; exact D | exact H]. }
  assert (X : forall k' j, In (k', RR j) (regs o') -> tot (ob (upd h i o') j) = tot (ob h j)).
  { intros k' j Hin. rewrite ob_upd_neq; [reflexivity|]. apply not_eq_sym. eapply RI; exact Hin. }
  constructor.
  - eapply Inv_replace; try eassumption; auto.
    + left. exact D.
    + intros k' x Hin. left. apply R. exact Hin.
    + intros j j' D1 D2. contradiction.
  - intros a La Aa. rewrite upd_length in La. destruct (Nat.eq_dec a i) as [->|N].
    + rewrite ob_upd_eq by exact L. rewrite (sumr_ext _ h _ X), T, S.
      rewrite (f_bal _ _ _ _ F i L (or_introl D)). reflexivity.
    + rewrite ob_upd_neq by auto. rewrite (sumr_live h dead own i o' a V D La Aa). apply (f_bal _ _ _ _ F a La Aa).
  - intros a k' La Da. rewrite upd_length in La. destruct (Nat.eqb_spec a i) as [->|N].
    + rewrite ob_upd_eq by exact L. rewrite (regcost_ext _ h _ k' X), C, in_region_app, mu_sum_app.
      rewrite (f_reg _ _ _ _ F i k' L D). apply Qplus_comp; [reflexivity|]. unfold in_region. cbn [filter fst].
      destruct (Nat.eqb k k'); unfold mu_sum; cbn [fold_right snd]; ring.
    + rewrite ob_upd_neq by auto. rewrite (regcost_live h dead own i o' a k' V D La (or_introl Da)).
      apply (f_reg _ _ _ _ F a k' La Da).
  - intros a La Da. rewrite upd_length in La. destruct (Nat.eqb_spec a i) as [->|N].
    + rewrite ob_upd_eq by exact L. rewrite T, mu_sum_app, (f_tot _ _ _ _ F i L D).
      unfold mu_sum. cbn [fold_right snd]. ring.
    + rewrite ob_upd_neq by auto. apply (f_tot _ _ _ _ F a La Da).
  - intros a La. rewrite upd_length in La. destruct (Nat.eqb_spec a i) as [->|N]; [lia|].
    apply (f_new _ _ _ _ F a La).
Qed.

Lemma step_merge : forall h dead own am i j, Full h dead own am ->
  i < length h -> ~ In i dead -> j < length h -> ~ In j dead -> i <> j ->
  exists h', merge h i j = Ok h' /\ length h' = length h /\
    Full h' (j :: dead) own (fun x => if Nat.eqb x i then am i ++ am j else am x).
Proof.
  intros h dead own am i j F L D Lj Dj N. pose proof (f_inv _ _ _ _ F) as V.
  destruct (merge_spec1 h dead own i j V L (or_introl D) Lj Dj N) as [o' [E [G [T [S [C R]]]]]].
  { intros k Hin. apply D. eapply ref_dead; [exact V | exact L | left; exact D | exact Hin]. }
  { intros k Hin. apply D. eapply ref_dead; [exact V | exact Lj | left; exact Dj | exact Hin]. }
  exists (upd h i o'). split; [exact E|]. split; [apply upd_length|].
  assert (X : forall k' x, In (k', RR x) (regs o') -> tot (ob (upd h i o') x) = tot (ob h x)).
  { intros k' x Hin. rewrite ob_upd_neq; [reflexivity|]. intros <-. apply D.
    destruct (R k' i Hin) as [H|H]; (eapply ref_dead; [exact V | | | exact H]); try assumption; left; assumption. }
  assert (A0 : forall x, act (j :: dead) own x -> act dead own x).
  { intros x [H|H]; [left; intros Y; apply H; right; exact Y | right; exact H]. }
  constructor.
  - eapply (Inv_replace h dead own (j :: dead)); try eassumption.
    + intros x H. right. exact H.
    + left. intros [H|H]; [apply N; auto | contradiction].
    + intros k x Hin. destruct (R k x Hin) as [H|H]; [left; exact H|]. right. exists j.
      split; [left; reflexivity | auto].
    + intros a b [<-|Ha] Na [<-|Hb] Nb; try contradiction. reflexivity.
  - intros a La Aa. rewrite upd_length in La. destruct (Nat.eq_dec a i) as [->|Na].
    + rewrite ob_upd_eq by exact L. rewrite (sumr_ext _ h _ X), T, S.
      rewrite (f_bal _ _ _ _ F i L (or_introl D)), (f_bal _ _ _ _ F j Lj (or_introl Dj)). reflexivity.
    + rewrite ob_upd_neq by auto. rewrite (sumr_live h dead own i o' a V D La (A0 a Aa)). apply (f_bal _ _ _ _ F a La (A0 a Aa)).
  - intros a k' La Da. rewrite upd_length in La.
    assert (Da' : ~ In a dead) by (intros Y; apply Da; right; exact Y).
    destruct (Nat.eqb_spec a i) as [->|Na].
    + rewrite ob_upd_eq by exact L. rewrite (regcost_ext _ h _ k' X), C, in_region_app, mu_sum_app.
      rewrite (f_reg _ _ _ _ F i k' L D), (f_reg _ _ _ _ F j k' Lj Dj). reflexivity.
    + rewrite ob_upd_neq by auto. rewrite (regcost_live h dead own i o' a k' V D La (or_introl Da')).
      apply (f_reg _ _ _ _ F a k' La Da').
  - intros a La Da. rewrite upd_length in La.
    assert (Da' : ~ In a dead) by (intros Y; apply Da; right; exact Y).
    destruct (Nat.eqb_spec a i) as [->|Na].
    + rewrite ob_upd_eq by exact L.
      rewrite T, mu_sum_app, (f_tot _ _ _ _ F i L D), (f_tot _ _ _ _ F j Lj Dj). reflexivity.
    + rewrite ob_upd_neq by auto. apply (f_tot _ _ _ _ F a La Da').
  - intros a La. rewrite upd_length in La. destruct (Nat.eqb_spec a i) as [->|Na]; [lia|].
    apply (f_new _ _ _ _ F a La).
Qed.

Lemma mu_sum_retag : forall k l, (mu_sum (map (fun ks => (k, snd ks)) l) == mu_sum l)%Q.
Proof.
  unfold mu_sum. induction l as [|x l IH]; cbn [map fold_right snd]; [reflexivity|]. rewrite IH. reflexivity.
Qed.

Lemma in_region_retag : forall k k' (l : list (nat * sdram)),
  in_region k' (map (fun ks => (k, snd ks)) l) = if Nat.eqb k k' then map (fun ks => (k, snd ks)) l else [].
Proof.
  intros k k' l. unfold in_region. induction l as [|x l IH]; cbn [map filter fst].
  - destruct (Nat.eqb k k'); reflexivity.
  - rewrite IH. destruct (Nat.eqb k k'); reflexivity.
Qed.

Lemma finish_nest : forall h dead own am i k j h' own',
  Full h dead own am -> i < length h -> ~ In i dead -> j < length h -> ~ In j dead -> i <> j ->
  length h' = length h -> Inv h' (j :: dead) own' -> 
  (mu (tot (ob h' i)) == mu (tot (ob h i)) + mu (tot (ob h j)))%Q ->
  (sumr h' (regs (ob h' i)) == sumr h (regs (ob h i)) + mu (tot (ob h j)))%Q ->
  (forall k', regcost h' (regs (ob h' i)) k' ==
     regcost h (regs (ob h i)) k' + (if Nat.eqb k k' then mu (tot (ob h j)) else 0))%Q ->
  (forall a, a <> i -> a < length h -> act (j :: dead) own' a -> (mu (tot (ob h' a)) == sumr h' (regs (ob h' a)))%Q) ->
  (forall a, a <> i -> a < length h -> ~ In a (j :: dead) -> ob h' a = ob h a /\
     forall k, regcost h' (regs (ob h a)) k = regcost h (regs (ob h a)) k) ->
  Full h' (j :: dead) own'
    (fun x => if Nat.eqb x i then am i ++ map (fun ks => (k, snd ks)) (am j) else am x).
Proof.
  intros h dead own am i k j h' own' F L D Lj Dj N LL V T S C BO LO.
  constructor.
  - exact V.
  - intros a La Aa. rewrite LL in La. destruct (Nat.eq_dec a i) as [->|Na]; [|apply BO; assumption].
    rewrite T, S, (f_bal _ _ _ _ F i L (or_introl D)). reflexivity.
  - intros a k' La Da. rewrite LL in La. destruct (Nat.eqb_spec a i) as [->|Na].
    + rewrite C, in_region_app, mu_sum_app, in_region_retag, (f_reg _ _ _ _ F i k' L D).
      apply Qplus_comp; [reflexivity|]. destruct (Nat.eqb k k'); [|reflexivity].
      rewrite mu_sum_retag. apply (f_tot _ _ _ _ F j Lj Dj).
    + destruct (LO a Na La Da) as [-> R]. rewrite R. apply (f_reg _ _ _ _ F a k' La).
      intros Y. apply Da. right. exact Y.
  - intros a La Da. rewrite LL in La. destruct (Nat.eqb_spec a i) as [->|Na].
    + rewrite T, mu_sum_app, mu_sum_retag, (f_tot _ _ _ _ F i L D), (f_tot _ _ _ _ F j Lj Dj). reflexivity.
    + destruct (LO a Na La Da) as [-> R]. apply (f_tot _ _ _ _ F a La). intros Y. apply Da. right. exact Y.
  - intros a La. rewrite LL in La. destruct (Nat.eqb_spec a i) as [->|Na]; [lia|].
    apply (f_new _ _ _ _ F a La).
Qed.

Lemma sumr_app : forall h a b, (sumr h (a ++ b) == sumr h a + sumr h b)%Q.
Proof.
  intros h. unfold sumr. induction a as [|x a IH]; intros b; cbn [app fold_right]; [ring|]. rewrite IH. ring.
Qed.

Lemma sumr_bump : forall h h' l k m, NoDup (map fst l) -> dget Nat.eqb l k = Some (RR m) ->
  (forall k', In (k', RR m) l -> k' = k) ->
  (forall x, x <> m -> tot (ob h' x) = tot (ob h x)) ->
  (sumr h' l == sumr h l - rc h (RR m) + rc h' (RR m))%Q.
Proof.
  intros h h' l k m N Dg U X. apply (dget_In _ Nat.eqb_eq) in Dg. apply in_split in Dg.
  destruct Dg as [l1 [l2 ->]]. rewrite map_app in N. cbn [map fst] in N.
  apply NoDup_remove in N. destruct N as [_ N]. rewrite in_app_iff in N.
  assert (E : forall l0, (forall k', In (k', RR m) l0 -> False) -> sumr h' l0 = sumr h l0).
  { intros l0 H. apply sumr_ext. intros k' x Hin. apply X. intros ->. exact (H k' Hin). }
  change ((k, RR m) :: l2) with ([(k, RR m)] ++ l2). rewrite !sumr_app.
  rewrite (E l1), (E l2).
  - unfold sumr at 2 5. cbn [fold_right snd]. ring.
  - intros k' H. assert (k' = k) as -> by (apply U; apply in_app_iff; right; right; exact H).
    apply N. right. apply in_map_iff. exists (k, RR m). auto.
  - intros k' H. assert (k' = k) as -> by (apply U; apply in_app_iff; left; exact H).
    apply N. left. apply in_map_iff. exists (k, RR m). auto.
Qed.

Lemma step_nest_ref : forall h dead own am i k j, Full h dead own am ->
  i < length h -> ~ In i dead -> j < length h -> ~ In j dead -> i <> j ->
  exists h' own', nest_ref h i k j = Ok h' /\ length h' = length h /\
    Full h' (j :: dead) own'
      (fun x => if Nat.eqb x i then am i ++ map (fun ks => (k, snd ks)) (am j) else am x).
Proof.
  intros h dead own am i k j F L D Lj Dj N. pose proof (f_inv _ _ _ _ F) as V.
  destruct (i_good _ _ _ V i L (or_introl D)) as [Ni [Pt Pv]].
  destruct (i_good _ _ _ V j Lj (or_introl Dj)) as [Nj [Ptj Pvj]].
  unfold nest_ref. rewrite (aget_ob h j Lj). cbn [bind].
  destruct (add_total_spec h i (Multi (tot (ob h j))) L Pt Ptj) as [t [E [P' M]]].
  rewrite mu_multi in M. rewrite E. cbn [bind].
  pose proof (Inv_tot h dead own i t V L (or_introl D) P') as V1.
  remember (upd h i (mkObj (regs (ob h i)) t)) as h1 eqn:Eh1.
  assert (L1 : length h1 = length h) by (subst h1; apply upd_length).
  assert (Oi : ob h1 i = mkObj (regs (ob h i)) t) by (subst h1; apply ob_upd_eq; exact L).
  assert (Oa : forall a, a <> i -> ob h1 a = ob h a) by (intros a Na; subst h1; apply ob_upd_neq; auto).
  rewrite aget_ob by (rewrite L1; exact L). rewrite Oi. cbn [bind regs].
  assert (NOi : ~ own i) by (intros O; apply D; apply (i_own _ _ _ V i O)).
  assert (NOj : ~ own j) by (intros O; apply Dj; apply (i_own _ _ _ V j O)).
  (* refs of active objects are neither i nor j *)
  assert (RF : forall a k' x, a < length h -> act dead own a -> In (k', RR x) (regs (ob h a)) -> x <> i /\ x <> j).
  { intros a k' x La Aa Hin. pose proof (i_ref _ _ _ V a k' x La Aa Hin) as O.
    split; intros ->; [exact (NOi O) | exact (NOj O)]. }
  destruct (dget Nat.eqb (regs (ob h i)) k) as [[s|m]|] eqn:Dg.
  - (* a value: nested into j first *)
    assert (Ps : plain s) by (apply (Pv k); apply (dget_In _ Nat.eqb_eq _ _ _ Dg)).
    assert (Lj1 : j < length h1) by (rewrite L1; exact Lj).
    destruct (nest_val_spec h1 dead own j k s V1 Lj1 Dj Ps) as [o' [E2 [G [T [S [C R]]]]]].
    rewrite Oa in T, S, C, R by auto.
    rewrite E2. cbn [bind].
    assert (V2 : Inv (upd h1 j o') dead own).
    { eapply Inv_replace; try exact V1; auto.
      - left. exact Dj.
      - intros k' x Hin. left. rewrite Oa by auto. apply R. exact Hin.
      - intros a b D1 D2. contradiction. }
    remember (upd h1 j o') as h2 eqn:Eh2.
    assert (L2 : length h2 = length h) by (subst h2; rewrite upd_length; exact L1).
    assert (O2i : ob h2 i = mkObj (regs (ob h i)) t) by (subst h2; rewrite ob_upd_neq by auto; exact Oi).
    assert (O2j : ob h2 j = o') by (subst h2; apply ob_upd_eq; exact Lj1).
    assert (O2a : forall a, a <> i -> a <> j -> ob h2 a = ob h a).
    { intros a Na Nb. subst h2. rewrite ob_upd_neq by auto. apply Oa. exact Na. }
    unfold set_region. rewrite aget_ob by (rewrite L2; exact L). rewrite O2i. cbn [bind regs tot].
    rewrite aset_upd by (rewrite L2; exact L).
    pose proof (Inv_adopt h2 dead own i k j t V2) as V3. rewrite L2, O2i in V3. cbn [regs] in V3.
    specialize (V3 L D Lj Dj N P').
    remember (upd h2 i (mkObj (dset Nat.eqb (regs (ob h i)) k (RR j)) t)) as h3 eqn:Eh3.
    assert (O3i : ob h3 i = mkObj (dset Nat.eqb (regs (ob h i)) k (RR j)) t) by (subst h3; apply ob_upd_eq; rewrite L2; exact L).
    assert (O3j : ob h3 j = o') by (subst h3; rewrite ob_upd_neq by auto; exact O2j).
    assert (O3a : forall a, a <> i -> a <> j -> ob h3 a = ob h a).
    { intros a Na Nb. subst h3. rewrite ob_upd_neq by auto. apply O2a; assumption. }
    assert (EX : forall a k' x, a < length h -> act dead own a -> In (k', RR x) (regs (ob h a)) -> tot (ob h3 x) = tot (ob h x)).
    { intros a k' x La Aa Hin. destruct (RF a k' x La Aa Hin) as [X1 X2]. rewrite O3a by assumption. reflexivity. }
    assert (T0 : tot (ob h1 j) = tot (ob h j)) by (rewrite Oa by auto; reflexivity).
    assert (H1 : forall a k' x, a < length h -> act dead own a -> In (k', RR x) (regs (ob h a)) -> tot (ob h1 x) = tot (ob h x)).
    { intros a k' x La Aa Hin. destruct (RF a k' x La Aa Hin) as [X1 X2]. rewrite Oa by assumption. reflexivity. }
    assert (A0 : forall a, act (j :: dead) (fun x => own x \/ x = j) a -> act dead own a).
    { intros x [H|[H| ->]]; [left; intros X; apply H; right; exact X | right; exact H | left; exact Dj]. }
    exists h3, (fun x => own x \/ x = j). split; [reflexivity|].
    assert (L3 : length h3 = length h) by (subst h3; rewrite upd_length; exact L2).
    split; [exact L3|].
    assert (RC : regcost h3 (regs (ob h i)) k = mu s).
    { unfold regcost. rewrite Dg. reflexivity. }
    apply (finish_nest h dead own am i k j h3); try assumption.
    + rewrite O3i. cbn [tot]. exact M.
    + rewrite O3i. cbn [regs]. rewrite sumr_dset by exact Ni. cbn [rc]. rewrite O3j, T, RC.
      rewrite (sumr_ext h3 h); [ring|]. intros k' x Hin. apply (EX i k' x L (or_introl D) Hin).
    + intros k'. rewrite O3i. cbn [regs]. rewrite regcost_dset. destruct (Nat.eqb k k') eqn:Ek.
      * apply Nat.eqb_eq in Ek. subst k'. cbn [rc]. rewrite O3j, T. unfold regcost. rewrite Dg. cbn [rc]. ring.
      * rewrite (regcost_ext h3 h); [ring|]. intros k2 x Hin. apply (EX i k2 x L (or_introl D) Hin).
    + intros a Na La Aa. destruct (Nat.eq_dec a j) as [->|Nb].
      * rewrite O3j, T. rewrite (sumr_ext h3 h1).
        -- rewrite S. rewrite (sumr_ext h1 h); [|intros k' x Hin; exact (H1 j k' x Lj (or_introl Dj) Hin)].
           rewrite (f_bal _ _ _ _ F j Lj (or_introl Dj)). reflexivity.
        -- intros k' x Hin. apply R in Hin. destruct Hin as [Hin _].
           rewrite (EX j k' x Lj (or_introl Dj) Hin), (H1 j k' x Lj (or_introl Dj) Hin). reflexivity.
      * rewrite O3a by assumption. rewrite (sumr_ext h3 h); [apply (f_bal _ _ _ _ F a La (A0 a Aa))|].
        intros k' x Hin. exact (EX a k' x La (A0 a Aa) Hin).
    + intros a Na La Da.
      assert (Nb : a <> j) by (intros ->; apply Da; left; reflexivity).
      assert (Da' : ~ In a dead) by (intros Y; apply Da; right; exact Y).
      split; [apply O3a; assumption|]. intros k0. apply regcost_ext.
      intros k' x Hin. exact (EX a k' x La (or_introl Da') Hin).
  - (* a reference: merged into it *)
    assert (Im := dget_In _ Nat.eqb_eq _ _ _ Dg).
    assert (Om : own m) by exact (i_ref _ _ _ V i k m L (or_introl D) Im).
    destruct (i_own _ _ _ V m Om) as [Dm Lm].
    assert (Nmi : m <> i) by (intros ->; exact (NOi Om)).
    assert (Nmj : m <> j) by (intros ->; exact (NOj Om)).
    assert (UM : forall a k', a < length h -> act dead own a -> In (k', RR m) (regs (ob h a)) -> a = i /\ k' = k).
    { intros a k' La Aa Hin. exact (i_uniq _ _ _ V a k' i k m La Aa L (or_introl D) Hin Im). }
    destruct (merge_spec1 h1 dead own m j V1) as [o' [E2 [G [T [S [C R]]]]]]; try (rewrite L1); try assumption.
    { right. exact Om. }
    { intros k' Hin. rewrite Oa in Hin by exact Nmi. destruct (UM m k' Lm (or_intror Om) Hin) as [X _]. contradiction. }
    { intros k' Hin. rewrite Oa in Hin by auto. destruct (UM j k' Lj (or_introl Dj) Hin) as [X _]. auto. }
    rewrite (Oa m Nmi), (Oa j) in T, S, R by auto.
    rewrite E2. exists (upd h1 m o'), own. split; [reflexivity|].
    assert (V3 : Inv (upd h1 m o') (j :: dead) own).
    { eapply (Inv_replace h1 dead own (j :: dead)); try exact V1; auto.
      - intros x H. right. exact H.
      - rewrite L1. exact Lm.
      - right. exact Om.
      - intros k' x Hin. destruct (R k' x Hin) as [H|H]; [left; rewrite Oa by exact Nmi; exact H|].
        right. exists j. split; [left; reflexivity|]. split; [exact Dj|]. split; [rewrite L1; exact Lj|].
        rewrite Oa by auto. exact H.
      - intros a b [<-|Ha] Na [<-|Hb] Nb; try contradiction. reflexivity. }
    assert (L3 : length (upd h1 m o') = length h) by (rewrite upd_length; exact L1).
    split; [exact L3|]. remember (upd h1 m o') as h3 eqn:Eh3.
    assert (O3m : ob h3 m = o') by (subst h3; apply ob_upd_eq; rewrite L1; exact Lm).
    assert (O3i : ob h3 i = mkObj (regs (ob h i)) t) by (subst h3; rewrite ob_upd_neq by auto; exact Oi).
    assert (O3a : forall a, a <> i -> a <> m -> ob h3 a = ob h a).
    { intros a Na Nb. subst h3. rewrite ob_upd_neq by auto. apply Oa. exact Na. }
    assert (H1 : forall a k' x, a < length h -> act dead own a -> In (k', RR x) (regs (ob h a)) -> tot (ob h1 x) = tot (ob h x)).
    { intros a k' x La Aa Hin. destruct (RF a k' x La Aa Hin) as [X1 X2]. rewrite Oa by assumption. reflexivity. }
    assert (EX : forall a k' x, a < length h -> act dead own a -> a <> i -> In (k', RR x) (regs (ob h a)) -> tot (ob h3 x) = tot (ob h x)).
    { intros a k' x La Aa Na Hin. destruct (RF a k' x La Aa Hin) as [X1 X2]. rewrite O3a; [reflexivity | exact X1 |].
      intros ->. destruct (UM a k' La Aa Hin) as [X _]. contradiction. }
    assert (A0 : forall a, act (j :: dead) own a -> act dead own a).
    { intros x [H|H]; [left; intros X; apply H; right; exact X | right; exact H]. }
    assert (SB : (sumr h3 (regs (ob h i)) == sumr h (regs (ob h i)) + mu (tot (ob h j)))%Q).
    { assert (B : (sumr h3 (regs (ob h i)) == sumr h1 (regs (ob h i)) - rc h1 (RR m) + rc h3 (RR m))%Q).
      { apply (sumr_bump h1 h3 (regs (ob h i)) k m Ni Dg).
        - intros k' Hin. apply (UM i k' L (or_introl D) Hin).
        - intros x Nx. subst h3. rewrite ob_upd_neq by auto. reflexivity. }
      rewrite B. rewrite (sumr_ext h1 h); [|intros k' x Hin; exact (H1 i k' x L (or_introl D) Hin)].
      cbn [rc]. rewrite O3m, (Oa m Nmi), T. ring. }
    apply (finish_nest h dead own am i k j h3); try assumption.
    + rewrite O3i. cbn [tot]. exact M.
    + rewrite O3i. cbn [regs]. exact SB.
    + intros k'. rewrite O3i. cbn [regs]. destruct (Nat.eqb k k') eqn:Ek.
      * apply Nat.eqb_eq in Ek. subst k'. unfold regcost. rewrite Dg. cbn [rc]. rewrite O3m, T. reflexivity.
      * unfold regcost. destruct (dget Nat.eqb (regs (ob h i)) k') as [v|] eqn:Dg2; [|ring].
        rewrite (rc_ext h3 h v); [ring|]. intros x ->. apply (dget_In _ Nat.eqb_eq) in Dg2.
        destruct (RF i k' x L (or_introl D) Dg2) as [X1 X2]. rewrite O3a; [reflexivity | exact X1 |].
        intros ->. destruct (UM i k' L (or_introl D) Dg2) as [_ X]. subst k'. rewrite Nat.eqb_refl in Ek. discriminate.
    + intros a Na La Aa. destruct (Nat.eq_dec a m) as [->|Nb].
      * rewrite O3m, T.
        assert (XX : sumr h3 (regs o') = sumr h1 (regs o')).
        { apply sumr_ext. intros k' x Hin. destruct (R k' x Hin) as [H|H].
          - rewrite (EX m k' x Lm (or_intror Om) Nmi H), (H1 m k' x Lm (or_intror Om) H). reflexivity.
          - rewrite (EX j k' x Lj (or_introl Dj) (not_eq_sym N) H), (H1 j k' x Lj (or_introl Dj) H). reflexivity. }
        rewrite XX, S.
        rewrite (sumr_ext h1 h (regs (ob h m))); [|intros k' x Hin; exact (H1 m k' x Lm (or_intror Om) Hin)].
        rewrite (sumr_ext h1 h (regs (ob h j))); [|intros k' x Hin; exact (H1 j k' x Lj (or_introl Dj) Hin)].
        rewrite (f_bal _ _ _ _ F m Lm (or_intror Om)), (f_bal _ _ _ _ F j Lj (or_introl Dj)). reflexivity.
      * rewrite O3a by assumption. rewrite (sumr_ext h3 h); [apply (f_bal _ _ _ _ F a La (A0 a Aa))|].
        intros k' x Hin. exact (EX a k' x La (A0 a Aa) Na Hin).
    + intros a Na La Da.
      assert (Da' : ~ In a dead) by (intros Y; apply Da; right; exact Y).
      assert (Nb : a <> m) by (intros ->; contradiction).
      split; [apply O3a; assumption|]. intros k0. apply regcost_ext.
      intros k' x Hin. exact (EX a k' x La (or_introl Da') Na Hin).
  - (* a new region *)
    unfold set_region. rewrite aget_ob by (rewrite L1; exact L). rewrite Oi. cbn [bind regs tot].
    rewrite aset_upd by (rewrite L1; exact L). subst h1. rewrite upd_upd.
    pose proof (Inv_adopt h dead own i k j t V L D Lj Dj N P') as V3.
    remember (upd h i (mkObj (dset Nat.eqb (regs (ob h i)) k (RR j)) t)) as h3 eqn:Eh3.
    assert (O3i : ob h3 i = mkObj (dset Nat.eqb (regs (ob h i)) k (RR j)) t) by (subst h3; apply ob_upd_eq; exact L).
    assert (O3a : forall a, a <> i -> ob h3 a = ob h a).
    { intros a Na. subst h3. apply ob_upd_neq. auto. }
    assert (EX : forall a k' x, a < length h -> act dead own a -> In (k', RR x) (regs (ob h a)) -> tot (ob h3 x) = tot (ob h x)).
    { intros a k' x La Aa Hin. destruct (RF a k' x La Aa Hin) as [X1 X2]. rewrite O3a by assumption. reflexivity. }
    assert (A0 : forall a, act (j :: dead) (fun x => own x \/ x = j) a -> act dead own a).
    { intros x [H|[H| ->]]; [left; intros X; apply H; right; exact X | right; exact H | left; exact Dj]. }
    exists h3, (fun x => own x \/ x = j). split; [reflexivity|].
    assert (L3 : length h3 = length h) by (subst h3; apply upd_length).
    split; [exact L3|].
    apply (finish_nest h dead own am i k j h3); try assumption.
    + rewrite O3i. cbn [tot]. exact M.
    + rewrite O3i. cbn [regs]. rewrite sumr_dset by exact Ni. cbn [rc]. rewrite O3a by auto.
      unfold regcost. rewrite Dg. rewrite (sumr_ext h3 h); [ring|].
      intros k' x Hin. apply (EX i k' x L (or_introl D) Hin).
    + intros k'. rewrite O3i. cbn [regs]. rewrite regcost_dset. destruct (Nat.eqb k k') eqn:Ek.
      * apply Nat.eqb_eq in Ek. subst k'. cbn [rc]. rewrite O3a by auto. unfold regcost. rewrite Dg. ring.
      * rewrite (regcost_ext h3 h); [ring|]. intros k2 x Hin. apply (EX i k2 x L (or_introl D) Hin).
    + intros a Na La Aa. rewrite O3a by assumption.
      rewrite (sumr_ext h3 h); [apply (f_bal _ _ _ _ F a La (A0 a Aa))|].
      intros k' x Hin. exact (EX a k' x La (A0 a Aa) Hin).
    + intros a Na La Da.
      assert (Da' : ~ In a dead) by (intros Y; apply Da; right; exact Y).
      split; [apply O3a; assumption|]. intros k0. apply regcost_ext.
      intros k' x Hin. exact (EX a k' x La (or_introl Da') Hin).
Qed.

Lemma step_new : forall h dead own am, Full h dead own am -> (forall x, In x dead -> x < length h) ->
  Full (h ++ [new_obj]) dead own am.
Proof.
  intros h dead own am F DD. pose proof (f_inv _ _ _ _ F) as V.
  assert (LN : length (h ++ [new_obj]) = S (length h)) by (rewrite app_length; cbn; lia).
  assert (O1 : forall a, ob (h ++ [new_obj]) a = ob h a).
  { intros a. unfold ob. destruct (Nat.lt_ge_cases a (length h)) as [H|H].
    - apply app_nth1. exact H.
    - rewrite (nth_overflow h new_obj H). rewrite app_nth2 by exact H.
      destruct (a - length h) as [|[|n]]; reflexivity. }
  assert (ON : ob h (length h) = new_obj) by (unfold ob; apply nth_overflow; lia).
  assert (SX : forall l, sumr (h ++ [new_obj]) l = sumr h l).
  { intros l. apply sumr_ext. intros. rewrite O1. reflexivity. }
  assert (RX : forall l k, regcost (h ++ [new_obj]) l k = regcost h l k).
  { intros l k. apply regcost_ext. intros. rewrite O1. reflexivity. }
  assert (LC : forall a, a < length (h ++ [new_obj]) -> a < length h \/ a = length h) by (intros; lia).
  constructor.
  - constructor.
    + intros j O. destruct (i_own _ _ _ V j O). split; [assumption | lia].
    + intros a La Aa. rewrite O1. destruct (LC a La) as [H| ->].
      * apply (i_good _ _ _ V a H Aa).
      * rewrite ON. split; [constructor|]. split; [exact I|]. intros ? ? [].
    + intros a k j La Aa Hin. rewrite O1 in Hin. destruct (LC a La) as [H| ->].
      * exact (i_ref _ _ _ V a k j H Aa Hin).
      * rewrite ON in Hin. destruct Hin.
    + intros a k a' k' j La Aa La' Aa' Hin Hin'. rewrite O1 in Hin, Hin'.
      destruct (LC a La) as [H| ->]; [|rewrite ON in Hin; destruct Hin].
      destruct (LC a' La') as [H'| ->]; [|rewrite ON in Hin'; destruct Hin'].
      exact (i_uniq _ _ _ V a k a' k' j H Aa H' Aa' Hin Hin').
  - intros a La Aa. rewrite O1, SX. destruct (LC a La) as [H| ->].
    + apply (f_bal _ _ _ _ F a H Aa).
    + rewrite ON. cbn. exact mu_zero.
  - intros a k La Da. rewrite O1, RX. destruct (LC a La) as [H| ->].
    + apply (f_reg _ _ _ _ F a k H Da).
    + rewrite ON, (f_new _ _ _ _ F (length h)) by lia. reflexivity.
  - intros a La Da. rewrite O1. destruct (LC a La) as [H| ->].
    + apply (f_tot _ _ _ _ F a H Da).
    + rewrite ON, (f_new _ _ _ _ F (length h)) by lia. cbn. exact mu_zero.
  - intros a La. apply (f_new _ _ _ _ F). lia.
Qed.

Lemma run_Full : forall ops h dead own am,
  Full h dead own am -> (forall x, In x dead -> x < length h) -> linear (length h) dead ops ->
  exists h' own', foldM step h ops = Ok h' /\ length h' = length h + made ops /\
    exists dead', (forall x, In x dead' <-> In x dead \/ In x (given ops)) /\
    Full h' dead' own' (fold_left charge1 ops am).
Proof.
  induction ops as [|o ops IH]; intros h dead own am F DD Hlin.
  - exists h, own. cbn. split; [reflexivity|]. split; [lia|]. exists dead. split; [intros x; tauto | exact F].
  - destruct o as [|i k f p|i k s|i k j|i j]; cbn [linear] in Hlin; cbn [foldM step fold_left charge1 made given].
    + cbn [bind]. destruct (IH (h ++ [new_obj]) dead own am) as [h' [own' [E [LL [dead' [DE F']]]]]].
      * apply step_new; assumption.
      * intros x H. rewrite app_length. specialize (DD x H). cbn. lia.
      * rewrite app_length. cbn [length]. rewrite Nat.add_1_r. exact Hlin.
      * rewrite app_length in LL. cbn in LL. exists h', own'. split; [exact E|]. split; [lia|]. eauto.
    + destruct Hlin as [L [D Hlin]].
      destruct (step_nest_val h dead own am i k (cost_of f p) F L D) as [h1 [E1 [L1 F1]]].
      { unfold cost_of. destruct (Qeq_bool p 0); exact I. }
      unfold add_cost. rewrite E1. cbn [bind].
      destruct (IH h1 dead own _ F1) as [h' [own' [E [LL [dead' [DE F']]]]]].
      * intros x H. rewrite L1. auto.
      * rewrite L1. exact Hlin.
      * exists h', own'. split; [exact E|]. split; [lia|]. eauto.
    + destruct Hlin as [L [D [Ps Hlin]]].
      destruct (step_nest_val h dead own am i k s F L D) as [h1 [E1 [L1 F1]]].
      { destruct s; cbn in *; tauto. }
      rewrite E1. cbn [bind].
      destruct (IH h1 dead own _ F1) as [h' [own' [E [LL [dead' [DE F']]]]]].
      * intros x H. rewrite L1. auto.
      * rewrite L1. exact Hlin.
      * exists h', own'. split; [exact E|]. split; [lia|]. eauto.
    + destruct Hlin as [L [D [Lj [Dj [N Hlin]]]]].
      destruct (step_nest_ref h dead own am i k j F L D Lj Dj N) as [h1 [own1 [E1 [L1 F1]]]].
      rewrite E1. cbn [bind].
      destruct (IH h1 (j :: dead) own1 _ F1) as [h' [own' [E [LL [dead' [DE F']]]]]].
      * intros x [<-|H]; rewrite L1; auto.
      * rewrite L1. exact Hlin.
      * exists h', own'. split; [exact E|]. split; [lia|]. exists dead'. split; [|exact F'].
        intros x. rewrite DE. cbn [In]. tauto.
    + destruct Hlin as [L [D [Lj [Dj [N Hlin]]]]].
      destruct (step_merge h dead own am i j F L D Lj Dj N) as [h1 [E1 [L1 F1]]].
      rewrite E1. cbn [bind].
      destruct (IH h1 (j :: dead) own _ F1) as [h' [own' [E [LL [dead' [DE F']]]]]].
      * intros x [<-|H]; rewrite L1; auto.
      * rewrite L1. exact Hlin.
      * exists h', own'. split; [exact E|]. split; [lia|]. exists dead'. split; [|exact F'].
        intros x. rewrite DE. cbn [In]. tauto.
Qed.

Lemma run_measure : forall ops, linear 0 [] ops ->
  exists h, run ops = Ok h /\ length h = made ops /\
    forall i, i < made ops -> ~ In i (given ops) ->
      (mu (tot (ob h i)) == mu_sum (charged ops i))%Q /\
      (sumr h (regs (ob h i)) == mu_sum (charged ops i))%Q /\
      (forall k, regcost h (regs (ob h i)) k == mu_sum (in_region k (charged ops i)))%Q /\
      plain (tot (ob h i)).
Proof.
  intros ops H.
  assert (F0 : Full [] [] (fun _ => False) (fun _ => [])).
  { constructor.
    - constructor; cbn; try tauto; intros; lia.
    - cbn. intros; lia.
    - cbn. intros; lia.
    - cbn. intros; lia.
    - reflexivity. }
  destruct (run_Full ops [] [] _ _ F0) as [h [own [E [L [dead [DE F]]]]]]; [intros ? [] | exact H|].
  exists h. split; [exact E|]. split; [exact L|]. intros i Li Gi. cbn in L.
  assert (Di : ~ In i dead) by (rewrite DE; cbn; tauto).
  assert (Li' : i < length h) by lia.
  pose proof (f_tot _ _ _ _ F i Li' Di) as T.
  split; [exact T|]. split; [|split].
  - rewrite <- (f_bal _ _ _ _ F i Li' (or_introl Di)). exact T.
  - intros k. apply (f_reg _ _ _ _ F i k Li' Di).
  - apply (i_good _ _ _ (f_inv _ _ _ _ F) i Li' (or_introl Di)).
Qed.
End Measure.

(** * The two measures *)
Definition mfixed (s : sdram) : Q := inject_Z (fixed s).

Lemma mfixed_add : forall a b, plain a -> plain b ->
  exists c, add a b = Ok c /\ plain c /\ (mfixed c == mfixed a + mfixed b)%Q.
Proof.
  intros a b Ha Hb. destruct (add_plain a b Ha Hb) as [c [E [P [F _]]]].
  exists c. split; [exact E|]. split; [exact P|]. unfold mfixed. rewrite F, inject_Z_plus. reflexivity.
Qed.

Lemma per_add : forall a b, plain a -> plain b ->
  exists c, add a b = Ok c /\ plain c /\ (per_timestep c == per_timestep a + per_timestep b)%Q.
Proof.
  intros a b Ha Hb. destruct (add_plain a b Ha Hb) as [c [E [P [_ G]]]]. eauto.
Qed.

(** The cost of a region: a nested object counts with its current total. *)
Definition value_of (h : list obj) (v : rv) : sdram :=
  match v with RV s => s | RR j => tot (ob h j) end.
(** The regions of object [i], as the user reads them. *)
Definition regions_of (h : list obj) (i : nat) : list (nat * sdram) :=
  map (fun kv => (fst kv, value_of h (snd kv))) (regs (ob h i)).

Lemma mu_sum_fixed : forall l, (mu_sum mfixed l == inject_Z (fixed_sum l))%Q.
Proof.
  unfold mu_sum, fixed_sum, mfixed. induction l as [|x l IH]; cbn [fold_right]; [reflexivity|].
  rewrite IH, inject_Z_plus. reflexivity.
Qed.

Lemma sumr_regions : forall mu h i, sumr mu h (regs (ob h i)) = mu_sum mu (regions_of h i).
Proof.
  intros mu h i. unfold sumr, mu_sum, regions_of. induction (regs (ob h i)) as [|[k v] l IH]; [reflexivity|].
  cbn [map fold_right snd]. rewrite IH. destruct v; reflexivity.
Qed.

Lemma regcost_regions : forall mu h i k, regcost mu h (regs (ob h i)) k =
  match dget Nat.eqb (regions_of h i) k with Some s => mu s | None => 0%Q end.
Proof.
  intros mu h i k. unfold regcost, regions_of. induction (regs (ob h i)) as [|[k' v] l IH]; [reflexivity|].
  cbn [map dget fst snd]. destruct (Nat.eqb k' k); [destruct v; reflexivity | exact IH].
Qed.

Lemma region_costs : forall ops, linear 0 [] ops ->
  exists h, run ops = Ok h /\ length h = made ops /\
    forall i, i < made ops -> ~ In i (given ops) ->
      (* the regions add up to the total *)
      fixed (tot (ob h i)) = fixed_sum (regions_of h i) /\
      (per_timestep (tot (ob h i)) == per_sum (regions_of h i))%Q /\
      (* and both are what the object was charged *)
      fixed (tot (ob h i)) = fixed_sum (charged ops i) /\
      (per_timestep (tot (ob h i)) == per_sum (charged ops i))%Q /\
      (forall t, total t (Multi (tot (ob h i))) = cost t (fixed_sum (charged ops i)) (per_sum (charged ops i))) /\
      (* each region is what was charged to it *)
      (forall k s, dget Nat.eqb (regions_of h i) k = Some s ->
         fixed s = fixed_sum (in_region k (charged ops i)) /\
         (per_timestep s == per_sum (in_region k (charged ops i)))%Q) /\
      (forall k, dget Nat.eqb (regions_of h i) k = None ->
         fixed_sum (in_region k (charged ops i)) = 0%Z /\ (per_sum (in_region k (charged ops i)) == 0)%Q).
Proof.
  intros ops H.
  destruct (run_measure mfixed (Qeq_refl _) (fun _ => eq_refl) mfixed_add ops H) as [h [E [L F]]].
  destruct (run_measure per_timestep (Qeq_refl _) (fun _ => eq_refl) per_add ops H) as [h' [E' [L' P]]].
  assert (h' = h) by congruence. subst h'.
  assert (IZ : forall a b, (inject_Z a == inject_Z b)%Q -> a = b) by (intros a b X; apply inject_Z_injective; exact X).
  exists h. split; [exact E|]. split; [exact L|]. intros i Li Gi.
  destruct (F i Li Gi) as [F1 [F2 [F3 F4]]]. destruct (P i Li Gi) as [P1 [P2 [P3 _]]].
  rewrite sumr_regions in F2, P2. rewrite mu_sum_fixed in F1. rewrite mu_sum_fixed, mu_sum_fixed in F2.
  apply IZ in F1. apply IZ in F2. change (mu_sum per_timestep) with per_sum in *.
  split; [congruence|]. split; [rewrite P1, P2; reflexivity|]. split; [exact F1|]. split; [exact P1|].
  split; [|split].
  - intros t. cbn [total]. rewrite total_plain by exact F4. rewrite F1. apply cost_comp. exact P1.
  - intros k s Dg. specialize (F3 k). specialize (P3 k). rewrite regcost_regions, Dg in F3, P3.
    rewrite mu_sum_fixed in F3. apply IZ in F3. split; [exact F3 | exact P3].
  - intros k Dg. specialize (F3 k). specialize (P3 k). rewrite regcost_regions, Dg in F3, P3.
    rewrite mu_sum_fixed in F3. apply (IZ 0%Z) in F3. split; [symmetry; exact F3 | symmetry; exact P3].
Qed.
