From Coq Require Import List NArith Arith Bool Lia.
From Verif Require Import Base Dict TreeModel TagsModel.
Import ListNotations.
Local Open Scope nat_scope.

Lemma bt_eqb_eq : forall a b, bt_eqb a b = true <-> a = b.
Proof.
  intros [a1 a2] [b1 b2]. unfold bt_eqb. cbn. rewrite andb_true_iff, !Nat.eqb_eq.
  split; [intros [-> ->]|intros [= -> ->]]; auto.
Qed.
Lemma bp_eqb_eq : forall a b, bp_eqb a b = true <-> a = b.
Proof.
  intros [a1 a2] [b1 b2]. unfold bp_eqb. cbn. rewrite andb_true_iff, Nat.eqb_eq, N.eqb_eq.
  split; [intros [-> ->]|intros [= -> ->]]; auto.
Qed.
Lemma bt_dec : forall a b : nat * nat, {a = b} + {a <> b}.
Proof. decide equality; apply Nat.eq_dec. Defined.

(** * The Tags class against the calls it has accepted *)
Definition ipkey (t : iptag) : nat * nat := (it_board t, it_tag t).
Definition revkey (t : revtag) : nat * nat := (rt_board t, rt_tag t).
Definition ckey (c : tagcall) : nat * nat := match c with AddIP t _ => ipkey t | AddRev t _ => revkey t end.

(** The tags of the accepted calls for a vertex, in order. *)
Definition ips_of (v : nat) (acc : list tagcall) : list iptag :=
  flat_map (fun c => match c with AddIP t w => if Nat.eqb v w then [t] else [] | _ => [] end) acc.
Definition revs_of (v : nat) (acc : list tagcall) : list revtag :=
  flat_map (fun c => match c with AddRev t w => if Nat.eqb v w then [t] else [] | _ => [] end) acc.
(** The calls that were accepted. *)
Definition accepted (calls : list tagcall) (oks : list bool) : list tagcall :=
  flat_map (fun cb : tagcall * bool => if snd cb then [fst cb] else []) (combine calls oks).

(** The tag a vertex ends up with is as it asked for. *)
Definition agrees (t x : iptag) : Prop :=
  it_board x = it_board t /\ it_tag x = it_tag t /\ it_ip x = it_ip t /\ it_strip x = it_strip t /\
  match it_port t with Some p => it_port x = Some p | None => True end.

(** A call that can not be granted beside the accepted ones. *)
Definition conflict (acc : list tagcall) (c : tagcall) : Prop :=
  match c with
  | AddIP t _ =>
      (exists t' v, In (AddIP t' v) acc /\ ipkey t' = ipkey t /\
         (it_ip t' <> it_ip t \/ it_strip t' <> it_strip t \/
          exists p q, it_port t' = Some p /\ it_port t = Some q /\ p <> q)) \/
      (exists t' v, In (AddRev t' v) acc /\ revkey t' = ipkey t)
  | AddRev t _ =>
      (exists c', In c' acc /\ ckey c' = revkey t) \/
      (exists t' v p, In (AddRev t' v) acc /\ rt_board t' = rt_board t /\ rt_port t' = Some p /\ rt_port t = Some p)
  end.

Definition rev_key_l (c : tagcall) : list (nat * nat) := match c with AddRev t _ => [revkey t] | _ => [] end.
Definition rev_port_l (c : tagcall) : list (nat * N) :=
  match c with AddRev t _ => match rt_port t with Some p => [(rt_board t, p)] | None => [] end | _ => [] end.

Record holds (s : tags) (acc : list tagcall) : Prop := {
  h_ip : forall k a, dget bt_eqb (tg_ip s) k = Some a ->
    exists x t0 v0, nth_error (tg_heap s) a = Some x /\ In (AddIP t0 v0) acc /\ ipkey t0 = k /\ x = with_port t0 (it_port x) /\
      (forall p, it_port x = Some p -> exists t v, In (AddIP t v) acc /\ ipkey t = k /\ it_port t = Some p);
  h_in : forall t v, In (AddIP t v) acc ->
    exists a x, dget bt_eqb (tg_ip s) (ipkey t) = Some a /\ nth_error (tg_heap s) a = Some x /\ agrees t x;
  h_rev : forall k t, dget bt_eqb (tg_rev s) k = Some t <-> exists v, In (AddRev t v) acc /\ revkey t = k;
  h_ports : forall b p, In (b, p) (tg_ports s) <-> exists t v, In (AddRev t v) acc /\ rt_board t = b /\ rt_port t = Some p;
  h_ipv : forall v, match dget Nat.eqb (tg_ip_v s) v with
    | Some l => l <> [] /\ Forall2 (fun t a => dget bt_eqb (tg_ip s) (ipkey t) = Some a) (ips_of v acc) l
    | None => ips_of v acc = []
    end;
  h_revv : forall v, dget Nat.eqb (tg_rev_v s) v = match revs_of v acc with [] => None | l => Some l end;
  h_excl : forall t v t' v', In (AddIP t v) acc -> In (AddRev t' v') acc -> ipkey t <> revkey t';
  h_keys : NoDup (flat_map rev_key_l acc);
  h_prts : NoDup (flat_map rev_port_l acc) }.

Lemma holds_empty : holds no_tags [].
Proof.
  constructor; cbn; try (intros; discriminate); try tauto; try (constructor).
  - discriminate.
  - intros (v & [] & _).
  - tauto.
  - intros (t' & v & [] & _).
Qed.

Lemma ips_of_app : forall v a b, ips_of v (a ++ b) = ips_of v a ++ ips_of v b.
Proof. intros. unfold ips_of. apply flat_map_app. Qed.
Lemma revs_of_app : forall v a b, revs_of v (a ++ b) = revs_of v a ++ revs_of v b.
Proof. intros. unfold revs_of. apply flat_map_app. Qed.

Lemma NoDup_snoc : forall {A} (l : list A) x, NoDup l -> ~ In x l -> NoDup (l ++ [x]).
Proof.
  intros A l x ND NI. induction l as [|y l IH]; cbn; [constructor; [tauto|constructor]|].
  inversion ND; subst. constructor.
  - rewrite in_app_iff. cbn in *. intros [H|[->|[]]]; tauto.
  - apply IH; [assumption|]. cbn in NI. tauto.
Qed.

Lemma dappend_get : forall {V} (d : list (nat * list V)) k v k',
  dget Nat.eqb (dappend d k v) k' =
  if Nat.eqb k k' then Some (match dget Nat.eqb d k with Some l => l | None => [] end ++ [v]) else dget Nat.eqb d k'.
Proof. intros. unfold dappend. apply (dget_dset _ Nat.eqb_eq). Qed.

Lemma is_equal_or_none_true : forall a b, is_equal_or_none a b = true <-> forall p q, a = Some p -> b = Some q -> p = q.
Proof.
  intros [x|] [y|]; cbn; split; intros H; try reflexivity; try (intros; discriminate).
  - intros p q [= ->] [= ->]. now apply N.eqb_eq.
  - apply N.eqb_eq. auto.
Qed.

(** What add_ip_tag finds. *)
Lemma ip_existing : forall s acc t, holds s acc ->
  match dget bt_eqb (tg_ip s) (ipkey t) with
  | Some a => exists x, nth_error (tg_heap s) a = Some x
  | None => forall t' v, In (AddIP t' v) acc -> ipkey t' <> ipkey t
  end.
Proof.
  intros s acc t H. destruct (dget bt_eqb (tg_ip s) (ipkey t)) as [a|] eqn:E.
  - destruct (h_ip _ _ H _ _ E) as (x & t0 & v0 & Hx & _). eauto.
  - intros t' v Hin Hk. destruct (h_in _ _ H _ _ Hin) as (a & x & Ha & _). congruence.
Qed.

Lemma rev_mem : forall s acc k, holds s acc ->
  (dmem bt_eqb (tg_rev s) k = true <-> exists t v, In (AddRev t v) acc /\ revkey t = k).
Proof.
  intros s acc k H. unfold dmem. destruct (dget bt_eqb (tg_rev s) k) as [t|] eqn:E.
  - split; [|reflexivity]. intros _. apply (h_rev _ _ H) in E. destruct E as (v & E). eauto.
  - split; [discriminate|]. intros (t & v & Hin & Hk).
    assert (dget bt_eqb (tg_rev s) k = Some t) by (apply (h_rev _ _ H); eauto). congruence.
Qed.

Lemma ip_mem : forall s acc k, holds s acc ->
  (dmem bt_eqb (tg_ip s) k = true <-> exists t v, In (AddIP t v) acc /\ ipkey t = k).
Proof.
  intros s acc k H. unfold dmem. destruct (dget bt_eqb (tg_ip s) k) as [a|] eqn:E.
  - split; [|reflexivity]. intros _. destruct (h_ip _ _ H _ _ E) as (x & t0 & v0 & _ & Hin & Hk & _). eauto.
  - split; [discriminate|]. intros (t & v & Hin & Hk). destruct (h_in _ _ H _ _ Hin) as (a & x & Ha & _). congruence.
Qed.

Lemma bool_eqb_neq : forall a b : bool, negb (Bool.eqb a b) = true <-> a <> b.
Proof. intros [] []; cbn; split; congruence. Qed.

Lemma add_ip_raises : forall s acc t v, holds s acc ->
  (forall e, add_ip_tag s t v = Err e -> e = InvalidParameter /\ conflict acc (AddIP t v)) /\
  (conflict acc (AddIP t v) -> add_ip_tag s t v = Err InvalidParameter).
Proof.
  intros s acc t v H. unfold add_ip_tag. fold (ipkey t).
  pose proof (ip_existing s acc t H) as Hex.
  destruct (dget bt_eqb (tg_ip s) (ipkey t)) as [a|] eqn:E.
  - destruct Hex as (x & Hx). rewrite Hx.
    destruct (h_ip _ _ H _ _ E) as (x' & t0 & v0 & Hx' & Hin0 & Hk0 & Hx0 & Hp).
    assert (x' = x) by congruence. subst x'. clear Hx'.
    assert (Hi0 : it_ip x = it_ip t0) by (rewrite Hx0; reflexivity).
    assert (Hs0 : it_strip x = it_strip t0) by (rewrite Hx0; reflexivity).
    destruct (negb (Nat.eqb (it_ip x) (it_ip t)) || negb (is_equal_or_none (it_port x) (it_port t)) ||
              negb (Bool.eqb (it_strip x) (it_strip t))) eqn:D.
    + split.
      * intros e [= <-]. split; [reflexivity|]. cbn [conflict]. left.
        rewrite !orb_true_iff in D. destruct D as [[D|D]|D].
        -- exists t0, v0. split; [assumption|]. split; [assumption|]. left.
           apply negb_true_iff, Nat.eqb_neq in D. congruence.
        -- apply negb_true_iff in D. destruct (it_port x) as [p|] eqn:Ep; [|discriminate].
           destruct (it_port t) as [q|] eqn:Eq; [|discriminate]. cbn in D. apply N.eqb_neq in D.
           destruct (Hp p eq_refl) as (t1 & v1 & Hin1 & Hk1 & Hp1).
           exists t1, v1. split; [assumption|]. split; [assumption|]. right. right. eauto.
        -- apply bool_eqb_neq in D. exists t0, v0. split; [assumption|]. split; [assumption|]. right. left. congruence.
      * reflexivity.
    + rewrite !orb_false_iff in D. destruct D as [[D1 D2] D3].
      apply negb_false_iff in D1, D2, D3. apply Nat.eqb_eq in D1. apply eqb_prop in D3.
      rewrite is_equal_or_none_true in D2.
      destruct (dmem bt_eqb (tg_rev s) (ipkey t)) eqn:R.
      * split; [|reflexivity]. intros e [= <-]. split; [reflexivity|]. cbn [conflict]. right.
        now apply (rev_mem _ _ _ H) in R.
      * split; [intros e C; discriminate|]. cbn [conflict].
        intros [(t' & v' & Hin & Hk & C)|C].
        -- exfalso. destruct (h_in _ _ H _ _ Hin) as (a' & x' & Ha' & Hx' & (A1 & A2 & A3 & A4 & A5)).
           rewrite Hk in Ha'. assert (a' = a) by congruence. subst a'. assert (x' = x) by congruence. subst x'.
           destruct C as [C|[C|(p & q & C1 & C2 & C3)]]; [congruence|congruence|].
           rewrite C1 in A5. apply C3. eauto.
        -- apply (rev_mem _ _ _ H) in C. congruence.
  - destruct (dmem bt_eqb (tg_rev s) (ipkey t)) eqn:R.
    + split; [|reflexivity]. intros e [= <-]. split; [reflexivity|]. cbn [conflict]. right.
      now apply (rev_mem _ _ _ H) in R.
    + split; [intros e C; discriminate|]. cbn [conflict].
      intros [(t' & v' & Hin & Hk & C)|C].
      * exfalso. exact (Hex _ _ Hin Hk).
      * apply (rev_mem _ _ _ H) in C. congruence.
Qed.

Lemma add_rev_raises : forall s acc t v, holds s acc ->
  (forall e, add_reverse_ip_tag s t v = Err e -> e = InvalidParameter /\ conflict acc (AddRev t v)) /\
  (conflict acc (AddRev t v) -> add_reverse_ip_tag s t v = Err InvalidParameter).
Proof.
  intros s acc t v H. unfold add_reverse_ip_tag. fold (revkey t).
  destruct (dmem bt_eqb (tg_ip s) (revkey t) || dmem bt_eqb (tg_rev s) (revkey t)) eqn:D.
  - split; [|reflexivity]. intros e [= <-]. split; [reflexivity|]. cbn [conflict]. left.
    rewrite orb_true_iff, (ip_mem _ _ _ H), (rev_mem _ _ _ H) in D.
    destruct D as [(t' & v' & Hin & Hk)|(t' & v' & Hin & Hk)]; eauto.
  - assert (N1 : ~ exists c', In c' acc /\ ckey c' = revkey t).
    { intros ([t' v'|t' v'] & Hin & Hk); cbn in Hk; rewrite orb_false_iff in D; destruct D as [D1 D2].
      - assert (dmem bt_eqb (tg_ip s) (revkey t) = true) by (apply (ip_mem _ _ _ H); eauto). congruence.
      - assert (dmem bt_eqb (tg_rev s) (revkey t) = true) by (apply (rev_mem _ _ _ H); eauto). congruence. }
    destruct (rt_port t) as [p|] eqn:Ep.
    + destruct (existsb (bp_eqb (rt_board t, p)) (tg_ports s)) eqn:P.
      * split; [|reflexivity]. intros e [= <-]. split; [reflexivity|]. cbn [conflict]. right.
        apply existsb_exists in P. destruct P as (bp & Hin & Hb). apply bp_eqb_eq in Hb. subst bp.
        apply (h_ports _ _ H) in Hin. destruct Hin as (t' & v' & Hin & Hb & Hp). exists t', v', p. auto.
      * split; [intros e C; discriminate|]. cbn [conflict]. intros [C|(t' & v' & p' & Hin & Hb & Hp & Hp')]; [tauto|].
        exfalso. assert (existsb (bp_eqb (rt_board t, p)) (tg_ports s) = true); [|congruence].
        apply existsb_exists. exists (rt_board t, p). split; [|now apply bp_eqb_eq].
        apply (h_ports _ _ H). exists t', v'. split; [assumption|]. split; [assumption|]. congruence.
    + split; [intros e C; discriminate|]. cbn [conflict]. intros [C|(t' & v' & p' & Hin & Hb & Hp & Hp')]; [tauto|congruence].
Qed.

Lemma run_raises : forall s acc c, holds s acc ->
  (forall e, run_tagcall s c = Err e -> e = InvalidParameter /\ conflict acc c) /\
  (conflict acc c -> run_tagcall s c = Err InvalidParameter).
Proof. intros s acc [t v|t v] H; [apply add_ip_raises|apply add_rev_raises]; assumption. Qed.

Lemma not_conflict : forall s acc c s', holds s acc -> run_tagcall s c = Ok s' -> ~ conflict acc c.
Proof. intros s acc c s' H E C. apply (proj2 (run_raises s acc c H)) in C. congruence. Qed.

Lemma in_snoc : forall {A} (x y : A) l, In x (l ++ [y]) <-> In x l \/ x = y.
Proof. intros. rewrite in_app_iff. cbn. intuition. Qed.

Lemma ipkey_with_port : forall t p, ipkey (with_port t p) = ipkey t.
Proof. reflexivity. Qed.

Lemma in_rev_keys : forall acc k, In k (flat_map rev_key_l acc) <-> exists t v, In (AddRev t v) acc /\ revkey t = k.
Proof.
  intros acc k. rewrite in_flat_map. split.
  - intros ([t v|t v] & Hin & Hk); cbn in Hk; [tauto|]. destruct Hk as [<-|[]]. eauto.
  - intros (t & v & Hin & <-). exists (AddRev t v). split; [assumption|]. cbn. auto.
Qed.
Lemma in_rev_ports : forall acc b p, In (b, p) (flat_map rev_port_l acc) <->
  exists t v, In (AddRev t v) acc /\ rt_board t = b /\ rt_port t = Some p.
Proof.
  intros acc b p. rewrite in_flat_map. split.
  - intros ([t v|t v] & Hin & Hk); cbn in Hk; [tauto|]. destruct (rt_port t) as [q|] eqn:E; [|destruct Hk].
    destruct Hk as [[= <- <-]|[]]. exists t, v. auto.
  - intros (t & v & Hin & <- & Hp). exists (AddRev t v). split; [assumption|]. cbn. rewrite Hp. cbn. auto.
Qed.

Lemma holds_rev : forall s acc t v s', holds s acc -> add_reverse_ip_tag s t v = Ok s' -> holds s' (acc ++ [AddRev t v]).
Proof.
  intros s acc t v s' H E. pose proof (not_conflict s acc (AddRev t v) s' H E) as NC. cbn [conflict] in NC.
  assert (E' : s' = mkTags (tg_heap s) (tg_ip s) (dset bt_eqb (tg_rev s) (revkey t) t) (tg_ip_v s) (dappend (tg_rev_v s) v t)
             (match rt_port t with Some p => tg_ports s ++ [(rt_board t, p)] | None => tg_ports s end)).
  { unfold add_reverse_ip_tag in E. fold (revkey t) in E.
    destruct (dmem bt_eqb (tg_ip s) (revkey t) || dmem bt_eqb (tg_rev s) (revkey t)); [discriminate|].
    destruct (match rt_port t with Some p => existsb (bp_eqb (rt_board t, p)) (tg_ports s) | None => false end); [discriminate|].
    congruence. }
  clear E. subst s'.
  assert (NK : forall c', In c' acc -> ckey c' <> revkey t) by (intros c' Hin Hk; apply NC; left; eauto).
  constructor; cbn [tg_heap tg_ip tg_rev tg_ip_v tg_rev_v tg_ports].
  - intros k a Ha. destruct (h_ip _ _ H _ _ Ha) as (x & t0 & v0 & Hx & Hin & Hk & Hx0 & Hp).
    exists x, t0, v0. split; [assumption|]. split; [now apply in_snoc; left|]. split; [assumption|]. split; [assumption|].
    intros p Ep. destruct (Hp p Ep) as (t1 & v1 & I1 & K1). exists t1, v1. split; [now apply in_snoc; left|assumption].
  - intros t1 v1 Hin. apply in_snoc in Hin. destruct Hin as [Hin|C]; [|discriminate]. exact (h_in _ _ H _ _ Hin).
  - intros k t1. rewrite (dget_dset _ bt_eqb_eq). destruct (bt_eqb (revkey t) k) eqn:B.
    + apply bt_eqb_eq in B. subst k. split.
      * intros [= <-]. exists v. split; [now apply in_snoc; right|reflexivity].
      * intros (v1 & Hin & Hk). apply in_snoc in Hin. destruct Hin as [Hin|Hin]; [|congruence].
        exfalso. exact (NK _ Hin Hk).
    + rewrite (h_rev _ _ H). split.
      * intros (v1 & Hin & Hk). exists v1. split; [now apply in_snoc; left|assumption].
      * intros (v1 & Hin & Hk). apply in_snoc in Hin. destruct Hin as [Hin|Hin]; [eauto|].
        inversion Hin; subst. rewrite (proj2 (bt_eqb_eq _ _) eq_refl) in B. discriminate.
  - intros b p. split.
    + intros Hin. assert (Hin' : In (b, p) (tg_ports s) \/ (b = rt_board t /\ rt_port t = Some p)).
      { destruct (rt_port t) as [q|]; [|auto]. apply in_snoc in Hin. destruct Hin as [Hin|Hin]; [auto|].
        inversion Hin; subst. auto. }
      destruct Hin' as [Hin'|[-> Hp]].
      * apply (h_ports _ _ H) in Hin'. destruct Hin' as (t1 & v1 & I1 & K1). exists t1, v1.
        split; [now apply in_snoc; left|assumption].
      * exists t, v. split; [now apply in_snoc; right|auto].
    + intros (t1 & v1 & Hin & Hb & Hp). apply in_snoc in Hin. destruct Hin as [Hin|Hin].
      * assert (I : In (b, p) (tg_ports s)) by (apply (h_ports _ _ H); eauto).
        destruct (rt_port t); [apply in_snoc; left|]; assumption.
      * inversion Hin; subst. rewrite Hp. apply in_snoc. now right.
  - intros w. pose proof (h_ipv _ _ H w) as Hw. rewrite ips_of_app. cbn [ips_of flat_map app].
    rewrite app_nil_r. exact Hw.
  - intros w. rewrite dappend_get, revs_of_app, !(h_revv _ _ H). cbn [revs_of flat_map app].
    rewrite (Nat.eqb_sym w v). destruct (Nat.eqb v w) eqn:B.
    + apply Nat.eqb_eq in B. subst w. fold (revs_of v acc). cbn. destruct (revs_of v acc); reflexivity.
    + cbn [app]. rewrite app_nil_r. reflexivity.
  - intros t1 v1 t2 v2 I1 I2. apply in_snoc in I1, I2. destruct I1 as [I1|I1]; [|discriminate].
    destruct I2 as [I2|I2]; [eapply (h_excl _ _ H); eassumption|]. inversion I2; subst. exact (NK _ I1).
  - rewrite flat_map_app. cbn. apply NoDup_snoc; [exact (h_keys _ _ H)|].
    rewrite in_rev_keys. intros (t1 & v1 & I1 & K1). exact (NK _ I1 K1).
  - rewrite flat_map_app. cbn. destruct (rt_port t) as [p|] eqn:Ep; cbn.
    + apply NoDup_snoc; [exact (h_prts _ _ H)|]. rewrite in_rev_ports. intros (t1 & v1 & I1 & B1 & P1).
      apply NC. right. exists t1, v1, p. auto.
    + rewrite app_nil_r. exact (h_prts _ _ H).
Qed.

Lemma holds_ip : forall s acc t v s', holds s acc -> add_ip_tag s t v = Ok s' -> holds s' (acc ++ [AddIP t v]).
Proof.
  intros s acc t v s' H E. pose proof (not_conflict s acc (AddIP t v) s' H E) as NC. cbn [conflict] in NC.
  assert (NR : forall t' v', In (AddRev t' v') acc -> revkey t' <> ipkey t) by (intros t' v' I K; apply NC; right; eauto).
  assert (Hrev : forall k t1, (exists v1, In (AddRev t1 v1) acc /\ revkey t1 = k) <->
                              (exists v1, In (AddRev t1 v1) (acc ++ [AddIP t v]) /\ revkey t1 = k)).
  { intros k t1. split; intros (v1 & I1 & K1); exists v1; (split; [|assumption]).
    - now apply in_snoc; left.
    - apply in_snoc in I1. destruct I1 as [I1|I1]; [assumption|discriminate]. }
  assert (Hprt : forall b p, (exists t1 v1, In (AddRev t1 v1) acc /\ rt_board t1 = b /\ rt_port t1 = Some p) <->
                             (exists t1 v1, In (AddRev t1 v1) (acc ++ [AddIP t v]) /\ rt_board t1 = b /\ rt_port t1 = Some p)).
  { intros b p. split; intros (t1 & v1 & I1 & K1); exists t1, v1; (split; [|assumption]).
    - now apply in_snoc; left.
    - apply in_snoc in I1. destruct I1 as [I1|I1]; [assumption|discriminate]. }
  unfold add_ip_tag in E. fold (ipkey t) in E.
  pose proof (ip_existing s acc t H) as Hex.
  destruct (dget bt_eqb (tg_ip s) (ipkey t)) as [a|] eqn:Ea.
  - destruct Hex as (x & Hx). rewrite Hx in E.
    destruct (negb (Nat.eqb (it_ip x) (it_ip t)) || negb (is_equal_or_none (it_port x) (it_port t)) ||
              negb (Bool.eqb (it_strip x) (it_strip t))) eqn:D; [discriminate|].
    destruct (dmem bt_eqb (tg_rev s) (ipkey t)); [discriminate|].
    rewrite !orb_false_iff in D. destruct D as [[D1 D2] D3].
    apply negb_false_iff in D1, D2, D3. apply Nat.eqb_eq in D1. apply eqb_prop in D3.
    rewrite is_equal_or_none_true in D2.
    remember (match it_port x, it_port t with None, Some p => with_port x (Some p) | _, _ => x end) as x' eqn:Ex'.
    assert (E' : s' = mkTags (upd (tg_heap s) a x') (tg_ip s) (tg_rev s) (dappend (tg_ip_v s) v a) (tg_rev_v s) (tg_ports s))
      by congruence.
    clear E. subst s'.
    destruct (h_ip _ _ H _ _ Ea) as (x1 & t0 & v0 & Hx1 & Hin0 & Hk0 & Hx0 & Hp0).
    assert (x1 = x) by congruence. subst x1. clear Hx1.
    assert (La : a < length (tg_heap s)) by (apply nth_error_Some; congruence).
    assert (Hnew : nth_error (upd (tg_heap s) a x') a = Some x') by now apply nth_error_upd_eq.
    assert (Hport : it_port x' = match it_port x with Some p => Some p | None => it_port t end).
    { rewrite Ex'. destruct (it_port x) as [p|] eqn:Ep; [assumption|]. destruct (it_port t) as [q|]; [reflexivity|assumption]. }
    assert (Hx'0 : x' = with_port t0 (it_port x')).
    { rewrite Ex'. destruct (it_port x) as [p|] eqn:Ep.
      - rewrite Ep. exact Hx0.
      - destruct (it_port t) as [q|]; [|rewrite Ep; exact Hx0]. rewrite Hx0. reflexivity. }
    assert (Hoth : forall k b, dget bt_eqb (tg_ip s) k = Some b -> k <> ipkey t -> nth_error (upd (tg_heap s) a x') b = nth_error (tg_heap s) b).
    { intros k b Hb Hk. apply nth_error_upd_neq. intros <-.
      destruct (h_ip _ _ H _ _ Hb) as (x2 & t2 & v2 & Hx2 & _ & Hk2 & Hx02 & _).
      assert (x2 = x) by congruence. subst x2. apply Hk. rewrite <- Hk2, <- Hk0.
      assert (ipkey x = ipkey t2) by (rewrite Hx02; reflexivity). assert (ipkey x = ipkey t0) by (rewrite Hx0; reflexivity).
      congruence. }
    constructor; cbn [tg_heap tg_ip tg_rev tg_ip_v tg_rev_v tg_ports].
    + intros k b Hb. destruct (bt_eqb k (ipkey t)) eqn:B.
      * apply bt_eqb_eq in B. subst k. assert (b = a) by congruence. subst b.
        exists x', t0, v0. split; [assumption|]. split; [now apply in_snoc; left|]. split; [assumption|]. split; [assumption|].
        intros p Ep. rewrite Hport in Ep. destruct (it_port x) as [q|] eqn:Eq.
        -- destruct (Hp0 q eq_refl) as (t1 & v1 & I1 & K1 & P1). exists t1, v1.
           split; [now apply in_snoc; left|]. split; [assumption|congruence].
        -- exists t, v. split; [now apply in_snoc; right|]. auto.
      * assert (Nk : k <> ipkey t) by (intros ->; rewrite (proj2 (bt_eqb_eq _ _) eq_refl) in B; discriminate).
        destruct (h_ip _ _ H _ _ Hb) as (x2 & t2 & v2 & Hx2 & I2 & K2 & E2 & P2).
        exists x2, t2, v2. split; [rewrite (Hoth k b Hb Nk); assumption|]. split; [now apply in_snoc; left|].
        split; [assumption|]. split; [assumption|]. intros p Ep. destruct (P2 p Ep) as (t3 & v3 & I3 & K3).
        exists t3, v3. split; [now apply in_snoc; left|assumption].
    + intros t1 v1 I1. apply in_snoc in I1. destruct I1 as [I1|I1].
      * destruct (h_in _ _ H _ _ I1) as (b & x1 & Hb & Hx1 & A).
        destruct (bt_eqb (ipkey t1) (ipkey t)) eqn:B.
        -- apply bt_eqb_eq in B. rewrite B in *. assert (b = a) by congruence. subst b.
           assert (x1 = x) by congruence. subst x1. exists a, x'. split; [assumption|]. split; [assumption|].
           destruct A as (A1 & A2 & A3 & A4 & A5).
           assert (Hf : it_board x' = it_board x /\ it_tag x' = it_tag x /\ it_ip x' = it_ip x /\ it_strip x' = it_strip x).
           { rewrite Ex'. destruct (it_port x), (it_port t); cbn; auto. }
           destruct Hf as (F1 & F2 & F3 & F4). unfold agrees. rewrite F1, F2, F3, F4.
           split; [assumption|]. split; [assumption|]. split; [assumption|]. split; [assumption|].
           destruct (it_port t1) as [p|]; [|exact I]. rewrite Hport, A5. reflexivity.
        -- assert (Nk : ipkey t1 <> ipkey t) by (intros C; rewrite C, (proj2 (bt_eqb_eq _ _) eq_refl) in B; discriminate).
           exists b, x1. split; [assumption|]. split; [|assumption]. rewrite (Hoth _ b Hb Nk). assumption.
      * inversion I1; subst t1 v1. exists a, x'. split; [assumption|]. split; [assumption|].
        assert (K0 : it_board x' = it_board t /\ it_tag x' = it_tag t).
        { unfold ipkey in Hk0. rewrite Hx'0. cbn. split; congruence. }
        destruct K0 as [K1 K2]. unfold agrees. split; [assumption|]. split; [assumption|].
        assert (Hf : it_ip x' = it_ip x /\ it_strip x' = it_strip x).
        { rewrite Ex'. destruct (it_port x), (it_port t); cbn; auto. }
        destruct Hf as [F1 F2]. rewrite F1, F2. split; [assumption|]. split; [assumption|].
        rewrite Hport. destruct (it_port t) as [q|]; [|exact I]. destruct (it_port x) as [p|]; [|reflexivity].
        f_equal. now apply D2.
    + intros k t1. rewrite (h_rev _ _ H). apply Hrev.
    + intros b p. rewrite (h_ports _ _ H). apply Hprt.
    + intros w. rewrite dappend_get, ips_of_app. cbn [ips_of flat_map]. rewrite (Nat.eqb_sym w v), app_nil_r.
      pose proof (h_ipv _ _ H w) as Hw. destruct (Nat.eqb v w) eqn:B.
      * apply Nat.eqb_eq in B. subst w. destruct (dget Nat.eqb (tg_ip_v s) v) as [l|].
        -- destruct Hw as [_ Hw]. split; [destruct l; discriminate|]. apply Forall2_app; [assumption|]. constructor; [assumption|constructor].
        -- split; [discriminate|]. rewrite Hw. constructor; [assumption|constructor].
      * rewrite app_nil_r. exact Hw.
    + intros w. rewrite (h_revv _ _ H), revs_of_app. cbn [revs_of flat_map app]. rewrite app_nil_r. reflexivity.
    + intros t1 v1 t2 v2 I1 I2. apply in_snoc in I1, I2. destruct I2 as [I2|I2]; [|discriminate].
      destruct I1 as [I1|I1]; [eapply (h_excl _ _ H); eassumption|]. inversion I1; subst. intros C. exact (NR _ _ I2 (eq_sym C)).
    + rewrite flat_map_app. cbn. rewrite app_nil_r. exact (h_keys _ _ H).
    + rewrite flat_map_app. cbn. rewrite app_nil_r. exact (h_prts _ _ H).
  - destruct (dmem bt_eqb (tg_rev s) (ipkey t)); [discriminate|].
    assert (E' : s' = mkTags (tg_heap s ++ [t]) (dset bt_eqb (tg_ip s) (ipkey t) (length (tg_heap s))) (tg_rev s)
                        (dappend (tg_ip_v s) v (length (tg_heap s))) (tg_rev_v s) (tg_ports s)) by congruence.
    clear E. subst s'.
    assert (Hn : nth_error (tg_heap s ++ [t]) (length (tg_heap s)) = Some t).
    { rewrite nth_error_app2, Nat.sub_diag by lia. reflexivity. }
    assert (Ho : forall b x, nth_error (tg_heap s) b = Some x -> nth_error (tg_heap s ++ [t]) b = Some x).
    { intros b x Hb. rewrite nth_error_app1; [assumption|]. apply nth_error_Some. congruence. }
    constructor; cbn [tg_heap tg_ip tg_rev tg_ip_v tg_rev_v tg_ports].
    + intros k b. rewrite (dget_dset _ bt_eqb_eq). destruct (bt_eqb (ipkey t) k) eqn:B.
      * intros [= <-]. apply bt_eqb_eq in B. exists t, t, v. split; [assumption|]. split; [now apply in_snoc; right|].
        split; [assumption|]. split; [destruct t; reflexivity|]. intros p Ep. exists t, v. split; [now apply in_snoc; right|auto].
      * intros Hb. destruct (h_ip _ _ H _ _ Hb) as (x2 & t2 & v2 & Hx2 & I2 & K2 & E2 & P2).
        exists x2, t2, v2. split; [now apply Ho|]. split; [now apply in_snoc; left|].
        split; [assumption|]. split; [assumption|]. intros p Ep. destruct (P2 p Ep) as (t3 & v3 & I3 & K3).
        exists t3, v3. split; [now apply in_snoc; left|assumption].
    + intros t1 v1 I1. apply in_snoc in I1. rewrite (dget_dset _ bt_eqb_eq). destruct I1 as [I1|I1].
      * assert (Nk : ipkey t1 <> ipkey t) by exact (Hex _ _ I1).
        destruct (h_in _ _ H _ _ I1) as (b & x1 & Hb & Hx1 & A). exists b, x1.
        rewrite (eqb_neq' _ bt_eqb_eq) by congruence. split; [assumption|]. split; [now apply Ho|assumption].
      * inversion I1; subst. exists (length (tg_heap s)), t. rewrite (proj2 (bt_eqb_eq _ _) eq_refl).
        split; [reflexivity|]. split; [assumption|]. unfold agrees. destruct (it_port t); auto.
    + intros k t1. rewrite (h_rev _ _ H). apply Hrev.
    + intros b p. rewrite (h_ports _ _ H). apply Hprt.
    + intros w. rewrite dappend_get, ips_of_app. cbn [ips_of flat_map]. rewrite (Nat.eqb_sym w v), app_nil_r.
      assert (HF : forall l u, Forall2 (fun t0 a => dget bt_eqb (tg_ip s) (ipkey t0) = Some a) l u ->
        Forall2 (fun t0 a => dget bt_eqb (dset bt_eqb (tg_ip s) (ipkey t) (length (tg_heap s))) (ipkey t0) = Some a) l u).
      { intros l u F. induction F as [|t1 a1 l u F1 F IHF]; constructor; [|assumption].
        rewrite (dget_dset_neq _ bt_eqb_eq); [assumption|]. intros C. rewrite <- C in F1. congruence. }
      pose proof (h_ipv _ _ H w) as Hw. destruct (Nat.eqb v w) eqn:B.
      * apply Nat.eqb_eq in B. subst w. destruct (dget Nat.eqb (tg_ip_v s) v) as [l|].
        -- destruct Hw as [_ Hw]. split; [destruct l; discriminate|]. apply Forall2_app; [now apply HF|].
           constructor; [apply (dget_dset_eq _ bt_eqb_eq)|constructor].
        -- split; [discriminate|]. rewrite Hw. constructor; [apply (dget_dset_eq _ bt_eqb_eq)|constructor].
      * rewrite app_nil_r. destruct (dget Nat.eqb (tg_ip_v s) w) as [l|]; [|assumption].
        destruct Hw as [H1 Hw]. split; [assumption|now apply HF].
    + intros w. rewrite (h_revv _ _ H), revs_of_app. cbn [revs_of flat_map app]. rewrite app_nil_r. reflexivity.
    + intros t1 v1 t2 v2 I1 I2. apply in_snoc in I1, I2. destruct I2 as [I2|I2]; [|discriminate].
      destruct I1 as [I1|I1]; [eapply (h_excl _ _ H); eassumption|]. inversion I1; subst. intros C. exact (NR _ _ I2 (eq_sym C)).
    + rewrite flat_map_app. cbn. rewrite app_nil_r. exact (h_keys _ _ H).
    + rewrite flat_map_app. cbn. rewrite app_nil_r. exact (h_prts _ _ H).
Qed.

Lemma holds_run : forall s acc c s', holds s acc -> run_tagcall s c = Ok s' -> holds s' (acc ++ [c]).
Proof. intros s acc [t v|t v] s' H E; [eapply holds_ip|eapply holds_rev]; eassumption. Qed.

Lemma run_tagcalls_holds : forall calls s acc s' oks, holds s acc -> run_tagcalls s calls = (s', oks) ->
  holds s' (acc ++ accepted calls oks) /\ length oks = length calls.
Proof.
  induction calls as [|c calls IH]; intros s acc s' oks H E; cbn in E.
  - injection E as <- <-. cbn. rewrite app_nil_r. auto.
  - destruct (run_tagcall s c) as [s1|e] eqn:E1.
    + destruct (run_tagcalls s1 calls) as [s2 o2] eqn:E2. injection E as <- <-.
      pose proof (holds_run _ _ _ _ H E1) as H1. destruct (IH _ _ _ _ H1 E2) as [A B].
      split; [|cbn; congruence]. unfold accepted in *. cbn. rewrite <- app_assoc in A. exact A.
    + destruct (run_tagcalls s calls) as [s2 o2] eqn:E2. injection E as <- <-.
      destruct (IH _ _ _ _ H E2) as [A B]. split; [|cbn; congruence]. exact A.
Qed.

(** The tags of a vertex. *)
Lemma holds_get_ip : forall s acc v, holds s acc ->
  match get_ip_tags s v with
  | Some l => l <> [] /\ Forall2 agrees (ips_of v acc) l
  | None => ips_of v acc = []
  end.
Proof.
  intros s acc v H. unfold get_ip_tags. pose proof (h_ipv _ _ H v) as Hv.
  destruct (dget Nat.eqb (tg_ip_v s) v) as [l|]; [|assumption]. destruct Hv as [N F].
  assert (G : Forall2 agrees (ips_of v acc) (flat_map (fun a => match nth_error (tg_heap s) a with Some t => [t] | None => [] end) l)).
  { assert (Hin : forall t, In t (ips_of v acc) -> In (AddIP t v) acc).
    { intros t Ht. unfold ips_of in Ht. apply in_flat_map in Ht. destruct Ht as ([t' w|t' w] & Hin & Hw); [|destruct Hw].
      destruct (Nat.eqb v w) eqn:B; [|destruct Hw]. destruct Hw as [->|[]]. apply Nat.eqb_eq in B. now subst. }
    clear N. revert Hin. induction F as [|t a l1 l2 F1 F IH]; intros Hin; cbn; [constructor|].
    destruct (h_in _ _ H t v (Hin t (or_introl eq_refl))) as (a' & x & Ha & Hx & A).
    assert (a' = a) by congruence. subst a'. rewrite Hx. cbn. constructor; [assumption|]. apply IH.
    intros t' Ht'. apply Hin. now right. }
  split; [|assumption]. intros C. rewrite C in G. inversion G as [E1|]. rewrite <- E1 in F. inversion F. congruence.
Qed.

Lemma holds_obj : forall s acc v l x, holds s acc -> get_ip_tags s v = Some l -> In x l ->
  exists a t0 v0, dget bt_eqb (tg_ip s) (ipkey x) = Some a /\ nth_error (tg_heap s) a = Some x /\
    In (AddIP t0 v0) acc /\ ipkey t0 = ipkey x /\ x = with_port t0 (it_port x) /\
    (forall p, it_port x = Some p -> exists t v, In (AddIP t v) acc /\ ipkey t = ipkey x /\ it_port t = Some p).
Proof.
  intros s acc v l x H E Hin. unfold get_ip_tags in E. pose proof (h_ipv _ _ H v) as Hv.
  destruct (dget Nat.eqb (tg_ip_v s) v) as [la|]; [|discriminate]. destruct Hv as [_ F].
  injection E as <-. apply in_flat_map in Hin. destruct Hin as (a & Ha & Hx).
  assert (HF : exists t, dget bt_eqb (tg_ip s) (ipkey t) = Some a).
  { clear - F Ha. induction F as [|t b l1 l2 F1 F IH]; [destruct Ha|]. destruct Ha as [->|Ha]; eauto. }
  destruct HF as (t & Ht). destruct (h_ip _ _ H _ _ Ht) as (x' & t0 & v0 & Hx' & I0 & K0 & E0 & P0).
  rewrite Hx' in Hx. destruct Hx as [->|[]].
  assert (K : ipkey x = ipkey t) by (rewrite E0, ipkey_with_port; assumption).
  exists a, t0, v0. rewrite K. auto 10.
Qed.

Lemma holds_shared : forall s acc v1 l1 x1 v2 l2 x2, holds s acc ->
  get_ip_tags s v1 = Some l1 -> In x1 l1 -> get_ip_tags s v2 = Some l2 -> In x2 l2 ->
  ipkey x1 = ipkey x2 -> x1 = x2.
Proof.
  intros s acc v1 l1 x1 v2 l2 x2 H E1 I1 E2 I2 K.
  destruct (holds_obj _ _ _ _ _ H E1 I1) as (a1 & t1 & w1 & D1 & X1 & _).
  destruct (holds_obj _ _ _ _ _ H E2 I2) as (a2 & t2 & w2 & D2 & X2 & _).
  rewrite K in D1. assert (a1 = a2) by congruence. subst. congruence.
Qed.

(** With one accepted call per board and tag a vertex gets exactly what it added. *)
Lemma agrees_exact : forall s acc v l t x, holds s acc -> NoDup (map ckey acc) ->
  get_ip_tags s v = Some l -> In x l -> In (AddIP t v) acc -> agrees t x -> x = t.
Proof.
  intros s acc v l t x H ND E Hin It A.
  destruct (holds_obj _ _ _ _ _ H E Hin) as (a & t0 & v0 & _ & _ & I0 & K0 & E0 & P0).
  assert (Kt : ipkey t = ipkey x) by (destruct A as (A1 & A2 & _); unfold ipkey; congruence).
  assert (U : forall t1 w1, In (AddIP t1 w1) acc -> ipkey t1 = ipkey x -> t1 = t).
  { intros t1 w1 I1 K1. assert (AddIP t1 w1 = AddIP t v); [|congruence].
    assert (Kc : ckey (AddIP t1 w1) = ckey (AddIP t v)) by (cbn; congruence).
    clear - ND I1 It Kc. induction acc as [|c acc IH]; [destruct It|]. cbn in ND. inversion ND; subst.
    destruct I1 as [->|I1], It as [->|It]; auto.
    - exfalso. apply H1. rewrite Kc. now apply in_map.
    - exfalso. apply H1. rewrite <- Kc. now apply in_map. }
  assert (t0 = t) by (eapply U; eassumption). subst t0.
  assert (Hp : it_port x = it_port t).
  { destruct (it_port t) as [p|] eqn:Ep.
    - destruct A as (_ & _ & _ & _ & A5). rewrite Ep in A5. assumption.
    - destruct (it_port x) as [p|] eqn:Eq; [|reflexivity]. destruct (P0 p eq_refl) as (t1 & v1 & I1 & K1 & Q1).
      assert (t1 = t) by (eapply U; eassumption). congruence. }
  rewrite E0, Hp. destruct t; reflexivity.
Qed.

(** * The allocator *)
Definition want_ok (want : option nat) (t : nat) : Prop := match want with Some w => w = t | None => True end.

Lemma remove1_In : forall l x y, NoDup l -> (In y (remove1 x l) <-> In y l /\ y <> x).
Proof.
  induction l as [|z l IH]; intros x y ND; cbn; [tauto|]. inversion ND; subst.
  destruct (Nat.eqb x z) eqn:B.
  - apply Nat.eqb_eq in B. subst z. split; [|intros [[->|H] N]; tauto].
    intros H. split; [auto|]. intros ->. tauto.
  - apply Nat.eqb_neq in B. cbn. rewrite IH by assumption. split; [|tauto].
    intros [->|[H N]]; [split; [auto|congruence]|auto].
Qed.
Lemma remove1_NoDup : forall l x, NoDup l -> NoDup (remove1 x l).
Proof.
  induction l as [|z l IH]; intros x ND; cbn; [constructor|]. inversion ND; subst.
  destruct (Nat.eqb x z); [assumption|]. constructor; [|auto]. rewrite remove1_In by assumption. tauto.
Qed.

Lemma existsb_eqb : forall t l, existsb (Nat.eqb t) l = true <-> In t l.
Proof.
  intros. rewrite existsb_exists. split.
  - intros (x & Hin & B). apply Nat.eqb_eq in B. now subst.
  - intros H. exists t. split; [assumption|apply Nat.eqb_refl].
Qed.

(** The tags free on each chip. *)
Definition freed := list (nat * list nat).
Definition nodups (d : freed) : Prop := forall c, NoDup (avail chip_tags d c).
Definition takes (d d' : freed) (c t : nat) : Prop :=
  In t (avail chip_tags d c) /\ nodups d' /\
  forall c' t', In t' (avail chip_tags d' c') <-> In t' (avail chip_tags d c') /\ ~ (c' = c /\ t' = t).

Lemma avail_dset : forall {A} (all : list A) d c l c',
  avail all (dset Nat.eqb d c l) c' = if Nat.eqb c c' then l else avail all d c'.
Proof. intros. unfold avail. rewrite (dget_dset _ Nat.eqb_eq). destruct (Nat.eqb c c'); reflexivity. Qed.

Lemma takes_set : forall d c t l, nodups d -> In t (avail chip_tags d c) -> NoDup l ->
  (forall y, In y l <-> In y (avail chip_tags d c) /\ y <> t) -> takes d (dset Nat.eqb d c l) c t.
Proof.
  intros d c t l ND Hin NDl Hl. split; [assumption|]. split.
  - intros c'. rewrite avail_dset. destruct (Nat.eqb c c'); [assumption|apply ND].
  - intros c' t'. rewrite avail_dset. destruct (Nat.eqb c c') eqn:B.
    + apply Nat.eqb_eq in B. subst c'. rewrite Hl. split; intros [H N]; (split; [assumption|]).
      * intros [_ C]. congruence.
      * intros C. apply N. auto.
    + apply Nat.eqb_neq in B. split; [|tauto]. intros H. split; [assumption|]. intros [C _]. congruence.
Qed.

Lemma removelast_last : forall {A} (l : list A) d, l <> [] -> l = removelast l ++ [last l d].
Proof. intros. now apply app_removelast_last. Qed.

Lemma takes_last : forall d c, nodups d -> avail chip_tags d c <> [] ->
  takes d (dset Nat.eqb d c (removelast (avail chip_tags d c))) c (last (avail chip_tags d c) 0).
Proof.
  intros d c ND N. pose proof (ND c) as NDc. pose proof (removelast_last _ 0 N) as E.
  remember (avail chip_tags d c) as l eqn:El. remember (removelast l) as r. remember (last l 0) as t. clear Heqr Heqt.
  assert (NDr : NoDup r /\ ~ In t r).
  { rewrite E in NDc. apply NoDup_remove in NDc. rewrite app_nil_r in NDc. exact NDc. }
  destruct NDr as [NDr Nt]. apply takes_set; [assumption| |assumption|]; rewrite <- El, E.
  - apply in_snoc. now right.
  - intros y. rewrite in_snoc. split.
    + intros H. split; [now left|]. intros ->. tauto.
    + intros [[H|H] Ny]; [assumption|congruence].
Qed.

Lemma find_tag_chip_spec : forall eths d tag, nodups d ->
  match find_tag_chip eths d tag with
  | Ok (c, d') => In c eths /\ takes d d' c tag
  | Err e => e = NotFound /\ forall c, In c eths -> ~ In tag (avail chip_tags d c)
  end.
Proof.
  induction eths as [|c eths IH]; intros d tag ND; cbn [find_tag_chip]; [split; [reflexivity|intros c []]|].
  destruct (existsb (Nat.eqb tag) (avail chip_tags d c)) eqn:B.
  - apply existsb_eqb in B. split; [now left|]. apply takes_set; [assumption|assumption|apply remove1_NoDup, ND|].
    intros y. apply remove1_In, ND.
  - specialize (IH d tag ND). destruct (find_tag_chip eths d tag) as [[c' d']|e].
    + destruct IH as [H1 H2]. split; [now right|assumption].
    + destruct IH as [H1 H2]. split; [assumption|]. intros c' [<-|Hc]; [|auto]. intros C. apply existsb_eqb in C. congruence.
Qed.

Lemma find_free_tag_spec : forall eths d, nodups d ->
  match find_free_tag eths d with
  | Ok (c, t, d') => In c eths /\ takes d d' c t
  | Err e => e = NotFound /\ forall c, In c eths -> avail chip_tags d c = []
  end.
Proof.
  induction eths as [|c eths IH]; intros d ND; cbn [find_free_tag]; [split; [reflexivity|intros c []]|].
  destruct (avail chip_tags d c) as [|tag l] eqn:E.
  - specialize (IH d ND). destruct (find_free_tag eths d) as [[[c' t'] d']|e].
    + destruct IH as [H1 H2]. split; [now right|assumption].
    + destruct IH as [H1 H2]. split; [assumption|]. intros c' [<-|Hc]; auto.
  - pose proof (ND c) as NDc. rewrite E in NDc. inversion NDc as [|? ? N1 N2]; subst.
    split; [now left|]. apply takes_set; [assumption|rewrite E; now left|assumption|].
    intros y. rewrite E. cbn. split.
    + intros H. split; [auto|]. intros ->. tauto.
    + intros [[H|H] N]; [congruence|assumption].
Qed.

(** The chosen chip is the own one if that has a suitable tag, else any other. *)
Lemma get_chip_and_tag_spec : forall m d want eth, nodups d -> In eth (tm_eths m) ->
  match get_chip_and_tag m d want eth with
  | Ok (c, t, d') =>
      In c (tm_eths m) /\ want_ok want t /\ takes d d' c t /\
      (c <> eth -> forall t', want_ok want t' -> ~ In t' (avail chip_tags d eth))
  | Err e => e = NotFound /\ forall c t', In c (tm_eths m) -> want_ok want t' -> ~ In t' (avail chip_tags d c)
  end.
Proof.
  intros m d want eth ND He. unfold get_chip_and_tag. destruct want as [tag|].
  - destruct (existsb (Nat.eqb tag) (avail chip_tags d eth)) eqn:B.
    + apply existsb_eqb in B. split; [assumption|]. split; [reflexivity|]. split; [|congruence].
      apply takes_set; [assumption|assumption|apply remove1_NoDup, ND|]. intros y. apply remove1_In, ND.
    + assert (NB : ~ In tag (avail chip_tags d eth)) by (intros C; apply existsb_eqb in C; congruence).
      pose proof (find_tag_chip_spec (tm_eths m) d tag ND) as F.
      destruct (find_tag_chip (tm_eths m) d tag) as [[c d']|e]; cbn.
      * destruct F as [F1 F2]. split; [assumption|]. split; [reflexivity|]. split; [assumption|].
        intros _ t' <-. assumption.
      * destruct F as [F1 F2]. split; [assumption|]. intros c t' Hc <-. auto.
  - destruct (avail chip_tags d eth) as [|x l] eqn:E.
    + pose proof (find_free_tag_spec (tm_eths m) d ND) as F.
      destruct (find_free_tag (tm_eths m) d) as [[[c t] d']|e]; cbn.
      * destruct F as [F1 F2]. split; [assumption|]. split; [exact I|]. split; [assumption|]. intros _ t' _ [].
      * destruct F as [F1 F2]. split; [assumption|]. intros c t' Hc _. rewrite F2 by assumption. intros [].
    + rewrite <- E. split; [assumption|]. split; [exact I|]. split; [|congruence].
      apply takes_last; [assumption|]. rewrite E. discriminate.
Qed.

Definition on_board (b : nat) (c : tagcall) : bool :=
  match c with AddRev t _ => Nat.eqb (rt_board t) b | _ => false end.
Definition n_rev (b : nat) (acc : list tagcall) : nat := length (filter (on_board b) acc).

Record ainv (m : tmachine) (st : astate) (acc : list tagcall) : Prop := {
  i_holds : holds (a_tags st) acc;
  i_nodup : NoDup (map ckey acc);
  i_nd : nodups (a_free st);
  i_free : forall c t, In c (tm_eths m) ->
    (In t (avail chip_tags (a_free st) c) <-> 1 <= t <= 7 /\ ~ In (tm_addr m c, t) (map ckey acc));
  i_range : forall k, In k (map ckey acc) -> 1 <= snd k <= 7;
  i_board : forall k, In k (map ckey acc) -> exists c, In c (tm_eths m) /\ fst k = tm_addr m c;
  i_ports : forall c, In c (tm_eths m) -> 104 <= length (avail board_ports (a_ports st) c) + n_rev (tm_addr m c) acc;
  i_pin : forall c p, In p (avail board_ports (a_ports st) c) -> In p board_ports }.

Lemma ainv_start : forall m, ainv m (mkA [] [] no_tags) [].
Proof.
  intros m. constructor; cbn [a_free a_ports a_tags map].
  - exact holds_empty.
  - constructor.
  - intros c. unfold avail. cbn [dget]. apply seq_NoDup.
  - intros c t Hc. unfold avail. cbn [dget]. unfold chip_tags. rewrite in_seq. cbn. intuition lia.
  - intros k [].
  - intros k [].
  - intros c Hc. unfold avail. cbn [dget]. unfold board_ports. rewrite map_length, seq_length. lia.
  - intros c p. unfold avail. cbn [dget]. auto.
Qed.

Lemma addr_inj : forall m a b, NoDup (map (tm_addr m) (tm_eths m)) -> In a (tm_eths m) -> In b (tm_eths m) ->
  tm_addr m a = tm_addr m b -> a = b.
Proof.
  intros m a b. induction (tm_eths m) as [|c l IH]; intros ND Ha Hb E; [destruct Ha|]. cbn in ND.
  inversion ND; subst. destruct Ha as [->|Ha], Hb as [->|Hb]; auto.
  - exfalso. apply H1. rewrite E. now apply in_map.
  - exfalso. apply H1. rewrite <- E. now apply in_map.
Qed.

(** The calls that serve a request. *)
Definition ip_call (m : tmachine) (pl : tplace) (r : ipreq) (c : tagcall) : Prop :=
  exists ch t, In ch (tm_eths m) /\ 1 <= t <= 7 /\ want_ok (iq_tag r) t /\
    c = AddIP (mkIPTag (tm_addr m ch) t (tp_xy pl) (iq_ip r) (iq_port r) (iq_strip r) (iq_traffic r)) (tp_vertex pl).
Definition rev_call (m : tmachine) (pl : tplace) (r : revreq) (c : tagcall) : Prop :=
  exists t p, 1 <= t <= 7 /\ want_ok (rq_tag r) t /\
    match rq_port r with Some q => p = q | None => In p board_ports end /\
    c = AddRev (mkRevTag (tm_addr m (tp_eth pl)) t (Some p) (tp_xy pl) (tp_proc pl) (rq_sdp r)) (tp_vertex pl).

(** A tag that is free on a chip: of the range and not given yet. *)
Definition open_tag (m : tmachine) (used : list (nat * nat)) (c t : nat) : Prop :=
  1 <= t <= 7 /\ ~ In (tm_addr m c, t) used.

Lemma takes_free : forall m st acc free' c t call,
  NoDup (map (tm_addr m) (tm_eths m)) -> ainv m st acc -> In c (tm_eths m) -> takes (a_free st) free' c t ->
  ckey call = (tm_addr m c, t) ->
  1 <= t <= 7 /\ ~ In (tm_addr m c, t) (map ckey acc) /\
  forall c' t', In c' (tm_eths m) ->
    (In t' (avail chip_tags free' c') <-> 1 <= t' <= 7 /\ ~ In (tm_addr m c', t') (map ckey (acc ++ [call]))).
Proof.
  intros m st acc free' c t call NDa H Hc T K. destruct T as (T1 & T2 & T3).
  apply (i_free _ _ _ H c t Hc) in T1. destruct T1 as [R1 R2]. split; [assumption|]. split; [assumption|].
  intros c' t' Hc'. rewrite T3, (i_free _ _ _ H c' t' Hc'), map_app, in_app_iff. cbn [map In]. rewrite K.
  split.
  - intros [[A B] C]. split; [assumption|]. intros [D|[D|[]]]; [tauto|]. apply C. injection D as D1 D2.
    split; [|congruence]. symmetry. apply (addr_inj m); assumption.
  - intros [A B]. split; [split; [assumption|tauto]|]. intros [-> ->]. tauto.
Qed.

Lemma alloc_ip_spec : forall m pl st acc r, NoDup (map (tm_addr m) (tm_eths m)) -> In (tp_eth pl) (tm_eths m) -> ainv m st acc ->
  match alloc_ip m pl st r with
  | Ok st' => exists c t call, In c (tm_eths m) /\ want_ok (iq_tag r) t /\ open_tag m (map ckey acc) c t /\
      (c <> tp_eth pl -> forall t', want_ok (iq_tag r) t' -> ~ open_tag m (map ckey acc) (tp_eth pl) t') /\
      call = AddIP (mkIPTag (tm_addr m c) t (tp_xy pl) (iq_ip r) (iq_port r) (iq_strip r) (iq_traffic r)) (tp_vertex pl) /\
      ainv m st' (acc ++ [call])
  | Err e => e = NotFound /\ forall c t, In c (tm_eths m) -> want_ok (iq_tag r) t -> ~ open_tag m (map ckey acc) c t
  end.
Proof.
  intros m pl st acc r NDa He H. unfold alloc_ip.
  pose proof (get_chip_and_tag_spec m (a_free st) (iq_tag r) (tp_eth pl) (i_nd _ _ _ H) He) as G.
  destruct (get_chip_and_tag m (a_free st) (iq_tag r) (tp_eth pl)) as [[[c t] free']|e]; cbn [bind fst snd].
  - destruct G as (G1 & G2 & G3 & G4).
    remember (mkIPTag (tm_addr m c) t (tp_xy pl) (iq_ip r) (iq_port r) (iq_strip r) (iq_traffic r)) as tag eqn:Et.
    assert (K : ckey (AddIP tag (tp_vertex pl)) = (tm_addr m c, t)) by (subst tag; reflexivity).
    destruct (takes_free m st acc free' c t _ NDa H G1 G3 K) as (R1 & R2 & R3).
    assert (NC : ~ conflict acc (AddIP tag (tp_vertex pl))).
    { cbn [conflict]. cbn in K. intros [(t' & v' & Hin & Hk & _)|(t' & v' & Hin & Hk)]; apply R2; rewrite <- K, <- Hk.
      - change (ipkey t') with (ckey (AddIP t' v')). now apply in_map.
      - change (revkey t') with (ckey (AddRev t' v')). now apply in_map. }
    destruct (add_ip_tag (a_tags st) tag (tp_vertex pl)) as [tg|e] eqn:E.
    2:{ exfalso. apply NC. now apply (proj1 (add_ip_raises _ _ tag (tp_vertex pl) (i_holds _ _ _ H)) e). }
    cbn [bind]. exists c, t, (AddIP tag (tp_vertex pl)). split; [assumption|]. split; [assumption|]. split; [split; assumption|].
    split. { intros N t' W C. apply (G4 N t' W). now apply (i_free _ _ _ H). }
    split; [subst tag; reflexivity|].
    constructor; cbn [a_free a_ports a_tags].
    + exact (holds_ip _ _ _ _ _ (i_holds _ _ _ H) E).
    + rewrite map_app. cbn [map]. apply NoDup_snoc; [exact (i_nodup _ _ _ H)|]. rewrite K. assumption.
    + apply G3.
    + assumption.
    + intros k Hk. rewrite map_app in Hk. apply in_snoc in Hk. destruct Hk as [Hk|Hk]; [exact (i_range _ _ _ H k Hk)|].
      rewrite Hk, K. assumption.
    + intros k Hk. rewrite map_app in Hk. apply in_snoc in Hk. destruct Hk as [Hk|Hk]; [exact (i_board _ _ _ H k Hk)|].
      exists c. rewrite Hk, K. auto.
    + intros c' Hc'. pose proof (i_ports _ _ _ H c' Hc') as P. unfold n_rev in *. rewrite filter_app, app_length. cbn [filter on_board length]. lia.
    + exact (i_pin _ _ _ H).
  - destruct G as [G1 G2]. split; [assumption|]. intros c t Hc W O. apply (G2 c t Hc W). now apply (i_free _ _ _ H).
Qed.

(** Reverse tags on one board are at most seven. *)
Lemma n_rev_le : forall m st acc b, ainv m st acc -> n_rev b acc <= 7.
Proof.
  intros m st acc b H. unfold n_rev. rewrite <- (map_length ckey).
  replace 7 with (length (map (pair b) (seq 1 7))) by reflexivity.
  apply NoDup_incl_length.
  - pose proof (i_nodup _ _ _ H) as ND. clear H. induction acc as [|c acc IH]; cbn; [constructor|].
    cbn in ND. inversion ND; subst. destruct (on_board b c); [|auto]. cbn. constructor; [|auto].
    intros C. apply H1. apply in_map_iff in C. destruct C as (c' & K & Hin). apply filter_In in Hin.
    rewrite <- K. apply in_map. tauto.
  - intros k Hk. apply in_map_iff in Hk. destruct Hk as (c & <- & Hin). apply filter_In in Hin. destruct Hin as [Hin Hb].
    destruct c as [t v|t v]; cbn in Hb; [discriminate|]. apply Nat.eqb_eq in Hb.
    assert (R : 1 <= snd (ckey (AddRev t v)) <= 7) by (apply (i_range _ _ _ H); now apply in_map).
    cbn [ckey]. unfold revkey in *. rewrite Hb. apply in_map. apply in_seq. cbn in R. lia.
Qed.

Lemma get_port_spec : forall m st acc want eth, ainv m st acc -> In eth (tm_eths m) ->
  exists p ports', get_port (a_ports st) want eth = Ok (p, ports') /\
    match want with Some q => p = q | None => In p board_ports end /\
    (forall c p', In p' (avail board_ports ports' c) -> In p' board_ports) /\
    (forall c, length (avail board_ports (a_ports st) c) <= length (avail board_ports ports' c) + (if Nat.eqb c eth then 1 else 0)).
Proof.
  intros m st acc want eth H He. unfold get_port. destruct want as [q|].
  - exists q, (a_ports st). split; [reflexivity|]. split; [reflexivity|]. split; [exact (i_pin _ _ _ H)|]. intros c. lia.
  - pose proof (i_ports _ _ _ H eth He) as P. pose proof (n_rev_le m st acc (tm_addr m eth) H) as L.
    destruct (avail board_ports (a_ports st) eth) as [|x l] eqn:E; [cbn [length] in P; lia|].
    rewrite <- E in *. assert (N : avail board_ports (a_ports st) eth <> []) by (rewrite E; discriminate).
    pose proof (removelast_last _ 0%N N) as R.
    exists (last (avail board_ports (a_ports st) eth) 0%N), (dset Nat.eqb (a_ports st) eth (removelast (avail board_ports (a_ports st) eth))).
    split; [reflexivity|]. split.
    + apply (i_pin _ _ _ H eth). rewrite R at 2. apply in_snoc. now right.
    + split.
      * intros c p'. rewrite avail_dset. destruct (Nat.eqb eth c); [|apply (i_pin _ _ _ H)].
        intros Hp. apply (i_pin _ _ _ H eth). rewrite R. apply in_snoc. now left.
      * intros c. rewrite avail_dset, (Nat.eqb_sym c eth). destruct (Nat.eqb eth c) eqn:B; [|lia].
        apply Nat.eqb_eq in B. subst c. rewrite R at 1. rewrite app_length. cbn. lia.
Qed.

(** The port a reverse tag request is given. *)
Definition port_of (st : astate) (pl : tplace) (r : revreq) : N :=
  match rq_port r with Some q => q | None => last (avail board_ports (a_ports st) (tp_eth pl)) 0%N end.
Definition port_used (b : nat) (p : N) (acc : list tagcall) : Prop :=
  exists t v, In (AddRev t v) acc /\ rt_board t = b /\ rt_port t = Some p.

Lemma get_port_val : forall st pl r p ports', get_port (a_ports st) (rq_port r) (tp_eth pl) = Ok (p, ports') -> p = port_of st pl r.
Proof.
  intros st pl r p ports'. unfold get_port, port_of. destruct (rq_port r); [congruence|].
  destruct (avail board_ports (a_ports st) (tp_eth pl)); [discriminate|]. congruence.
Qed.

Lemma alloc_rev_spec : forall m pl st acc r, NoDup (map (tm_addr m) (tm_eths m)) -> In (tp_eth pl) (tm_eths m) -> ainv m st acc ->
  match alloc_rev m pl st r with
  | Ok st' => exists t p call, want_ok (rq_tag r) t /\ open_tag m (map ckey acc) (tp_eth pl) t /\
      match rq_port r with Some q => p = q | None => In p board_ports end /\ p = port_of st pl r /\
      ~ port_used (tm_addr m (tp_eth pl)) p acc /\
      call = AddRev (mkRevTag (tm_addr m (tp_eth pl)) t (Some p) (tp_xy pl) (tp_proc pl) (rq_sdp r)) (tp_vertex pl) /\
      ainv m st' (acc ++ [call])
  | Err e =>
      (e = NotFound /\ forall c t, In c (tm_eths m) -> want_ok (rq_tag r) t -> ~ open_tag m (map ckey acc) c t) \/
      (e = InvalidParameter /\
       ((forall t, want_ok (rq_tag r) t -> ~ open_tag m (map ckey acc) (tp_eth pl) t) \/
        port_used (tm_addr m (tp_eth pl)) (port_of st pl r) acc))
  end.
Proof.
  intros m pl st acc r NDa He H. unfold alloc_rev.
  pose proof (get_chip_and_tag_spec m (a_free st) (rq_tag r) (tp_eth pl) (i_nd _ _ _ H) He) as G.
  destruct (get_chip_and_tag m (a_free st) (rq_tag r) (tp_eth pl)) as [[[c t] free']|e]; cbn [bind fst snd].
  2:{ left. destruct G as [G1 G2]. split; [assumption|]. intros c t Hc W O. apply (G2 c t Hc W). now apply (i_free _ _ _ H). }
  destruct G as (G1 & G2 & G3 & G4).
  destruct (get_port_spec m st acc (rq_port r) (tp_eth pl) H He) as (p & ports' & Ep & Q1 & Q2 & Q3).
  pose proof (get_port_val _ _ _ _ _ Ep) as Vp. rewrite Ep. cbn [bind].
  remember (mkRevTag (tm_addr m (tp_eth pl)) t (Some p) (tp_xy pl) (tp_proc pl) (rq_sdp r)) as tag eqn:Et.
  pose proof (add_rev_raises _ _ tag (tp_vertex pl) (i_holds _ _ _ H)) as [R1 R2].
  destruct (add_reverse_ip_tag (a_tags st) tag (tp_vertex pl)) as [tg|e] eqn:E; cbn [bind].
  - assert (NC : ~ conflict acc (AddRev tag (tp_vertex pl))) by (intros C; apply R2 in C; discriminate).
    cbn [conflict] in NC.
    assert (c = tp_eth pl).
    { destruct (Nat.eq_dec c (tp_eth pl)) as [|N]; [assumption|]. exfalso. apply NC. left.
      assert (Hin : In (revkey tag) (map ckey acc)).
      { specialize (G4 N t G2). destruct G3 as (T1 & _). apply (i_free _ _ _ H c t G1) in T1. destruct T1 as [T1 _].
        destruct (in_dec bt_dec (revkey tag) (map ckey acc)) as [Hi|Hi]; [assumption|].
        exfalso. apply G4. apply (i_free _ _ _ H _ _ He). split; [assumption|]. subst tag. exact Hi. }
      apply in_map_iff in Hin. destruct Hin as (c' & K & Hin). exists c'. auto. }
    subst c. assert (K : ckey (AddRev tag (tp_vertex pl)) = (tm_addr m (tp_eth pl), t)) by (subst tag; reflexivity).
    destruct (takes_free m st acc free' (tp_eth pl) t _ NDa H G1 G3 K) as (S1 & S2 & S3).
    exists t, p, (AddRev tag (tp_vertex pl)). split; [assumption|]. split; [split; assumption|]. split; [assumption|]. split; [assumption|].
    split. { intros (t' & v' & Hin & Hb & Hp). apply NC. right. exists t', v', p. subst tag. auto. }
    split; [subst tag; reflexivity|].
    constructor; cbn [a_free a_ports a_tags].
    + exact (holds_rev _ _ _ _ _ (i_holds _ _ _ H) E).
    + rewrite map_app. cbn [map]. apply NoDup_snoc; [exact (i_nodup _ _ _ H)|]. rewrite K. assumption.
    + apply G3.
    + assumption.
    + intros k Hk. rewrite map_app in Hk. apply in_snoc in Hk. destruct Hk as [Hk|Hk]; [exact (i_range _ _ _ H k Hk)|].
      rewrite Hk, K. assumption.
    + intros k Hk. rewrite map_app in Hk. apply in_snoc in Hk. destruct Hk as [Hk|Hk]; [exact (i_board _ _ _ H k Hk)|].
      exists (tp_eth pl). rewrite Hk, K. auto.
    + intros c' Hc'. pose proof (i_ports _ _ _ H c' Hc') as P. specialize (Q3 c'). unfold n_rev in *.
      rewrite filter_app, app_length. cbn [filter on_board]. destruct (Nat.eqb c' (tp_eth pl)) eqn:B.
      * apply Nat.eqb_eq in B. subst c'. replace (Nat.eqb (rt_board tag) (tm_addr m (tp_eth pl))) with true
          by (symmetry; apply Nat.eqb_eq; subst tag; reflexivity). cbn [length]. lia.
      * lia.
    + assumption.
  - right. destruct (R1 e eq_refl) as [-> C]. split; [reflexivity|]. cbn [conflict] in C.
    destruct C as [(c' & Hin & K)|(t' & v' & q & Hin & Hb & Hp & Hq)].
    + left. assert (Hk : In (tm_addr m (tp_eth pl), t) (map ckey acc)).
      { replace (tm_addr m (tp_eth pl), t) with (revkey tag) by (subst tag; reflexivity). rewrite <- K. now apply in_map. }
      intros t' W O. destruct (Nat.eq_dec c (tp_eth pl)) as [->|N].
      * destruct G3 as (T1 & _). apply (i_free _ _ _ H _ _ G1) in T1. tauto.
      * apply (G4 N t' W). now apply (i_free _ _ _ H).
    + right. exists t', v'. split; [assumption|]. subst tag. cbn in *. split; [assumption|]. congruence.
Qed.

Lemma foldM_app : forall {A S} (f : S -> A -> res S) l1 l2 s, foldM f s (l1 ++ l2) = bind (foldM f s l1) (fun s' => foldM f s' l2).
Proof. intros A S f. induction l1 as [|x l1 IH]; intros l2 s; cbn; [reflexivity|]. destruct (f s x); cbn; [apply IH|reflexivity]. Qed.

Lemma ip_fold : forall m pl reqs st acc, NoDup (map (tm_addr m) (tm_eths m)) -> In (tp_eth pl) (tm_eths m) -> ainv m st acc ->
  match foldM (alloc_ip m pl) st reqs with
  | Ok st' => exists calls, Forall2 (ip_call m pl) reqs calls /\ ainv m st' (acc ++ calls)
  | Err e => e = NotFound
  end.
Proof.
  intros m pl. induction reqs as [|r reqs IH]; intros st acc NDa He H; cbn [foldM].
  - exists []. rewrite app_nil_r. split; [constructor|assumption].
  - pose proof (alloc_ip_spec m pl st acc r NDa He H) as S. destruct (alloc_ip m pl st r) as [st1|e]; cbn [bind]; [|apply S].
    destruct S as (c & t & call & S1 & S2 & [S3 S3'] & _ & S4 & S5). specialize (IH st1 _ NDa He S5).
    destruct (foldM (alloc_ip m pl) st1 reqs) as [st2|e]; [|assumption]. destruct IH as (calls & F & I).
    exists (call :: calls). split; [|rewrite <- app_assoc in I; exact I]. constructor; [|assumption].
    exists c, t. auto.
Qed.

Lemma rev_fold : forall m pl reqs st acc, NoDup (map (tm_addr m) (tm_eths m)) -> In (tp_eth pl) (tm_eths m) -> ainv m st acc ->
  match foldM (alloc_rev m pl) st reqs with
  | Ok st' => exists calls, Forall2 (rev_call m pl) reqs calls /\ ainv m st' (acc ++ calls)
  | Err e => e = NotFound \/ e = InvalidParameter
  end.
Proof.
  intros m pl. induction reqs as [|r reqs IH]; intros st acc NDa He H; cbn [foldM].
  - exists []. rewrite app_nil_r. split; [constructor|assumption].
  - pose proof (alloc_rev_spec m pl st acc r NDa He H) as S. destruct (alloc_rev m pl st r) as [st1|e]; cbn [bind].
    2:{ destruct S as [[S _]|[S _]]; auto. }
    destruct S as (t & p & call & S1 & [S2 S2'] & S3 & _ & _ & S4 & S5). specialize (IH st1 _ NDa He S5).
    destruct (foldM (alloc_rev m pl) st1 reqs) as [st2|e]; [|assumption]. destruct IH as (calls & F & I).
    exists (call :: calls). split; [|rewrite <- app_assoc in I; exact I]. constructor; [|assumption].
    exists t, p. auto.
Qed.

Definition place_calls (m : tmachine) (pl : tplace) (cs : list tagcall) : Prop :=
  exists ci cr, cs = ci ++ cr /\ Forall2 (ip_call m pl) (tp_ip pl) ci /\ Forall2 (rev_call m pl) (tp_rev pl) cr.

Lemma place_fold : forall m pls st acc, NoDup (map (tm_addr m) (tm_eths m)) ->
  (forall pl, In pl pls -> In (tp_eth pl) (tm_eths m)) -> ainv m st acc ->
  match foldM (alloc_place m) st pls with
  | Ok st' => exists cs, Forall2 (place_calls m) pls cs /\ ainv m st' (acc ++ concat cs)
  | Err e => e = NotFound \/ e = InvalidParameter
  end.
Proof.
  intros m. induction pls as [|pl pls IH]; intros st acc NDa He H; cbn [foldM].
  - exists []. cbn. rewrite app_nil_r. split; [constructor|assumption].
  - assert (He0 : In (tp_eth pl) (tm_eths m)) by (apply He; now left).
    unfold alloc_place at 1. pose proof (ip_fold m pl (tp_ip pl) st acc NDa He0 H) as S1.
    destruct (foldM (alloc_ip m pl) st (tp_ip pl)) as [st1|e]; cbn [bind]; [|auto].
    destruct S1 as (ci & F1 & I1). pose proof (rev_fold m pl (tp_rev pl) st1 _ NDa He0 I1) as S2.
    destruct (foldM (alloc_rev m pl) st1 (tp_rev pl)) as [st2|e]; cbn [bind]; [|auto].
    destruct S2 as (cr & F2 & I2).
    assert (He' : forall p, In p pls -> In (tp_eth p) (tm_eths m)) by (intros p Hp; apply He; now right).
    specialize (IH st2 _ NDa He' I2). destruct (foldM (alloc_place m) st2 pls) as [st3|e]; [|assumption].
    destruct IH as (cs & F3 & I3). exists ((ci ++ cr) :: cs). split.
    + constructor; [|assumption]. exists ci, cr. auto.
    + cbn [concat]. rewrite <- !app_assoc in *. exact I3.
Qed.

(** Whose calls they are. *)
Definition caller (c : tagcall) : nat := match c with AddIP _ v => v | AddRev _ v => v end.

Lemma ips_of_none : forall v cs, (forall c, In c cs -> caller c <> v) -> ips_of v cs = [] /\ revs_of v cs = [].
Proof.
  intros v. induction cs as [|c cs IH]; intros H; [split; reflexivity|].
  destruct IH as [I1 I2]; [intros c' Hc; apply H; now right|].
  assert (N : caller c <> v) by (apply H; now left). unfold ips_of, revs_of in *. cbn [flat_map]. rewrite I1, I2.
  destruct c as [t w|t w]; cbn in N; rewrite (proj2 (Nat.eqb_neq v w)) by congruence; auto.
Qed.

Lemma place_caller : forall m pl cs c, place_calls m pl cs -> In c cs -> caller c = tp_vertex pl.
Proof.
  intros m pl cs c (ci & cr & -> & F1 & F2) Hin. apply in_app_iff in Hin. destruct Hin as [Hin|Hin].
  - clear F2. induction F1 as [|r c0 l1 l2 F0 F IH]; [destruct Hin|]. destruct Hin as [->|Hin]; [|auto].
    destruct F0 as (ch & t & _ & _ & _ & ->). reflexivity.
  - clear F1. induction F2 as [|r c0 l1 l2 F0 F IH]; [destruct Hin|]. destruct Hin as [->|Hin]; [|auto].
    destruct F0 as (t & p & _ & _ & _ & ->). reflexivity.
Qed.

Lemma places_caller : forall m pls cs c, Forall2 (place_calls m) pls cs -> In c (concat cs) -> In (caller c) (map tp_vertex pls).
Proof.
  intros m pls cs c F Hin. induction F as [|pl c0 l1 l2 F0 F IH]; [destruct Hin|]. cbn in *. apply in_app_iff in Hin.
  destruct Hin as [Hin|Hin]; [left; symmetry; eapply place_caller; eassumption|auto].
Qed.

Lemma ip_calls_tags : forall m pl reqs ci, Forall2 (ip_call m pl) reqs ci ->
  Forall2 (fun r t => ip_call m pl r (AddIP t (tp_vertex pl))) reqs (ips_of (tp_vertex pl) ci) /\
  revs_of (tp_vertex pl) ci = [] /\ map ipkey (ips_of (tp_vertex pl) ci) = map ckey ci /\ flat_map rev_port_l ci = [].
Proof.
  intros m pl reqs ci F. induction F as [|r c l1 l2 F0 F IH]; [repeat split; constructor|].
  destruct IH as (I1 & I2 & I3 & I4). pose proof F0 as (ch & t & _ & _ & _ & ->).
  unfold ips_of, revs_of in *. cbn [flat_map map rev_port_l app]. rewrite Nat.eqb_refl. cbn [app map].
  split; [constructor; assumption|]. split; [assumption|]. split; [f_equal; assumption|assumption].
Qed.
Definition port_l (t : revtag) : list (nat * N) := match rt_port t with Some p => [(rt_board t, p)] | None => [] end.
Lemma rev_calls_tags : forall m pl reqs cr, Forall2 (rev_call m pl) reqs cr ->
  Forall2 (fun r t => rev_call m pl r (AddRev t (tp_vertex pl))) reqs (revs_of (tp_vertex pl) cr) /\
  ips_of (tp_vertex pl) cr = [] /\ map revkey (revs_of (tp_vertex pl) cr) = map ckey cr /\
  flat_map port_l (revs_of (tp_vertex pl) cr) = flat_map rev_port_l cr.
Proof.
  intros m pl reqs ci F. induction F as [|r c l1 l2 F0 F IH]; [repeat split; constructor|].
  destruct IH as (I1 & I2 & I3 & I4). pose proof F0 as (t & p & _ & _ & _ & ->).
  unfold ips_of, revs_of in *. cbn [flat_map map rev_port_l app]. rewrite Nat.eqb_refl. cbn [app map flat_map].
  split; [constructor; assumption|]. split; [assumption|]. split; [f_equal; assumption|]. unfold port_l at 1. cbn. f_equal. assumption.
Qed.

Lemma flat_map_ext_in : forall {A B} (f g : A -> list B) l, (forall x, In x l -> f x = g x) -> flat_map f l = flat_map g l.
Proof.
  intros A B f g. induction l as [|x l IH]; intros H; cbn; [reflexivity|].
  rewrite (H x (or_introl eq_refl)), IH; [reflexivity|]. intros y Hy. apply H. now right.
Qed.

Lemma places_tags : forall m pls cs, Forall2 (place_calls m) pls cs -> NoDup (map tp_vertex pls) ->
  (forall pl, In pl pls ->
     Forall2 (fun r t => ip_call m pl r (AddIP t (tp_vertex pl))) (tp_ip pl) (ips_of (tp_vertex pl) (concat cs)) /\
     Forall2 (fun r t => rev_call m pl r (AddRev t (tp_vertex pl))) (tp_rev pl) (revs_of (tp_vertex pl) (concat cs))) /\
  flat_map (fun pl => map ipkey (ips_of (tp_vertex pl) (concat cs)) ++ map revkey (revs_of (tp_vertex pl) (concat cs))) pls
    = map ckey (concat cs) /\
  flat_map (fun pl => flat_map port_l (revs_of (tp_vertex pl) (concat cs))) pls = flat_map rev_port_l (concat cs).
Proof.
  intros m pls cs F. induction F as [|pl c l1 l2 F0 F IH]; intros ND.
  - split; [intros pl []|]. split; reflexivity.
  - cbn in ND. inversion ND as [|? ? N1 N2]; subst. destruct (IH N2) as (I1 & I2 & I3). clear IH.
    assert (Hrest : ips_of (tp_vertex pl) (concat l2) = [] /\ revs_of (tp_vertex pl) (concat l2) = []).
    { apply ips_of_none. intros c' Hin C. apply N1. rewrite <- C. eapply places_caller; eassumption. }
    destruct Hrest as [R1 R2].
    assert (Hoth : forall p, In p l1 -> ips_of (tp_vertex p) c = [] /\ revs_of (tp_vertex p) c = []).
    { intros p Hp. apply ips_of_none. intros c' Hin C. rewrite (place_caller m pl c c' F0 Hin) in C. apply N1. rewrite C. now apply in_map. }
    pose proof F0 as (ci & cr & Ec & Fi & Fr).
    destruct (ip_calls_tags m pl _ _ Fi) as (A1 & A2 & A3 & A4). destruct (rev_calls_tags m pl _ _ Fr) as (B1 & B2 & B3 & B4).
    assert (Hi : ips_of (tp_vertex pl) (concat (c :: l2)) = ips_of (tp_vertex pl) ci).
    { cbn [concat]. rewrite Ec, !ips_of_app, R1, B2, !app_nil_r. reflexivity. }
    assert (Hr : revs_of (tp_vertex pl) (concat (c :: l2)) = revs_of (tp_vertex pl) cr).
    { cbn [concat]. rewrite Ec, !revs_of_app, R2, A2, !app_nil_r. reflexivity. }
    assert (Ho : forall p, In p l1 -> ips_of (tp_vertex p) (concat (c :: l2)) = ips_of (tp_vertex p) (concat l2) /\
                                      revs_of (tp_vertex p) (concat (c :: l2)) = revs_of (tp_vertex p) (concat l2)).
    { intros p Hp. destruct (Hoth p Hp) as [O1 O2]. cbn [concat]. rewrite ips_of_app, revs_of_app, O1, O2. auto. }
    split; [|split].
    + intros p [<-|Hp]; [rewrite Hi, Hr; auto|]. destruct (Ho p Hp) as [-> ->]. auto.
    + cbn [flat_map]. rewrite Hi, Hr, A3, B3.
      rewrite (flat_map_ext_in _ (fun p => map ipkey (ips_of (tp_vertex p) (concat l2)) ++ map revkey (revs_of (tp_vertex p) (concat l2)))).
      * rewrite I2. cbn [concat]. rewrite Ec, !map_app, <- !app_assoc. reflexivity.
      * intros p Hp. destruct (Ho p Hp) as [-> ->]. reflexivity.
    + cbn [flat_map]. rewrite Hr, B4.
      rewrite (flat_map_ext_in _ (fun p => flat_map port_l (revs_of (tp_vertex p) (concat l2)))).
      * rewrite I3. cbn [concat]. rewrite Ec, !flat_map_app, A4. reflexivity.
      * intros p Hp. destruct (Ho p Hp) as [_ ->]. reflexivity.
Qed.

(** * What a user sees *)
Definition ips (s : tags) (pl : tplace) : list iptag := match get_ip_tags s (tp_vertex pl) with Some l => l | None => [] end.
Definition revs (s : tags) (pl : tplace) : list revtag := match get_reverse_ip_tags s (tp_vertex pl) with Some l => l | None => [] end.
(** Every (board, tag) given, and every (board, port) of reverse tags. *)
Definition given (s : tags) (pls : list tplace) : list (nat * nat) :=
  flat_map (fun pl => map ipkey (ips s pl) ++ map revkey (revs s pl)) pls.
Definition ports_given (s : tags) (pls : list tplace) : list (nat * N) :=
  flat_map (fun pl => flat_map port_l (revs s pl)) pls.

Lemma Forall2_eq : forall {A} (l l' : list A), Forall2 (fun a b => b = a) l l' -> l' = l.
Proof. intros A l l' F. induction F; [reflexivity|]. congruence. Qed.

Lemma ips_of_in : forall v acc t, In t (ips_of v acc) -> In (AddIP t v) acc.
Proof.
  intros v acc t Ht. unfold ips_of in Ht. apply in_flat_map in Ht. destruct Ht as ([t' w|t' w] & Hin & Hw); [|destruct Hw].
  destruct (Nat.eqb v w) eqn:B; [|destruct Hw]. destruct Hw as [->|[]]. apply Nat.eqb_eq in B. now subst.
Qed.

Lemma Forall2_In_impl : forall {A B} (P Q : A -> B -> Prop) l l', Forall2 P l l' ->
  (forall a b, In a l -> In b l' -> P a b -> Q a b) -> Forall2 Q l l'.
Proof.
  intros A B P Q l l' F. induction F as [|a b l l' F0 F IH]; intros H; constructor.
  - apply H; [now left|now left|assumption].
  - apply IH. intros a' b' Ia Ib. apply H; now right.
Qed.

Lemma ainv_ips : forall m st acc pl, ainv m st acc -> ips (a_tags st) pl = ips_of (tp_vertex pl) acc.
Proof.
  intros m st acc pl H. unfold ips. pose proof (holds_get_ip _ _ (tp_vertex pl) (i_holds _ _ _ H)) as G.
  destruct (get_ip_tags (a_tags st) (tp_vertex pl)) as [l|] eqn:E; [|now symmetry]. destruct G as [_ G].
  apply Forall2_eq. eapply Forall2_In_impl; [exact G|]. intros t x It Ix A.
  eapply agrees_exact; [exact (i_holds _ _ _ H)|exact (i_nodup _ _ _ H)|exact E|exact Ix| |exact A]. now apply ips_of_in.
Qed.
Lemma ainv_revs : forall m st acc pl, ainv m st acc -> revs (a_tags st) pl = revs_of (tp_vertex pl) acc.
Proof.
  intros m st acc pl H. unfold revs, get_reverse_ip_tags. rewrite (h_revv _ _ (i_holds _ _ _ H)).
  destruct (revs_of (tp_vertex pl) acc); reflexivity.
Qed.

Definition sound_machine (m : tmachine) (pls : list tplace) : Prop :=
  NoDup (map (tm_addr m) (tm_eths m)) /\ (forall pl, In pl pls -> In (tp_eth pl) (tm_eths m)) /\ NoDup (map tp_vertex pls).

Lemma allocator_run : forall m pls s, sound_machine m pls -> basic_tag_allocator m pls = Ok s ->
  exists st cs, foldM (alloc_place m) (mkA [] [] no_tags) pls = Ok st /\ a_tags st = s /\
    Forall2 (place_calls m) pls cs /\ ainv m st (concat cs) /\ given s pls = map ckey (concat cs) /\
    ports_given s pls = flat_map rev_port_l (concat cs).
Proof.
  intros m pls s (NDa & He & NDv) E. unfold basic_tag_allocator in E.
  pose proof (place_fold m pls _ _ NDa He (ainv_start m)) as P.
  destruct (foldM (alloc_place m) (mkA [] [] no_tags) pls) as [st|e]; cbn [bind] in E; [|discriminate].
  injection E as <-. destruct P as (cs & F & I). cbn [app] in I. exists st, cs.
  destruct (places_tags m pls cs F NDv) as (_ & G1 & G2).
  split; [reflexivity|]. split; [reflexivity|]. split; [assumption|]. split; [assumption|]. split.
  - rewrite <- G1. unfold given. apply flat_map_ext. intros pl. rewrite (ainv_ips _ _ _ _ I), (ainv_revs _ _ _ _ I). reflexivity.
  - rewrite <- G2. unfold ports_given. apply flat_map_ext. intros pl. rewrite (ainv_revs _ _ _ _ I). reflexivity.
Qed.

(** The tag that serves a request of a placement. *)
Definition serves_ip (m : tmachine) (pl : tplace) (r : ipreq) (x : iptag) : Prop :=
  exists c t, In c (tm_eths m) /\ 1 <= t <= 7 /\ want_ok (iq_tag r) t /\
    x = mkIPTag (tm_addr m c) t (tp_xy pl) (iq_ip r) (iq_port r) (iq_strip r) (iq_traffic r).
Definition serves_rev (m : tmachine) (pl : tplace) (r : revreq) (x : revtag) : Prop :=
  exists t p, 1 <= t <= 7 /\ want_ok (rq_tag r) t /\
    match rq_port r with Some q => p = q | None => (17896 <= p < 18000)%N end /\
    x = mkRevTag (tm_addr m (tp_eth pl)) t (Some p) (tp_xy pl) (tp_proc pl) (rq_sdp r).

Lemma in_board_ports : forall p, In p board_ports -> (17896 <= p < 18000)%N.
Proof. intros p H. unfold board_ports in H. apply in_map_iff in H. destruct H as (i & <- & Hi). apply in_seq in Hi. lia. Qed.

Lemma allocator_sound : forall m pls s, sound_machine m pls -> basic_tag_allocator m pls = Ok s ->
  (forall pl, In pl pls -> Forall2 (serves_ip m pl) (tp_ip pl) (ips s pl) /\ Forall2 (serves_rev m pl) (tp_rev pl) (revs s pl)) /\
  NoDup (given s pls) /\ NoDup (ports_given s pls).
Proof.
  intros m pls s HS E. destruct (allocator_run m pls s HS E) as (st & cs & _ & <- & F & I & G1 & G2).
  split; [|split].
  - intros pl Hpl. destruct (places_tags m pls cs F (proj2 (proj2 HS))) as (T & _). destruct (T pl Hpl) as [T1 T2].
    rewrite (ainv_ips _ _ _ _ I), (ainv_revs _ _ _ _ I). split.
    + eapply Forall2_In_impl; [exact T1|]. cbn. intros r t _ _ (ch & k & C1 & C2 & C3 & C4). exists ch, k.
      split; [assumption|]. split; [assumption|]. split; [assumption|]. congruence.
    + eapply Forall2_In_impl; [exact T2|]. cbn. intros r t _ _ (k & p & C2 & C3 & C4 & C5). exists k, p.
      split; [assumption|]. split; [assumption|]. split; [|congruence]. destruct (rq_port r); [assumption|now apply in_board_ports].
  - rewrite G1. exact (i_nodup _ _ _ I).
  - rewrite G2. exact (h_prts _ _ (i_holds _ _ _ I)).
Qed.

Lemma allocator_errors : forall m pls e, sound_machine m pls -> basic_tag_allocator m pls = Err e -> e = NotFound \/ e = InvalidParameter.
Proof.
  intros m pls e (NDa & He & _) E. unfold basic_tag_allocator in E.
  pose proof (place_fold m pls _ _ NDa He (ainv_start m)) as P.
  destruct (foldM (alloc_place m) (mkA [] [] no_tags) pls) as [st|e']; cbn [bind] in E; [discriminate|]. congruence.
Qed.

Lemma basic_snoc : forall m pls pl, basic_tag_allocator m (pls ++ [pl]) =
  bind (foldM (alloc_place m) (mkA [] [] no_tags) pls) (fun st => bind (alloc_place m st pl) (fun st' => Ok (a_tags st'))).
Proof.
  intros. unfold basic_tag_allocator. rewrite foldM_app.
  destruct (foldM (alloc_place m) (mkA [] [] no_tags) pls) as [st|e]; cbn [bind foldM]; [|reflexivity].
  destruct (alloc_place m st pl); reflexivity.
Qed.

Lemma sound_front : forall m pls pl, sound_machine m (pls ++ [pl]) -> sound_machine m pls /\ In (tp_eth pl) (tm_eths m).
Proof.
  intros m pls pl (A & B & C). split.
  - split; [assumption|]. split; [intros p Hp; apply B; apply in_snoc; now left|].
    rewrite map_app in C. clear - C. induction (map tp_vertex pls) as [|x l IH]; [constructor|].
    cbn in C. inversion C; subst. constructor; [|auto]. intros H. apply H1. apply in_app_iff. now left.
  - apply B. apply in_snoc. now right.
Qed.

(** One more placement with one IP tag request. *)
Lemma next_ip : forall m pls pl s r, sound_machine m (pls ++ [pl]) -> basic_tag_allocator m pls = Ok s ->
  tp_ip pl = [r] -> tp_rev pl = [] ->
  ((exists s', basic_tag_allocator m (pls ++ [pl]) = Ok s') <->
   exists c t, In c (tm_eths m) /\ want_ok (iq_tag r) t /\ open_tag m (given s pls) c t) /\
  forall s' x, basic_tag_allocator m (pls ++ [pl]) = Ok s' -> ips s' pl = [x] ->
    ~ In (ipkey x) (given s pls) /\
    ((exists t, want_ok (iq_tag r) t /\ open_tag m (given s pls) (tp_eth pl) t) -> it_board x = tm_addr m (tp_eth pl)).
Proof.
  intros m pls pl s r HS E R1 R2. destruct (sound_front m pls pl HS) as [HS0 He].
  destruct (allocator_run m pls s HS0 E) as (st & cs & Est & <- & F & I & G1 & _). rewrite G1.
  rewrite basic_snoc, Est. cbn [bind]. unfold alloc_place. rewrite R1, R2. cbn [foldM].
  pose proof (alloc_ip_spec m pl st (concat cs) r (proj1 HS) He I) as A.
  destruct (alloc_ip m pl st r) as [st'|e]; cbn [bind].
  - destruct A as (c & t & call & A1 & A2 & A3 & A4 & A5 & A6). split.
    + split; [intros _; eauto 10|eauto].
    + intros s' x [= <-] Hx. rewrite (ainv_ips _ _ _ _ A6), ips_of_app in Hx.
      assert (N : ips_of (tp_vertex pl) (concat cs) = []).
      { apply ips_of_none. intros c' Hin C. pose proof (places_caller m pls cs c' F Hin) as P. rewrite C in P.
        destruct HS as (_ & _ & ND). rewrite map_app in ND. apply NoDup_remove_2 in ND. rewrite app_nil_r in ND. tauto. }
      rewrite N, A5 in Hx. cbn in Hx. rewrite Nat.eqb_refl in Hx. cbn in Hx. injection Hx as <-. cbn.
      split; [apply A3|]. intros (t' & W & O). destruct (Nat.eq_dec c (tp_eth pl)) as [->|Nc]; [reflexivity|].
      exfalso. exact (A4 Nc t' W O).
  - destruct A as [-> A]. split.
    + split; [intros (s' & C); discriminate|]. intros (c & t & C1 & C2 & C3). exfalso. exact (A c t C1 C2 C3).
    + intros s' x C. discriminate.
Qed.

(** One more placement with one reverse tag request. *)
Lemma next_rev : forall m pls pl s r p, sound_machine m (pls ++ [pl]) -> basic_tag_allocator m pls = Ok s ->
  tp_ip pl = [] -> tp_rev pl = [r] -> rq_port r = Some p ->
  ((exists s', basic_tag_allocator m (pls ++ [pl]) = Ok s') <->
   (exists t, want_ok (rq_tag r) t /\ open_tag m (given s pls) (tp_eth pl) t) /\
   ~ In (tm_addr m (tp_eth pl), p) (ports_given s pls)).
Proof.
  intros m pls pl s r p HS E R1 R2 Rp. destruct (sound_front m pls pl HS) as [HS0 He].
  destruct (allocator_run m pls s HS0 E) as (st & cs & Est & <- & F & I & G1 & G2). rewrite G1, G2.
  rewrite basic_snoc, Est. cbn [bind]. unfold alloc_place. rewrite R1, R2. cbn [foldM bind].
  pose proof (alloc_rev_spec m pl st (concat cs) r (proj1 HS) He I) as A. unfold port_of in A. rewrite Rp in A.
  rewrite in_rev_ports. fold (port_used (tm_addr m (tp_eth pl)) p (concat cs)).
  destruct (alloc_rev m pl st r) as [st'|e]; cbn [bind].
  - destruct A as (t & q & call & A1 & A2 & A3 & A4 & A5 & _). subst q. split; [intros _; eauto|eauto].
  - split; [intros (s' & C); discriminate|]. intros ((t & W & O) & NP). exfalso.
    destruct A as [[_ A]|[_ [A|A]]].
    + exact (A _ _ He W O).
    + exact (A t W O).
    + tauto.
Qed.

(** * Automatic IP tags: room for seven per board *)
Lemma acc_length : forall m st acc, ainv m st acc -> length acc <= 7 * length (tm_eths m).
Proof.
  intros m st acc H. rewrite <- (map_length ckey).
  replace (7 * length (tm_eths m)) with (length (list_prod (map (tm_addr m) (tm_eths m)) (seq 1 7))).
  2:{ rewrite prod_length, map_length, seq_length. lia. }
  apply NoDup_incl_length; [exact (i_nodup _ _ _ H)|]. intros [b t] Hk.
  destruct (i_board _ _ _ H _ Hk) as (c & Hc & Eb). pose proof (i_range _ _ _ H _ Hk) as R. cbn [fst snd] in *.
  apply in_prod; [rewrite Eb; now apply in_map|]. apply in_seq. lia.
Qed.

Lemma list_prod_NoDup : forall {A B} (l : list A) (l' : list B), NoDup l -> NoDup l' -> NoDup (list_prod l l').
Proof.
  intros A B l l' ND ND'. induction l as [|a l IH]; cbn; [constructor|]. inversion ND; subst.
  assert (G : forall l2, NoDup (map (pair a) l' ++ l2) <-> NoDup l2 /\ forall b, In b l' -> ~ In (a, b) l2).
  { clear - ND'. intros l2. induction l' as [|b l' IH]; cbn; [intuition|]. inversion ND'; subst. split.
    - intros H. inversion H; subst. apply IH in H5; [|assumption]. destruct H5 as [H5 H6]. split; [assumption|].
      intros b' [<-|Hb]; [|auto]. intros C. apply H4. apply in_app_iff. now right.
    - intros [H H0]. constructor.
      + rewrite in_app_iff, in_map_iff. intros [(b' & [= ->] & C)|C]; [tauto|]. exact (H0 b (or_introl eq_refl) C).
      + apply IH; [assumption|]. split; [assumption|]. intros b' Hb. apply H0. now right. }
  apply G. split; [auto|]. intros b Hb C. apply in_prod_iff in C. tauto.
Qed.

Lemma some_open : forall m st acc, NoDup (map (tm_addr m) (tm_eths m)) -> ainv m st acc -> length acc < 7 * length (tm_eths m) ->
  exists c t, In c (tm_eths m) /\ open_tag m (map ckey acc) c t.
Proof.
  intros m st acc NDa H L.
  destruct (existsb (fun k => if in_dec bt_dec k (map ckey acc) then false else true)
              (list_prod (map (tm_addr m) (tm_eths m)) (seq 1 7))) eqn:B.
  - apply existsb_exists in B. destruct B as ([b t] & Hin & Hk). destruct (in_dec bt_dec (b, t) (map ckey acc)) as [|N]; [discriminate|].
    apply in_prod_iff in Hin. destruct Hin as [Hb Ht]. apply in_map_iff in Hb. destruct Hb as (c & <- & Hc). apply in_seq in Ht.
    exists c, t. split; [assumption|]. split; [lia|assumption].
  - exfalso. assert (Inc : incl (list_prod (map (tm_addr m) (tm_eths m)) (seq 1 7)) (map ckey acc)).
    { intros k Hk. destruct (in_dec bt_dec k (map ckey acc)) as [|N]; [assumption|]. exfalso.
      assert (C : existsb (fun k => if in_dec bt_dec k (map ckey acc) then false else true)
              (list_prod (map (tm_addr m) (tm_eths m)) (seq 1 7)) = true); [|congruence].
      apply existsb_exists. exists k. split; [assumption|]. destruct (in_dec bt_dec k (map ckey acc)); [tauto|reflexivity]. }
    apply NoDup_incl_length in Inc; [|apply list_prod_NoDup; [assumption|apply seq_NoDup]].
    rewrite prod_length, !map_length, seq_length in Inc. lia.
Qed.

Definition auto_ip (pl : tplace) : Prop := tp_rev pl = [] /\ forall r, In r (tp_ip pl) -> iq_tag r = None.

Lemma auto_fold : forall m pl reqs st acc, NoDup (map (tm_addr m) (tm_eths m)) -> In (tp_eth pl) (tm_eths m) -> ainv m st acc ->
  (forall r, In r reqs -> iq_tag r = None) -> length acc + length reqs <= 7 * length (tm_eths m) ->
  exists st', foldM (alloc_ip m pl) st reqs = Ok st'.
Proof.
  intros m pl. induction reqs as [|r reqs IH]; intros st acc NDa He H HN L; cbn [foldM]; [eauto|].
  cbn [length] in L. pose proof (alloc_ip_spec m pl st acc r NDa He H) as A.
  destruct (alloc_ip m pl st r) as [st1|e]; cbn [bind].
  - destruct A as (c & t & call & _ & _ & _ & _ & _ & A6). eapply IH; [assumption|assumption|exact A6| |].
    + intros r' Hr. apply HN. now right.
    + rewrite app_length. cbn. lia.
  - exfalso. destruct A as [_ A]. destruct (some_open m st acc NDa H) as (c & t & Hc & O); [lia|].
    apply (A c t Hc); [|assumption]. rewrite (HN r (or_introl eq_refl)). exact I.
Qed.

Lemma Forall2_len : forall {A B} (P : A -> B -> Prop) l l', Forall2 P l l' -> length l = length l'.
Proof. intros A B P l l' F. induction F; cbn; congruence. Qed.

Lemma auto_places : forall m pls st acc, NoDup (map (tm_addr m) (tm_eths m)) -> (forall pl, In pl pls -> In (tp_eth pl) (tm_eths m)) ->
  ainv m st acc -> (forall pl, In pl pls -> auto_ip pl) ->
  length acc + length (flat_map tp_ip pls) <= 7 * length (tm_eths m) ->
  exists st', foldM (alloc_place m) st pls = Ok st'.
Proof.
  intros m. induction pls as [|pl pls IH]; intros st acc NDa He H HA L; cbn [foldM]; [eauto|].
  cbn [flat_map] in L. rewrite app_length in L. destruct (HA pl (or_introl eq_refl)) as [HR HT].
  unfold alloc_place at 1. rewrite HR.
  destruct (auto_fold m pl (tp_ip pl) st acc NDa (He pl (or_introl eq_refl)) H HT) as (st1 & E1); [lia|].
  pose proof (ip_fold m pl (tp_ip pl) st acc NDa (He pl (or_introl eq_refl)) H) as P. rewrite E1 in P.
  destruct P as (ci & F & I1). rewrite E1. cbn [bind foldM].
  eapply IH; [assumption| |exact I1| |].
  - intros p Hp. apply He. now right.
  - intros p Hp. apply HA. now right.
  - rewrite app_length, <- (Forall2_len _ _ _ F). lia.
Qed.

Lemma auto_iff : forall m pls, sound_machine m pls -> (forall pl, In pl pls -> auto_ip pl) ->
  ((exists s, basic_tag_allocator m pls = Ok s) <-> length (flat_map tp_ip pls) <= 7 * length (tm_eths m)).
Proof.
  intros m pls HS HA. split.
  - intros (s & E). destruct (allocator_run m pls s HS E) as (st & cs & _ & _ & F & I & _).
    pose proof (acc_length m st _ I) as L. replace (length (flat_map tp_ip pls)) with (length (concat cs)); [assumption|].
    clear - F HA. induction F as [|pl c l1 l2 F0 F IH]; [reflexivity|]. cbn. rewrite !app_length, IH by (intros p Hp; apply HA; now right).
    f_equal. destruct F0 as (ci & cr & -> & F1 & F2). rewrite app_length, <- (Forall2_len _ _ _ F1).
    destruct (HA pl (or_introl eq_refl)) as [HR _]. rewrite HR in F2. inversion F2. cbn. lia.
  - intros L. destruct HS as (NDa & He & _).
    destruct (auto_places m pls _ _ NDa He (ainv_start m) HA) as (st & E); [cbn; lia|].
    exists (a_tags st). unfold basic_tag_allocator. rewrite E. reflexivity.
Qed.
