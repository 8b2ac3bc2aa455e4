(** Lemmas about the zoned key allocator. *)
From Coq Require Import List Arith NArith Bool Lia Permutation Sorted.
From Verif Require Import Base Dict RouteSpec KeyMask UtilModel UtilProofs AllocModel.
Import ListNotations.
Local Open Scope N_scope.

(** ** Key fields *)

Lemma pow2_pos : forall n, 0 < 2 ^ n.
Proof. intro n. apply N.neq_0_lt_0, N.pow_nonzero. lia. Qed.

Lemma mask_of_bit : forall nb i, nb <= 32 ->
  N.testbit (mask_of nb) i = ((nb <=? i) && (i <? 32))%bool.
Proof.
  intros nb i H. unfold mask_of.
  change 0xFFFFFFFF with (N.ones 32).
  assert (E : 2 ^ nb - 1 = N.ones nb) by (rewrite N.ones_equiv, N.sub_1_r; reflexivity).
  rewrite E. rewrite N.sub_nocarry_ldiff.
  - rewrite N.ldiff_spec.
    destruct (N.ltb_spec i 32).
    + rewrite N.ones_spec_low by auto.
      destruct (N.leb_spec nb i).
      * now rewrite N.ones_spec_high.
      * now rewrite N.ones_spec_low.
    + rewrite N.ones_spec_high by auto. now rewrite andb_false_r.
  - apply N.bits_inj. intro j. rewrite N.ldiff_spec, N.bits_0.
    destruct (N.ltb_spec j nb).
    + rewrite (N.ones_spec_low 32) by lia. apply andb_false_r.
    + now rewrite N.ones_spec_high.
Qed.

Lemma mask_of_lt : forall nb, nb <= 32 -> mask_of nb < 2 ^ 32.
Proof.
  intros nb H. apply lt_pow2_bits. intros i Hi. rewrite mask_of_bit by auto.
  destruct (N.ltb_spec i 32); [lia|]. apply andb_false_r.
Qed.

(** A key matches a block exactly when its high part is the block's number. *)
Lemma block_match : forall nb x k, nb <= 32 -> k < 2 ^ 32 ->
  (N.land k (mask_of nb) = N.shiftl x nb <-> N.shiftr k nb = x).
Proof.
  intros nb x k H Hk. split; intro E.
  - apply N.bits_inj. intro i. rewrite N.shiftr_spec'.
    assert (B : N.testbit (N.land k (mask_of nb)) (i + nb) = N.testbit (N.shiftl x nb) (i + nb))
      by congruence.
    rewrite N.land_spec, mask_of_bit, N.shiftl_spec_high' in B by lia.
    replace (i + nb - nb) with i in B by lia. rewrite <- B.
    destruct (N.leb_spec nb (i + nb)); [|lia]. simpl.
    destruct (N.ltb_spec (i + nb) 32); [now rewrite andb_true_r|].
    rewrite andb_false_r. now apply testbit_high.
  - subst x. apply N.bits_inj. intro i. rewrite N.land_spec, mask_of_bit by auto.
    destruct (N.leb_spec nb i).
    + rewrite N.shiftl_spec_high' by auto. rewrite N.shiftr_spec'.
      replace (i - nb + nb) with i by lia.
      destruct (N.ltb_spec i 32); [now rewrite andb_true_r|].
      rewrite andb_false_r. symmetry. now apply testbit_high.
    + rewrite N.shiftl_spec_low by auto. apply andb_false_r.
Qed.

Lemma shiftr_small : forall x n, x < 2 ^ n -> N.shiftr x n = 0.
Proof. intros. rewrite N.shiftr_div_pow2. now apply N.div_small. Qed.

Lemma field_high : forall i mi nb, mi < 2 ^ nb -> N.shiftr (N.lor (N.shiftl i nb) mi) nb = i.
Proof.
  intros. rewrite N.shiftr_lor, N.shiftr_shiftl_l, N.sub_diag, N.shiftl_0_r by lia.
  rewrite shiftr_small by auto. apply N.lor_0_r.
Qed.

Lemma field_inj : forall i j mi mj nb, mi < 2 ^ nb -> mj < 2 ^ nb ->
  N.lor (N.shiftl i nb) mi = N.lor (N.shiftl j nb) mj -> i = j /\ mi = mj.
Proof.
  intros i j mi mj nb Hi Hj E.
  assert (i = j) by (rewrite <- (field_high i mi nb Hi), <- (field_high j mj nb Hj); congruence).
  split; [assumption|]. subst j. apply N.bits_inj. intro b.
  destruct (N.lt_ge_cases b nb).
  - assert (B : N.testbit (N.lor (N.shiftl i nb) mi) b = N.testbit (N.lor (N.shiftl i nb) mj) b)
      by congruence.
    rewrite !N.lor_spec, N.shiftl_spec_low in B by auto. exact B.
  - now rewrite !(testbit_above _ nb).
Qed.

Lemma lor_shiftl_add : forall i mi nb, mi < 2 ^ nb -> N.lor (N.shiftl i nb) mi = i * 2 ^ nb + mi.
Proof.
  intros. rewrite <- N.shiftl_mul_pow2.
  rewrite <- N.lxor_lor.
  - symmetry. apply N.add_nocarry_lxor. apply N.bits_inj. intro b.
    rewrite N.land_spec, N.bits_0. destruct (N.lt_ge_cases b nb).
    + now rewrite N.shiftl_spec_low.
    + rewrite (testbit_above mi nb) by auto. apply andb_false_r.
  - apply N.bits_inj. intro b.
    rewrite N.land_spec, N.bits_0. destruct (N.lt_ge_cases b nb).
    + now rewrite N.shiftl_spec_low.
    + rewrite (testbit_above mi nb) by auto. apply andb_false_r.
Qed.

Lemma make_km_Ok : forall k m r, make_km k m = Ok r <-> N.land k m = k /\ r = mkKM k m.
Proof.
  intros. unfold make_km. destruct (N.eqb_spec (N.land k m) k).
  - split; [intros [= <-]; auto|intros [_ ->]; auto].
  - split; [discriminate|tauto].
Qed.

(** A block number that fits keeps its key inside the mask. *)
Lemma block_key_ok : forall nb x, nb <= 32 -> x < 2 ^ (32 - nb) ->
  N.land (N.shiftl x nb) (mask_of nb) = N.shiftl x nb /\ N.shiftl x nb < 2 ^ 32.
Proof.
  intros nb x H Hx.
  assert (L : N.shiftl x nb < 2 ^ 32).
  { rewrite N.shiftl_mul_pow2.
    assert (E : 2 ^ 32 = 2 ^ (32 - nb) * 2 ^ nb) by (rewrite <- N.pow_add_r; f_equal; lia).
    rewrite E. apply N.mul_lt_mono_pos_r; auto. apply pow2_pos. }
  split; auto. apply block_match; auto.
  rewrite N.shiftr_shiftl_l, N.sub_diag, N.shiftl_0_r by lia. reflexivity.
Qed.

Lemma block_range : forall nb x k,
  N.shiftr k nb = x <-> N.shiftl x nb <= k < N.shiftl x nb + 2 ^ nb.
Proof.
  intros nb x k. rewrite N.shiftl_mul_pow2, N.shiftr_div_pow2.
  pose proof (pow2_pos nb) as P. split.
  - intros <-. split.
    + rewrite N.mul_comm. apply N.mul_div_le. lia.
    + rewrite N.mul_comm. pose proof (N.mul_succ_div_gt k (2 ^ nb)). lia.
  - intros [A B]. symmetry. apply N.div_unique with (k - x * 2 ^ nb); lia.
Qed.

(** ** Equality tests and ordered sets *)

Lemma vertex_eqb_spec : forall a b, vertex_eqb a b = true <-> a = b.
Proof.
  intros [a|a] [b|b]; simpl; rewrite ?Nat.eqb_eq; split; intro H; try discriminate;
    try congruence; inversion H; auto.
Qed.

Lemma fk_eqb_spec : forall a b, fk_eqb a b = true <-> a = b.
Proof. apply pair_eqb_spec; [apply Nat.eqb_eq|apply vertex_eqb_spec]. Qed.

Lemma ap_eqb_spec : forall a b, ap_eqb a b = true <-> a = b.
Proof. apply pair_eqb_spec; apply Nat.eqb_eq. Qed.

Lemma existsb_ap : forall x l, existsb (ap_eqb x) l = true <-> In x l.
Proof.
  intros. rewrite existsb_exists. split.
  - intros (y & H & E). apply ap_eqb_spec in E. now subst.
  - intros H. exists x. split; auto. now apply ap_eqb_spec.
Qed.

Lemma NoDup_snoc : forall {A} (l : list A) x, NoDup l -> ~ In x l -> NoDup (l ++ [x]).
Proof.
  intros A l x ND H. apply Permutation_NoDup with (x :: l).
  - apply Permutation_cons_append.
  - now constructor.
Qed.

Lemma ordered_set_spec : forall l, NoDup (ordered_set l) /\ (forall x, In x (ordered_set l) <-> In x l).
Proof.
  intro l. unfold ordered_set.
  set (f := fun acc x => if existsb (ap_eqb x) acc then acc else acc ++ [x]).
  assert (G : forall l acc, NoDup acc ->
    NoDup (fold_left f l acc) /\ (forall x, In x (fold_left f l acc) <-> In x acc \/ In x l)).
  { clear l. induction l as [|a l IH]; intros acc ND; simpl; [split; auto; tauto|].
    assert (ND' : NoDup (f acc a) /\ (forall x, In x (f acc a) <-> In x acc \/ x = a)).
    { unfold f. destruct (existsb (ap_eqb a) acc) eqn:E.
      - apply existsb_ap in E. split; auto. intro x. split; [tauto|]. intros [H| ->]; auto.
      - split.
        + apply NoDup_snoc; auto. rewrite <- existsb_ap. congruence.
        + intro x. rewrite in_app_iff. simpl. intuition. }
    destruct ND' as [ND' HI]. destruct (IH _ ND') as [A B]. split; auto.
    intro x. rewrite B, HI. intuition. }
  destruct (G l [] (NoDup_nil _)) as [A B]. split; auto. intro x. rewrite B. simpl. tauto.
Qed.

Lemma ordered_set_NoDup_id : forall l, NoDup l -> ordered_set l = l.
Proof.
  intros l ND. unfold ordered_set.
  set (f := fun acc x => if existsb (ap_eqb x) acc then acc else acc ++ [x]).
  assert (G : forall l acc, NoDup (acc ++ l) -> fold_left f l acc = acc ++ l).
  { clear l ND. induction l as [|a l IH]; intros acc ND; simpl; [now rewrite app_nil_r|].
    assert (E : f acc a = acc ++ [a]).
    { unfold f. destruct (existsb (ap_eqb a) acc) eqn:E; [|reflexivity].
      apply existsb_ap in E. apply NoDup_remove_2 in ND. exfalso. apply ND.
      apply in_app_iff. auto. }
    rewrite E, IH; rewrite <- app_assoc; auto. }
  now apply G.
Qed.

(** ** Fixed keys *)

Definition fixed_after (e : graph_env) (pre ident : nat) (verts : list nat) (d : fixed_dict)
    (k : nat * vertex) : option km :=
  match k with
  | (i, Mac v) =>
      if (Nat.eqb i ident && existsb (Nat.eqb v) verts)%bool then
        match ae_mac_fixed e pre v ident with Some x => Some x | None => dget fk_eqb d k end
      else dget fk_eqb d k
  | _ => dget fk_eqb d k
  end.

Lemma existsb_nat : forall x l, existsb (Nat.eqb x) l = true <-> In x l.
Proof.
  intros. rewrite existsb_exists. split.
  - intros (y & H & E). apply Nat.eqb_eq in E. now subst.
  - intros H. exists x. split; auto. apply Nat.eqb_refl.
Qed.

Lemma find_fixed_inner_spec : forall e pre ident app verts d isf isu vert d' isf' vert',
  find_fixed_inner e pre ident app verts d isf isu vert = Ok (d', isf', vert') ->
  (forall k, dget fk_eqb d' k = fixed_after e pre ident verts d k) /\
  (app = None -> forall v, In v verts -> ae_mac_fixed e pre v ident = None) /\
  ((isf = true /\ isf' = true /\ forall v, In v verts -> ae_mac_fixed e pre v ident <> None)
   \/ (isf = false /\ isf' = true /\ verts <> [] /\
       forall v, In v verts -> ae_mac_fixed e pre v ident <> None)
   \/ (isf = false /\ isf' = false /\ forall v, In v verts -> ae_mac_fixed e pre v ident = None)) /\
  (isu = true -> forall v, In v verts -> ae_mac_fixed e pre v ident = None) /\
  (forall v, verts = [v] -> vert' = Some v) /\
  (verts = [] -> vert' = vert).
Proof.
  intros e pre ident app. induction verts as [|v verts IH];
    intros d isf isu vert d' isf' vert' H; cbn [find_fixed_inner] in H.
  - inversion H; subst.
    split; [|split; [|split; [|split; [|split]]]]; try (simpl; tauto); try discriminate.
    + intros [i [a|m]]; simpl; auto. now rewrite andb_false_r.
    + simpl. destruct isf'; [left; tauto|right; right; tauto].
  - destruct (ae_mac_fixed e pre v ident) as [k|] eqn:EK.
    + destruct isu; [discriminate|]. destruct app as [a|]; [|discriminate].
      destruct (negb _); [discriminate|].
      apply IH in H. destruct H as (G & N1 & C & U & L1 & L0).
      destruct C as [(_ & -> & C)|[(F & _)|(F & _)]]; try discriminate.
      split; [|split; [|split; [|split; [|split]]]]; try discriminate.
      * intros [i [b|m]]; rewrite G; simpl.
        -- rewrite (dget_dset _ fk_eqb_spec). simpl.
           destruct (fk_eqb (ident, Mac v) (i, App b)) eqn:E; auto.
           apply fk_eqb_spec in E. discriminate.
        -- rewrite (dget_dset _ fk_eqb_spec).
           destruct (fk_eqb (ident, Mac v) (i, Mac m)) eqn:E.
           ++ apply fk_eqb_spec in E. inversion E; subst.
              rewrite !Nat.eqb_refl. simpl. rewrite EK.
              destruct (existsb (Nat.eqb m) verts); reflexivity.
           ++ assert (W : (Nat.eqb i ident && Nat.eqb m v)%bool = false).
              { destruct (Nat.eqb_spec i ident); destruct (Nat.eqb_spec m v); subst; auto.
                rewrite (proj2 (fk_eqb_spec _ _)) in E; auto. }
              destruct (Nat.eqb i ident); simpl in *; [rewrite W|]; reflexivity.
      * assert (isf = true \/ isf = false) as [-> | ->] by (destruct isf; auto).
        -- left. split; [auto|split; [auto|]]. intros w [<-|Hw]; auto. congruence.
        -- right; left. split; [auto|split; [auto|split; [discriminate|]]].
           intros w [<-|Hw]; auto. congruence.
      * intros w E. inversion E; subst. auto.
    + destruct isf; [discriminate|].
      apply IH in H. destruct H as (G & N1 & C & U & L1 & L0).
      destruct C as [(F & _)|[(_ & -> & NE & C)|(_ & -> & C)]]; try discriminate.
      { exfalso. destruct verts as [|w ws]; [congruence|].
        apply (C w); [left; auto|]. apply U; [auto|left; auto]. }
      split; [|split; [|split; [|split; [|split]]]]; try discriminate.
      * intros [i [b|m]]; rewrite G; simpl; auto.
        destruct (Nat.eqb_spec i ident) as [->|]; simpl; auto.
        destruct (Nat.eqb_spec m v) as [->|]; simpl; auto.
        rewrite EK. destruct (existsb _ _); reflexivity.
      * intros A w [<-|Hw]; auto.
      * right; right. split; [auto|split; [auto|]]. intros w [<-|Hw]; auto.
      * intros A w [<-|Hw]; auto.
      * intros w E. inversion E; subst. auto.
Qed.

(** What the caller fixed for a machine vertex of a fixed partition. *)
Definition mac_key (e : graph_env) (a p m : nat) : option km :=
  match ae_app_fixed e a p with
  | None => None
  | Some k => match ae_mac_fixed e a m p with Some k' => Some k' | None => Some k end
  end.

Definition env_ok (e : graph_env) (parts : list app_part) : Prop :=
  (forall a p, In (a, p) parts -> ae_app_fixed e a p <> None -> ae_outgoing e a p <> []) /\
  (forall a a' p m, In (a, p) parts -> In (a', p) parts ->
     In m (ae_outgoing e a p) -> In m (ae_outgoing e a' p) -> a = a').

(** The dictionary holds exactly the keys fixed by the partitions seen so far. *)
Definition fixed_inv (e : graph_env) (seen : list app_part) (d : fixed_dict) : Prop :=
  (forall a p, dget fk_eqb d (p, App a) =
     if existsb (ap_eqb (a, p)) seen then ae_app_fixed e a p else None) /\
  (forall a p m, In (a, p) seen -> In m (ae_outgoing e a p) ->
     dget fk_eqb d (p, Mac m) = mac_key e a p m) /\
  (forall p m k, dget fk_eqb d (p, Mac m) = Some k ->
     exists a, In (a, p) seen /\ In m (ae_outgoing e a p)) /\
  (forall a p, In (a, p) seen -> ae_app_fixed e a p = None ->
     forall m, In m (ae_outgoing e a p) -> ae_mac_fixed e a m p = None).

Lemma find_fixed_loop_spec : forall e todo seen d allf vert d' allf',
  NoDup (seen ++ todo) -> env_ok e (seen ++ todo) -> fixed_inv e seen d ->
  find_fixed_loop e todo d allf vert = Ok (d', allf') ->
  fixed_inv e (seen ++ todo) d' /\
  allf' = (allf && forallb (fun ap => match ae_app_fixed e (fst ap) (snd ap) with
                                      | Some _ => true | None => false end) todo)%bool.
Proof.
  intros e todo. induction todo as [|[pre ident] todo IH];
    intros seen d allf vert d' allf' ND EO INV H; cbn [find_fixed_loop] in H.
  - inversion H; subst. rewrite app_nil_r. split; auto. simpl. now rewrite andb_true_r.
  - apply bind_Ok_inv in H. destruct H as ([[d1 isf] vert1] & H1 & H).
    apply find_fixed_inner_spec in H1. destruct H1 as (G & N1 & C & _ & L1 & L0).
    assert (Sub : In (pre, ident) (seen ++ (pre, ident) :: todo))
      by (apply in_app_iff; right; left; auto).
    assert (NI : ~ In (pre, ident) seen).
    { intro C1. apply NoDup_remove_2 in ND. apply ND. apply in_app_iff. auto. }
    destruct EO as [EO1 EO2]. destruct INV as (I1 & I2 & I3 & I4).
    (* a machine vertex of this partition is not listed by an earlier one *)
    assert (Fresh : forall m, In m (ae_outgoing e pre ident) ->
              dget fk_eqb d (ident, Mac m) = None).
    { intros m Hm. destruct (dget fk_eqb d (ident, Mac m)) eqn:E; [|reflexivity].
      apply I3 in E. destruct E as (a & Ha & Hm').
      assert (a = pre) by (apply (EO2 a pre ident m); auto; apply in_app_iff; auto).
      subst. contradiction. }
    assert (NF : dget fk_eqb d (ident, App pre) = None).
    { rewrite I1. destruct (existsb _ _) eqn:E; auto. apply existsb_ap in E. contradiction. }
    assert (E2 : seen ++ (pre, ident) :: todo = (seen ++ [(pre, ident)]) ++ todo)
      by (rewrite <- app_assoc; reflexivity).
    assert (Step : forall d2,
      (forall a p, dget fk_eqb d2 (p, App a) =
         if (Nat.eqb a pre && Nat.eqb p ident)%bool then ae_app_fixed e pre ident
         else dget fk_eqb d (p, App a)) ->
      (forall m, In m (ae_outgoing e pre ident) ->
         dget fk_eqb d2 (ident, Mac m) = mac_key e pre ident m) ->
      (forall p m, (p = ident -> ~ In m (ae_outgoing e pre ident)) ->
         dget fk_eqb d2 (p, Mac m) = dget fk_eqb d (p, Mac m)) ->
      fixed_inv e (seen ++ [(pre, ident)]) d2).
    { intros d2 S1 S2 S3. split; [|split; [|split]].
      - intros a p. rewrite S1, existsb_app. simpl. rewrite I1, orb_false_r.
        assert (W : ap_eqb (a, p) (pre, ident) = (Nat.eqb a pre && Nat.eqb p ident)%bool)
          by reflexivity.
        rewrite W. destruct (Nat.eqb_spec a pre); destruct (Nat.eqb_spec p ident); simpl; subst;
          rewrite ?orb_false_r, ?orb_true_r; auto.
      - intros a p m Ha Hm. apply in_app_iff in Ha. destruct Ha as [Ha|[Ha|[]]].
        + rewrite S3.
          * now apply I2.
          * intros -> Hm'. assert (a = pre) by
              (apply (EO2 a pre ident m); auto; apply in_app_iff; auto). subst. contradiction.
        + inversion Ha; subst. auto.
      - intros p m k Hk. destruct (Nat.eq_dec p ident) as [->|Np].
        + destruct (in_dec Nat.eq_dec m (ae_outgoing e pre ident)) as [Hm|Hm].
          * exists pre. split; auto. apply in_app_iff. right; left; auto.
          * rewrite S3 in Hk by auto. apply I3 in Hk. destruct Hk as (a & Ha & Hm').
            exists a. split; auto. apply in_app_iff; auto.
        + rewrite S3 in Hk by congruence. apply I3 in Hk. destruct Hk as (a & Ha & Hm').
          exists a. split; auto. apply in_app_iff; auto.
      - intros a p Ha Hf m Hm. apply in_app_iff in Ha. destruct Ha as [Ha|[Ha|[]]].
        + eapply I4; eauto.
        + inversion Ha; subst. apply N1; auto. }
    destruct (ae_app_fixed e pre ident) as [k|] eqn:EF.
    + (* fixed partition *)
      apply bind_Ok_inv in H. destruct H as (d2 & H2 & H).
      assert (NE : ae_outgoing e pre ident <> []).
      { apply EO1; auto. congruence. }
      rewrite E2 in ND, EO1, EO2. rewrite E2.
      apply (IH (seen ++ [(pre, ident)])) in H; auto; [|split; auto|].
      * destruct H as [A B]. split; auto. rewrite B. simpl. rewrite EF. reflexivity.
      * (* the dictionary after this partition *)
        assert (D2 : forall q, dget fk_eqb d2 q =
          match q with
          | (i, Mac m) => if (Nat.eqb i ident && existsb (Nat.eqb m) (ae_outgoing e pre ident))%bool
                          then mac_key e pre ident m else dget fk_eqb d q
          | _ => dget fk_eqb d q
          end).
        { intros [i [b|m]].
          - destruct isf.
            + inversion H2; subst. rewrite G. reflexivity.
            + destruct (Nat.ltb _ _); [discriminate|]. destruct vert1; [|discriminate].
              inversion H2; subst. rewrite (dget_dset _ fk_eqb_spec).
              destruct (fk_eqb _ _) eqn:E; [apply fk_eqb_spec in E; discriminate|].
              rewrite G. reflexivity.
          - destruct C as [(F & _)|[(_ & -> & _ & C)|(_ & -> & C)]]; try discriminate.
            + inversion H2; subst. rewrite G. simpl.
              destruct (_ && _)%bool eqn:W; auto. apply andb_true_iff in W.
              destruct W as [_ W]. apply existsb_nat in W. unfold mac_key. rewrite EF.
              specialize (C m W). destruct (ae_mac_fixed e pre m ident); congruence.
            + destruct (Nat.ltb_spec 1 (length (ae_outgoing e pre ident))); [discriminate|].
              destruct vert1 as [v|]; [|discriminate]. inversion H2; subst.
              assert (exists w, ae_outgoing e pre ident = [w]) as [w Ew].
              { destruct (ae_outgoing e pre ident) as [|w [|]]; simpl in *; try congruence;
                  try lia. eauto. }
              pose proof (L1 _ Ew) as L. inversion L; subst.
              rewrite (dget_dset _ fk_eqb_spec), G, Ew. simpl. rewrite orb_false_r.
              unfold fk_eqb, pair_eqb. simpl. rewrite (Nat.eqb_sym i), (Nat.eqb_sym m).
              destruct (_ && _)%bool eqn:W.
              * apply andb_true_iff in W. destruct W as [_ W]. apply Nat.eqb_eq in W. subst m.
                unfold mac_key. rewrite EF, C; auto. rewrite Ew. left; auto.
              * reflexivity. }
        apply Step.
        -- intros a p. rewrite (dget_dset _ fk_eqb_spec), D2.
           unfold fk_eqb, pair_eqb. simpl. rewrite (Nat.eqb_sym a), (Nat.eqb_sym p), andb_comm.
           reflexivity.
        -- intros m Hm. rewrite (dget_dset _ fk_eqb_spec).
           destruct (fk_eqb _ _) eqn:E; [apply fk_eqb_spec in E; discriminate|].
           rewrite D2, Nat.eqb_refl. simpl. rewrite (proj2 (existsb_nat _ _) Hm). reflexivity.
        -- intros p m Hp. rewrite (dget_dset _ fk_eqb_spec).
           destruct (fk_eqb _ _) eqn:E; [apply fk_eqb_spec in E; discriminate|].
           rewrite D2. destruct (_ && _)%bool eqn:W; auto.
           apply andb_true_iff in W. destruct W as [W1 W2]. apply Nat.eqb_eq in W1.
           apply existsb_nat in W2. exfalso. now apply Hp.
    + (* free partition *)
      rewrite E2 in ND, EO1, EO2. rewrite E2.
      apply (IH (seen ++ [(pre, ident)])) in H; auto; [|split; auto|].
      * destruct H as [A B]. split; auto. rewrite B. simpl. rewrite EF.
        now rewrite andb_false_r.
      * apply Step.
        -- intros a p. rewrite G. simpl.
           destruct (Nat.eqb_spec a pre); destruct (Nat.eqb_spec p ident); simpl; subst; auto.
        -- intros m Hm. rewrite G. simpl. rewrite Nat.eqb_refl. simpl.
           rewrite (proj2 (existsb_nat _ _) Hm). rewrite N1; auto.
           unfold mac_key. rewrite EF. auto.
        -- intros p m Hp. rewrite G. simpl. destruct (_ && _)%bool eqn:W; auto.
           apply andb_true_iff in W. destruct W as [W1 W2]. apply Nat.eqb_eq in W1.
           apply existsb_nat in W2. exfalso. now apply Hp.
Qed.

Lemma find_fixed_spec : forall e parts d allf, NoDup parts -> env_ok e parts ->
  find_fixed e parts = Ok (d, allf) ->
  fixed_inv e parts d /\
  allf = forallb (fun ap => match ae_app_fixed e (fst ap) (snd ap) with
                            | Some _ => true | None => false end) parts.
Proof.
  intros e parts d allf ND EO H. unfold find_fixed in H.
  apply (find_fixed_loop_spec e parts [] [] true None) in H; auto.
  split; [|split; [|split]]; simpl; try tauto; try discriminate.
Qed.

(** ** Zone sizes *)

Definition atom_bits (e : graph_env) (a p : nat) : N := allocator_bits_needed (max_keys e a p).
Definition mach_bits (e : graph_env) (a p : nat) : N :=
  allocator_bits_needed (N.of_nat (length (ae_outgoing e a p))).
Definition nonempty (e : graph_env) (ap : app_part) : bool :=
  match ae_outgoing e (fst ap) (snd ap) with [] => false | _ => true end.
(** Partitions that take part in the zone sizes. *)
Definition sized (e : graph_env) (fixed : fixed_dict) (a p : nat) : Prop :=
  0 < max_keys e a p /\ dget fk_eqb fixed (p, App a) = None.

Lemma max_keys_le : forall e a p m, In m (ae_outgoing e a p) -> ae_n_keys e m p <= max_keys e a p.
Proof.
  intros e a p m. unfold max_keys. generalize 0 at 1. 
  induction (ae_outgoing e a p) as [|x l IH]; intros acc H; [destruct H|].
  assert (G : forall l acc, acc <= fold_left (fun acc m => N.max acc (ae_n_keys e m p)) l acc).
  { clear. induction l as [|y l IH]; intro acc; simpl; [lia|].
    specialize (IH (N.max acc (ae_n_keys e y p))). lia. }
  simpl. destruct H as [<-|H].
  - specialize (G l (N.max acc (ae_n_keys e x p))). lia.
  - now apply IH.
Qed.

Lemma max_keys_nil : forall e a p, ae_outgoing e a p = [] -> max_keys e a p = 0.
Proof. intros e a p H. unfold max_keys. rewrite H. reflexivity. Qed.

Lemma max_keys_attained : forall e a p, 0 < max_keys e a p ->
  exists m, In m (ae_outgoing e a p) /\ ae_n_keys e m p = max_keys e a p.
Proof.
  intros e a p. unfold max_keys.
  assert (G : forall l acc, acc < fold_left (fun acc m => N.max acc (ae_n_keys e m p)) l acc ->
    exists m, In m l /\ ae_n_keys e m p = fold_left (fun acc m => N.max acc (ae_n_keys e m p)) l acc).
  { induction l as [|x l IH]; intros acc H; cbn [fold_left] in *; [lia|].
    destruct (N.eq_dec (fold_left (fun acc m => N.max acc (ae_n_keys e m p)) l (N.max acc (ae_n_keys e x p)))
                (N.max acc (ae_n_keys e x p))) as [E|E].
    - exists x. split; [now left|]. rewrite E in *. lia.
    - destruct (IH (N.max acc (ae_n_keys e x p))) as (m & Hm & Em).
      + assert (M : forall l acc, acc <= fold_left (fun acc m => N.max acc (ae_n_keys e m p)) l acc).
        { clear. induction l as [|y l IH]; intro acc; cbn [fold_left]; [lia|].
          specialize (IH (N.max acc (ae_n_keys e y p))). lia. }
        specialize (M l (N.max acc (ae_n_keys e x p))). lia.
      + exists m. split; [now right|exact Em]. }
  apply G.
Qed.

Lemma max_keys_bound : forall e a p b, (forall m, In m (ae_outgoing e a p) -> ae_n_keys e m p <= b) ->
  max_keys e a p <= b.
Proof.
  intros e a p b. unfold max_keys.
  assert (G : forall l acc, acc <= b -> (forall m, In m l -> ae_n_keys e m p <= b) ->
    fold_left (fun acc m => N.max acc (ae_n_keys e m p)) l acc <= b).
  { induction l as [|y l IH]; intros acc H1 H2; simpl; [auto|].
    apply IH; [|intros; apply H2; right; auto].
    specialize (H2 y (or_introl eq_refl)). lia. }
  intros H. apply G; auto. lia.
Qed.

Definition zone_next (e : graph_env) (fixed : fixed_dict) (z : zones) (a p : nat) : zones :=
  if (N.ltb 0 (max_keys e a p) && negb (dmem fk_eqb fixed (p, App a)))%bool then
    mkZones (N.max (z_atoms z) (atom_bits e a p)) (N.max (z_machine z) (mach_bits e a p))
            (N.max (z_atoms_mac z) (mach_bits e a p + atom_bits e a p))
            (dset ap_eqb (z_bits z) (a, p) (atom_bits e a p))
  else mkZones (z_atoms z) (z_machine z) (z_atoms_mac z)
               (dset ap_eqb (z_bits z) (a, p) (atom_bits e a p)).

Lemma zone_step_eq : forall e fixed z a p,
  zone_step e fixed z (a, p) = if nonempty e (a, p) then zone_next e fixed z a p else z.
Proof.
  intros. unfold zone_step, nonempty, zone_next, atom_bits, mach_bits. simpl.
  destruct (ae_outgoing e a p) as [|m ms] eqn:E; [reflexivity|].
  destruct (N.ltb_spec 0 (max_keys e a p)) as [Hk|Hk].
  - simpl. destruct (dmem fk_eqb fixed (p, App a)); reflexivity.
  - simpl. assert (max_keys e a p = 0) as -> by lia. reflexivity.
Qed.

Definition zones_le (z z' : zones) : Prop :=
  z_atoms z <= z_atoms z' /\ z_machine z <= z_machine z' /\ z_atoms_mac z <= z_atoms_mac z'.
Definition zones_sane (z : zones) : Prop :=
  z_atoms z <= z_atoms_mac z /\ z_machine z <= z_atoms_mac z /\
  z_atoms_mac z <= z_machine z + z_atoms z.

Lemma zone_next_le : forall e fixed z a p, zones_le z (zone_next e fixed z a p).
Proof.
  intros. unfold zone_next, zones_le.
  destruct (_ && _)%bool; cbn [z_atoms z_machine z_atoms_mac]; lia.
Qed.

Lemma zone_next_sane : forall e fixed z a p, zones_sane z -> zones_sane (zone_next e fixed z a p).
Proof.
  intros e fixed z a p. unfold zone_next, zones_sane.
  destruct (_ && _)%bool; cbn [z_atoms z_machine z_atoms_mac]; lia.
Qed.

Lemma zones_fold : forall e fixed parts z0, zones_sane z0 ->
  let z := fold_left (zone_step e fixed) parts z0 in
  zones_le z0 z /\ zones_sane z /\
  (forall a p, In (a, p) parts -> sized e fixed a p ->
     atom_bits e a p <= z_atoms z /\ mach_bits e a p <= z_machine z /\
     mach_bits e a p + atom_bits e a p <= z_atoms_mac z) /\
  (forall A M S,
     z_atoms z0 <= A -> z_machine z0 <= M -> z_atoms_mac z0 <= S ->
     (forall a p, In (a, p) parts -> sized e fixed a p ->
        atom_bits e a p <= A /\ mach_bits e a p <= M /\ mach_bits e a p + atom_bits e a p <= S) ->
     z_atoms z <= A /\ z_machine z <= M /\ z_atoms_mac z <= S) /\
  (forall ap, dget ap_eqb (z_bits z) ap =
     if existsb (ap_eqb ap) (filter (nonempty e) parts)
     then Some (atom_bits e (fst ap) (snd ap)) else dget ap_eqb (z_bits z0) ap) /\
  (NoDup (map fst (z_bits z0) ++ filter (nonempty e) parts) ->
   map fst (z_bits z) = map fst (z_bits z0) ++ filter (nonempty e) parts).
Proof.
  intros e fixed parts. induction parts as [|[a p] parts IH]; intros z0 S0 z.
  - subst z. simpl. split; [unfold zones_le; lia|]. split; [auto|].
    split; [intros ? ? []|]. split; [intros; auto|].
    split; [auto|]. intros _. now rewrite app_nil_r.
  - subst z. cbn [fold_left]. rewrite zone_step_eq.
    destruct (nonempty e (a, p)) eqn:NE.
    + destruct (IH (zone_next e fixed z0 a p) (zone_next_sane _ _ _ _ _ S0))
        as (L & S1 & B & U & D & K).
      set (z := fold_left (zone_step e fixed) parts (zone_next e fixed z0 a p)) in *.
      pose proof (zone_next_le e fixed z0 a p) as L0.
      split; [unfold zones_le in *; lia|]. split; [auto|].
      split; [|split; [|split]].
      * intros b q [E|Hin] Hs; [|now apply B]. inversion E; subst b q.
        destruct Hs as [Hk Hf]. unfold zones_le in L. clear - L Hk Hf.
        unfold zone_next, dmem in L. rewrite Hf in L.
        destruct (N.ltb_spec 0 (max_keys e a p)); [|lia].
        cbn [andb negb z_atoms z_machine z_atoms_mac] in L. lia.
      * intros A M S HA HM HS HB. apply U.
        1-3: unfold zone_next; destruct (_ && _)%bool eqn:W;
          cbn [z_atoms z_machine z_atoms_mac]; auto;
          apply andb_true_iff in W; destruct W as [W1 W2]; apply N.ltb_lt in W1;
          unfold dmem in W2; destruct (dget fk_eqb fixed (p, App a)) eqn:W3; [discriminate|];
          destruct (HB a p (or_introl eq_refl) (conj W1 W3)) as (H1 & H2 & H3); lia.
        intros b q Hin Hs. apply HB; auto. right; auto.
      * intros ap. rewrite D. cbn [filter]. rewrite NE. cbn [existsb].
        destruct (existsb (ap_eqb ap) (filter (nonempty e) parts)) eqn:E.
        -- now rewrite orb_true_r.
        -- rewrite orb_false_r.
           assert (Z : z_bits (zone_next e fixed z0 a p) =
                       dset ap_eqb (z_bits z0) (a, p) (atom_bits e a p)).
           { unfold zone_next. destruct (_ && _)%bool; reflexivity. }
           rewrite Z, (dget_dset _ ap_eqb_spec).
           destruct (ap_eqb (a, p) ap) eqn:E1.
           ++ apply ap_eqb_spec in E1. subst ap.
              rewrite (proj2 (ap_eqb_spec _ _) eq_refl). reflexivity.
           ++ destruct (ap_eqb ap (a, p)) eqn:E2; [|reflexivity].
              apply ap_eqb_spec in E2. subst ap.
              rewrite (proj2 (ap_eqb_spec _ _) eq_refl) in E1. discriminate.
      * cbn [filter]. rewrite NE. intros ND.
        assert (Z : map fst (z_bits (zone_next e fixed z0 a p)) =
                    map fst (z_bits z0) ++ [(a, p)]).
        { assert (Z : z_bits (zone_next e fixed z0 a p) =
                      dset ap_eqb (z_bits z0) (a, p) (atom_bits e a p)).
          { unfold zone_next. destruct (_ && _)%bool; reflexivity. }
          rewrite Z, (dset_keys _). 
          destruct (dmem ap_eqb (z_bits z0) (a, p)) eqn:E; [|reflexivity].
          apply (dmem_true _ ap_eqb_spec) in E. apply NoDup_remove_2 in ND.
          exfalso. apply ND. apply in_app_iff. auto. }
        rewrite K, Z; rewrite <- ?app_assoc; auto.
        rewrite Z, <- app_assoc. exact ND.
    + destruct (IH z0 S0) as (L & S1 & B & U & D & K).
      split; [auto|]. split; [auto|]. split; [|split; [|split]].
      * intros b q [E|Hin] Hs; [|now apply B]. inversion E; subst b q. exfalso.
        destruct Hs as [Hk _]. unfold nonempty in NE. simpl in NE.
        destruct (ae_outgoing e a p) eqn:EO; [|discriminate].
        rewrite max_keys_nil in Hk by auto. lia.
      * intros A M S HA HM HS HB. apply U; auto. intros b q Hin. apply HB. right; auto.
      * intros ap. rewrite D. cbn [filter]. rewrite NE. reflexivity.
      * cbn [filter]. rewrite NE. auto.
Qed.

Lemma calculate_zones_spec : forall e fixed parts, NoDup parts ->
  let z := calculate_zones e fixed parts in
  zones_sane z /\
  (forall a p, In (a, p) parts -> sized e fixed a p ->
     atom_bits e a p <= z_atoms z /\ mach_bits e a p <= z_machine z /\
     mach_bits e a p + atom_bits e a p <= z_atoms_mac z) /\
  (forall A M S,
     (forall a p, In (a, p) parts -> sized e fixed a p ->
        atom_bits e a p <= A /\ mach_bits e a p <= M /\ mach_bits e a p + atom_bits e a p <= S) ->
     z_atoms z <= A /\ z_machine z <= M /\ z_atoms_mac z <= S) /\
  (forall a p, In (a, p) parts -> ae_outgoing e a p <> [] ->
     dget ap_eqb (z_bits z) (a, p) = Some (atom_bits e a p)) /\
  length (z_bits z) = length (filter (nonempty e) parts).
Proof.
  intros e fixed parts ND z.
  assert (S0 : zones_sane (mkZones 0 0 0 [])) by (unfold zones_sane; simpl; lia).
  destruct (zones_fold e fixed parts _ S0) as (_ & S1 & B & U & D & K).
  fold (calculate_zones e fixed parts) in *.
  split; [exact S1|]. split; [exact B|]. split; [|split].
  - intros A M S H. apply U; auto; simpl; lia.
  - intros a p Hin Hne. rewrite D. 
    assert (W : existsb (ap_eqb (a, p)) (filter (nonempty e) parts) = true).
    { apply existsb_ap. apply filter_In. split; auto. unfold nonempty. simpl.
      destruct (ae_outgoing e a p); congruence. }
    rewrite W. reflexivity.
  - rewrite <- (map_length fst). unfold z. rewrite K; [reflexivity|]. simpl. now apply NoDup_filter.
Qed.

(** Sizes after [__check_zones]. *)
Lemma check_zones_spec : forall flexible fixed z z' used, zones_sane z ->
  check_zones flexible fixed z = Ok (z', used) ->
  used = fixed_used_of (z_atoms_mac z) fixed /\
  z_bits z' = z_bits z /\ z_atoms_mac z <= z_atoms_mac z' /\ z_atoms_mac z' <= 32 /\
  N.of_nat (length (z_bits z)) + N.of_nat (length used) <= 2 ^ (32 - z_atoms_mac z') /\
  (flexible = true -> z' = z) /\
  (flexible = false -> z_machine z' = z_machine z /\ z_atoms z' + z_machine z' = z_atoms_mac z' /\
     z_atoms z' <= z_atoms z /\
     (z_machine z + z_atoms z = z_atoms_mac z -> z_atoms_mac z' = z_atoms_mac z)).
Proof.
  intros flexible fixed z z' used S H. unfold check_zones in H.
  destruct (N.ltb_spec 32 (allocator_bits_needed (N.of_nat (length (z_bits z))) + z_atoms_mac z));
    [discriminate|].
  cbv zeta in H.
  remember (fixed_used_of (z_atoms_mac z) fixed) as u eqn:EU.
  remember (allocator_bits_needed (N.of_nat (length (z_bits z)) + N.of_nat (length u))) as apb eqn:EA.
  assert (P : N.of_nat (length (z_bits z)) + N.of_nat (length u) <= 2 ^ apb).
  { apply allocator_bits_least. lia. }
  assert (P2 : forall s, apb <= s -> N.of_nat (length (z_bits z)) + N.of_nat (length u) <= 2 ^ s).
  { intros s Hs. eapply N.le_trans; [exact P|]. apply N.pow_le_mono_r; lia. }
  destruct (N.ltb_spec 32 (apb + z_atoms_mac z)); [discriminate|].
  destruct S as (S1 & S2 & S3).
  destruct flexible.
  - inversion H; subst z' used. split; [auto|]. split; [auto|]. split; [lia|]. split; [lia|].
    split; [apply P2; clear P P2 H; lia|]. split; [auto|discriminate].
  - assert (EU2 : used = u) by (destruct (N.ltb 32 (apb + z_machine z + z_atoms z)); congruence).
    assert (EZ : z' = if N.ltb 32 (apb + z_machine z + z_atoms z) then
      mkZones (32 - apb - z_machine z) (z_machine z) (32 - apb) (z_bits z)
      else mkZones (z_atoms z) (z_machine z) (z_machine z + z_atoms z) (z_bits z))
      by (destruct (N.ltb 32 (apb + z_machine z + z_atoms z)); congruence).
    clear H. subst used.
    destruct (N.ltb_spec 32 (apb + z_machine z + z_atoms z)); subst z';
      cbn [z_bits z_atoms z_machine z_atoms_mac] in *.
    + split; [auto|]. split; [auto|]. split; [lia|]. split; [lia|].
      split; [apply P2; lia|]. split; [discriminate|]. intros _. split; [auto|]. split; [lia|].
      split; [lia|]. lia.
    + split; [auto|]. split; [auto|]. split; [lia|]. split; [lia|].
      split; [apply P2; lia|]. split; [discriminate|]. intros _. split; [auto|]. split; [lia|].
      split; [lia|]. lia.
Qed.

(** The fields of one partition: both add up to the zone, and they are wide
    enough. *)
Lemma field_sizes_sum : forall flexible z bits nba nbm,
  (flexible = false -> z_atoms z + z_machine z = z_atoms_mac z) ->
  field_sizes flexible z bits = (nba, nbm) ->
  (match nbm with Some nb => nba + nb | None => z_atoms_mac z end) = z_atoms_mac z.
Proof.
  intros flexible z bits nba nbm HS H. unfold field_sizes in H.
  destruct flexible.
  - inversion H; subst. destruct (N.ltb_spec (z_atoms_mac z) nba); auto. lia.
  - destruct (N.leb_spec bits (z_atoms z)); inversion H; subst; auto.
    destruct (N.ltb_spec (z_atoms_mac z) nba); auto. lia.
Qed.

(** ** The AP indexes *)

Lemma skip_used_spec : forall fuel used i j, skip_used fuel used i = Ok j ->
  i <= j /\ ~ In j used /\ (forall x, i <= x < j -> In x used).
Proof.
  induction fuel as [|fuel IH]; intros used i j H; cbn [skip_used] in H; [discriminate|].
  destruct (existsb (N.eqb i) used) eqn:E.
  - apply IH in H. destruct H as (A & B & C). split; [lia|]. split; [auto|].
    intros x Hx. destruct (N.eq_dec x i) as [->|].
    + apply existsb_exists in E. destruct E as (y & Hy & E). apply N.eqb_eq in E. now subst.
    + apply C. lia.
  - inversion H; subst. split; [lia|]. split.
    + intro C. assert (existsb (N.eqb j) used = true).
      { apply existsb_exists. exists j. split; auto. apply N.eqb_refl. }
      congruence.
    + intros. lia.
Qed.

Lemma skip_used_total : forall fuel used i, 
  (length (filter (fun x => N.leb i x) used) < fuel)%nat -> exists j, skip_used fuel used i = Ok j.
Proof.
  induction fuel as [|fuel IH]; intros used i H; [lia|]. cbn [skip_used].
  destruct (existsb (N.eqb i) used) eqn:E; [|eauto].
  apply IH. apply existsb_exists in E. destruct E as (y & Hy & E). apply N.eqb_eq in E. subst y.
  assert (L : (length (filter (fun x => (i + 1 <=? x)%N) used) < length (filter (fun x => (i <=? x)%N) used))%nat).
  { clear - Hy. induction used as [|u used IH]; [destruct Hy|]. simpl.
    assert (G : (length (filter (fun x => (i + 1 <=? x)%N) used) <= length (filter (fun x => (i <=? x)%N) used))%nat).
    { clear. induction used as [|w used IH]; simpl; [lia|].
      destruct (N.leb_spec (i + 1) w); destruct (N.leb_spec i w); simpl; try lia. }
    destruct Hy as [->|Hy].
    - destruct (N.leb_spec (i + 1) i); [lia|]. rewrite N.leb_refl. simpl. lia.
    - specialize (IH Hy).
      destruct (N.leb_spec (i + 1) u); destruct (N.leb_spec i u); simpl; try lia. }
  lia.
Qed.

Lemma skip_used_enough : forall used i, exists j, skip_used (S (length used)) used i = Ok j.
Proof.
  intros. apply skip_used_total.
  assert (forall l : list N, length (filter (fun x => (i <=? x)%N) l) <= length l)%nat.
  { induction l as [|x l IH]; simpl; [lia|]. destruct (i <=? x); simpl; lia. }
  specialize (H used). lia.
Qed.

(** Number of used indexes below a bound. *)
Definition below (used : list N) (i : N) : N := N.of_nat (length (filter (fun x => N.ltb x i) used)).

Lemma below_le : forall used i, below used i <= N.of_nat (length used).
Proof.
  intros. unfold below.
  assert (forall l : list N, length (filter (fun x => (x <? i)%N) l) <= length l)%nat.
  { induction l as [|x l IH]; simpl; [lia|]. destruct (x <? i); simpl; lia. }
  specialize (H used). lia.
Qed.

Lemma below_step : forall used i, NoDup used -> In i used -> below used i + 1 <= below used (i + 1).
Proof.
  intros used i ND H. unfold below.
  assert (L : (length (filter (fun x => (x <? i)%N) used) + 1 <= length (filter (fun x => (x <? i + 1)%N) used))%nat).
  { induction used as [|u used IH]; [destruct H|]. inversion ND; subst. simpl.
    assert (G : (length (filter (fun x => (x <? i)%N) used) <= length (filter (fun x => (x <? i + 1)%N) used))%nat).
    { clear. induction used as [|w used IH]; simpl; [lia|].
      destruct (N.ltb_spec w i); destruct (N.ltb_spec w (i + 1)); simpl; try lia. }
    destruct H as [->|H].
    - rewrite N.ltb_irrefl. destruct (N.ltb_spec i (i + 1)); [|lia]. simpl. lia.
    - specialize (IH H3 H).
      destruct (N.ltb_spec u i); destruct (N.ltb_spec u (i + 1)); simpl; try lia. }
  lia.
Qed.

Lemma below_mono : forall used i j, i <= j -> below used i <= below used j.
Proof.
  intros used i j H. unfold below.
  assert (G : (length (filter (fun x => (x <? i)%N) used) <= length (filter (fun x => (x <? j)%N) used))%nat).
  { induction used as [|w used IH]; simpl; [lia|].
    destruct (N.ltb_spec w i); destruct (N.ltb_spec w j); simpl; try lia. }
  lia.
Qed.

Lemma below_skip : forall used n i, NoDup used -> (forall x, i <= x < i + N.of_nat n -> In x used) ->
  below used i + N.of_nat n <= below used (i + N.of_nat n).
Proof.
  intros used n. induction n as [|n IH]; intros i ND H.
  - simpl. rewrite !N.add_0_r. lia.
  - assert (A : below used i + 1 <= below used (i + 1)) by (apply below_step; auto; apply H; lia).
    assert (B : below used (i + 1) + N.of_nat n <= below used (i + 1 + N.of_nat n)).
    { apply IH; auto. intros x Hx. apply H. lia. }
    replace (i + N.of_nat (S n)) with (i + 1 + N.of_nat n) by lia. lia.
Qed.

Lemma skip_used_count : forall fuel used i j, NoDup used -> skip_used fuel used i = Ok j ->
  below used i + (j - i) <= below used j.
Proof.
  intros fuel used i j ND H. apply skip_used_spec in H. destruct H as (A & B & C).
  pose proof (below_skip used (N.to_nat (j - i)) i ND) as G. rewrite N2Nat.id in G.
  replace (i + (j - i)) with j in G by lia. apply G. exact C.
Qed.

(** ** The routing information built *)

Lemma add_info_Ok : forall infos i infos', add_info infos i = Ok infos' ->
  infos' = infos ++ [i] /\
  (forall j, In j infos -> ~ (i_vertex j = i_vertex i /\ i_part j = i_part i)).
Proof.
  intros infos i infos' H. unfold add_info in H.
  destruct (existsb _ _) eqn:E; [discriminate|]. inversion H; subst. split; auto.
  intros j Hj [A B]. assert (existsb (same_info (i_vertex i) (i_part i)) infos = true); [|congruence].
  apply existsb_exists. exists j. split; auto. unfold same_info.
  rewrite (proj2 (vertex_eqb_spec _ _) A), B, Nat.eqb_refl. reflexivity.
Qed.

Lemma add_info_fresh : forall infos i,
  (forall j, In j infos -> ~ (i_vertex j = i_vertex i /\ i_part j = i_part i)) ->
  add_info infos i = Ok (infos ++ [i]).
Proof.
  intros infos i H. unfold add_info. destruct (existsb _ _) eqn:E; [|reflexivity].
  apply existsb_exists in E. destruct E as (j & Hj & E). unfold same_info in E.
  apply andb_true_iff in E. destruct E as [A B]. apply vertex_eqb_spec in A.
  apply Nat.eqb_eq in B. exfalso. now apply (H j).
Qed.

Definition mac_block (fixed : fixed_dict) (ident : nat) (idx nba : N) (nbm : option N)
    (m : nat) (mi : N) (k : km) : Prop :=
  match dget fk_eqb fixed (ident, Mac m) with
  | Some k' => k = k'
  | None => exists nb, nbm = Some nb /\
      k = mkKM (N.shiftl (N.lor (N.shiftl idx nb) mi) nba) (mask_of nba) /\
      N.land (km_key k) (km_mask k) = km_key k
  end.

Lemma alloc_machines_spec : forall fixed ident idx nba nbm mvs mi infos infos',
  alloc_machines fixed ident idx nba nbm mi mvs infos = Ok infos' ->
  exists new, infos' = infos ++ new /\ length new = length mvs /\
    (forall j m, nth_error mvs j = Some m -> exists k,
       nth_error new j = Some (mkInfo (Mac m) ident k (IMac (mi + N.of_nat j))) /\
       mac_block fixed ident idx nba nbm m (mi + N.of_nat j) k).
Proof.
  intros fixed ident idx nba nbm. induction mvs as [|m mvs IH]; intros mi infos infos' H;
    cbn [alloc_machines] in H.
  - inversion H; subst. exists []. rewrite app_nil_r. split; auto. split; auto.
    intros [|j] m E; discriminate.
  - apply bind_Ok_inv in H. destruct H as (k & Hk & H).
    apply bind_Ok_inv in H. destruct H as (infos1 & H1 & H).
    apply add_info_Ok in H1. destruct H1 as [-> _].
    apply IH in H. destruct H as (new & -> & L & G).
    exists (mkInfo (Mac m) ident k (IMac mi) :: new).
    split; [now rewrite <- app_assoc|]. split; [simpl; auto|].
    intros [|j] m' E; simpl in E.
    + inversion E; subst m'. exists k. simpl. rewrite N.add_0_r. split; auto.
      unfold mac_block. destruct (dget fk_eqb fixed (ident, Mac m)) as [k'|].
      * now inversion Hk.
      * destruct nbm as [nb|]; [|discriminate]. apply make_km_Ok in Hk. destruct Hk as [A ->].
        exists nb. simpl. auto.
    + destruct (G j m' E) as (k' & A & B). exists k'. cbn [nth_error].
      replace (mi + N.of_nat (S j)) with (mi + 1 + N.of_nat j) by lia. auto.
Qed.

Lemma insert_lo_perm : forall e m l, Permutation (m :: l) (insert_lo e m l).
Proof.
  intros e m l. induction l as [|x l IH]; simpl; [apply Permutation_refl|].
  destruct (N.leb _ _); [apply Permutation_refl|].
  eapply perm_trans; [apply perm_swap|]. now apply perm_skip.
Qed.

Lemma sort_lo_perm : forall e l, Permutation l (sort_lo e l).
Proof.
  intros e l. induction l as [|x l IH]; simpl; [apply Permutation_refl|].
  eapply perm_trans; [|apply insert_lo_perm]. now apply perm_skip.
Qed.

Lemma sort_lo_In : forall e l m, In m (sort_lo e l) <-> In m l.
Proof.
  intros. split; apply Permutation_in; [apply Permutation_sym|]; apply sort_lo_perm.
Qed.

Lemma sort_lo_length : forall e l, length (sort_lo e l) = length l.
Proof. intros. symmetry. apply Permutation_length, sort_lo_perm. Qed.

Definition app_block (fixed : fixed_dict) (a p : nat) (idx both : N) (k : km) : Prop :=
  match dget fk_eqb fixed (p, App a) with
  | Some k' => k = k'
  | None => k = mkKM (N.shiftl idx both) (mask_of both) /\ N.land (km_key k) (km_mask k) = km_key k
  end.

(** The entries made for one partition with AP index [idx]. *)
Definition part_infos (e : graph_env) (flexible : bool) (fixed : fixed_dict) (z : zones)
    (x : (nat * nat) * N) (new : list info) : Prop :=
  let '((a, p), idx) := x in
  exists bits nba nbm macs k,
    dget ap_eqb (z_bits z) (a, p) = Some bits /\
    field_sizes flexible z bits = (nba, nbm) /\
    new = macs ++ [mkInfo (App a) p k (IApp (mask_of nba) nba
                     (N.of_nat (length (ae_outgoing e a p)) - 1))] /\
    length macs = length (ae_outgoing e a p) /\
    (forall j m, nth_error (sort_lo e (ae_outgoing e a p)) j = Some m -> exists k,
       nth_error macs j = Some (mkInfo (Mac m) p k (IMac (N.of_nat j))) /\
       mac_block fixed p idx nba nbm m (N.of_nat j) k) /\
    app_block fixed a p idx (match nbm with Some nb => nba + nb | None => z_atoms_mac z end) k.

Definition idx_lt (x y : (nat * nat) * N) : Prop := snd x < snd y.

Lemma allocate_loop_spec : forall e flexible fixed z used parts idx infos infos' n,
  NoDup used -> idx <= N.of_nat n + below used idx ->
  allocate_loop e flexible fixed z used parts idx infos = Ok infos' ->
  exists aps news, infos' = infos ++ concat news /\
    map fst aps = filter (nonempty e) parts /\
    StronglySorted idx_lt aps /\
    Forall (fun x => idx <= snd x /\ ~ In (snd x) used /\
                     snd x < N.of_nat (n + length aps) + N.of_nat (length used)) aps /\
    Forall2 (part_infos e flexible fixed z) aps news.
Proof.
  intros e flexible fixed z used parts.
  induction parts as [|[a p] parts IH]; intros idx infos infos' n ND HI H;
    cbn [allocate_loop] in H.
  - inversion H; subst. exists [], []. simpl. rewrite app_nil_r.
    split; [auto|]. split; [auto|]. split; [constructor|]. split; constructor.
  - apply bind_Ok_inv in H. destruct H as (idx1 & Hs & H).
    pose proof (skip_used_count _ _ _ _ ND Hs) as HC.
    apply skip_used_spec in Hs. destruct Hs as (HL & HN & _).
    cbn [filter]. unfold nonempty at 1. cbn [fst snd].
    destruct (ae_outgoing e a p) as [|m0 ms] eqn:EO.
    + apply IH with (n := n) in H; auto; [|lia].
      destruct H as (aps & news & A & B & C & D & F). exists aps, news.
      split; [auto|]. split; [auto|]. split; [auto|]. split; [|auto].
      eapply Forall_impl; [|exact D]. cbv beta. intros x (X1 & X2 & X3). split; [lia|]. auto.
    + apply bind_Ok_inv in H. destruct H as (bits & Hb & H).
      destruct (field_sizes flexible z bits) as [nba nbm] eqn:EF.
      apply bind_Ok_inv in H. destruct H as (infos1 & H1 & H).
      apply alloc_machines_spec in H1. destruct H1 as (macs & -> & LM & GM).
      apply bind_Ok_inv in H. destruct H as (k & Hk & H).
      apply bind_Ok_inv in H. destruct H as (infos2 & H2 & H).
      apply add_info_Ok in H2. destruct H2 as [-> _].
      apply IH with (n := S n) in H; auto.
      2:{ pose proof (below_mono used idx1 (idx1 + 1)). lia. }
      destruct H as (aps & news & A & B & C & D & F).
      exists (((a, p), idx1) :: aps), ((macs ++ [mkInfo (App a) p k (IApp (mask_of nba) nba
                     (N.of_nat (length (sort_lo e (m0 :: ms))) - 1))]) :: news).
      split; [|split; [|split; [|split]]].
      * rewrite A. cbn [concat]. rewrite <- !app_assoc. reflexivity.
      * simpl. now rewrite B.
      * constructor; auto. eapply Forall_impl; [|exact D]. cbv beta. unfold idx_lt. simpl.
        intros x (X1 & _). lia.
      * constructor.
        -- simpl. split; [lia|]. split; [auto|]. pose proof (below_le used idx1). lia.
        -- eapply Forall_impl; [|exact D]. cbv beta. cbn [length].
           intros x (X1 & X2 & X3). split; [lia|]. split; [auto|]. lia.
      * constructor; auto. unfold part_infos. exists bits, nba, nbm, macs, k.
        rewrite EO. split.
        { unfold dgetE in Hb. destruct (dget ap_eqb (z_bits z) (a, p)); congruence. }
        split; [auto|]. split; [now rewrite sort_lo_length|].
        split; [rewrite LM; apply sort_lo_length|]. split.
        -- intros j m E. destruct (GM j m E) as (k' & A1 & B1).
           rewrite N.add_0_l in *. eauto.
        -- unfold app_block. destruct (dget fk_eqb fixed (p, App a)) as [k'|].
           ++ now inversion Hk.
           ++ apply make_km_Ok in Hk. destruct Hk as [X ->]. auto.
Qed.

(** ** Specification vocabulary *)

(** The packet keys of a key and mask. *)
Definition km_matches (k : N) (x : km) : Prop := N.land k (km_mask x) = km_key x.
Definition km_disjoint (x y : km) : Prop :=
  forall k, k < 2 ^ 32 -> ~ (km_matches k x /\ km_matches k y).
(** A key and mask given by the user: built by the [BaseKeyAndMask]
    constructor, on 32 bits. *)
Definition km_ok (x : km) : Prop :=
  km_key x < 2 ^ 32 /\ km_mask x < 2 ^ 32 /\ N.land (km_key x) (km_mask x) = km_key x.

(** A partition whose keys the allocator chooses. *)
Definition free_part (e : graph_env) (parts : list (nat * nat)) (a p : nat) : Prop :=
  In (a, p) parts /\ ae_app_fixed e a p = None.
(** It has one machine vertex, or one of its machine vertices asks for a key. *)
Definition counted (e : graph_env) (a p : nat) : Prop :=
  length (ae_outgoing e a p) = 1%nat \/
  exists m, In m (ae_outgoing e a p) /\ 0 < ae_n_keys e m p.

Definition is_mac (infos : list info) (e : graph_env) (a p m : nat) (i : info) : Prop :=
  In i infos /\ i_vertex i = Mac m /\ i_part i = p /\ In m (ae_outgoing e a p).
Definition is_app (infos : list info) (a p : nat) (i : info) : Prop :=
  In i infos /\ i_vertex i = App a /\ i_part i = p.

(** ** Structure of a successful allocation *)

Definition alloc_shape (flexible : bool) (e : graph_env) (parts : list (nat * nat))
    (infos : list info) (fixed : fixed_dict) (z' : zones) (used : list N)
    (aps : list ((nat * nat) * N)) (news : list (list info)) : Prop :=
  fixed_inv e (ordered_set parts) fixed /\
  check_zones flexible fixed (calculate_zones e fixed (ordered_set parts)) = Ok (z', used) /\
  infos = concat news /\
  map fst aps = filter (nonempty e) (ordered_set parts) /\
  StronglySorted idx_lt aps /\
  Forall (fun x => ~ In (snd x) used /\ snd x < 2 ^ (32 - z_atoms_mac z')) aps /\
  Forall2 (part_infos e flexible fixed z') aps news.

Lemma env_ok_set : forall e parts, env_ok e parts -> env_ok e (ordered_set parts).
Proof.
  intros e parts [A B]. destruct (ordered_set_spec parts) as [_ I]. split.
  - intros a p H. rewrite I in H. now apply A.
  - intros a a' p m H1 H2. rewrite I in H1, H2. now apply B.
Qed.

Lemma nodup_used : forall am fixed, NoDup (fixed_used_of am fixed).
Proof. intros. apply NoDup_nodup. Qed.

Lemma allocate_shape : forall flexible e parts infos a0 p0,
  env_ok e parts -> free_part e parts a0 p0 ->
  allocate flexible e parts = Ok infos ->
  exists fixed z' used aps news, alloc_shape flexible e parts infos fixed z' used aps news.
Proof.
  intros flexible e parts infos a0 p0 EO [F1 F2] H. unfold allocate in H.
  destruct (ordered_set_spec parts) as [ND I].
  apply bind_Ok_inv in H. destruct H as ([fixed allf] & H1 & H).
  apply find_fixed_spec in H1; auto using env_ok_set. destruct H1 as [INV AF].
  apply bind_Ok_inv in H. destruct H as ([z' used] & H2 & H).
  assert (allf = false).
  { subst allf. apply not_true_is_false. intro C. rewrite forallb_forall in C.
    specialize (C (a0, p0)). rewrite I in C. specialize (C F1). simpl in C.
    rewrite F2 in C. discriminate. }
  subst allf. rewrite H0 in H.
  destruct (calculate_zones_spec e fixed (ordered_set parts) ND) as (S & _ & _ & _ & L).
  pose proof (check_zones_spec _ _ _ _ _ S H2) as (EU & _ & _ & _ & LB & _).
  assert (NU : NoDup used) by (rewrite EU; apply nodup_used).
  apply allocate_loop_spec with (n := 0%nat) in H; auto; [|lia].
  destruct H as (aps & news & A & B & C & D & F).
  exists fixed, z', used, aps, news. split; [auto|]. split; [auto|]. split; [auto|].
  split; [auto|]. split; [auto|]. split; [|auto].
  eapply Forall_impl; [|exact D]. cbv beta. intros x (X1 & X2 & X3). split; auto.
  eapply N.lt_le_trans; [exact X3|].
  rewrite <- (map_length fst aps), B, <- L. rewrite Nat.add_0_l. exact LB.
Qed.

Lemma Forall2_In_l : forall {A B} (R : A -> B -> Prop) l l' x, Forall2 R l l' -> In x l ->
  exists y, In y l' /\ R x y.
Proof.
  intros A B R l l' x F. induction F; intros H'; [destruct H'|].
  destruct H' as [<-|H']; [exists y; split; [left|]; auto|].
  destruct (IHF H') as (w & X & Y). exists w. split; [right|]; auto.
Qed.

Lemma Forall2_In_r : forall {A B} (R : A -> B -> Prop) l l' y, Forall2 R l l' -> In y l' ->
  exists x, In x l /\ R x y.
Proof.
  intros A B R l l' y F. induction F; intros H'; [destruct H'|].
  destruct H' as [<-|H']; [exists x; split; [left|]; auto|].
  destruct (IHF H') as (w & X & Y). exists w. split; [right|]; auto.
Qed.

Section Shape.
  Variables (flexible : bool) (e : graph_env) (parts : list (nat * nat)) (infos : list info)
            (fixed : fixed_dict) (z' : zones) (used : list N)
            (aps : list ((nat * nat) * N)) (news : list (list info)).
  Hypothesis EO : env_ok e parts.
  Hypothesis SH : alloc_shape flexible e parts infos fixed z' used aps news.

  Let z := calculate_zones e fixed (ordered_set parts).

  Lemma sh_zones : zones_sane z /\
    used = fixed_used_of (z_atoms_mac z) fixed /\
    z_bits z' = z_bits z /\ z_atoms_mac z <= z_atoms_mac z' /\ z_atoms_mac z' <= 32 /\
    (flexible = true -> z' = z) /\
    (flexible = false -> z_machine z' = z_machine z /\ z_atoms z' + z_machine z' = z_atoms_mac z' /\
     z_atoms z' <= z_atoms z /\
     (z_machine z + z_atoms z = z_atoms_mac z -> z_atoms_mac z' = z_atoms_mac z)).
  Proof.
    destruct SH as (_ & CZ & _). destruct (ordered_set_spec parts) as [ND I].
    destruct (calculate_zones_spec e fixed (ordered_set parts) ND) as (S & _).
    pose proof (check_zones_spec _ _ _ _ _ S CZ) as (A & B & C & D & _ & F & G).
    split; [exact S|]. split; [exact A|]. split; [exact B|]. split; [exact C|].
    split; [exact D|]. split; [exact F|exact G].
  Qed.

  Lemma sh_am32 : z_atoms_mac z' <= 32.
  Proof. apply sh_zones. Qed.

  Lemma sh_sum : flexible = false -> z_atoms z' + z_machine z' = z_atoms_mac z'.
  Proof. intros H. destruct sh_zones as (_ & _ & _ & _ & _ & _ & G). now apply G. Qed.

  Lemma sh_in_parts : forall a p idx, In ((a, p), idx) aps ->
    In (a, p) parts /\ ae_outgoing e a p <> [].
  Proof.
    intros a p idx H. destruct SH as (_ & _ & _ & M & _).
    assert (H1 : In (a, p) (map fst aps)) by (change (a, p) with (fst ((a, p), idx)); now apply in_map).
    rewrite M in H1. apply filter_In in H1. destruct H1 as [H1 H2].
    split; [now apply ordered_set_spec|]. unfold nonempty in H2. simpl in H2.
    destruct (ae_outgoing e a p); congruence.
  Qed.

  Lemma sh_index : forall a p, In (a, p) parts -> ae_outgoing e a p <> [] ->
    exists idx, In ((a, p), idx) aps.
  Proof.
    intros a p H1 H2. destruct SH as (_ & _ & _ & M & _).
    assert (H : In (a, p) (map fst aps)).
    { rewrite M. apply filter_In. split; [now apply ordered_set_spec|].
      unfold nonempty. simpl. destruct (ae_outgoing e a p); congruence. }
    apply in_map_iff in H. destruct H as ([[a' p'] idx] & E & H). simpl in E.
    inversion E; subst. eauto.
  Qed.

  (** Different partitions have different indexes and conversely. *)
  Lemma sh_index_inj : forall x y, In x aps -> In y aps -> snd x = snd y -> x = y.
  Proof.
    destruct SH as (_ & _ & _ & _ & SS & _). clear - SS.
    induction SS as [|x0 l S1 IH F]; [intros x y []|].
    rewrite Forall_forall in F.
    intros x y [->|Hx] [->|Hy] E; auto.
    - apply F in Hy. unfold idx_lt in Hy. lia.
    - apply F in Hx. unfold idx_lt in Hx. lia.
  Qed.

  Lemma sh_index_fun : forall ap i j, In (ap, i) aps -> In (ap, j) aps -> i = j.
  Proof.
    intros ap i j Hi Hj.
    assert (ND : NoDup (map fst aps)).
    { destruct SH as (_ & _ & _ & M & _). rewrite M. apply NoDup_filter, ordered_set_spec. }
    clear - ND Hi Hj. induction aps as [|[b k] l IH]; [destruct Hi|].
    simpl in ND. inversion ND as [|? ? N1 N2]; subst.
    destruct Hi as [E|Hi], Hj as [E'|Hj].
    - congruence.
    - inversion E; subst. exfalso. apply N1. change ap with (fst (ap, j)). now apply in_map.
    - inversion E'; subst. exfalso. apply N1. change ap with (fst (ap, i)). now apply in_map.
    - auto.
  Qed.

  Lemma sh_index_bound : forall a p idx, In ((a, p), idx) aps ->
    ~ In idx used /\ idx < 2 ^ (32 - z_atoms_mac z').
  Proof.
    intros a p idx H. destruct SH as (_ & _ & _ & _ & _ & F & _).
    rewrite Forall_forall in F. now apply F in H.
  Qed.

  Lemma sh_bits : forall a p, In (a, p) parts -> ae_outgoing e a p <> [] ->
    dget ap_eqb (z_bits z') (a, p) = Some (atom_bits e a p).
  Proof.
    intros a p H1 H2. destruct sh_zones as (_ & _ & -> & _).
    destruct (ordered_set_spec parts) as [ND I].
    apply (calculate_zones_spec e fixed (ordered_set parts) ND); auto. now apply I.
  Qed.

  Lemma sh_info : forall i, In i infos -> exists a p idx new,
    In ((a, p), idx) aps /\ In i new /\ part_infos e flexible fixed z' ((a, p), idx) new.
  Proof.
    intros i H. destruct SH as (_ & _ & E & _ & _ & _ & F). rewrite E in H.
    apply in_concat in H. destruct H as (new & Hn & Hi).
    destruct (Forall2_In_r _ _ _ _ F Hn) as ([[a p] idx] & H1 & H2).
    exists a, p, idx, new. auto.
  Qed.

  Lemma sh_mac : forall a p m i, In (a, p) parts -> is_mac infos e a p m i ->
    exists idx nba nbm j,
      In ((a, p), idx) aps /\ field_sizes flexible z' (atom_bits e a p) = (nba, nbm) /\
      nth_error (sort_lo e (ae_outgoing e a p)) j = Some m /\
      i_extra i = IMac (N.of_nat j) /\
      mac_block fixed p idx nba nbm m (N.of_nat j) (i_km i).
  Proof.
    intros a p m i Hin (Hi & Hv & Hp & Hm).
    destruct (sh_info i Hi) as (a' & p' & idx & new & Ha & Hn & PI).
    destruct (sh_in_parts _ _ _ Ha) as [Hin' Hne].
    destruct PI as (bits & nba & nbm & macs & k & Hb & HF & -> & LM & GM & _).
    rewrite sh_bits in Hb by auto. inversion Hb; subst bits.
    apply in_app_iff in Hn. destruct Hn as [Hn|[<-|[]]]; [|discriminate Hv].
    apply In_nth_error in Hn. destruct Hn as [j Hj].
    assert (Lj : (j < length macs)%nat) by (apply nth_error_Some; congruence).
    destruct (nth_error (sort_lo e (ae_outgoing e a' p')) j) as [m'|] eqn:EM.
    2:{ apply nth_error_None in EM. rewrite sort_lo_length in EM. lia. }
    destruct (GM j m' EM) as (k' & A & B). rewrite Hj in A. inversion A; subst i.
    simpl in Hv, Hp. inversion Hv; subst m' p'.
    assert (a' = a).
    { apply (proj2 EO a' a p m); auto. apply nth_error_In in EM. now apply sort_lo_In in EM. }
    subst a'. exists idx, nba, nbm, j. simpl. auto.
  Qed.

  Lemma sh_app : forall a p i, is_app infos a p i ->
    exists idx nba nbm,
      In ((a, p), idx) aps /\ field_sizes flexible z' (atom_bits e a p) = (nba, nbm) /\
      i_extra i = IApp (mask_of nba) nba (N.of_nat (length (ae_outgoing e a p)) - 1) /\
      app_block fixed a p idx (z_atoms_mac z') (i_km i).
  Proof.
    intros a p i (Hi & Hv & Hp).
    destruct (sh_info i Hi) as (a' & p' & idx & new & Ha & Hn & PI).
    destruct (sh_in_parts _ _ _ Ha) as [Hin' Hne].
    destruct PI as (bits & nba & nbm & macs & k & Hb & HF & -> & LM & GM & AB).
    rewrite sh_bits in Hb by auto. inversion Hb; subst bits.
    rewrite (field_sizes_sum _ _ _ _ _ sh_sum HF) in AB.
    apply in_app_iff in Hn. destruct Hn as [Hn|[<-|[]]].
    - exfalso. apply In_nth_error in Hn. destruct Hn as [j Hj].
      assert (Lj : (j < length macs)%nat) by (apply nth_error_Some; congruence).
      destruct (nth_error (sort_lo e (ae_outgoing e a' p')) j) as [m'|] eqn:EM.
      + destruct (GM j m' EM) as (k' & A & B). rewrite Hj in A. inversion A; subst i. discriminate.
      + apply nth_error_None in EM. rewrite sort_lo_length in EM. lia.
    - simpl in *. inversion Hv; subst a' p'. exists idx, nba, nbm. auto.
  Qed.

  Lemma sh_mac_exists : forall a p m, In (a, p) parts -> In m (ae_outgoing e a p) ->
    exists i, is_mac infos e a p m i.
  Proof.
    intros a p m Hin Hm.
    assert (NE : ae_outgoing e a p <> []) by (intro C; rewrite C in Hm; destruct Hm).
    destruct (sh_index a p Hin NE) as [idx Hi].
    destruct SH as (_ & _ & E & _ & _ & _ & F).
    destruct (Forall2_In_l _ _ _ _ F Hi) as (new & Hn & PI).
    destruct PI as (bits & nba & nbm & macs & k & Hb & HF & EN & LM & GM & AB).
    apply (sort_lo_In e) in Hm. apply In_nth_error in Hm. destruct Hm as [j Hj].
    destruct (GM j m Hj) as (k' & A & B).
    exists (mkInfo (Mac m) p k' (IMac (N.of_nat j))).
    split; [|split; [reflexivity|split; [reflexivity|]]].
    - rewrite E. apply in_concat. exists new. split; auto. rewrite EN. apply in_app_iff. left.
      eapply nth_error_In. exact A.
    - apply nth_error_In in Hj. now apply sort_lo_In in Hj.
  Qed.

  Lemma sh_app_exists : forall a p, In (a, p) parts -> ae_outgoing e a p <> [] ->
    exists i, is_app infos a p i.
  Proof.
    intros a p Hin NE.
    destruct (sh_index a p Hin NE) as [idx Hi].
    destruct SH as (_ & _ & E & _ & _ & _ & F).
    destruct (Forall2_In_l _ _ _ _ F Hi) as (new & Hn & PI).
    destruct PI as (bits & nba & nbm & macs & k & Hb & HF & EN & LM & GM & AB).
    exists (mkInfo (App a) p k (IApp (mask_of nba) nba
              (N.of_nat (length (ae_outgoing e a p)) - 1))).
    split; [|split; reflexivity].
    rewrite E. apply in_concat. exists new. split; auto. rewrite EN. apply in_app_iff. right.
    left. reflexivity.
  Qed.

  Lemma sh_fixed_app : forall a p, In (a, p) parts ->
    dget fk_eqb fixed (p, App a) = ae_app_fixed e a p.
  Proof.
    intros a p H. destruct SH as ((I1 & _) & _). rewrite I1.
    rewrite (proj2 (existsb_ap _ _)); auto. now apply ordered_set_spec.
  Qed.

  Lemma sh_fixed_mac : forall a p m, In (a, p) parts -> In m (ae_outgoing e a p) ->
    dget fk_eqb fixed (p, Mac m) = mac_key e a p m.
  Proof.
    intros a p m H Hm. destruct SH as ((_ & I2 & _) & _). apply I2; auto.
    now apply ordered_set_spec.
  Qed.

  (** Application keys chosen by the allocator. *)
  Lemma sh_free_app : forall a p i, free_part e parts a p -> is_app infos a p i ->
    exists idx, In ((a, p), idx) aps /\
      i_km i = mkKM (N.shiftl idx (z_atoms_mac z')) (mask_of (z_atoms_mac z')) /\
      (forall k, k < 2 ^ 32 -> (km_matches k (i_km i) <-> N.shiftr k (z_atoms_mac z') = idx)).
  Proof.
    intros a p i [F1 F2] Hi. destruct (sh_app a p i Hi) as (idx & nba & nbm & A & B & C & D).
    exists idx. split; [auto|].
    unfold app_block in D. rewrite sh_fixed_app, F2 in D by auto. destruct D as [D _].
    split; [auto|]. intros k Hk. unfold km_matches. rewrite D. simpl.
    apply block_match; auto using sh_am32.
  Qed.

  (** Machine keys chosen by the allocator. *)
  Lemma sh_fields : forall a p nba nbm, free_part e parts a p -> counted e a p ->
    field_sizes flexible z' (atom_bits e a p) = (nba, nbm) ->
    exists nb, nbm = Some nb /\ nba + nb = z_atoms_mac z' /\ atom_bits e a p <= nba /\
      N.of_nat (length (ae_outgoing e a p)) <= 2 ^ nb.
  Proof.
    intros a p nba nbm [F1 F2] HC HF.
    pose proof (field_sizes_sum _ _ _ _ _ sh_sum HF) as SUM.
    destruct sh_zones as (S & _ & _ & LE & L32 & HT & HFl).
    destruct (ordered_set_spec parts) as [ND I].
    assert (SZ : 0 < max_keys e a p ->
      atom_bits e a p <= z_atoms z /\ mach_bits e a p <= z_machine z /\
      mach_bits e a p + atom_bits e a p <= z_atoms_mac z).
    { intros Hk. apply (calculate_zones_spec e fixed (ordered_set parts) ND).
      - now apply I.
      - split; auto. now rewrite sh_fixed_app. }
    assert (CASE : 0 < max_keys e a p \/
      (max_keys e a p = 0 /\ length (ae_outgoing e a p) = 1%nat)).
    { destruct (N.eq_dec (max_keys e a p) 0) as [E0|]; [|left; lia].
      destruct HC as [|(m & Hm & Hk)]; [auto|].
      pose proof (max_keys_le e a p m Hm). lia. }
    assert (LEN : forall b, mach_bits e a p <= b -> N.of_nat (length (ae_outgoing e a p)) <= 2 ^ b).
    { intros b Hb. now apply allocator_bits_least. }
    assert (Z0 : max_keys e a p = 0 -> atom_bits e a p = 0).
    { intros E0. unfold atom_bits. now rewrite E0. }
    assert (ONE : forall b, length (ae_outgoing e a p) = 1%nat ->
                       N.of_nat (length (ae_outgoing e a p)) <= 2 ^ b).
    { intros b E1. rewrite E1. pose proof (pow2_pos b). simpl. lia. }
    unfold field_sizes in HF.
    destruct flexible.
    - rewrite (HT eq_refl) in *. 
      destruct (N.ltb_spec (z_atoms_mac z) (atom_bits e a p)).
      { exfalso. destruct CASE as [Hk|[E0 _]]; [apply SZ in Hk; lia|]. rewrite (Z0 E0) in *. lia. }
      assert (E1 : nba = atom_bits e a p) by congruence.
      assert (E2 : nbm = Some (z_atoms_mac z - atom_bits e a p)) by congruence.
      clear HF. subst nba nbm.
      exists (z_atoms_mac z - atom_bits e a p). split; [auto|]. split; [lia|]. split; [lia|].
      destruct CASE as [Hk|[E0 E1]]; [apply SZ in Hk; apply LEN; lia|]. now apply ONE.
    - destruct (HFl eq_refl) as (M1 & M2 & M3 & _).
      destruct (N.leb_spec (atom_bits e a p) (z_atoms z')).
      + inversion HF; subst. exists (z_machine z'). split; [auto|]. split; [lia|]. split; [lia|].
        destruct CASE as [Hk|[E0 E1]]; [apply SZ in Hk; apply LEN; lia|]. now apply ONE.
      + destruct CASE as [Hk|[E0 E1]]; [|rewrite (Z0 E0) in *; lia].
        apply SZ in Hk.
        destruct (N.ltb_spec (z_atoms_mac z') (atom_bits e a p)); [lia|].
        assert (E1 : nba = atom_bits e a p) by congruence.
        assert (E2 : nbm = Some (z_atoms_mac z' - atom_bits e a p)) by congruence.
        clear HF. subst nba nbm.
        exists (z_atoms_mac z' - atom_bits e a p). split; [auto|]. split; [lia|].
        split; [lia|]. apply LEN. lia.
  Qed.

  Lemma sh_free_mac : forall a p m i, free_part e parts a p -> counted e a p ->
    is_mac infos e a p m i ->
    exists idx j nba nb, In ((a, p), idx) aps /\
      nth_error (sort_lo e (ae_outgoing e a p)) j = Some m /\
      nba + nb = z_atoms_mac z' /\ ae_n_keys e m p <= 2 ^ nba /\ N.of_nat j < 2 ^ nb /\
      field_sizes flexible z' (atom_bits e a p) = (nba, Some nb) /\
      i_extra i = IMac (N.of_nat j) /\
      i_km i = mkKM (N.shiftl (N.lor (N.shiftl idx nb) (N.of_nat j)) nba) (mask_of nba) /\
      (forall k, k < 2 ^ 32 -> (km_matches k (i_km i) <->
                                N.shiftr k nba = N.lor (N.shiftl idx nb) (N.of_nat j))).
  Proof.
    intros a p m i HF HC Hi. destruct HF as [F1 F2].
    destruct (sh_mac a p m i F1 Hi) as (idx & nba & nbm & j & A & B & C & X & D).
    destruct Hi as (_ & _ & _ & Hm).
    destruct (sh_fields a p nba nbm (conj F1 F2) HC B) as (nb & -> & SUM & AB & LEN).
    exists idx, j, nba, nb.
    assert (Lj : (j < length (ae_outgoing e a p))%nat).
    { rewrite <- (sort_lo_length e). apply nth_error_Some. congruence. }
    unfold mac_block in D. rewrite (sh_fixed_mac a p m F1 Hm) in D. unfold mac_key in D.
    rewrite F2 in D. destruct D as (nb' & E & D & _). inversion E; subst nb'.
    split; [auto|]. split; [auto|]. split; [auto|]. split.
    { eapply N.le_trans; [apply (max_keys_le e a p m Hm)|].
      apply allocator_bits_least. exact AB. }
    split; [lia|]. split; [auto|]. split; [auto|]. split; [auto|].
    intros k Hk. unfold km_matches. rewrite D. simpl. apply block_match; auto.
    pose proof sh_am32. lia.
  Qed.

  (** The fixed keys block their AP indexes. *)
  Lemma used_blocks : forall x q, dget fk_eqb fixed q = Some x -> km_ok x ->
    forall k, k < 2 ^ 32 -> km_matches k x -> In (N.shiftr k (z_atoms_mac z)) used.
  Proof.
    intros x q Hq (K1 & K2 & K3) k Hk Hm.
    destruct sh_zones as (_ & EU & _ & LE & L32 & _). rewrite EU.
    set (am := z_atoms_mac z) in *. assert (A32 : am <= 32) by lia.
    unfold fixed_used_of. apply nodup_In. apply in_flat_map.
    exists (q, x). split; [now apply (dget_In _ fk_eqb_spec)|]. cbn [snd].
    set (mask := N.lor (N.shiftr (km_mask x) am) (N.shiftl (N.shiftl 1 am - 1) (32 - am))).
    assert (HB : forall i, N.testbit mask i =
              (N.testbit (km_mask x) (i + am) || ((32 - am <=? i) && (i <? 32)))%bool).
    { intro i. unfold mask. rewrite N.lor_spec, N.shiftr_spec'. f_equal.
      rewrite N.shiftl_1_l.
      assert (E : 2 ^ am - 1 = N.ones am) by (rewrite N.ones_equiv, N.sub_1_r; reflexivity).
      rewrite E. destruct (N.leb_spec (32 - am) i).
      - rewrite N.shiftl_spec_high' by auto. cbn [andb]. destruct (N.ltb_spec i 32).
        + apply N.ones_spec_low. lia.
        + apply N.ones_spec_high. lia.
      - cbn [andb]. now apply N.shiftl_spec_low. }
    assert (ML : mask < 2 ^ 32).
    { apply lt_pow2_bits. intros i Hi. rewrite HB. destruct (N.ltb_spec i 32); [lia|].
      rewrite andb_false_r, orb_false_r. apply testbit_high; auto. lia. }
    assert (KL : forall y, y < 2 ^ 32 -> N.shiftr y am < 2 ^ 32).
    { intros y Hy. eapply N.le_lt_trans; [|exact Hy]. rewrite N.shiftr_div_pow2.
      apply N.div_le_upper_bound; [pose proof (pow2_pos am); lia|].
      pose proof (pow2_pos am). nia. }
    assert (LAND : forall y, y < 2 ^ 32 ->
      N.land (N.shiftr y am) mask = N.shiftr (N.land y (km_mask x)) am).
    { intros y Hy. apply N.bits_inj. intro i.
      rewrite N.land_spec, HB, !N.shiftr_spec', N.land_spec.
      destruct (N.leb_spec (32 - am) i); cbn [andb].
      - rewrite (testbit_high y) by (auto; lia). reflexivity.
      - now rewrite orb_false_r. }
    assert (R : exists b n, In (b, n) (get_key_ranges (N.shiftr (km_key x) am) mask) /\
                            b <= N.shiftr k am < b + n).
    { apply ranges_exact; auto.
      - rewrite LAND by auto. now rewrite K3.
      - rewrite LAND by auto. unfold km_matches in Hm. now rewrite Hm. }
    destruct R as (b & n & Hbn & Hr). apply in_flat_map. exists (b, n). split; [exact Hbn|].
    unfold key_range. cbn [fst snd]. apply in_map_iff. exists (N.shiftr k am - b).
    split; [lia|]. apply nrange_In. lia.
  Qed.

  (** One partition is largest on both counts. *)
  Definition one_largest : Prop := exists a0 p0, free_part e parts a0 p0 /\
    forall a p m, free_part e parts a p -> In m (ae_outgoing e a p) -> 0 < ae_n_keys e m p ->
      (exists m0, In m0 (ae_outgoing e a0 p0) /\ ae_n_keys e m p <= ae_n_keys e m0 p0) /\
      (length (ae_outgoing e a p) <= length (ae_outgoing e a0 p0))%nat.

  Lemma sh_same_width : flexible = true \/ one_largest -> z_atoms_mac z' = z_atoms_mac z.
  Proof.
    destruct sh_zones as (S & _ & _ & LE & L32 & HT & HFl).
    intros [HH|(a0 & p0 & [F1 F2] & HB0)]; [now rewrite HT|].
    assert (HB : forall a p, free_part e parts a p -> 0 < max_keys e a p ->
      0 < max_keys e a0 p0 /\ max_keys e a p <= max_keys e a0 p0 /\
      (length (ae_outgoing e a p) <= length (ae_outgoing e a0 p0))%nat).
    { intros a p Hf Hk. destruct (max_keys_attained e a p Hk) as (m & Hm & Em). rewrite <- Em in *.
      destruct (HB0 a p m Hf Hm Hk) as [(m0 & Hm0 & L0) Hl].
      pose proof (max_keys_le e a0 p0 m0 Hm0). split; [lia|]. split; [lia|exact Hl]. }
    assert (flexible = true \/ flexible = false) as [Ef|Ef] by (destruct flexible; auto);
      [now rewrite HT|].
    apply HFl; auto.
    destruct (ordered_set_spec parts) as [ND I].
    destruct (calculate_zones_spec e fixed (ordered_set parts) ND) as (_ & B & U & _).
    fold z in B, U.
    assert (MONO : forall x y, x <= y -> allocator_bits_needed x <= allocator_bits_needed y).
    { intros x y Hxy. apply allocator_bits_least. eapply N.le_trans; [exact Hxy|].
      apply allocator_bits_least. lia. }
    assert (SF : forall a p, In (a, p) (ordered_set parts) -> sized e fixed a p ->
                 free_part e parts a p /\ 0 < max_keys e a p).
    { intros a p Hin [Hk Hf]. apply I in Hin. split; auto. split; auto.
      now rewrite sh_fixed_app in Hf. }
    destruct (N.eq_dec (max_keys e a0 p0) 0) as [E0|E0].
    - (* nothing is counted *)
      destruct (U 0 0 0) as (U1 & U2 & U3); [|lia].
      intros a p Hin Hs. exfalso. destruct (SF a p Hin Hs) as [Hf Hk].
      destruct (HB a p Hf Hk). lia.
    - destruct (U (atom_bits e a0 p0) (mach_bits e a0 p0)
                  (mach_bits e a0 p0 + atom_bits e a0 p0)) as (U1 & U2 & U3).
      + intros a p Hin Hs. destruct (SF a p Hin Hs) as [Hf Hk].
        destruct (HB a p Hf Hk) as (_ & H1 & H2).
        assert (atom_bits e a p <= atom_bits e a0 p0) by (apply MONO; auto).
        assert (mach_bits e a p <= mach_bits e a0 p0) by (apply MONO; lia).
        lia.
      + destruct (B a0 p0) as (B1 & B2 & B3).
        * now apply I.
        * split; [lia|]. now rewrite sh_fixed_app.
        * destruct S as (S1 & S2 & S3). lia.
  Qed.
End Shape.

(** ** Results *)

Lemma alloc_machine_block : forall flexible e parts infos a p m,
  env_ok e parts -> allocate flexible e parts = Ok infos ->
  free_part e parts a p -> counted e a p -> In m (ae_outgoing e a p) ->
  exists i j b, is_mac infos e a p m i /\ is_app infos a p j /\ b <= 32 /\
    ae_n_keys e m p <= 2 ^ b /\
    N.modulo (km_key (i_km i)) (2 ^ b) = 0 /\ km_key (i_km i) + 2 ^ b <= 2 ^ 32 /\
    (forall k, k < 2 ^ 32 ->
       (km_matches k (i_km i) <-> km_key (i_km i) <= k < km_key (i_km i) + 2 ^ b)) /\
    (forall k, k < 2 ^ 32 -> km_matches k (i_km i) -> km_matches k (i_km j)).
Proof.
  intros flexible e parts infos a p m EO H HF HC Hm.
  destruct (allocate_shape _ _ _ _ _ _ EO HF H) as (fixed & z' & used & aps & news & SH).
  assert (NE : ae_outgoing e a p <> []) by (intro C; rewrite C in Hm; destruct Hm).
  destruct (sh_mac_exists _ _ _ _ _ _ _ _ _ SH a p m (proj1 HF) Hm) as [i Hi].
  destruct (sh_app_exists _ _ _ _ _ _ _ _ _ SH a p (proj1 HF) NE) as [j Hj].
  destruct (sh_free_mac _ _ _ _ _ _ _ _ _ EO SH a p m i HF HC Hi)
    as (idx & x & nba & nb & I1 & I2 & I3 & I4 & I5 & _ & _ & EK & M).
  destruct (sh_free_app _ _ _ _ _ _ _ _ _ SH a p j HF Hj) as (idx' & J1 & _ & MJ).
  assert (idx' = idx) by (eapply sh_index_fun; eauto). subst idx'.
  destruct (sh_index_bound _ _ _ _ _ _ _ _ _ SH a p idx I1) as [_ IB].
  pose proof (sh_am32 _ _ _ _ _ _ _ _ _ SH) as A32.
  exists i, j, nba. split; [auto|]. split; [auto|]. split; [lia|]. split; [auto|].
  assert (KB : N.lor (N.shiftl idx nb) (N.of_nat x) < 2 ^ (32 - nba)).
  { rewrite lor_shiftl_add by auto.
    assert (E : 2 ^ (32 - nba) = 2 ^ (32 - z_atoms_mac z') * 2 ^ nb)
      by (rewrite <- N.pow_add_r; f_equal; lia).
    rewrite E. pose proof (pow2_pos nb). nia. }
  rewrite EK in *. cbn [km_key] in *. split; [|split; [|split]].
  - rewrite N.shiftl_mul_pow2. apply N.mod_mul. pose proof (pow2_pos nba). lia.
  - rewrite N.shiftl_mul_pow2.
    assert (E : 2 ^ 32 = 2 ^ (32 - nba) * 2 ^ nba) by (rewrite <- N.pow_add_r; f_equal; lia).
    rewrite E. pose proof (pow2_pos nba). nia.
  - intros k Hk. rewrite (M k Hk). apply block_range.
  - intros k Hk Hmk. apply (MJ k Hk). apply (M k Hk) in Hmk.
    replace (z_atoms_mac z') with (nba + nb) by auto.
    rewrite <- N.shiftr_shiftr, Hmk. now apply field_high.
Qed.

Lemma alloc_machines_disjoint : forall flexible e parts infos a p m i a' p' m' i',
  env_ok e parts -> allocate flexible e parts = Ok infos ->
  free_part e parts a p -> counted e a p -> is_mac infos e a p m i ->
  free_part e parts a' p' -> counted e a' p' -> is_mac infos e a' p' m' i' ->
  (m, p) <> (m', p') -> km_disjoint (i_km i) (i_km i').
Proof.
  intros flexible e parts infos a p m i a' p' m' i' EO H HF HC Hi HF' HC' Hi' NEQ k Hk [M1 M2].
  destruct (allocate_shape _ _ _ _ _ _ EO HF H) as (fixed & z' & used & aps & news & SH).
  destruct (sh_free_mac _ _ _ _ _ _ _ _ _ EO SH a p m i HF HC Hi)
    as (idx & x & nba & nb & I1 & I2 & I3 & I4 & I5 & IF & _ & _ & M).
  destruct (sh_free_mac _ _ _ _ _ _ _ _ _ EO SH a' p' m' i' HF' HC' Hi')
    as (idx' & x' & nba' & nb' & J1 & J2 & J3 & J4 & J5 & JF & _ & _ & M').
  apply (M k Hk) in M1. apply (M' k Hk) in M2.
  assert (A : N.shiftr k (z_atoms_mac z') = idx).
  { rewrite <- I3, <- N.shiftr_shiftr, M1. now apply field_high. }
  assert (A' : N.shiftr k (z_atoms_mac z') = idx').
  { rewrite <- J3, <- N.shiftr_shiftr, M2. now apply field_high. }
  assert (E : ((a, p), idx) = ((a', p'), idx')).
  { eapply sh_index_inj; eauto. simpl. congruence. }
  inversion E; subst a' p' idx'. rewrite IF in JF. inversion JF; subst nba' nb'.
  rewrite M1 in M2. apply field_inj in M2; auto. destruct M2 as [_ M2].
  assert (x = x') by lia. subst x'. apply NEQ. congruence.
Qed.

Lemma alloc_apps_disjoint : forall flexible e parts infos a p i a' p' i',
  env_ok e parts -> allocate flexible e parts = Ok infos ->
  free_part e parts a p -> is_app infos a p i ->
  free_part e parts a' p' -> is_app infos a' p' i' ->
  (a, p) <> (a', p') -> km_disjoint (i_km i) (i_km i').
Proof.
  intros flexible e parts infos a p i a' p' i' EO H HF Hi HF' Hi' NEQ k Hk [M1 M2].
  destruct (allocate_shape _ _ _ _ _ _ EO HF H) as (fixed & z' & used & aps & news & SH).
  destruct (sh_free_app _ _ _ _ _ _ _ _ _ SH a p i HF Hi) as (idx & I1 & _ & M).
  destruct (sh_free_app _ _ _ _ _ _ _ _ _ SH a' p' i' HF' Hi') as (idx' & J1 & _ & M').
  apply (M k Hk) in M1. apply (M' k Hk) in M2.
  assert (E : ((a, p), idx) = ((a', p'), idx')).
  { eapply sh_index_inj; eauto. simpl. congruence. }
  congruence.
Qed.

(** A key fixed by the user for a partition or one of its machine vertices. *)
Definition user_key (e : graph_env) (parts : list (nat * nat)) (x : km) : Prop :=
  exists a p, In (a, p) parts /\
    (ae_app_fixed e a p = Some x \/
     exists m, In m (ae_outgoing e a p) /\ ae_mac_fixed e a m p = Some x).

Lemma alloc_avoids_fixed_app : forall flexible e parts infos a p i x,
  env_ok e parts -> allocate flexible e parts = Ok infos ->
  flexible = true \/ one_largest e parts ->
  free_part e parts a p -> is_app infos a p i ->
  user_key e parts x -> km_ok x -> km_disjoint (i_km i) x.
Proof.
  intros flexible e parts infos a p i x EO H HM HF Hi HX OK k Hk [M1 M2].
  destruct (allocate_shape _ _ _ _ _ _ EO HF H) as (fixed & z' & used & aps & news & SH).
  destruct (sh_free_app _ _ _ _ _ _ _ _ _ SH a p i HF Hi) as (idx & I1 & _ & M).
  apply (M k Hk) in M1.
  assert (E : exists q, dget fk_eqb fixed q = Some x).
  { destruct HX as (a1 & p1 & Hin & [Ha|(m & Hm & Ha)]).
    - exists (p1, App a1). rewrite (sh_fixed_app _ _ _ _ _ _ _ _ _ SH) by auto. exact Ha.
    - exists (p1, Mac m). rewrite (sh_fixed_mac _ _ _ _ _ _ _ _ _ SH a1) by auto.
      unfold mac_key. destruct (ae_app_fixed e a1 p1) eqn:EA; [now rewrite Ha|].
      destruct SH as ((_ & _ & _ & I4) & _). specialize (I4 a1 p1).
      rewrite I4 in Ha; [discriminate| |assumption|assumption].
      now apply ordered_set_spec. }
  destruct E as [q Hq].
  pose proof (used_blocks _ _ _ _ _ _ _ _ _ SH x q Hq OK k Hk M2) as U.
  rewrite <- (sh_same_width _ _ _ _ _ _ _ _ _ SH HM) in U. rewrite M1 in U.
  destruct (sh_index_bound _ _ _ _ _ _ _ _ _ SH a p idx I1). contradiction.
Qed.

Lemma alloc_avoids_fixed_mac : forall flexible e parts infos a p m i x,
  env_ok e parts -> allocate flexible e parts = Ok infos ->
  flexible = true \/ one_largest e parts ->
  free_part e parts a p -> counted e a p -> is_mac infos e a p m i ->
  user_key e parts x -> km_ok x -> km_disjoint (i_km i) x.
Proof.
  intros flexible e parts infos a p m i x EO H HM HF HC Hi HX OK k Hk [M1 M2].
  destruct (allocate_shape _ _ _ _ _ _ EO HF H) as (fixed & z' & used & aps & news & SH).
  assert (Hm : In m (ae_outgoing e a p)) by apply Hi.
  assert (NE : ae_outgoing e a p <> []) by (intro C; rewrite C in Hm; destruct Hm).
  destruct (sh_app_exists _ _ _ _ _ _ _ _ _ SH a p (proj1 HF) NE) as [j Hj].
  destruct (sh_free_mac _ _ _ _ _ _ _ _ _ EO SH a p m i HF HC Hi)
    as (idx & y & nba & nb & I1 & I2 & I3 & I4 & I5 & _ & _ & EK & M).
  destruct (sh_free_app _ _ _ _ _ _ _ _ _ SH a p j HF Hj) as (idx' & J1 & _ & MJ).
  assert (idx' = idx) by (eapply sh_index_fun; eauto). subst idx'.
  apply (alloc_avoids_fixed_app flexible e parts infos a p j x EO H HM HF Hj HX OK k Hk).
  split; auto. apply (MJ k Hk). apply (M k Hk) in M1.
  rewrite <- I3, <- N.shiftr_shiftr, M1. now apply field_high.
Qed.

(** Every (vertex, partition) has at most one entry. *)
Definition info_id (i : info) : vertex * nat := (i_vertex i, i_part i).

Lemma add_info_NoDup : forall infos i infos', add_info infos i = Ok infos' ->
  NoDup (map info_id infos) -> NoDup (map info_id infos').
Proof.
  intros infos i infos' H ND. apply add_info_Ok in H. destruct H as [-> HN].
  rewrite map_app. apply NoDup_snoc; auto. intro C. apply in_map_iff in C.
  destruct C as (j & E & Hj). unfold info_id in E. inversion E. now apply (HN j).
Qed.

Lemma alloc_machines_NoDup : forall fixed ident idx nba nbm mvs mi infos infos',
  alloc_machines fixed ident idx nba nbm mi mvs infos = Ok infos' ->
  NoDup (map info_id infos) -> NoDup (map info_id infos').
Proof.
  intros fixed ident idx nba nbm. induction mvs as [|m mvs IH]; intros mi infos infos' H ND;
    cbn [alloc_machines] in H.
  - now inversion H; subst.
  - apply bind_Ok_inv in H. destruct H as (k & Hk & H).
    apply bind_Ok_inv in H. destruct H as (infos1 & H1 & H).
    eapply IH; eauto. eapply add_info_NoDup; eauto.
Qed.

Lemma allocate_loop_NoDup : forall e flexible fixed z used parts idx infos infos',
  allocate_loop e flexible fixed z used parts idx infos = Ok infos' ->
  NoDup (map info_id infos) -> NoDup (map info_id infos').
Proof.
  intros e flexible fixed z used parts.
  induction parts as [|[a p] parts IH]; intros idx infos infos' H ND; cbn [allocate_loop] in H.
  - now inversion H; subst.
  - apply bind_Ok_inv in H. destruct H as (idx1 & Hs & H).
    destruct (ae_outgoing e a p) as [|m0 ms]; [eapply IH; eauto|].
    apply bind_Ok_inv in H. destruct H as (bits & Hb & H).
    destruct (field_sizes flexible z bits) as [nba nbm].
    apply bind_Ok_inv in H. destruct H as (infos1 & H1 & H).
    apply bind_Ok_inv in H. destruct H as (k & Hk & H).
    apply bind_Ok_inv in H. destruct H as (infos2 & H2 & H).
    eapply IH; eauto. eapply add_info_NoDup; eauto. eapply alloc_machines_NoDup; eauto.
Qed.

Lemma all_fixed_spec : forall e z d infos infos',
  foldM (fun infos p =>
           match p with
           | ((ident, App a), k) =>
               let* nb := dgetE ap_eqb (z_bits z) (a, ident) in
               add_info infos (mkInfo (App a) ident k
                                 (IApp (mask_of nb) nb (ae_n_machine e a - 1)))
           | ((ident, Mac m), k) =>
               add_info infos (mkInfo (Mac m) ident k (IMac (ae_index e m)))
           end) infos d = Ok infos' ->
  NoDup (map info_id infos) ->
  NoDup (map info_id infos') /\
  (forall v p k, In ((p, v), k) d -> exists i, In i infos' /\ i_vertex i = v /\ i_part i = p /\ i_km i = k) /\
  (forall i, In i infos -> In i infos') /\
  (forall i, In i infos' -> In i infos \/ In ((i_part i, i_vertex i), i_km i) d).
Proof.
  intros e z. induction d as [|[[ident v] k] d IH]; intros infos infos' H ND; cbn [foldM] in H.
  - inversion H; subst. split; [auto|]. split; [intros ? ? ? []|]. split; auto.
  - apply bind_Ok_inv in H. destruct H as (infos1 & H1 & H).
    assert (G : exists x, add_info infos (mkInfo v ident k x) = Ok infos1).
    { destruct v as [a|m]; [|eauto].
      apply bind_Ok_inv in H1. destruct H1 as (nb & _ & H1). eauto. }
    destruct G as [x G]. clear H1.
    pose proof (add_info_NoDup _ _ _ G ND) as ND1.
    apply add_info_Ok in G. destruct G as [-> _].
    destruct (IH _ _ H ND1) as (A & B & C & D).
    split; [auto|]. split; [|split].
    + intros v' p' k' [E|Hin].
      * inversion E; subst. exists (mkInfo v' p' k' x). split; auto.
        apply C. apply in_app_iff. right. left. auto.
      * now apply B.
    + intros i Hi. apply C. apply in_app_iff. auto.
    + intros i Hi. apply D in Hi. destruct Hi as [Hi|Hi].
      * apply in_app_iff in Hi. destruct Hi as [Hi|[<-|[]]]; auto.
        right. left. reflexivity.
      * right. right. auto.
Qed.

Lemma alloc_unique : forall flexible e parts infos i j,
  allocate flexible e parts = Ok infos -> In i infos -> In j infos ->
  i_vertex i = i_vertex j -> i_part i = i_part j -> i = j.
Proof.
  intros flexible e parts infos i j H Hi Hj E1 E2.
  assert (ND : NoDup (map info_id infos)).
  { unfold allocate in H.
    apply bind_Ok_inv in H. destruct H as ([fixed allf] & H1 & H).
    apply bind_Ok_inv in H. destruct H as ([z' used] & H2 & H).
    destruct allf.
    - unfold allocate_all_fixed in H. apply all_fixed_spec in H; [apply H|constructor].
    - eapply allocate_loop_NoDup; eauto. constructor. }
  clear - ND Hi Hj E1 E2. induction infos as [|x l IH]; [destruct Hi|].
  simpl in ND. inversion ND as [|? ? N1 N2]; subst.
  assert (EI : info_id i = info_id j) by (unfold info_id; congruence).
  destruct Hi as [->|Hi], Hj as [->|Hj]; auto.
  - exfalso. apply N1. rewrite EI. now apply in_map.
  - exfalso. apply N1. rewrite <- EI. now apply in_map.
Qed.

(** The user's own keys are used as they are. *)
Lemma alloc_respects_fixed : forall flexible e parts infos a p x,
  env_ok e parts -> allocate flexible e parts = Ok infos ->
  In (a, p) parts -> ae_app_fixed e a p = Some x ->
  (exists i, is_app infos a p i /\ i_km i = x) /\
  (forall m, In m (ae_outgoing e a p) -> exists i, is_mac infos e a p m i /\
     i_km i = match ae_mac_fixed e a m p with Some y => y | None => x end).
Proof.
  intros flexible e parts infos a p x EO H Hin Hx.
  pose proof (proj1 EO a p Hin) as NE. rewrite Hx in NE.
  assert (NE1 : ae_outgoing e a p <> []) by (apply NE; congruence). clear NE.
  destruct (forallb (fun ap => match ae_app_fixed e (fst ap) (snd ap) with
                            | Some _ => true | None => false end) (ordered_set parts)) eqn:ALL.
  - (* everything fixed *)
    unfold allocate in H. destruct (ordered_set_spec parts) as [ND I].
    apply bind_Ok_inv in H. destruct H as ([fixed allf] & H1 & H).
    apply find_fixed_spec in H1; auto using env_ok_set. destruct H1 as [(I1 & I2 & _) AF].
    apply bind_Ok_inv in H. destruct H as ([z' used] & H2 & H).
    rewrite ALL in AF. subst allf. unfold allocate_all_fixed in H.
    apply all_fixed_spec in H; [|constructor]. destruct H as (_ & G & _).
    split.
    + destruct (G (App a) p x) as (i & A & B & C & D).
      * apply (dget_In _ fk_eqb_spec). rewrite I1, (proj2 (existsb_ap _ _)); auto. now apply I.
      * exists i. split; auto. split; auto.
    + intros m Hm.
      assert (DM : dget fk_eqb fixed (p, Mac m) = mac_key e a p m) by (apply I2; auto; now apply I).
      unfold mac_key in DM. rewrite Hx in DM.
      destruct (ae_mac_fixed e a m p) as [y|].
      * destruct (G (Mac m) p y) as (i & A & B & C & D); [now apply (dget_In _ fk_eqb_spec)|].
        exists i. split; auto. split; auto.
      * destruct (G (Mac m) p x) as (i & A & B & C & D); [now apply (dget_In _ fk_eqb_spec)|].
        exists i. split; auto. split; auto.
  - assert (FP : exists a0 p0, free_part e parts a0 p0).
    { assert (W : existsb (fun ap => match ae_app_fixed e (fst ap) (snd ap) with
                            | Some _ => false | None => true end) (ordered_set parts) = true).
      { revert ALL. generalize (ordered_set parts). clear.
        induction l as [|[a p] l IH]; simpl; [discriminate|].
        destruct (ae_app_fixed e a p); auto. }
      apply existsb_exists in W. destruct W as ([a0 p0] & W1 & W2). simpl in W2.
      exists a0, p0. split; [now apply ordered_set_spec|]. destruct (ae_app_fixed e a0 p0); congruence. }
    destruct FP as (a0 & p0 & FP).
    destruct (allocate_shape _ _ _ _ _ _ EO FP H) as (fixed & z' & used & aps & news & SH).
    split.
    + destruct (sh_app_exists _ _ _ _ _ _ _ _ _ SH a p Hin NE1) as [i Hi]. exists i. split; auto.
      destruct (sh_app _ _ _ _ _ _ _ _ _ SH a p i Hi) as (idx & nba & nbm & _ & _ & _ & AB).
      unfold app_block in AB. rewrite (sh_fixed_app _ _ _ _ _ _ _ _ _ SH) in AB by auto.
      now rewrite Hx in AB.
    + intros m Hm.
      destruct (sh_mac_exists _ _ _ _ _ _ _ _ _ SH a p m Hin Hm) as [i Hi]. exists i. split; auto.
      destruct (sh_mac _ _ _ _ _ _ _ _ _ EO SH a p m i Hin Hi)
        as (idx & nba & nbm & j & _ & _ & _ & _ & MB).
      unfold mac_block in MB. rewrite (sh_fixed_mac _ _ _ _ _ _ _ _ _ SH a) in MB by auto.
      unfold mac_key in MB. rewrite Hx in MB. destruct (ae_mac_fixed e a m p); auto.
Qed.

(** ** When there are no fixed keys, the allocator succeeds exactly when the
    fields fit in 32 bits *)

Definition no_fixed (e : graph_env) (parts : list (nat * nat)) : Prop :=
  forall a p, In (a, p) parts -> ae_app_fixed e a p = None /\
    forall m, In m (ae_outgoing e a p) -> ae_mac_fixed e a m p = None.

Lemma find_inner_none : forall e a p verts d isu vert,
  (forall m, In m verts -> ae_mac_fixed e a m p = None) ->
  exists vert', find_fixed_inner e a p None verts d false isu vert = Ok (d, false, vert').
Proof.
  intros e a p. induction verts as [|v verts IH]; intros d isu vert H; cbn [find_fixed_inner].
  - eauto.
  - rewrite H by (left; auto). apply IH. intros m Hm. apply H. right; auto.
Qed.

Lemma find_fixed_none : forall e parts d allf vert, no_fixed e parts ->
  find_fixed_loop e parts d allf vert = Ok (d, match parts with [] => allf | _ => false end).
Proof.
  intros e parts. induction parts as [|[a p] parts IH]; intros d allf vert H;
    cbn [find_fixed_loop]; [reflexivity|].
  destruct (H a p (or_introl eq_refl)) as [A B]. rewrite A.
  destruct (find_inner_none e a p (ae_outgoing e a p) d false vert B) as [vert' E]. rewrite E.
  cbn [bind]. rewrite IH by (intros b q Hin; apply H; right; auto).
  destruct parts; reflexivity.
Qed.

Definition known (e : graph_env) (seen : list (nat * nat)) (i : info) : Prop :=
  exists a p, In (a, p) seen /\ i_part i = p /\
    (i_vertex i = App a \/ exists m, i_vertex i = Mac m /\ In m (ae_outgoing e a p)).

Lemma alloc_machines_total : forall ident idx nba nb am mvs mi infos,
  nba + nb = am -> am <= 32 -> idx < 2 ^ (32 - am) ->
  mi + N.of_nat (length mvs) <= 2 ^ nb -> NoDup mvs ->
  (forall j m, In j infos -> In m mvs -> ~ (i_vertex j = Mac m /\ i_part j = ident)) ->
  exists infos', alloc_machines [] ident idx nba (Some nb) mi mvs infos = Ok infos' /\
    (forall j, In j infos' -> In j infos \/ exists m, In m mvs /\ i_vertex j = Mac m /\ i_part j = ident).
Proof.
  intros ident idx nba nb am. induction mvs as [|m mvs IH];
    intros mi infos SUM A32 IB LEN ND FR; cbn [alloc_machines].
  - exists infos. split; auto.
  - cbn [dget].
    assert (KB : N.lor (N.shiftl idx nb) mi < 2 ^ (32 - nba)).
    { assert (mi < 2 ^ nb) by (cbn [length] in LEN; lia).
      rewrite lor_shiftl_add by auto.
      assert (E : 2 ^ (32 - nba) = 2 ^ (32 - am) * 2 ^ nb)
        by (rewrite <- N.pow_add_r; f_equal; lia).
      rewrite E. pose proof (pow2_pos nb). nia. }
    assert (NB : nba <= 32) by lia.
    destruct (block_key_ok nba _ NB KB) as [K1 _].
    rewrite (proj2 (make_km_Ok _ _ _) (conj K1 eq_refl)). cbn [bind].
    rewrite add_info_fresh.
    2:{ intros j Hj [X Y]. apply (FR j m Hj (or_introl eq_refl)). auto. }
    cbn [bind]. inversion ND as [|? ? N1 N2]; subst.
    destruct (IH (mi + 1) (infos ++ [mkInfo (Mac m) ident
                (mkKM (N.shiftl (N.lor (N.shiftl idx nb) mi) nba) (mask_of nba)) (IMac mi)]))
      as (infos' & E & G); auto.
    + cbn [length] in LEN. lia.
    + intros j m' Hj Hm'. apply in_app_iff in Hj. destruct Hj as [Hj|[<-|[]]].
      * apply FR; auto. right; auto.
      * simpl. intros [X _]. inversion X; subst. contradiction.
    + exists infos'. split; auto. intros j Hj. apply G in Hj. destruct Hj as [Hj|(m' & H1 & H2)].
      * apply in_app_iff in Hj. destruct Hj as [Hj|[<-|[]]]; auto.
        right. exists m. simpl. auto.
      * right. exists m'. split; [right|]; auto.
Qed.

Lemma allocate_loop_total : forall e flexible z todo seen idx infos,
  NoDup (seen ++ todo) -> env_ok e (seen ++ todo) ->
  (forall a p, In (a, p) (seen ++ todo) -> NoDup (ae_outgoing e a p)) ->
  (forall a p, In (a, p) todo -> ae_outgoing e a p <> [] ->
     exists bits nba nb, dget ap_eqb (z_bits z) (a, p) = Some bits /\
       field_sizes flexible z bits = (nba, Some nb) /\ nba + nb = z_atoms_mac z /\
       N.of_nat (length (ae_outgoing e a p)) <= 2 ^ nb) ->
  z_atoms_mac z <= 32 ->
  idx + N.of_nat (length (filter (nonempty e) todo)) <= 2 ^ (32 - z_atoms_mac z) ->
  (forall j, In j infos -> known e seen j) ->
  exists infos', allocate_loop e flexible [] z [] todo idx infos = Ok infos'.
Proof.
  intros e flexible z todo. induction todo as [|[a p] todo IH];
    intros seen idx infos ND EO NDO FS A32 IB KN; cbn [allocate_loop]; [eauto|].
  change (length (@nil N)) with 0%nat. cbn [skip_used existsb bind].
  assert (E2 : seen ++ (a, p) :: todo = (seen ++ [(a, p)]) ++ todo)
    by (rewrite <- app_assoc; reflexivity).
  cbn [filter] in IB. unfold nonempty at 1 in IB. cbn [fst snd] in IB.
  assert (NI : ~ In (a, p) seen).
  { intro C1. apply NoDup_remove_2 in ND. apply ND. apply in_app_iff. auto. }
  assert (Sub : In (a, p) (seen ++ (a, p) :: todo)) by (apply in_app_iff; right; left; auto).
  destruct (ae_outgoing e a p) as [|m0 ms] eqn:EOUT.
  - rewrite E2 in ND, EO, NDO. apply (IH (seen ++ [(a, p)])); auto.
    + intros b q Hin. apply FS. right; auto.
    + intros j Hj. destruct (KN j Hj) as (b & q & X & Y & Z). exists b, q.
      split; auto. apply in_app_iff; auto.
  - destruct (FS a p (or_introl eq_refl)) as (bits & nba & nb & F1 & F2 & F3 & F4);
      [rewrite EOUT; discriminate|].
    unfold dgetE. rewrite F1. cbn [bind]. rewrite F2.
    assert (IDX : idx < 2 ^ (32 - z_atoms_mac z)) by (cbn [length] in IB; lia).
    destruct (alloc_machines_total p idx nba nb (z_atoms_mac z) (sort_lo e (m0 :: ms)) 0 infos)
      as (infos1 & E1 & G1); auto.
    + rewrite sort_lo_length, <- EOUT. lia.
    + apply Permutation_NoDup with (ae_outgoing e a p); [rewrite <- EOUT; apply sort_lo_perm|].
      now apply NDO.
    + intros j m Hj Hm [X Y]. destruct (KN j Hj) as (b & q & K1 & K2 & K3).
      destruct K3 as [K3|(m' & K3 & K4)]; [congruence|].
      assert (Em : m' = m) by congruence. assert (Eq : q = p) by congruence.
      rewrite Em, Eq in K4. rewrite Eq in K1. clear Eq K2.
      apply sort_lo_In in Hm. rewrite <- EOUT in Hm.
      assert (b = a).
      { apply (proj2 EO b a p m); [apply in_app_iff; auto|exact Sub|exact K4|].
        rewrite EOUT. rewrite EOUT in Hm. exact Hm. }
      subst b. contradiction.
    + rewrite E1. cbn [bind dget].
      destruct (block_key_ok (z_atoms_mac z) idx A32 IDX) as [K1 _]. rewrite F3.
      rewrite (proj2 (make_km_Ok _ _ _) (conj K1 eq_refl)). cbn [bind].
      assert (K1' : forall j, In j infos1 -> known e seen j \/
         exists m, In m (ae_outgoing e a p) /\ i_vertex j = Mac m /\ i_part j = p).
      { intros j Hj. apply G1 in Hj. destruct Hj as [Hj|(m & Hm & X)]; [left; auto|].
        right. exists m. rewrite EOUT. apply sort_lo_In in Hm. auto. }
      rewrite add_info_fresh.
      2:{ intros j Hj [X Y]. cbn [i_vertex i_part] in X, Y.
          destruct (K1' j Hj) as [(b & q & J1 & J2 & J3)|(m & J1 & J2 & J3)]; [|congruence].
          destruct J3 as [J3|(m & J3 & _)]; [|congruence].
          assert (b = a) by congruence. assert (q = p) by congruence. subst. contradiction. }
      cbn [bind]. rewrite E2 in ND, EO, NDO. apply (IH (seen ++ [(a, p)])); auto.
      * intros b q Hin. apply FS. right; auto.
      * cbn [length] in IB. lia.
      * intros j Hj. apply in_app_iff in Hj. destruct Hj as [Hj|[<-|[]]].
        -- destruct (K1' j Hj) as [(b & q & J1 & J2)|(m & J1 & J2 & J3)].
           ++ exists b, q. split; auto. apply in_app_iff; auto.
           ++ exists a, p. split; [apply in_app_iff; right; left; auto|]. split; auto. right. eauto.
        -- exists a, p. split; [apply in_app_iff; right; left; auto|]. split; auto.
Qed.

(** The partitions from which something is sent, each once. *)
Definition senders (e : graph_env) (parts l : list (nat * nat)) : Prop :=
  NoDup l /\ forall a p, In (a, p) l <-> In (a, p) parts /\ ae_outgoing e a p <> [].

Lemma senders_set : forall e parts, senders e parts (filter (nonempty e) (ordered_set parts)).
Proof.
  intros e parts. destruct (ordered_set_spec parts) as [ND I]. split; [now apply NoDup_filter|].
  intros a p. rewrite filter_In, I. unfold nonempty. cbn [fst snd].
  destruct (ae_outgoing e a p); split; intros [H1 H2]; split; auto; congruence.
Qed.

Lemma senders_count : forall e parts l, senders e parts l ->
  length (filter (nonempty e) (ordered_set parts)) = length l.
Proof.
  intros e parts l [ND H]. destruct (senders_set e parts) as [ND' H'].
  apply Nat.le_antisymm; (apply NoDup_incl_length; [assumption|]); intros [a p] X; [apply H, H', X | apply H', H, X].
Qed.

(** The fields fit: some split of the 32 bits leaves room for every partition. *)
Definition fields_fit (e : graph_env) (parts : list (nat * nat)) : Prop :=
  exists B l, B <= 32 /\ senders e parts l /\
    N.of_nat (length l) <= 2 ^ (32 - B) /\
    forall a p, In (a, p) parts -> ae_outgoing e a p <> [] ->
      exists x y, x + y <= B /\ N.of_nat (length (ae_outgoing e a p)) <= 2 ^ y /\
        forall m, In m (ae_outgoing e a p) -> ae_n_keys e m p <= 2 ^ x.

Lemma zones_free_nil : forall e parts a p, In (a, p) parts -> counted e a p ->
  sized e [] a p \/ length (ae_outgoing e a p) = 1%nat /\ max_keys e a p = 0.
Proof.
  intros e parts a p _ HC. destruct (N.eq_dec (max_keys e a p) 0) as [E0|].
  - right. split; auto. destruct HC as [|(m & Hm & Hk)]; auto.
    pose proof (max_keys_le e a p m Hm). lia.
  - left. split; [lia|reflexivity].
Qed.

Lemma alloc_succeeds_iff : forall flexible e parts,
  env_ok e parts -> no_fixed e parts ->
  (forall a p, In (a, p) parts -> NoDup (ae_outgoing e a p)) ->
  (forall a p, In (a, p) parts -> ae_outgoing e a p <> [] -> counted e a p) ->
  (fields_fit e parts <-> exists infos, allocate flexible e parts = Ok infos) /\
  (~ fields_fit e parts <-> allocate flexible e parts = Err RouteInfoAllocation).
Proof.
  intros flexible e parts EO NF NDO CT.
  destruct (ordered_set_spec parts) as [ND I].
  assert (NF' : no_fixed e (ordered_set parts)).
  { intros a p Hin. apply NF. now apply I. }
  assert (U0 : forall am, fixed_used_of am [] = []) by reflexivity.
  set (z := calculate_zones e [] (ordered_set parts)).
  destruct (calculate_zones_spec e [] (ordered_set parts) ND) as (S & B & U & D & L).
  fold z in S, B, U, D, L.
  (* the allocator's own test *)
  set (need := allocator_bits_needed (N.of_nat (length (z_bits z))) + z_atoms_mac z).
  assert (FIT : fields_fit e parts <-> need <= 32).
  { split.
    - intros (b & l & B32 & SE & LN & FP). rewrite <- (senders_count _ _ _ SE) in LN. clear l SE.
      assert (AM : z_atoms_mac z <= b).
      { apply (U 32 32 b). intros a p Hin Hs. apply I in Hin.
        destruct (FP a p Hin) as (x & y & XY & Y & X).
        { intro C. destruct Hs as [Hk _]. rewrite max_keys_nil in Hk by auto. lia. }
        assert (atom_bits e a p <= x).
        { apply allocator_bits_least. now apply max_keys_bound. }
        assert (mach_bits e a p <= y) by (now apply allocator_bits_least). lia. }
      assert (allocator_bits_needed (N.of_nat (length (z_bits z))) <= 32 - b).
      { apply allocator_bits_least. now rewrite L. }
      unfold need. lia.
    - intros Hn. unfold need in Hn. exists (z_atoms_mac z), (filter (nonempty e) (ordered_set parts)).
      split; [lia|]. split; [apply senders_set|]. split.
      + rewrite <- L. apply allocator_bits_least. lia.
      + intros a p Hin Hne.
        destruct (zones_free_nil e parts a p Hin (CT a p Hin Hne)) as [Hs|[L1 M0]].
        * apply I in Hin. destruct (B a p Hin Hs) as (B1 & B2 & B3).
          exists (atom_bits e a p), (mach_bits e a p). split; [lia|].
          split; [now apply allocator_bits_least|].
          intros m Hm. eapply N.le_trans; [now apply max_keys_le with (a := a)|].
          now apply allocator_bits_least.
        * exists 0, 0. split; [lia|]. split; [rewrite L1; simpl; lia|].
          intros m Hm. pose proof (max_keys_le e a p m Hm). simpl. lia. }
  assert (CZ : check_zones flexible [] z =
    if N.ltb 32 need then Err RouteInfoAllocation
    else Ok (if flexible then z
             else if N.ltb 32 (allocator_bits_needed (N.of_nat (length (z_bits z))) +
                               z_machine z + z_atoms z)
             then mkZones (32 - allocator_bits_needed (N.of_nat (length (z_bits z))) - z_machine z)
                    (z_machine z)
                    (32 - allocator_bits_needed (N.of_nat (length (z_bits z)))) (z_bits z)
             else mkZones (z_atoms z) (z_machine z) (z_machine z + z_atoms z) (z_bits z), [])).
  { unfold check_zones. rewrite U0. cbn [length]. change (N.of_nat 0) with 0.
    rewrite N.add_0_r. fold need. destruct (N.ltb 32 need); [reflexivity|].
    cbv zeta. destruct flexible; [reflexivity|]. destruct (N.ltb _ _); reflexivity. }
  assert (AL : allocate flexible e parts =
    let* (z', used) := check_zones flexible [] z in
    if match ordered_set parts with [] => true | _ => false end
    then allocate_all_fixed e z' []
    else allocate_loop e flexible [] z' used (ordered_set parts) 0 []).
  { unfold allocate, find_fixed. rewrite find_fixed_none by auto. cbn [bind]. fold z.
    destruct (ordered_set parts); reflexivity. }
  destruct (N.ltb_spec 32 need) as [Hn|Hn].
  - (* does not fit *)
    assert (AE : allocate flexible e parts = Err RouteInfoAllocation).
    { rewrite AL, CZ. reflexivity. }
    split.
    + rewrite FIT. split; [lia|]. intros [infos C]. congruence.
    + rewrite FIT. split; [auto|lia].
  - assert (AO : exists infos, allocate flexible e parts = Ok infos).
    { rewrite AL.
      destruct (check_zones flexible [] z) as [[z' used]|] eqn:EC; [|rewrite CZ in EC; discriminate].
      pose proof (check_zones_spec _ _ _ _ _ S EC) as (EU & EB & LE & L32 & LB & HT & HFl).
      cbn [bind]. rewrite U0 in EU. subst used.
      destruct (ordered_set parts) as [|ap0 aps0] eqn:EP.
      { unfold allocate_all_fixed. cbn [foldM]. eauto. }
      rewrite <- EP in *. apply (allocate_loop_total e flexible z' (ordered_set parts) [] 0 []);
        cbn [app]; auto using env_ok_set.
      - intros a p Hin. apply NDO. now apply I.
      - intros a p Hin Hne. exists (atom_bits e a p).
        assert (Hin' : In (a, p) parts) by (now apply I).
        rewrite EB. rewrite (D a p Hin Hne).
        destruct (field_sizes flexible z' (atom_bits e a p)) as [nba nbm] eqn:HF.
        assert (HSum : flexible = false -> z_atoms z' + z_machine z' = z_atoms_mac z').
        { intros Ef. now apply HFl. }
        pose proof (field_sizes_sum _ _ _ _ _ HSum HF) as SUM.
        assert (MB : (length (ae_outgoing e a p) = 1%nat /\ max_keys e a p = 0) \/
          (atom_bits e a p <= z_atoms z /\ mach_bits e a p <= z_machine z /\
           mach_bits e a p + atom_bits e a p <= z_atoms_mac z)).
        { destruct (zones_free_nil e parts a p Hin' (CT a p Hin' Hne)) as [Hs|]; auto. }
        assert (RES : exists nb, nbm = Some nb /\
                       N.of_nat (length (ae_outgoing e a p)) <= 2 ^ nb).
        { assert (Z0 : max_keys e a p = 0 -> atom_bits e a p = 0)
            by (intros E0; unfold atom_bits; now rewrite E0).
          assert (ONE : forall b, length (ae_outgoing e a p) = 1%nat ->
                       N.of_nat (length (ae_outgoing e a p)) <= 2 ^ b).
          { intros b E1. rewrite E1. pose proof (pow2_pos b). simpl. lia. }
          assert (LEN : forall b, mach_bits e a p <= b ->
                       N.of_nat (length (ae_outgoing e a p)) <= 2 ^ b).
          { intros b Hb. now apply allocator_bits_least. }
          unfold field_sizes in HF. destruct flexible.
          - rewrite (HT eq_refl) in *.
            destruct (N.ltb_spec (z_atoms_mac z) (atom_bits e a p)).
            { exfalso. destruct MB as [[_ E0]|]; [rewrite (Z0 E0) in *; lia|lia]. }
            exists (z_atoms_mac z - atom_bits e a p). split; [congruence|].
            destruct MB as [[L1 _]|]; [now apply ONE|apply LEN; lia].
          - destruct (HFl eq_refl) as (M1 & M2 & M3 & _).
            destruct (N.leb_spec (atom_bits e a p) (z_atoms z')).
            + exists (z_machine z'). split; [congruence|].
              destruct MB as [[L1 _]|]; [now apply ONE|apply LEN; lia].
            + destruct (N.ltb_spec (z_atoms_mac z') (atom_bits e a p)).
              { exfalso. destruct MB as [[_ E0]|]; [rewrite (Z0 E0) in *; lia|lia]. }
              exists (z_atoms_mac z' - atom_bits e a p). split; [congruence|].
              destruct MB as [[L1 _]|]; [now apply ONE|apply LEN; lia]. }
        destruct RES as (nb & -> & RL). exists nba, nb. auto.
      - rewrite N.add_0_l, <- L. cbn [length] in LB. lia.
      - intros j []. }
    split.
    + rewrite FIT. split; auto.
    + rewrite FIT. split; [lia|]. intros C. destruct AO as [infos AO]. congruence.
Qed.
