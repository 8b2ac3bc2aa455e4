(** When the key allocator succeeds although some keys are fixed by the user. *)
From Coq Require Import List Arith NArith Bool Lia Permutation.
From Verif Require Import Base Dict RouteSpec KeyMask UtilModel UtilProofs AllocModel AllocProofs ShrinkProofs.
Import ListNotations.
Local Open Scope N_scope.

(** * The keys fixed by the user belong together *)

(** A partition without a key has no keys for its machine vertices; a partition with a key has
    a key inside it for each of its machine vertices, or a single machine vertex and no key for it. *)
Definition part_keys (e : graph_env) (a p : nat) : Prop :=
  match ae_app_fixed e a p with
  | None => forall m, In m (ae_outgoing e a p) -> ae_mac_fixed e a m p = None
  | Some x =>
      (forall m, In m (ae_outgoing e a p) ->
         exists y, ae_mac_fixed e a m p = Some y /\ N.land (km_key y) (km_mask x) = km_key x) \/
      ((length (ae_outgoing e a p) <= 1)%nat /\
       forall m, In m (ae_outgoing e a p) -> ae_mac_fixed e a m p = None)
  end.
Definition keys_complete (e : graph_env) (parts : list (nat * nat)) : Prop :=
  forall a p, In (a, p) parts -> part_keys e a p.

Lemma inner_within : forall e a p app verts d isf isu vert r,
  find_fixed_inner e a p app verts d isf isu vert = Ok r ->
  forall v y, In v verts -> ae_mac_fixed e a v p = Some y ->
  exists x, app = Some x /\ N.land (km_key y) (km_mask x) = km_key x.
Proof.
  intros e a p app. induction verts as [|w verts IH]; intros d isf isu vert r H v y V F; [destruct V|].
  cbn [find_fixed_inner] in H. destruct V as [->|V].
  - rewrite F in H. destruct isu; [discriminate|]. destruct app as [x|]; [|discriminate].
    exists x. split; [reflexivity|]. destruct (N.eqb_spec (N.land (km_key y) (km_mask x)) (km_key x)); [auto|discriminate].
  - destruct (ae_mac_fixed e a w p) as [k|].
    + destruct isu; [discriminate|]. destruct app as [x|]; [|discriminate]. destruct (negb _); [discriminate|]. eapply IH; eauto.
    + destruct isf; [discriminate|]. eapply IH; eauto.
Qed.

Lemma inner_all : forall e a p x verts d isf vert,
  (forall v, In v verts -> exists y, ae_mac_fixed e a v p = Some y /\ N.land (km_key y) (km_mask x) = km_key x) ->
  exists r, find_fixed_inner e a p (Some x) verts d isf false vert = Ok r.
Proof.
  intros e a p x. induction verts as [|w verts IH]; intros d isf vert H; cbn [find_fixed_inner]; [eauto|].
  destruct (H w (or_introl eq_refl)) as (y & F & L). rewrite F, L, N.eqb_refl. cbn [negb].
  apply IH. intros v V. apply H. right; auto.
Qed.

Lemma inner_none : forall e a p app verts d isu vert,
  (forall v, In v verts -> ae_mac_fixed e a v p = None) ->
  exists vert', find_fixed_inner e a p app verts d false isu vert = Ok (d, false, vert').
Proof.
  intros e a p app. induction verts as [|w verts IH]; intros d isu vert H; cbn [find_fixed_inner]; [eauto|].
  rewrite H by (left; auto). apply IH. intros v V. apply H. right; auto.
Qed.

Lemma inner_error : forall e a p app verts d isf isu vert x,
  find_fixed_inner e a p app verts d isf isu vert = Err x -> x = RouteInfoAllocation.
Proof.
  intros e a p app. induction verts as [|w verts IH]; intros d isf isu vert x H; cbn [find_fixed_inner] in H; [discriminate|].
  destruct (ae_mac_fixed e a w p) as [k|].
  - destruct isu; [congruence|]. destruct app as [y|]; [|congruence]. destruct (negb _); [congruence|]. eapply IH; eauto.
  - destruct isf; [congruence|]. eapply IH; eauto.
Qed.

Lemma inner_vert : forall e a p app verts d isf isu vert d' isf' vert',
  find_fixed_inner e a p app verts d isf isu vert = Ok (d', isf', vert') ->
  verts <> [] \/ vert <> None -> vert' <> None.
Proof.
  intros e a p app. induction verts as [|w verts IH]; intros d isf isu vert d' isf' vert' H N; cbn [find_fixed_inner] in H.
  - inversion H; subst. destruct N; congruence.
  - destruct (ae_mac_fixed e a w p) as [k|].
    + destruct isu; [discriminate|]. destruct app as [y|]; [|discriminate]. destruct (negb _); [discriminate|].
      eapply IH; [exact H|]. right. discriminate.
    + destruct isf; [discriminate|]. eapply IH; [exact H|]. right. discriminate.
Qed.

Lemma loop_complete : forall e todo d allf vert r, find_fixed_loop e todo d allf vert = Ok r -> keys_complete e todo.
Proof.
  intros e. induction todo as [|[a p] todo IH]; intros d allf vert r H b q I; [destruct I|].
  cbn [find_fixed_loop] in H. apply bind_Ok_inv in H. destruct H as ([[d1 isf] vert1] & H1 & H).
  destruct I as [E|I].
  - injection E as <- <-. pose proof (inner_within _ _ _ _ _ _ _ _ _ _ H1) as W.
    apply find_fixed_inner_spec in H1. destruct H1 as (_ & N1 & C & _).
    unfold part_keys. destruct (ae_app_fixed e a p) as [x|] eqn:F; [|now apply N1].
    destruct C as [(C0 & _)|[(_ & -> & _ & C)|(_ & -> & C)]]; [discriminate | |].
    + left. intros m M. destruct (ae_mac_fixed e a m p) as [y|] eqn:FM; [|destruct (C m M FM)].
      exists y. split; [reflexivity|]. destruct (W m y M FM) as (x' & E & L). congruence.
    + right. apply bind_Ok_inv in H. destruct H as (d2 & H2 & _).
      destruct (Nat.ltb_spec 1 (length (ae_outgoing e a p))); [discriminate|]. split; [lia|exact C].
  - destruct (ae_app_fixed e a p) as [x|]; [|eapply IH; eauto].
    apply bind_Ok_inv in H. destruct H as (d2 & _ & H). eapply IH; eauto.
Qed.

Lemma loop_found : forall e todo d allf vert,
  (forall a p, In (a, p) todo -> ae_app_fixed e a p <> None -> ae_outgoing e a p <> []) ->
  keys_complete e todo -> exists r, find_fixed_loop e todo d allf vert = Ok r.
Proof.
  intros e. induction todo as [|[a p] todo IH]; intros d allf vert NE KC; cbn [find_fixed_loop]; [eauto|].
  assert (NE' : forall a p, In (a, p) todo -> ae_app_fixed e a p <> None -> ae_outgoing e a p <> [])
    by (intros b q I; apply NE; right; auto).
  assert (KC' : keys_complete e todo) by (intros b q I; apply KC; right; auto).
  pose proof (KC a p (or_introl eq_refl)) as K. pose proof (NE a p (or_introl eq_refl)) as N. unfold part_keys in K.
  destruct (ae_app_fixed e a p) as [x|] eqn:F.
  - assert (N' : ae_outgoing e a p <> []) by (apply N; discriminate). destruct K as [K|[L K]].
    + destruct (inner_all e a p x (ae_outgoing e a p) d false vert K) as [[[d1 isf] vert1] E]. rewrite E. cbn [bind].
      apply find_fixed_inner_spec in E. destruct E as (_ & _ & C & _).
      destruct C as [(C0 & _)|[(_ & -> & _ & C)|(_ & -> & C)]]; [discriminate | |].
      * cbn [bind]. apply IH; auto.
      * exfalso. destruct (ae_outgoing e a p) as [|m ms]; [congruence|]. destruct (K m (or_introl eq_refl)) as (y & Y & _).
        rewrite (C m (or_introl eq_refl)) in Y. discriminate.
    + destruct (inner_none e a p (Some x) (ae_outgoing e a p) d false vert K) as [vert1 E]. rewrite E. cbn [bind].
      destruct (Nat.ltb_spec 1 (length (ae_outgoing e a p))); [lia|].
      assert (V : vert1 <> None) by (eapply inner_vert; eauto). destruct vert1 as [v|]; [|congruence]. cbn [bind]. apply IH; auto.
  - destruct (inner_none e a p None (ae_outgoing e a p) d false vert K) as [vert1 E]. rewrite E. cbn [bind]. apply IH; auto.
Qed.

Lemma loop_error : forall e todo d allf vert x,
  (forall a p, In (a, p) todo -> ae_app_fixed e a p <> None -> ae_outgoing e a p <> []) ->
  find_fixed_loop e todo d allf vert = Err x -> x = RouteInfoAllocation.
Proof.
  intros e. induction todo as [|[a p] todo IH]; intros d allf vert x NE H; cbn [find_fixed_loop] in H; [discriminate|].
  assert (NE' : forall a p, In (a, p) todo -> ae_app_fixed e a p <> None -> ae_outgoing e a p <> [])
    by (intros b q I; apply NE; right; auto).
  pose proof (NE a p (or_introl eq_refl)) as N.
  destruct (find_fixed_inner _ _ _ _ _ _ _ _ _) as [[[d1 isf] vert1]|y] eqn:E; cbn [bind] in H.
  - destruct (ae_app_fixed e a p) as [k|] eqn:F; [|eapply IH; eauto].
    assert (N' : ae_outgoing e a p <> []) by (apply N; discriminate).
    destruct isf; cbn [bind] in H; [eapply IH; eauto|].
    destruct (Nat.ltb _ _); cbn [bind] in H; [congruence|].
    assert (V : vert1 <> None) by (eapply inner_vert; eauto). destruct vert1 as [v|]; [|congruence]. cbn [bind] in H. eapply IH; eauto.
  - apply inner_error in E. congruence.
Qed.

(** * The blocks taken by fixed keys *)

Definition blocks_taken (e : graph_env) (parts : list (nat * nat)) (B : N) (l : list N) : Prop :=
  NoDup l /\ forall b, In b l <-> exists key x, key < 2 ^ 32 /\ user_key e parts x /\ km_matches key x /\ b = key / 2 ^ B.

(** Space for all keys: the 32 bits are split so that each partition without a fixed key has
    room below the split, and there is a block for each partition beside the blocks in which
    there are fixed keys. *)
Definition keys_fit (e : graph_env) (parts : list (nat * nat)) : Prop :=
  exists B l ps, B <= 32 /\ blocks_taken e parts B l /\ senders e parts ps /\
    N.of_nat (length ps) + N.of_nat (length l) <= 2 ^ (32 - B) /\
    forall a p, In (a, p) parts -> ae_app_fixed e a p = None -> ae_outgoing e a p <> [] ->
      exists x y, x + y <= B /\ N.of_nat (length (ae_outgoing e a p)) <= 2 ^ y /\
        forall m, In m (ae_outgoing e a p) -> ae_n_keys e m p <= 2 ^ x.

Lemma range_below : forall key mask b n, key < 2 ^ 32 -> N.land key mask = key ->
  In (b, n) (get_key_ranges key mask) -> b + n <= 2 ^ 32.
Proof.
  intros key mask b n Hk HK I. destruct (ranges_form key mask Hk) as [k [r [Hk32 [G [HZ [HR E]]]]]]. rewrite E in I.
  apply in_map_iff in I. destruct I as (v & X & _). injection X as <- <-.
  assert (KZ : forall i, (i < k)%nat -> N.testbit key (N.of_nat i) = false).
  { intros i Hi. rewrite <- HK, N.land_spec, HZ, andb_false_r by auto. reflexivity. }
  assert (CL : clear_low (N.of_nat k) (spread_key key r v) = spread_key key r v).
  { apply N.bits_inj. intro i. rewrite clear_low_bit.
    destruct (N.ltb_spec i (N.of_nat k)); auto. symmetry.
    replace i with (N.of_nat (N.to_nat i)) by lia.
    rewrite spread_out; [apply KZ; lia|lia|]. rewrite HR by lia. lia. }
  assert (SL : spread_key key r v < 2 ^ 32) by apply spread_lt.
  destruct (N.le_gt_cases (spread_key key r v + 2 ^ N.of_nat k) (2 ^ 32)) as [L|L]; [exact L|]. exfalso.
  assert (C : clear_low (N.of_nat k) (2 ^ 32) = spread_key key r v).
  { apply (proj1 (clear_low_range _ _ (2 ^ 32) CL)). split; [apply N.lt_le_incl; exact SL | exact L]. }
  assert (C2 : clear_low (N.of_nat k) (2 ^ 32) = 2 ^ 32).
  { apply N.bits_inj. intro i. rewrite clear_low_bit. destruct (N.ltb_spec i (N.of_nat k)); [|reflexivity].
    symmetry. apply N.pow2_bits_false. lia. }
  rewrite <- C, C2 in SL. exact (N.lt_irrefl _ SL).
Qed.

Lemma used_In : forall am fixed, am <= 32 -> (forall q, In q fixed -> km_ok (snd q)) ->
  forall b, In b (fixed_used_of am fixed) <->
    exists key q, key < 2 ^ 32 /\ In q fixed /\ km_matches key (snd q) /\ b = key / 2 ^ am.
Proof.
  intros am fixed A32 OK b. unfold fixed_used_of. rewrite nodup_In, in_flat_map.
  assert (G : forall q, In q fixed ->
    (In b (let key := N.shiftr (km_key (snd q)) am in
           let mask := N.lor (N.shiftr (km_mask (snd q)) am) (N.shiftl (N.shiftl 1 am - 1) (32 - am)) in
           flat_map (fun r => key_range (fst r) (snd r)) (get_key_ranges key mask)) <->
     exists key, key < 2 ^ 32 /\ km_matches key (snd q) /\ b = key / 2 ^ am)).
  { intros [q x] Q. destruct (OK _ Q) as (K1 & K2 & K3). cbn [snd] in *. cbv zeta.
    set (mask := N.lor (N.shiftr (km_mask x) am) (N.shiftl (N.shiftl 1 am - 1) (32 - am))).
    assert (HB : forall i, N.testbit mask i =
              (N.testbit (km_mask x) (i + am) || ((32 - am <=? i) && (i <? 32)))%bool).
    { intro i. unfold mask. rewrite N.lor_spec, N.shiftr_spec'. f_equal.
      rewrite N.shiftl_1_l.
      assert (E : 2 ^ am - 1 = N.ones am) by (rewrite N.ones_equiv, N.sub_1_r; reflexivity).
      rewrite E. destruct (N.leb_spec (32 - am) i).
      - rewrite N.shiftl_spec_high' by auto. cbn [andb]. destruct (N.ltb_spec i 32).
        + apply N.ones_spec_low. lia.
        + apply N.ones_spec_high. lia.
      - cbn [andb]. now apply N.shiftl_spec_low. }
    assert (ML : mask < 2 ^ 32).
    { apply lt_pow2_bits. intros i Hi. rewrite HB. destruct (N.ltb_spec i 32); [lia|].
      rewrite andb_false_r, orb_false_r. apply testbit_high; auto. lia. }
    assert (KL : forall y, y < 2 ^ 32 -> N.shiftr y am < 2 ^ 32).
    { intros y Hy. eapply N.le_lt_trans; [|exact Hy]. rewrite N.shiftr_div_pow2.
      apply N.div_le_upper_bound; [pose proof (pow2_pos am); lia|].
      pose proof (pow2_pos am). nia. }
    assert (LAND : forall y, y < 2 ^ 32 ->
      N.land (N.shiftr y am) mask = N.shiftr (N.land y (km_mask x)) am).
    { intros y Hy. apply N.bits_inj. intro i.
      rewrite N.land_spec, HB, !N.shiftr_spec', N.land_spec.
      destruct (N.leb_spec (32 - am) i); cbn [andb].
      - rewrite (testbit_high y) by (auto; lia). reflexivity.
      - now rewrite orb_false_r. }
    assert (HK : N.land (N.shiftr (km_key x) am) mask = N.shiftr (km_key x) am) by (rewrite LAND by auto; now rewrite K3).
    rewrite in_flat_map. split.
    - intros ([c n] & R & I). cbn [fst snd] in I. unfold key_range in I. apply in_map_iff in I. destruct I as (i & <- & I). apply nrange_In in I.
      set (b := c + i) in *.
      assert (KS : N.shiftr (km_key x) am < 2 ^ 32) by auto.
      assert (BL : b < 2 ^ 32) by (pose proof (range_below _ _ _ _ KS HK R); unfold b; lia).
      assert (BM : N.land b mask = N.shiftr (km_key x) am).
      { apply (ranges_exact _ _ _ KS ML HK BL). exists c, n. split; [exact R|]. unfold b. lia. }
      assert (BB : forall j, (N.testbit b j && (N.testbit (km_mask x) (j + am) || ((32 - am <=? j) && (j <? 32))))%bool = N.testbit (km_key x) (j + am)).
      { intro j. rewrite <- HB, <- N.land_spec, BM. apply N.shiftr_spec'. }
      exists (N.lor (N.shiftl b am) (N.land (km_key x) (N.ones am))).
      assert (TB : forall j, N.testbit (N.lor (N.shiftl b am) (N.land (km_key x) (N.ones am))) j =
        if j <? am then N.testbit (km_key x) j else N.testbit b (j - am)).
      { intro j. rewrite N.lor_spec, N.land_spec. destruct (N.ltb_spec j am).
        - rewrite N.shiftl_spec_low, N.ones_spec_low by auto. now rewrite andb_true_r.
        - rewrite N.shiftl_spec_high', N.ones_spec_high by auto. now rewrite andb_false_r, orb_false_r. }
      assert (BH : forall j, 32 - am <= j -> N.testbit b j = false).
      { intros j J. destruct (N.ltb_spec j 32) as [J2|J2]; [|apply testbit_high; auto].
        specialize (BB j). rewrite (proj2 (N.leb_le _ _) J), (proj2 (N.ltb_lt _ _) J2) in BB. cbn [andb] in BB.
        rewrite orb_true_r, andb_true_r in BB. rewrite BB. apply testbit_high; [exact K1|]. lia. }
      split; [|split].
      + apply lt_pow2_bits. intros j J. rewrite TB. destruct (N.ltb_spec j am); [lia|]. apply BH. lia.
      + unfold km_matches. apply N.bits_inj. intro j. rewrite N.land_spec, TB. destruct (N.ltb_spec j am).
        * rewrite <- N.land_spec. now rewrite K3.
        * destruct (N.lt_ge_cases j 32) as [J|J].
          -- specialize (BB (j - am)). replace (j - am + am) with j in BB by lia.
             destruct (N.leb_spec (32 - am) (j - am)); [lia|]. cbn [andb] in BB. now rewrite orb_false_r in BB.
          -- rewrite BH by lia. symmetry. apply testbit_high; auto.
      + rewrite <- N.shiftr_div_pow2. apply N.bits_inj. intro j. rewrite N.shiftr_spec', TB.
        destruct (N.ltb_spec (j + am) am); [lia|]. f_equal. lia.
    - intros (key & KK & KM & ->). rewrite <- N.shiftr_div_pow2.
      assert (R : exists b n, In (b, n) (get_key_ranges (N.shiftr (km_key x) am) mask) /\
                              b <= N.shiftr key am < b + n).
      { apply ranges_exact; auto. rewrite LAND by auto. unfold km_matches in KM. now rewrite KM. }
      destruct R as (c & n & R & I). exists (c, n). split; [exact R|]. unfold key_range. cbn [fst snd]. apply in_map_iff.
      exists (N.shiftr key am - c). split; [lia|]. apply nrange_In. lia. }
  split.
  - intros (q & Q & I). apply (G q Q) in I. destruct I as (key & A1 & A2 & A3). exists key, q. auto.
  - intros (key & q & A1 & Q & A2 & A3). exists q. split; [exact Q|]. apply (G q Q). eauto.
Qed.

Lemma found_values : forall e parts d allf, NoDup parts -> env_ok e parts -> keys_complete e parts ->
  find_fixed e parts = Ok (d, allf) -> forall x, (exists q, In q d /\ snd q = x) <-> user_key e parts x.
Proof.
  intros e parts d allf ND EO KC F x. split.
  - intros (q & Q & <-). exact (fixed_user _ _ _ _ F q Q).
  - apply find_fixed_spec in F; auto. destruct F as [(I1 & I2 & _) _].
    intros (a & p & I & [U|(m & M & U)]).
    + exists ((p, App a), x). split; [|reflexivity]. apply (dget_In _ fk_eqb_spec). rewrite I1, (proj2 (existsb_ap _ _) I). exact U.
    + exists ((p, Mac m), x). split; [|reflexivity]. apply (dget_In _ fk_eqb_spec). rewrite (I2 a p m I M). unfold mac_key.
      pose proof (KC a p I) as K. unfold part_keys in K. destruct (ae_app_fixed e a p) as [y|]; [now rewrite U|].
      rewrite (K m M) in U. discriminate.
Qed.

Lemma used_taken : forall e parts d allf am, NoDup parts -> env_ok e parts -> keys_complete e parts ->
  (forall x, user_key e parts x -> km_ok x) -> find_fixed e parts = Ok (d, allf) -> am <= 32 ->
  blocks_taken e parts am (fixed_used_of am d).
Proof.
  intros e parts d allf am ND EO KC KO F A. pose proof (found_values e parts d allf ND EO KC F) as V. split; [apply NoDup_nodup|].
  intro b. rewrite used_In; [|exact A | intros q Q; apply KO, V; eauto]. split.
  - intros (key & q & K & Q & M & E). exists key, (snd q). split; [auto|]. split; [apply V; eauto|]. auto.
  - intros (key & x & K & U & M & E). apply V in U. destruct U as (q & Q & <-). exists key, q. auto.
Qed.

(** Blocks at a finer split: at most so many more as their size is smaller. *)
Lemma finer_blocks : forall d (l l' : list N), NoDup l -> (forall b, In b l -> In (b / 2 ^ d) l') ->
  N.of_nat (length l) <= N.of_nat (length l') * 2 ^ d.
Proof.
  intros d l l' ND H. set (big := flat_map (fun b => key_range (b * 2 ^ d) (2 ^ d)) l').
  assert (L : N.of_nat (length big) = N.of_nat (length l') * 2 ^ d).
  { unfold big. clear. induction l' as [|b l' IH]; [reflexivity|]. cbn [flat_map length]. rewrite app_length, Nat2N.inj_add, IH.
    unfold key_range. rewrite map_length, nrange_length, N2Nat.id. lia. }
  rewrite <- L. assert (I : incl l big).
  { intros b B. unfold big. apply in_flat_map. exists (b / 2 ^ d). split; [auto|]. unfold key_range. apply in_map_iff.
    pose proof (pow2_pos d) as P. exists (b mod 2 ^ d). split.
    - rewrite N.mul_comm. symmetry. apply N.div_mod. lia.
    - apply nrange_In. apply N.mod_lt. lia. }
  pose proof (NoDup_incl_length ND I). lia.
Qed.

Lemma taken_finer : forall e parts B B' l l', B <= B' -> blocks_taken e parts B l -> blocks_taken e parts B' l' ->
  N.of_nat (length l) <= N.of_nat (length l') * 2 ^ (B' - B).
Proof.
  intros e parts B B' l l' L [ND I] [_ I']. apply finer_blocks; [exact ND|]. intros b Hb. apply I in Hb. destruct Hb as (key & x & K & U & M & ->).
  apply I'. exists key, x. split; [auto|]. split; [auto|]. split; [auto|].
  pose proof (pow2_pos B). pose proof (pow2_pos (B' - B)).
  rewrite N.div_div by lia. rewrite <- N.pow_add_r. f_equal. f_equal. lia.
Qed.


(** * The loops return *)

Lemma machines_total : forall fixed ident idx nba nbm mvs mi infos,
  (forall m, In m mvs -> dget fk_eqb fixed (ident, Mac m) <> None) \/
  (exists nb am, nbm = Some nb /\ nba + nb = am /\ am <= 32 /\ idx < 2 ^ (32 - am) /\ mi + N.of_nat (length mvs) <= 2 ^ nb) ->
  NoDup mvs ->
  (forall j m, In j infos -> In m mvs -> ~ (i_vertex j = Mac m /\ i_part j = ident)) ->
  exists infos', alloc_machines fixed ident idx nba nbm mi mvs infos = Ok infos' /\
    (forall j, In j infos' -> In j infos \/ exists m, In m mvs /\ i_vertex j = Mac m /\ i_part j = ident).
Proof.
  intros fixed ident idx nba nbm. induction mvs as [|m mvs IH]; intros mi infos HS ND FR; cbn [alloc_machines]; [eauto|].
  inversion ND as [|? ? N1 N2]; subst.
  assert (K : exists k, match dget fk_eqb fixed (ident, Mac m) with
        | Some k => Ok k
        | None => match nbm with None => Err ValueError
                  | Some nb => make_km (N.shiftl (N.lor (N.shiftl idx nb) mi) nba) (mask_of nba) end end = Ok k).
  { destruct (dget fk_eqb fixed (ident, Mac m)) as [k|] eqn:F; [eauto|]. destruct HS as [HS|HS]; [destruct (HS m (or_introl eq_refl) F)|].
    destruct HS as (nb & am & -> & SUM & A32 & IB & LEN).
    assert (KB : N.lor (N.shiftl idx nb) mi < 2 ^ (32 - nba)).
    { assert (mi < 2 ^ nb) by (cbn [length] in LEN; lia). rewrite lor_shiftl_add by auto.
      assert (E : 2 ^ (32 - nba) = 2 ^ (32 - am) * 2 ^ nb) by (rewrite <- N.pow_add_r; f_equal; lia).
      rewrite E. pose proof (pow2_pos nb). nia. }
    assert (NB : nba <= 32) by lia. destruct (block_key_ok nba _ NB KB) as [K1 _].
    eexists. apply make_km_Ok. split; [exact K1 | reflexivity]. }
  destruct K as [k K]. rewrite K. cbn [bind]. rewrite add_info_fresh.
  2:{ intros j Hj [X Y]. apply (FR j m Hj (or_introl eq_refl)). auto. }
  cbn [bind]. destruct (IH (mi + 1) (infos ++ [mkInfo (Mac m) ident k (IMac mi)])) as (infos' & E & G).
  - destruct HS as [HS|(nb & am & H1 & H2 & H3 & H4 & H5)]; [left; intros w W; apply HS; right; auto | right].
    exists nb, am. split; [auto|]. split; [auto|]. split; [auto|]. split; [auto|]. cbn [length] in H5. lia.
  - exact N2.
  - intros j m' Hj Hm'. apply in_app_iff in Hj. destruct Hj as [Hj|[<-|[]]].
    + apply FR; auto. right; auto.
    + cbn. intros [X _]. inversion X; subst. contradiction.
  - exists infos'. split; auto. intros j Hj. apply G in Hj. destruct Hj as [Hj|(m' & H1 & H2)].
    + apply in_app_iff in Hj. destruct Hj as [Hj|[<-|[]]]; auto. right. exists m. cbn. auto.
    + right. exists m'. split; [right|]; auto.
Qed.

Lemma loop_total : forall e flexible fixed z used todo seen idx done infos,
  NoDup (seen ++ todo) -> env_ok e (seen ++ todo) -> NoDup used ->
  (forall a p, In (a, p) (seen ++ todo) -> NoDup (ae_outgoing e a p)) ->
  (forall a p, In (a, p) todo -> ae_outgoing e a p <> [] ->
     exists bits nba nbm, dget ap_eqb (z_bits z) (a, p) = Some bits /\ field_sizes flexible z bits = (nba, nbm) /\
       ((dget fk_eqb fixed (p, App a) <> None /\ forall m, In m (ae_outgoing e a p) -> dget fk_eqb fixed (p, Mac m) <> None) \/
        exists nb, nbm = Some nb /\ nba + nb = z_atoms_mac z /\ N.of_nat (length (ae_outgoing e a p)) <= 2 ^ nb)) ->
  z_atoms_mac z <= 32 -> idx <= done + below used idx ->
  done + N.of_nat (length (filter (nonempty e) todo)) + N.of_nat (length used) <= 2 ^ (32 - z_atoms_mac z) ->
  (forall j, In j infos -> known e seen j) ->
  exists infos', allocate_loop e flexible fixed z used todo idx infos = Ok infos'.
Proof.
  intros e flexible fixed z used todo. induction todo as [|[a p] todo IH];
    intros seen idx done infos ND EO NU NDO FS A32 DB IB KN; cbn [allocate_loop]; [eauto|].
  destruct (skip_used_enough used idx) as [idx1 SK]. rewrite SK. cbn [bind].
  pose proof (skip_used_count _ _ _ _ NU SK) as HC. apply skip_used_spec in SK. destruct SK as (SL & _).
  assert (DB1 : idx1 <= done + below used idx1) by lia.
  assert (E2 : seen ++ (a, p) :: todo = (seen ++ [(a, p)]) ++ todo) by (rewrite <- app_assoc; reflexivity).
  cbn [filter] in IB. unfold nonempty at 1 in IB. cbn [fst snd] in IB.
  assert (NI : ~ In (a, p) seen).
  { intro C1. apply NoDup_remove_2 in ND. apply ND. apply in_app_iff. auto. }
  assert (Sub : In (a, p) (seen ++ (a, p) :: todo)) by (apply in_app_iff; right; left; auto).
  destruct (ae_outgoing e a p) as [|m0 ms] eqn:EOUT.
  - rewrite E2 in ND, EO, NDO. apply (IH (seen ++ [(a, p)]) idx1 done); auto.
    + intros b q Hin. apply FS. right; auto.
    + intros j Hj. destruct (KN j Hj) as (b & q & X & Y & Z). exists b, q. split; auto. apply in_app_iff; auto.
  - destruct (FS a p (or_introl eq_refl)) as (bits & nba & nbm & F1 & F2 & F3); [rewrite EOUT; discriminate|].
    unfold dgetE. rewrite F1. cbn [bind]. rewrite F2. cbn [length] in IB.
    assert (IDX : idx1 < 2 ^ (32 - z_atoms_mac z)) by (pose proof (below_le used idx1); lia).
    destruct (machines_total fixed p idx1 nba nbm (sort_lo e (m0 :: ms)) 0 infos) as (infos1 & E1 & G1).
    + destruct F3 as [[_ F3]|(nb & -> & F3 & F4)].
      * left. intros m M. apply sort_lo_In in M. apply F3. rewrite EOUT. exact M.
      * right. exists nb, (z_atoms_mac z). split; [auto|]. split; [auto|]. split; [auto|]. split; [auto|].
        rewrite sort_lo_length, <- EOUT. lia.
    + apply Permutation_NoDup with (ae_outgoing e a p); [rewrite <- EOUT; apply sort_lo_perm|]. now apply NDO.
    + intros j m Hj Hm [X Y]. destruct (KN j Hj) as (b & q & K1 & K2 & K3).
      destruct K3 as [K3|(m' & K3 & K4)]; [congruence|].
      assert (Em : m' = m) by congruence. assert (Eq : q = p) by congruence.
      rewrite Em, Eq in K4. rewrite Eq in K1. clear Eq K2.
      apply sort_lo_In in Hm. rewrite <- EOUT in Hm.
      assert (b = a).
      { apply (proj2 EO b a p m); [apply in_app_iff; auto|exact Sub|exact K4|exact Hm]. }
      subst b. contradiction.
    + rewrite E1. cbn [bind].
      assert (K : exists k, match dget fk_eqb fixed (p, App a) with
          | Some k => Ok k
          | None => make_km (N.shiftl idx1 (match nbm with Some nb => nba + nb | None => z_atoms_mac z end))
                      (mask_of (match nbm with Some nb => nba + nb | None => z_atoms_mac z end)) end = Ok k).
      { destruct (dget fk_eqb fixed (p, App a)) as [k|]; [eauto|]. destruct F3 as [[F3 _]|(nb & -> & F3 & _)]; [congruence|].
        rewrite F3. destruct (block_key_ok (z_atoms_mac z) idx1 A32 IDX) as [K1 _].
        eexists. apply make_km_Ok. split; [exact K1 | reflexivity]. }
      destruct K as [k K]. rewrite K. cbn [bind].
      assert (K1' : forall j, In j infos1 -> known e seen j \/
         exists m, In m (ae_outgoing e a p) /\ i_vertex j = Mac m /\ i_part j = p).
      { intros j Hj. apply G1 in Hj. destruct Hj as [Hj|(m & Hm & X)]; [left; auto|].
        right. exists m. rewrite EOUT. apply sort_lo_In in Hm. auto. }
      rewrite add_info_fresh.
      2:{ intros j Hj [X Y]. cbn [i_vertex i_part] in X, Y.
          destruct (K1' j Hj) as [(b & q & J1 & J2 & J3)|(m & J1 & J2 & J3)]; [|congruence].
          destruct J3 as [J3|(m & J3 & _)]; [|congruence].
          assert (b = a) by congruence. assert (q = p) by congruence. subst. contradiction. }
      cbn [bind]. rewrite E2 in ND, EO, NDO. apply (IH (seen ++ [(a, p)]) (idx1 + 1) (done + 1)); auto.
      * intros b q Hin. apply FS. right; auto.
      * pose proof (below_mono used idx1 (idx1 + 1)). lia.
      * lia.
      * intros j Hj. apply in_app_iff in Hj. destruct Hj as [Hj|[<-|[]]].
        -- destruct (K1' j Hj) as [(b & q & J1 & J2)|(m & J1 & J2 & J3)].
           ++ exists b, q. split; auto. apply in_app_iff; auto.
           ++ exists a, p. split; [apply in_app_iff; right; left; auto|]. split; auto. right. eauto.
        -- exists a, p. split; [apply in_app_iff; right; left; auto|]. split; auto.
Qed.

Lemma all_fixed_total : forall e z d infos, NoDup (map fst d) ->
  (forall a p k, In ((p, App a), k) d -> exists nb, dget ap_eqb (z_bits z) (a, p) = Some nb) ->
  (forall j k, In j infos -> ~ In ((i_part j, i_vertex j), k) d) ->
  exists infos', foldM (fun infos p =>
           match p with
           | ((ident, App a), k) =>
               let* nb := dgetE ap_eqb (z_bits z) (a, ident) in
               add_info infos (mkInfo (App a) ident k
                                 (IApp (mask_of nb) nb (ae_n_machine e a - 1)))
           | ((ident, Mac m), k) =>
               add_info infos (mkInfo (Mac m) ident k (IMac (ae_index e m)))
           end) infos d = Ok infos'.
Proof.
  intros e z. induction d as [|[[ident v] k] d IH]; intros infos ND ZB FR; cbn [foldM]; [eauto|].
  cbn [map fst] in ND. inversion ND as [|? ? N1 N2]; subst.
  assert (FRv : forall x j, In j infos -> ~ (i_vertex j = i_vertex (mkInfo v ident k x) /\ i_part j = i_part (mkInfo v ident k x))).
  { intros x j J [X Y]. cbn [i_vertex i_part] in X, Y. apply (FR j k J). left. congruence. }
  assert (NEXT : forall x, exists infos', foldM (fun infos p =>
           match p with
           | ((ident, App a), k) =>
               let* nb := dgetE ap_eqb (z_bits z) (a, ident) in
               add_info infos (mkInfo (App a) ident k
                                 (IApp (mask_of nb) nb (ae_n_machine e a - 1)))
           | ((ident, Mac m), k) =>
               add_info infos (mkInfo (Mac m) ident k (IMac (ae_index e m)))
           end) (infos ++ [mkInfo v ident k x]) d = Ok infos').
  { intro x. apply IH; [exact N2 | intros a p k' I; apply (ZB a p k'); right; exact I|].
    intros j k' J I. apply in_app_iff in J. destruct J as [J|[<-|[]]]; [apply (FR j k' J); right; exact I|].
    cbn [i_part i_vertex] in I. apply N1. exact (in_map fst _ _ I). }
  destruct v as [a|m].
  - destruct (ZB a ident k (or_introl eq_refl)) as [nb Z]. unfold dgetE at 1. rewrite Z. cbn [bind].
    rewrite add_info_fresh by apply FRv. cbn [bind]. apply NEXT.
  - rewrite add_info_fresh by apply FRv. cbn [bind]. apply NEXT.
Qed.

Lemma found_NoDup : forall e parts d allf, find_fixed e parts = Ok (d, allf) -> NoDup (map fst d).
Proof.
  intros e parts d allf H.
  assert (INNER : forall a p app verts d isf isu vert d' isf' vert', find_fixed_inner e a p app verts d isf isu vert = Ok (d', isf', vert') ->
    NoDup (map fst d) -> NoDup (map fst d')).
  { intros a p app. induction verts as [|v verts IH]; intros d0 isf isu vert d' isf' vert' E N; cbn [find_fixed_inner] in E; [inversion E; subst; exact N|].
    destruct (ae_mac_fixed e a v p) as [k|].
    - destruct isu; [discriminate|]. destruct app as [x|]; [|discriminate]. destruct (negb _); [discriminate|].
      refine (IH _ _ _ _ _ _ _ E _). apply (dset_NoDup _ fk_eqb_spec). exact N.
    - destruct isf; [discriminate|]. exact (IH _ _ _ _ _ _ _ E N). }
  assert (LOOP : forall todo d0 al vert, find_fixed_loop e todo d0 al vert = Ok (d, allf) -> NoDup (map fst d0) -> NoDup (map fst d)).
  { induction todo as [|[a p] todo IH]; intros d0 al vert E N; cbn [find_fixed_loop] in E; [inversion E; subst; exact N|].
    apply bind_Ok_inv in E. destruct E as ([[d1 isf] vert1] & E1 & E). pose proof (INNER _ _ _ _ _ _ _ _ _ _ _ E1 N) as N1.
    destruct (ae_app_fixed e a p) as [x|]; [|exact (IH _ _ _ E N1)].
    apply bind_Ok_inv in E. destruct E as (d2 & E2 & E). refine (IH _ _ _ E _). apply (dset_NoDup _ fk_eqb_spec).
    destruct isf; [injection E2 as <-; exact N1|]. destruct (Nat.ltb _ _); [discriminate|]. destruct vert1; [|discriminate]. injection E2 as <-.
    apply (dset_NoDup _ fk_eqb_spec). exact N1. }
  exact (LOOP _ _ _ _ H (NoDup_nil _)).
Qed.

Lemma user_key_set : forall e parts x, user_key e (ordered_set parts) x <-> user_key e parts x.
Proof.
  intros e parts x. destruct (ordered_set_spec parts) as [_ I].
  split; intros (a & p & P & U); exists a, p; (split; [now apply I | exact U]).
Qed.

(** * When the allocator succeeds *)
Lemma alloc_iff : forall flexible e parts, env_ok e parts ->
  (forall a p, In (a, p) parts -> NoDup (ae_outgoing e a p)) ->
  (forall a p, In (a, p) parts -> ae_app_fixed e a p = None -> ae_outgoing e a p <> [] -> counted e a p) ->
  (forall x, user_key e parts x -> km_ok x) ->
  (keys_complete e parts /\ keys_fit e parts <-> exists infos, allocate flexible e parts = Ok infos) /\
  (~ (keys_complete e parts /\ keys_fit e parts) <-> allocate flexible e parts = Err RouteInfoAllocation).
Proof.
  intros flexible e parts EO NDO CT KO. destruct (ordered_set_spec parts) as [ND I].
  pose proof (env_ok_set _ _ EO) as EOS.
  assert (KO' : forall x, user_key e (ordered_set parts) x -> km_ok x) by (intros x U; apply KO, user_key_set, U).
  assert (KCS : keys_complete e (ordered_set parts) <-> keys_complete e parts)
    by (split; intros K a p P; apply K; now apply I).
  enough (DEC : (keys_complete e parts /\ keys_fit e parts /\ exists infos, allocate flexible e parts = Ok infos) \/
                (~ (keys_complete e parts /\ keys_fit e parts) /\ allocate flexible e parts = Err RouteInfoAllocation)).
  { destruct DEC as [(A & B & infos & C)|(A & B)].
    - split; split; [intros _; eauto | auto | intros X; destruct (X (conj A B)) | intros X; congruence].
    - split; split; [intros X; destruct (A X) | intros [infos X]; congruence | auto | auto]. }
  destruct (find_fixed e (ordered_set parts)) as [[d allf]|x] eqn:FF.
  2:{ right. split.
      - intros [KC _]. apply KCS in KC. destruct (loop_found e (ordered_set parts) [] true None (proj1 EOS) KC) as [r R].
        unfold find_fixed in FF. congruence.
      - assert (x = RouteInfoAllocation) by (eapply loop_error; [exact (proj1 EOS) | exact FF]). subst x.
        unfold allocate. rewrite FF. reflexivity. }
  pose proof (loop_complete _ _ _ _ _ _ FF) as KC'. pose proof (proj1 KCS KC') as KC.
  pose proof (find_fixed_spec _ _ _ _ ND EOS FF) as [(I1 & I2 & I3 & I4) AF].
  assert (DA : forall a p, In (a, p) parts -> dget fk_eqb d (p, App a) = ae_app_fixed e a p).
  { intros a p P. rewrite I1. apply I in P. now rewrite (proj2 (existsb_ap _ _) P). }
  set (z := calculate_zones e d (ordered_set parts)).
  destruct (calculate_zones_spec e d (ordered_set parts) ND) as (S & B & U & D & L).
  fold z in S, B, U, D, L.
  assert (FREE : forall a p, In (a, p) parts -> ae_app_fixed e a p = None -> ae_outgoing e a p <> [] ->
    sized e d a p \/ length (ae_outgoing e a p) = 1%nat /\ max_keys e a p = 0).
  { intros a p P F N. destruct (N.eq_dec (max_keys e a p) 0) as [E0|].
    - right. split; auto. destruct (CT a p P F N) as [|(m & Hm & Hk)]; auto. pose proof (max_keys_le e a p m Hm). lia.
    - left. split; [lia|]. now rewrite DA. }
  set (am := z_atoms_mac z) in *. set (n := N.of_nat (length (z_bits z))) in *.
  assert (FIT : keys_fit e parts <-> am <= 32 /\ allocator_bits_needed (n + N.of_nat (length (fixed_used_of am d))) + am <= 32).
  { split.
    - intros (b & l & ps & B32 & TK & SE & LN & FP). rewrite <- (senders_count _ _ _ SE) in LN. clear ps SE.
      assert (AM : am <= b).
      { apply (U 32 32 b). intros a p Hin Hs. apply I in Hin. destruct Hs as [Hk Hf]. rewrite DA in Hf by auto.
        destruct (FP a p Hin Hf) as (x & y & XY & Y & X).
        { intro C. rewrite max_keys_nil in Hk by auto. lia. }
        assert (atom_bits e a p <= x).
        { apply allocator_bits_least. now apply max_keys_bound. }
        assert (mach_bits e a p <= y) by (now apply allocator_bits_least). lia. }
      split; [lia|].
      assert (T2 : blocks_taken e parts am (fixed_used_of am d)).
      { destruct (used_taken e (ordered_set parts) d allf am ND EOS KC' KO' FF) as [T1 T2]; [lia|]. split; [exact T1|].
        intro c. rewrite T2. split; intros (key & x & H1 & H2 & H3); exists key, x; (split; [auto|]; split; [now apply user_key_set|auto]). }
      pose proof (taken_finer e parts am b _ _ AM T2 TK) as FN. remember (fixed_used_of am d) as used eqn:EU. clear EU.
      assert (W : allocator_bits_needed (n + N.of_nat (length used)) <= 32 - am); [|lia].
      apply allocator_bits_least. unfold n. rewrite L.
      assert (E : 2 ^ (32 - am) = 2 ^ (32 - b) * 2 ^ (b - am)) by (rewrite <- N.pow_add_r; f_equal; lia).
      rewrite E. pose proof (pow2_pos (b - am)) as P. remember (2 ^ (b - am)) as s eqn:Es. clear Es.
      remember (2 ^ (32 - b)) as t eqn:Et. clear Et.
      remember (N.of_nat (length (filter (nonempty e) (ordered_set parts)))) as n0 eqn:En0. clear En0.
      remember (N.of_nat (length l)) as u eqn:Eu. clear Eu. remember (N.of_nat (length used)) as w eqn:Ew. clear Ew. clear - LN FN P. nia.
    - intros [A32 W]. exists am, (fixed_used_of am d), (filter (nonempty e) (ordered_set parts)). split; [exact A32|]. split.
      { destruct (used_taken e (ordered_set parts) d allf am ND EOS KC' KO' FF A32) as [T1 T2]. split; [exact T1|].
        intro c. rewrite T2. split; intros (key & x & H1 & H2 & H3); exists key, x; (split; [auto|]; split; [now apply user_key_set|auto]). }
      split; [apply senders_set|]. split.
      + rewrite <- L. fold n. apply allocator_bits_least. lia.
      + intros a p Hin Hf Hne. destruct (FREE a p Hin Hf Hne) as [Hs|[L1 M0]].
        * apply I in Hin. destruct (B a p Hin Hs) as (B1 & B2 & B3).
          exists (atom_bits e a p), (mach_bits e a p). split; [lia|].
          split; [now apply allocator_bits_least|].
          intros m Hm. eapply N.le_trans; [now apply max_keys_le with (a := a)|].
          now apply allocator_bits_least.
        * exists 0, 0. split; [lia|]. split; [rewrite L1; simpl; lia|].
          intros m Hm. pose proof (max_keys_le e a p m Hm). simpl. lia. }
  assert (AL : allocate flexible e parts =
    let* (z', used) := check_zones flexible d z in
    if allf then allocate_all_fixed e z' d
    else allocate_loop e flexible d z' used (ordered_set parts) 0 []).
  { unfold allocate. rewrite FF. reflexivity. }
  assert (MONO : am <= 32 -> allocator_bits_needed (n + N.of_nat (length (fixed_used_of am d))) + am <= 32 -> allocator_bits_needed n + am <= 32).
  { intros A32 W. remember (fixed_used_of am d) as used. assert (allocator_bits_needed n <= 32 - am); [|lia]. apply allocator_bits_least.
    assert (n + N.of_nat (length used) <= 2 ^ (32 - am)) by (apply allocator_bits_least; lia). lia. }
  destruct (check_zones flexible d z) as [[z' used]|x] eqn:EC.
  - left. split; [exact KC|].
    assert (W : am <= 32 /\ allocator_bits_needed (n + N.of_nat (length (fixed_used_of am d))) + am <= 32).
    { unfold check_zones in EC. fold n am in EC. destruct (N.ltb_spec 32 (allocator_bits_needed n + am)); [discriminate|]. cbv zeta in EC.
      destruct (N.ltb_spec 32 (allocator_bits_needed (n + N.of_nat (length (fixed_used_of am d))) + am)); [discriminate|]. split; [lia|auto]. }
    split; [now apply FIT|]. rewrite AL. cbn [bind].
    pose proof (check_zones_spec _ _ _ _ _ S EC) as (EU & EB & LE & L32 & LB & HT & HFl).
    destruct allf.
    + apply all_fixed_total; [exact (found_NoDup _ _ _ _ FF) | |intros j k []].
      intros a p k P. rewrite EB. apply (dget_Some_iff _ fk_eqb_spec _ _ _ (found_NoDup _ _ _ _ FF)) in P.
      rewrite I1 in P. destruct (existsb (ap_eqb (a, p)) (ordered_set parts)) eqn:EX; [|discriminate]. apply existsb_ap in EX.
      eexists. apply (D a p EX). apply (proj1 EOS a p EX). congruence.
    + apply (loop_total e flexible d z' used (ordered_set parts) [] 0 0 []); cbn [app]; auto.
      * subst used. apply NoDup_nodup.
      * intros a p Hin. apply NDO. now apply I.
      * intros a p Hin Hne. assert (Hin' : In (a, p) parts) by (now apply I).
        destruct (field_sizes flexible z' (atom_bits e a p)) as [nba nbm] eqn:HF.
        exists (atom_bits e a p), nba, nbm. rewrite EB. split; [exact (D a p Hin Hne)|]. split; [exact HF|].
        rewrite DA by auto. destruct (ae_app_fixed e a p) as [x|] eqn:Hf.
        { left. split; [discriminate|]. intros m M. rewrite (I2 a p m Hin M). unfold mac_key. rewrite Hf. destruct (ae_mac_fixed e a m p); discriminate. }
        right.
        assert (HSum : flexible = false -> z_atoms z' + z_machine z' = z_atoms_mac z').
        { intros Ef. now apply HFl. }
        pose proof (field_sizes_sum _ _ _ _ _ HSum HF) as SUM.
        assert (MB : (length (ae_outgoing e a p) = 1%nat /\ max_keys e a p = 0) \/
          (atom_bits e a p <= z_atoms z /\ mach_bits e a p <= z_machine z /\
           mach_bits e a p + atom_bits e a p <= z_atoms_mac z)).
        { destruct (FREE a p Hin' Hf Hne) as [Hs|]; auto. }
        assert (RES : exists nb, nbm = Some nb /\
                       N.of_nat (length (ae_outgoing e a p)) <= 2 ^ nb).
        { assert (Z0 : max_keys e a p = 0 -> atom_bits e a p = 0)
            by (intros E0; unfold atom_bits; now rewrite E0).
          assert (ONE : forall b, length (ae_outgoing e a p) = 1%nat ->
                       N.of_nat (length (ae_outgoing e a p)) <= 2 ^ b).
          { intros b E1. rewrite E1. pose proof (pow2_pos b). simpl. lia. }
          assert (LEN : forall b, mach_bits e a p <= b ->
                       N.of_nat (length (ae_outgoing e a p)) <= 2 ^ b).
          { intros b Hb. now apply allocator_bits_least. }
          unfold field_sizes in HF. clear LB W MONO FIT. destruct flexible.
          - rewrite (HT eq_refl) in *.
            destruct (N.ltb_spec (z_atoms_mac z) (atom_bits e a p)).
            { exfalso. destruct MB as [[_ E0]|]; [rewrite (Z0 E0) in *; lia|lia]. }
            exists (z_atoms_mac z - atom_bits e a p). split; [congruence|].
            destruct MB as [[L1 _]|]; [now apply ONE|apply LEN; lia].
          - destruct (HFl eq_refl) as (M1 & M2 & M3 & _).
            destruct (N.leb_spec (atom_bits e a p) (z_atoms z')).
            + exists (z_machine z'). split; [congruence|].
              destruct MB as [[L1 _]|]; [now apply ONE|apply LEN; lia].
            + destruct (N.ltb_spec (z_atoms_mac z') (atom_bits e a p)).
              { exfalso. destruct MB as [[_ E0]|]; [rewrite (Z0 E0) in *; lia|lia]. }
              exists (z_atoms_mac z' - atom_bits e a p). split; [congruence|].
              destruct MB as [[L1 _]|]; [now apply ONE|apply LEN; lia]. }
        destruct RES as (nb & -> & RL). exists nb. auto.
      * lia.
      * rewrite N.add_0_l, <- L. exact LB.
      * intros j [].
  - right. unfold check_zones in EC. fold n am in EC. split.
    + intros [_ F]. apply FIT in F. destruct F as [F1 F2]. pose proof (MONO F1 F2) as F3.
      destruct (N.ltb_spec 32 (allocator_bits_needed n + am)); [lia|]. cbv zeta in EC.
      destruct (N.ltb_spec 32 (allocator_bits_needed (n + N.of_nat (length (fixed_used_of am d))) + am)); [lia|].
      destruct flexible; [discriminate|]. destruct (N.ltb _ _); discriminate.
    + rewrite AL. cbn [bind]. destruct (N.ltb 32 (allocator_bits_needed n + am)); [congruence|]. cbv zeta in EC.
      destruct (N.ltb 32 (allocator_bits_needed (n + N.of_nat (length (fixed_used_of am d))) + am)); [congruence|].
      destruct flexible; [discriminate|]. destruct (N.ltb _ _); discriminate.
Qed.
