(** Ordered covering of tables whose entries overlap but are sorted by generality,
    such as the tables that ordered covering itself returns. *)
From Coq Require Import List Arith NArith ZArith Bool Lia Sorted Permutation.
From Verif Require Import Base RouteSpec KeyMask DefaultModel DefaultProofs OrderedModel OrderedProofs.
Import ListNotations.

(** Packet [k], that the original entry [o] was the first to match, is still routed
    like [o], by an entry one of whose aliases matches it. *)
Definition stands (t : list entry) (a : aliases) (k : N) (o : entry) : Prop :=
  exists e p, first_match t k = Some e /\ e_route e = e_route o /\ (e_def e = true -> e_def o = true) /\
    In p (alias_get a (km e)) /\ key_matches k (fst p) (snd p).

Record oc_base (t : list entry) (a : aliases) : Prop := {
  ob_sorted : gsorted t;
  ob_nodup : NoDup (map km t);
  ob_ok : Forall entry_ok t;
  ob_alias : forall e, In e t ->
     (exists p, In p (alias_get a (km e))) /\
     (forall p, In p (alias_get a (km e)) ->
        exists k, key_matches k (fst p) (snd p) /\ entry_matches k e)
}.

Lemma apply_keeps : forall t a m, oc_base t a -> valid_merge t a m ->
  one_route t (mg_entries m) -> mg_entries m <> [] ->
  exists t' a', apply_merge t a m = Ok (t', a') /\ oc_base t' a' /\
    (forall k o, stands t a k o -> stands t' a' k o) /\
    (length t' + length (mg_entries m) = length t + 1)%nat.
Proof.
  intros t a m [IS IN IO IA] [M [SS [UP DOWN]]] OR Hne.
  destruct (apply_merge_spec t a m M OR Hne IN) as [ne [a' [E [EK [EM [ED [ER [A1 A2]]]]]]]].
  set (t1 := del (mg_entries m) 0 (firstn (mg_ins m) t)) in *.
  set (t2 := del (mg_entries m) (mg_ins m) (skipn (mg_ins m) t)) in *.
  exists (t1 ++ ne :: t2), a'. split; auto.
  assert (KN : km ne = (mg_key m, mg_mask m)) by (unfold km; congruence).
  assert (T1 : forall x, In x t1 -> exists j, (j < mg_ins m)%nat /\ nth_error t j = Some x /\ ~ In j (mg_entries m)).
  { intros x Hx. apply del_In in Hx. destruct Hx as [j [Hj Hn]].
    apply nth_error_firstn_Some in Hj. destruct Hj. exists j. auto. }
  assert (T2 : forall x, In x t2 -> exists j, (mg_ins m <= j)%nat /\ nth_error t j = Some x /\ ~ In j (mg_entries m)).
  { intros x Hx. apply del_In in Hx. destruct Hx as [j [Hj Hn]].
    rewrite nth_error_skipn' in Hj. exists (mg_ins m + j)%nat. split; [lia|]. auto. }
  assert (TT : forall x, In x (t1 ++ t2) -> exists j, nth_error t j = Some x /\ ~ In j (mg_entries m)).
  { intros x Hx. apply in_app_or in Hx. destruct Hx as [Hx|Hx];
      [apply T1 in Hx|apply T2 in Hx]; destruct Hx as [j [_ [H1 H2]]]; exists j; auto. }
  assert (EKM : forall k, entry_matches k ne <-> key_matches k (mg_key m) (mg_mask m)).
  { intros k. unfold entry_matches. rewrite EK, EM. reflexivity. }
  assert (UNIQ : forall i j x y, nth_error t i = Some x -> nth_error t j = Some y -> km x = km y -> i = j).
  { intros i j x y Hi Hj HE. rewrite NoDup_nth_error in IN. apply IN.
    - rewrite map_length. apply nth_error_Some. congruence.
    - rewrite !nth_error_map, Hi, Hj. cbn. congruence. }
  assert (NEQ : forall x, In x (t1 ++ t2) -> km x <> km ne).
  { intros x Hx HE. apply in_app_or in Hx. destruct Hx as [Hx|Hx].
    - apply T1 in Hx. destruct Hx as [j [Hj [Hn _]]].
      pose proof (mo_below t m M j x Hj Hn) as G. unfold entry_generality in G.
      unfold km in HE. inversion HE as [[HE1 HE2]]. rewrite HE1, HE2, EK, EM in G. lia.
    - apply T2 in Hx. destruct Hx as [j [Hj [Hn _]]].
      destruct (IA x (nth_error_In _ _ Hn)) as [[p Hp] HK].
      destruct (HK p Hp) as [k [K1 K2]].
      apply (not_covered t a m j x p k DOWN Hj (mo_key t m M) Hn Hp K1).
      unfold entry_matches in K2. unfold km in HE. inversion HE as [[HE1 HE2]].
      rewrite HE1, HE2, EK, EM in K2. auto. }
  assert (KEEP : forall x, In x (t1 ++ t2) -> alias_get a' (km x) = alias_get a (km x)).
  { intros x Hx. apply A1.
    - rewrite <- KN. apply NEQ. auto.
    - intros e [i [Hi He]] HE. apply TT in Hx. destruct Hx as [j [Hj Hn]].
      apply Hn. rewrite <- (UNIQ i j e x He Hj HE). auto. }
  assert (SPLIT : del (mg_entries m) 0 t = t1 ++ t2).
  { rewrite <- (firstn_skipn (mg_ins m) t) at 1. rewrite del_app, firstn_length.
    pose proof (mo_ins t m M). replace (0 + Nat.min (mg_ins m) (length t))%nat with (mg_ins m) by lia.
    reflexivity. }
  split; [|split].
  - constructor.
    + (* sorted *)
      pose proof (del_sorted (mg_entries m) t 0 IS) as DS. rewrite SPLIT in DS.
      assert (B1 : forall x, In x t1 -> gle x ne).
      { intros x Hx. apply T1 in Hx. destruct Hx as [j [Hj [Hn _]]].
        pose proof (mo_below t m M j x Hj Hn). unfold gle, entry_generality in *.
        rewrite EK, EM. lia. }
      assert (B2 : forall x, In x t2 -> gle ne x).
      { intros x Hx. apply T2 in Hx. destruct Hx as [j [Hj [Hn _]]].
        pose proof (mo_above t m M j x Hj Hn). unfold gle, entry_generality in *.
        rewrite EK, EM. lia. }
      clear -DS B1 B2. clearbody t1 t2. unfold gsorted in *. induction t1 as [|x l IH]; cbn [app] in *.
      * constructor; auto. apply Forall_forall. auto.
      * inversion DS; subst. constructor.
        -- apply IH; auto. intros y Hy. apply B1. right; auto.
        -- rewrite Forall_forall in *. intros y Hy. apply in_app_or in Hy.
           destruct Hy as [Hy|[<-|Hy]].
           ++ apply H2. apply in_or_app; auto.
           ++ apply B1. left; auto.
           ++ apply H2. apply in_or_app; auto.
    + (* distinct pairs *)
      rewrite map_app. cbn [map].
      assert (ND : NoDup (map km (t1 ++ t2))).
      { rewrite <- SPLIT. clear -IN. generalize 0%nat. induction t as [|x l IH]; intro i; cbn [del map].
        - constructor.
        - cbn [map] in IN. inversion IN; subst.
          destruct (negb (existsb (Nat.eqb i) (mg_entries m))); auto.
          cbn [map]. constructor; auto. intro HI. apply H1. apply in_map_iff in HI.
          destruct HI as [y [Hy HI]]. rewrite <- Hy. apply in_map. apply del_In in HI.
          destruct HI as [j [Hj _]]. eapply nth_error_In; eauto. }
      rewrite map_app in ND. apply NoDup_Add with (a := km ne) (l := map km t1 ++ map km t2).
      * apply Add_app.
      * split; auto. rewrite <- map_app. intro HI. apply in_map_iff in HI.
        destruct HI as [y [Hy HI]]. apply (NEQ y HI Hy).
    + apply Forall_app. rewrite Forall_forall in IO. split.
      * apply Forall_forall. intros x Hx. apply T1 in Hx. destruct Hx as [j [_ [Hn _]]].
        apply IO. eapply nth_error_In; eauto.
      * constructor.
        -- unfold entry_ok. rewrite EK, EM. apply (mo_key t m M).
        -- apply Forall_forall. intros x Hx. apply T2 in Hx. destruct Hx as [j [_ [Hn _]]].
           apply IO. eapply nth_error_In; eauto.
    + intros e He. assert (HE : e = ne \/ In e (t1 ++ t2)).
      { apply in_app_or in He. destruct He as [He|[<-|He]]; auto; right; apply in_or_app; auto. }
      destruct HE as [->|HE].
      * rewrite KN. destruct (picked_exists t (mg_entries m) (mo_range t m M) Hne) as [e0 P0].
        assert (IN0 : forall e, picked t (mg_entries m) e -> In e t).
        { intros e [i [_ H]]. eapply nth_error_In; eauto. }
        split.
        -- destruct (IA e0 (IN0 _ P0)) as [[p Hp] _]. exists p. apply A2. exists e0. auto.
        -- intros p Hp. apply A2 in Hp. destruct Hp as [e1 [P1 Hp]].
           destruct (IA e1 (IN0 _ P1)) as [_ HK]. destruct (HK p Hp) as [k [K1 K2]].
           exists k. split; auto. apply EKM. apply (mo_cover t m M e1); auto.
      * rewrite (KEEP e HE). apply IA. apply TT in HE. destruct HE as [j [Hj _]].
        eapply nth_error_In; eauto.
  - intros k o (e & p & HR4 & HR1 & HR2 & HR3 & HP).
    destruct (first_match_index t k e HR4) as [i [Hi [F1 F2]]].
    destruct (in_dec Nat.eq_dec i (mg_entries m)) as [Hin|Hout].
    + (* merged *)
      assert (P : picked t (mg_entries m) e) by (exists i; auto).
      exists ne, p. split; [|split; [rewrite (ER e P); auto|split; [|split; [rewrite KN; apply A2; exists e; auto|exact HP]]]].
      2:{ intro HD. apply HR2. rewrite ED in HD. apply (proj1 (mo_def t m M) HD e P). }
      apply first_match_split.
      * intros x Hx. apply T1 in Hx. destruct Hx as [j [Hj [Hn Hnin]]].
        destruct (Nat.lt_trichotomy j i) as [L|[L|L]].
        -- eapply F2; eauto.
        -- subst. contradiction.
        -- intro HM. pose proof (UP i Hin e j x Hi Hn L Hj) as HI.
           unfold intersect in HI. apply N.eqb_neq in HI. apply HI.
           unfold entry_matches, key_matches in F1, HM. rewrite <- F1, <- HM.
           rewrite <- !N.land_assoc. f_equal. apply N.land_comm.
      * apply EKM. apply (mo_cover t m M e); auto.
    + assert (HE : In e (t1 ++ t2)).
      { rewrite <- SPLIT. apply del_In. exists i. rewrite Nat.add_0_l. auto. }
      exists e, p. split; [|split; [auto|split; [auto|split; [rewrite (KEEP e HE); auto|exact HP]]]].
      destruct (Nat.lt_ge_cases i (mg_ins m)) as [L|L].
      * rewrite first_match_app. unfold t1.
        rewrite (first_match_del (mg_entries m) (firstn (mg_ins m) t) 0 i e k); auto.
        -- rewrite nth_error_firstn' by auto. auto.
        -- intros j x Hj Hx. apply nth_error_firstn_Some in Hx. destruct Hx as [_ Hx]. eapply F2; eauto.
      * rewrite first_match_app.
        rewrite (proj2 (first_match_None t1 k)).
        -- cbn [first_match]. destruct (entry_matchesb k ne) eqn:EN.
           ++ exfalso. apply entry_matchesb_iff in EN. apply EKM in EN.
              apply (not_covered t a m i e p k DOWN L (mo_key t m M) Hi HR3); auto.
           ++ unfold t2. apply first_match_del with (i - mg_ins m)%nat; auto.
              ** rewrite nth_error_skipn'. replace (mg_ins m + (i - mg_ins m))%nat with i by lia. auto.
              ** intros j x Hj Hx. rewrite nth_error_skipn' in Hx. eapply F2; [|eauto]. lia.
              ** replace (mg_ins m + (i - mg_ins m))%nat with i by lia. auto.
        -- intros x Hx. apply T1 in Hx. destruct Hx as [j [Hj [Hn _]]]. eapply F2; [|eauto]. lia.
  - pose proof (del_length (mg_entries m) t 0 SS) as DL. rewrite SPLIT in DL.
    rewrite app_length in *. cbn [length] in *.
    assert (length t1 + length t2 + length (mg_entries m) = length t)%nat; [|lia].
    apply DL. intros x Hx. pose proof (mo_range t m M x Hx). lia.
Qed.

Lemma oc_loop_keeps : forall fuel t a target, oc_base t a -> (t <> [] \/ target <> None) ->
  (length t < fuel)%nat ->
  exists t' a', oc_loop fuel t a target = Ok (t', a') /\ oc_base t' a' /\
    (forall k o, stands t a k o -> stands t' a' k o) /\ (length t' <= length t)%nat.
Proof.
  induction fuel as [|f IH]; intros t a target I Ht HF; [lia|].
  cbn [oc_loop]. destruct (want_more target t) eqn:W.
  - assert (Hne : t <> []).
    { destruct Ht as [Ht|Ht]; auto. destruct target as [n|]; [|congruence].
      unfold want_more in W. apply Nat.ltb_lt in W. intro; subst; cbn in W; lia. }
    destruct (best_merge_spec t a Hne (ob_sorted _ _ I)) as [m [E H]]. rewrite E. cbn [bind].
    destruct H as [H|[V [OR G]]].
    + rewrite goodness_empty by auto. cbn [Z.leb Z.compare]. exists t, a. auto.
    + destruct (Z.leb_spec (goodness m) 0) as [L|L]; [lia|].
      assert (Hm : mg_entries m <> []).
      { intro X. rewrite goodness_empty in G by exact X. lia. }
      destruct (apply_keeps t a m I V OR Hm) as [t' [a' [E' [I' [K LN]]]]].
      rewrite E'. cbn [bind fst snd].
      unfold goodness in G.
      assert (length t' < length t)%nat by lia.
      assert (LM : (length (mg_entries m) <= length t)%nat).
      { destruct V as [M [SS _]]. apply sorted_length_range; auto. apply (mo_range t m M). }
      assert (T' : t' <> []) by (intro X; rewrite X in LN; cbn in LN; lia).
      destruct (IH t' a' target I' (or_introl T') ltac:(lia)) as [t2 [a2 [E2 [I2 [K2 L2]]]]].
      exists t2, a2. split; auto. split; auto. split; [auto|lia].
  - exists t, a. auto.
Qed.

Lemma sort_of_sorted : forall t, gsorted t -> sort_entries t = t.
Proof.
  intros t H. induction H as [|x t H IH F]; [reflexivity|]. cbn [sort_entries fold_right].
  change (fold_right insert_entry [] t) with (sort_entries t). rewrite IH.
  destruct t as [|y t]; [reflexivity|]. cbn [insert_entry].
  inversion F as [|? ? G _]; subst. unfold gle in G.
  destruct (Z.leb_spec (entry_generality x) (entry_generality y)); [reflexivity|lia].
Qed.

Lemma covering_keeps : forall table target nr out al,
  Forall entry_ok table -> gsorted table -> NoDup (map km table) ->
  ordered_covering table target [] nr = Ok (out, al) ->
  gsorted out /\ NoDup (map km out) /\ Forall entry_ok out /\
  forall k o, first_match table k = Some o ->
    exists e, first_match out k = Some e /\ e_route e = e_route o /\ (e_def e = true -> e_def o = true).
Proof.
  intros table target nr out al F HS N E.
  assert (B : oc_base table []).
  { constructor; auto. intros e He. cbn [alias_get]. split; [eexists; left; reflexivity|].
    intros p [<-|[]]. exists (e_key e). rewrite Forall_forall in F. specialize (F e He). split; exact F. }
  unfold ordered_covering in E. rewrite (sort_of_sorted table HS) in E.
  assert (G : exists t' a', oc_loop (S (length table)) table [] target = Ok (t', a') /\ oc_base t' a' /\
    (forall k o, stands table [] k o -> stands t' a' k o)).
  { destruct table as [|x table].
    - destruct target as [n|].
      + destruct (oc_loop_keeps 1 [] [] (Some n) B ltac:(right; discriminate) ltac:(cbn; lia)) as (t' & a' & H1 & H2 & H3 & _).
        exists t', a'. auto.
      + vm_compute in E. discriminate.
    - destruct (oc_loop_keeps (S (length (x :: table))) (x :: table) [] target B ltac:(left; discriminate) ltac:(lia))
        as (t' & a' & H1 & H2 & H3 & _). exists t', a'. auto. }
  destruct G as (t' & a' & H1 & [G1 G2 G3 _] & H3). rewrite H1 in E. cbn [bind fst] in E.
  destruct (negb nr && match target with Some n => Nat.ltb n (length t') | None => false end)%bool; [discriminate|].
  injection E as <- <-. split; [exact G1|]. split; [exact G2|]. split; [exact G3|].
  intros k o H. destruct (H3 k o) as (e & p & A & C & D & _).
  - exists o, (km o). split; [exact H|]. split; [reflexivity|]. split; [auto|]. split; [now left|].
    destruct (first_match_index _ _ _ H) as (_ & _ & M & _). exact M.
  - exists e. auto.
Qed.

(** * Its own result *)

Lemma dropped_in : forall {A} (P : A -> Prop) l l', dropped P l l' -> forall x, In x l' -> In x l.
Proof. intros A P l l' H. induction H; intros y Hy; [exact Hy| |right; auto]. destruct Hy as [->|Hy]; [now left|right; auto]. Qed.

Lemma dropped_sorted : forall {A} (P : A -> Prop) (R : A -> A -> Prop) l l', dropped P l l' ->
  StronglySorted R l -> StronglySorted R l'.
Proof.
  intros A P R l l' H. induction H as [|x l l' H IH|x l l' Px H IH]; intros HS; [exact HS| |].
  - inversion HS as [|? ? H1 F]; subst. constructor; [auto|]. rewrite Forall_forall in *. intros y Hy.
    apply F. eapply dropped_in; eauto.
  - inversion HS; subst; auto.
Qed.

Lemma dropped_nodup : forall {A B} (f : A -> B) (P : A -> Prop) l l', dropped P l l' ->
  NoDup (map f l) -> NoDup (map f l').
Proof.
  intros A B f P l l' H. induction H as [|x l l' H IH|x l l' Px H IH]; intros HN; [exact HN| |].
  - cbn [map] in *. inversion HN as [|? ? H1 H2]; subst. constructor; [|auto]. intros C. apply H1.
    apply in_map_iff in C. destruct C as (y & E & Hy). rewrite <- E. apply in_map. eapply dropped_in; eauto.
  - inversion HN; subst; auto.
Qed.

Lemma covering_result : forall table target nr out al, Forall entry_ok table -> orthogonal table ->
  ordered_covering table target [] nr = Ok (out, al) ->
  gsorted out /\ NoDup (map km out) /\ Forall entry_ok out.
Proof.
  intros table target nr out al F O E.
  destruct table as [|x table].
  { destruct target; [|vm_compute in E; discriminate]. unfold ordered_covering in E. cbn [sort_entries fold_right] in E.
    cbn in E. destruct nr; cbn in E; injection E as <- _; split; [constructor|split; constructor|constructor|split; constructor]. }
  destruct (ordered_covering_spec (x :: table) target nr F O ltac:(left; discriminate)) as (t' & a' & I & _ & _ & _ & E').
  rewrite E' in E. destruct (negb nr && _)%bool; [discriminate|]. injection E as <- _.
  destruct I. auto.
Qed.

Lemma compress_keeps_sorted : forall table target out, Forall entry_ok table -> gsorted table -> NoDup (map km table) ->
  oc_compress_table table target = Ok out ->
  gsorted out /\ NoDup (map km out) /\ Forall entry_ok out /\
  forall k o, first_match table k = Some o ->
    (exists e, first_match out k = Some e /\ e_route e = e_route o /\ (e_def e = true -> e_def o = true)) \/
    (first_match out k = None /\ e_def o = true).
Proof.
  intros table target out F HS N C.
  unfold oc_compress_table in C. apply bind_Ok_inv in C. destruct C as [[t a] [E1 E2]]. cbn [fst] in E2.
  destruct (covering_keeps table target true t a F HS N E1) as (A1 & A2 & A3 & Kp).
  destruct (remove_default_safe t target true out A3 (or_introl eq_refl) E2) as [D Sf].
  split; [eapply dropped_sorted; eauto|]. split; [eapply dropped_nodup; eauto|]. split.
  { rewrite Forall_forall in *. intros x Hx. apply A3. eapply dropped_in; eauto. }
  intros k o Ho. destruct (Kp k o Ho) as (e & Fe & Re & De).
  specialize (Sf k). rewrite Fe in Sf. destruct Sf as [Sf|[S1 S2]]; [left; exists e; auto|right; auto].
Qed.

Lemma compress_result : forall table target out, Forall entry_ok table -> orthogonal table ->
  oc_compress_table table target = Ok out ->
  gsorted out /\ NoDup (map km out) /\ Forall entry_ok out.
Proof.
  intros table target out F O C.
  unfold oc_compress_table in C. apply bind_Ok_inv in C. destruct C as [[t a] [E1 E2]]. cbn [fst] in E2.
  destruct (covering_result table target true t a F O E1) as (A1 & A2 & A3).
  destruct (remove_default_safe t target true out A3 (or_introl eq_refl) E2) as [D Sf].
  split; [eapply dropped_sorted; eauto|]. split; [eapply dropped_nodup; eauto|].
  rewrite Forall_forall in *. intros x Hx. apply A3. eapply dropped_in; eauto.
Qed.
