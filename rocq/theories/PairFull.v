(** How far the pair compressor goes: the order it sorts entries into, and why
    none of the entries it leaves can be merged. *)
From Coq Require Import List Arith NArith ZArith Bool Lia Permutation Sorted.
From Verif Require Import Base RouteSpec KeyMask PairModel PairProofs PairSort.
Import ListNotations.

(** * The main loop on a sorted table *)
Section Loop.
  Context (rk : N -> nat).

  Let desc := fun a b : entry => rk (e_route b) <= rk (e_route a).

  Definition hit (ordered : bool) (S : list entry) (a b : entry) : Prop :=
    e_route a = e_route b ->
    exists d k, In d S /\ e_route d <> e_route a /\
      (ordered = true -> rk (e_route d) < rk (e_route a)) /\
      entry_matches k d /\ entry_matches k (merged a b).

  Lemma fop_app {A} (R : A -> A -> Prop) : forall l1 l2,
    ForallOrdPairs R l1 -> ForallOrdPairs R l2 ->
    (forall a b, In a l1 -> In b l2 -> R a b) -> ForallOrdPairs R (l1 ++ l2).
  Proof.
    induction l1 as [|x l1 IH]; intros l2 H1 H2 H; simpl; [assumption|].
    inversion H1; subst. constructor.
    - apply Forall_app. split; [assumption|]. apply Forall_forall. intros b Hb.
      apply H; [now left|assumption].
    - apply IH; auto. intros a b Ha Hb. apply H; [now right|assumption].
  Qed.

  Lemma fop_impl {A} (R R' : A -> A -> Prop) : forall l,
    (forall a b, In a l -> In b l -> R a b -> R' a b) ->
    ForallOrdPairs R l -> ForallOrdPairs R' l.
  Proof.
    induction l as [|x l IH]; intros H F; [constructor|]. inversion F as [|? ? F1 F2]; subst.
    constructor.
    - rewrite Forall_forall in *. intros b Hb. apply H; [now left|now right|auto].
    - apply IH; [|assumption]. intros a b Ha Hb. apply H; now right.
  Qed.

  Lemma ss_app : forall (R : entry -> entry -> Prop) l1 l2,
    StronglySorted R (l1 ++ l2) <->
    StronglySorted R l1 /\ StronglySorted R l2 /\
    (forall a b, In a l1 -> In b l2 -> R a b).
  Proof.
    intros R. induction l1 as [|x l1 IH]; intros l2; simpl.
    - split; [intros H; split; [constructor|split; [assumption|intros a b []]]|tauto].
    - split.
      + intros H. inversion H as [|? ? H1 H2]; subst. apply IH in H1.
        apply Forall_app in H2. destruct H1 as (A & B & C), H2 as (D & E).
        split; [now constructor|]. split; [assumption|].
        intros a b [<-|Ha] Hb; [rewrite Forall_forall in E; auto|auto].
      + intros (A & B & C). inversion A as [|? ? A1 A2]; subst. constructor.
        * apply IH. split; [assumption|]. split; [assumption|]. intros a b Ha Hb.
          apply C; [now right|assumption].
        * apply Forall_app. split; [assumption|]. apply Forall_forall. intros b Hb.
          apply C; [now left|assumption].
  Qed.

  Lemma ss_all : forall (R : entry -> entry -> Prop) l,
    (forall a b, In a l -> In b l -> R a b) -> StronglySorted R l.
  Proof.
    intros R. induction l as [|x l IH]; intros H; [constructor|]. constructor.
    - apply IH. intros a b Ha Hb. apply H; now right.
    - apply Forall_forall. intros b Hb. apply H; [now left|now right].
  Qed.

  Lemma loop_full : forall fuel ordered out junk rest,
    length rest < fuel ->
    Forall entry_ok out -> Forall entry_ok rest ->
    StronglySorted desc (out ++ rest) ->
    (forall a b, In a (out ++ rest) -> In b (out ++ rest) ->
       rk (e_route a) = rk (e_route b) -> e_route a = e_route b) ->
    (forall o d, In o out -> In d rest -> e_route o <> e_route d) ->
    ForallOrdPairs (hit ordered (out ++ rest)) out ->
    exists arr w,
      compress_loop fuel ordered (out ++ junk ++ rest) (length out) (length (out ++ junk))
      = Ok (arr, w)
      /\ Forall entry_ok (firstn w arr)
      /\ StronglySorted desc (firstn w arr)
      /\ ForallOrdPairs (hit ordered (firstn w arr)) (firstn w arr)
      /\ (forall o, In o (firstn w arr) -> exists d, In d (out ++ rest) /\ e_route d = e_route o).
  Proof.
    induction fuel as [|fuel IH]; intros ordered out junk rest Hfuel Oko Okr HS Inj Dif HP; [lia|].
    cbn [compress_loop]. destruct rest as [|x b].
    - destruct (Nat.ltb_spec (length (out ++ junk)) (length (out ++ junk ++ [])));
        [revert H; lens|].
      exists (out ++ junk ++ []), (length out). split; [reflexivity|].
      rewrite !app_nil_r in *.
      rewrite firstn_app, Nat.sub_diag, firstn_all. simpl. rewrite app_nil_r.
      split; [assumption|]. split; [assumption|]. split; [assumption|].
      intros o Ho. exists o. auto.
    - destruct (Nat.ltb_spec (length (out ++ junk)) (length (out ++ junk ++ x :: b)));
        [clear H|revert H; lens].
      destruct (find_right_spec (S (length (out ++ junk ++ x :: b))) b (out ++ junk) x [])
        as (s2 & b2 & -> & FR & Rt & Mx); [lens|intros e []|].
      simpl app in FR. replace ((out ++ junk) ++ x :: s2 ++ b2)
        with (out ++ junk ++ x :: s2 ++ b2) in FR by reass.
      rewrite Nat.add_0_r in FR. simpl app in Rt.
      rewrite FR. cbn [bind].
      set (seg := x :: s2) in *.
      change (x :: s2 ++ b2) with (seg ++ b2) in Okr, HS, Inj, Dif, HP |- *.
      apply Forall_app in Okr. destruct Okr as [Oks Okb].
      assert (Hsr : forall e, In e seg -> e_route e = e_route x).
      { intros e [<-|He]; [reflexivity|now apply Rt]. }
      assert (Hxs : In x seg) by now left.
      destruct (by_route_spec (S (S (length (out ++ junk) + length s2) - length (out ++ junk)))
                  ordered (length out) out (length (out ++ junk ++ seg ++ [])) b2 (e_route x)
                  seg out junk seg [])
        as (new & junk' & E & L1 & L2 & P1 & P2 & P3 & P4); auto.
      { apply firstn_all. }
      { discriminate. }
      { unfold seg. cbn [length]. lia. }
      { intros e He. split; [|split].
        - rewrite Forall_forall in Oks. auto.
        - now apply Hsr.
        - now left. }
      assert (E' : compress_by_route
          (S (S (length (out ++ junk) + length s2) - length (out ++ junk))) ordered
          (length out) (S (length (out ++ junk) + length s2))
          (out ++ junk ++ seg ++ b2) (length out) (length (out ++ junk))
          (length (out ++ junk) + length s2)
        = Ok (out ++ new ++ junk' ++ b2, length (out ++ new))).
      { rewrite <- E. f_equal; unfold seg; try reass; lens. }
      rewrite E'. cbn [bind].
      assert (Hnr : forall e, In e new -> e_route e = e_route x)
        by (intros e0 He0; destruct (P1 e0 He0) as (_ & ? & _); assumption).
      apply ss_app in HS. destruct HS as (So & Ss & Sc).
      apply ss_app in Ss. destruct Ss as (Ss1 & Sb & Sc2).
      assert (Hlt : forall d, In d b2 -> rk (e_route d) < rk (e_route x) /\ e_route d <> e_route x).
      { intros d Hd. assert (Hne : e_route d <> e_route x).
        { destruct b2 as [|y b3]; [destruct Hd|]. specialize (Mx y b3 eq_refl).
          destruct Hd as [<-|Hd]; [assumption|]. intros Er.
          inversion Sb as [|? ? _ Fb]; subst. rewrite Forall_forall in Fb.
          apply Mx. apply Inj.
          - apply in_or_app. right. apply in_or_app. right. now left.
          - apply in_or_app. right. now left.
          - apply Nat.le_antisymm.
            + apply Sc2; [assumption|now left].
            + specialize (Fb d Hd). unfold desc in Fb. now rewrite Er in Fb. }
        split; [|assumption].
        assert (rk (e_route d) <= rk (e_route x)) by now apply Sc2.
        assert (rk (e_route d) <> rk (e_route x)); [|lia].
        intros Eq. apply Hne. apply Inj; [| |assumption].
        - apply in_or_app. right. apply in_or_app. now right.
        - apply in_or_app. right. now left. }
      assert (Hmem : forall d, In d (out ++ new ++ b2) ->
                exists d0, In d0 (out ++ seg ++ b2) /\ e_route d0 = e_route d).
      { intros d Hd. rewrite !in_app_iff in Hd. destruct Hd as [Hd|[Hd|Hd]].
        - exists d. split; [rewrite in_app_iff; auto|reflexivity].
        - exists x. split; [rewrite !in_app_iff; auto|]. symmetry. auto.
        - exists d. split; [rewrite !in_app_iff; auto|reflexivity]. }
      assert (Hup : forall a b, hit ordered (out ++ seg ++ b2) a b ->
                                hit ordered ((out ++ new) ++ b2) a b).
      { intros a c H Er. destruct (H Er) as (d & k & Hd & Hne & Ho & Md & Mm).
        rewrite <- app_assoc. rewrite !in_app_iff in Hd. destruct Hd as [Hd|[Hd|Hd]].
        - exists d, k. split; [rewrite !in_app_iff; auto|auto].
        - destruct (P2 d Hd) as (d' & Hd' & C & _). exists d', k.
          assert (Ed : e_route d' = e_route d) by (rewrite Hnr by assumption; symmetry; auto).
          rewrite Ed. split; [rewrite !in_app_iff; auto|auto].
        - exists d, k. split; [rewrite !in_app_iff; auto|auto]. }
      destruct (IH ordered (out ++ new) junk' b2) as (arr & w & E2 & R1 & R2 & R3 & R4).
      { revert Hfuel. unfold seg. simpl. lens. }
      { apply Forall_app. split; [assumption|]. apply Forall_forall. intros e He. now apply P1. }
      { assumption. }
      { rewrite <- app_assoc. apply ss_app. split; [assumption|]. split.
        - apply ss_app. split; [|split; [assumption|]].
          + apply ss_all. intros a c Ha Hc. unfold desc. rewrite (Hnr a Ha), (Hnr c Hc). apply Nat.le_refl.
          + intros a c Ha Hc. unfold desc. rewrite (Hnr a) by assumption.
            pose proof (Hlt c Hc). lia.
        - intros a c Ha Hc. apply in_app_or in Hc. destruct Hc as [Hc|Hc].
          + unfold desc. rewrite (Hnr c) by assumption. apply Sc; [assumption|].
            apply in_or_app. now left.
          + apply Sc; [assumption|]. apply in_or_app. now right. }
      { intros a c Ha Hc Er. rewrite <- app_assoc in Ha, Hc.
        destruct (Hmem a Ha) as (a0 & Ha0 & Ea). destruct (Hmem c Hc) as (c0 & Hc0 & Ec).
        rewrite <- Ea, <- Ec in *. now apply Inj. }
      { intros o d Ho Hd. apply in_app_or in Ho. destruct Ho as [Ho|Ho].
        - apply Dif; [assumption|]. apply in_or_app. now right.
        - rewrite (Hnr o) by assumption. destruct (Hlt d Hd). congruence. }
      { apply fop_app.
        - eapply fop_impl; [|exact HP]. intros a c _ _. apply Hup.
        - eapply fop_impl; [|exact P4]. intros a c Ha Hc (d & k & Hd & Md & Mm) Er.
          exists d, k. rewrite (Hnr a) by assumption. destruct Hd as [Hd|[Ho Hd]].
          + destruct (Hlt d Hd). split; [rewrite !in_app_iff; auto|auto].
          + split; [rewrite !in_app_iff; auto|]. split; [|split; [congruence|auto]].
            apply Dif; [assumption|]. apply in_or_app. now left.
        - intros a c Ha Hc Er. exfalso. apply (Dif a x Ha).
          + apply in_or_app. now left.
          + rewrite Er. auto. }
      exists arr, w. split; [|split; [assumption|split; [assumption|split; [assumption|]]]].
      + replace ((out ++ new) ++ junk' ++ b2) with (out ++ new ++ junk' ++ b2) in E2 by reass.
        rewrite <- E2. f_equal.
        revert L1. unfold seg. lens.
      + intros o Ho. destruct (R4 o Ho) as (d & Hd & <-). rewrite <- app_assoc in Hd.
        now apply Hmem.
  Qed.

  Lemma fop_app_inv {A} (R : A -> A -> Prop) : forall l1 l2, ForallOrdPairs R (l1 ++ l2) ->
    forall a b, In a l1 -> In b l2 -> R a b.
  Proof.
    induction l1 as [|x l1 IH]; intros l2 H a b Ha Hb; [destruct Ha|]. inversion H as [|? ? H1 H2]; subst.
    destruct Ha as [<-|Ha]; [|now apply (IH l2)]. rewrite Forall_forall in H1. apply H1. apply in_or_app. now right.
  Qed.

  Lemma fop_app_r {A} (R : A -> A -> Prop) : forall l1 l2, ForallOrdPairs R (l1 ++ l2) -> ForallOrdPairs R l2.
  Proof. induction l1 as [|x l1 IH]; intros l2 H; [exact H|]. inversion H; subst. auto. Qed.

  Lemma fop_pair {A} (R : A -> A -> Prop) : forall l1 a l2 b l3, ForallOrdPairs R (l1 ++ a :: l2 ++ b :: l3) -> R a b.
  Proof.
    intros l1 a l2 b l3 H. apply (fop_app_r R l1) in H. inversion H as [|? ? H1 H2]; subst.
    rewrite Forall_forall in H1. apply H1. rewrite in_app_iff. simpl. auto.
  Qed.

  Lemma nodup_app {A} : forall l1 l2 : list A, NoDup l1 -> NoDup l2 -> (forall x, In x l1 -> ~ In x l2) -> NoDup (l1 ++ l2).
  Proof.
    induction l1 as [|x l1 IH]; intros l2 H1 H2 H; [exact H2|]. inversion H1; subst. simpl. constructor.
    - rewrite in_app_iff. intros [I|I]; [contradiction|]. apply (H x); [now left|exact I].
    - apply IH; auto. intros y Hy. apply H. now right.
  Qed.

  (** Each entry of the table is held by one that the compressor writes, and the entries
      before it that share a key with it have its route and another key or mask. *)
  Definition held (out : list entry) (e : entry) : Prop :=
    exists pre h post, out = pre ++ h :: post /\ covers h e /\ e_route h = e_route e /\
      (e_def h = true -> e_def e = true) /\
      forall c k, In c pre -> entry_matches k c -> entry_matches k e ->
        e_route c = e_route e /\ (e_key c, e_mask c) <> (e_key e, e_mask e).

  Lemma held_app out new e : held out e -> held (out ++ new) e.
  Proof.
    intros (pre & h & post & -> & H). exists pre, h, (post ++ new). split; [reass|exact H].
  Qed.

  Lemma same_km_covers a b : (e_key a, e_mask a) = (e_key b, e_mask b) -> covers a b.
  Proof. intros [= E1 E2] k M. unfold entry_matches in *. now rewrite E1, E2. Qed.

  Lemma merged_inside a h k : entry_ok a -> entry_ok h -> covers h a -> entry_matches k (merged a h) -> entry_matches k h.
  Proof.
    intros Oa Oh C M. unfold entry_matches, key_matches in *.
    apply (merge_minimal (e_key a) (e_mask a) (e_key h) (e_mask h)
             (e_key h) (e_mask h)); auto.
  Qed.

  Lemma loop_held : forall fuel ordered out junk rest done,
    length rest < fuel ->
    Forall entry_ok out -> Forall entry_ok rest ->
    StronglySorted desc rest ->
    (forall a b, In a rest -> In b rest -> rk (e_route a) = rk (e_route b) -> e_route a = e_route b) ->
    orthogonal rest ->
    (forall o d k, In o out -> In d rest -> entry_matches k o -> entry_matches k d -> False) ->
    NoDup (map (fun e => (e_key e, e_mask e)) out) ->
    (forall o, In o out -> exists e, In e done /\ covers o e) ->
    (forall e, In e done -> held out e) ->
    exists arr w,
      compress_loop fuel ordered (out ++ junk ++ rest) (length out) (length (out ++ junk))
      = Ok (arr, w)
      /\ Forall entry_ok (firstn w arr)
      /\ NoDup (map (fun e => (e_key e, e_mask e)) (firstn w arr))
      /\ (forall o, In o (firstn w arr) -> exists e, In e (done ++ rest) /\ covers o e)
      /\ (forall e, In e (done ++ rest) -> held (firstn w arr) e).
  Proof.
    induction fuel as [|fuel IH]; intros ordered out junk rest done Hfuel Oko Okr HS Inj Orth Dis ND Cov Hld; [lia|].
    cbn [compress_loop]. destruct rest as [|x b].
    - destruct (Nat.ltb_spec (length (out ++ junk)) (length (out ++ junk ++ [])));
        [revert H; lens|].
      exists (out ++ junk ++ []), (length out). split; [reflexivity|].
      rewrite !app_nil_r in *.
      rewrite firstn_app, Nat.sub_diag, firstn_all. simpl. rewrite app_nil_r. auto.
    - destruct (Nat.ltb_spec (length (out ++ junk)) (length (out ++ junk ++ x :: b)));
        [clear H|revert H; lens].
      destruct (find_right_spec (S (length (out ++ junk ++ x :: b))) b (out ++ junk) x [])
        as (s2 & b2 & -> & FR & Rt & Mx); [lens|intros e []|].
      simpl app in FR. replace ((out ++ junk) ++ x :: s2 ++ b2)
        with (out ++ junk ++ x :: s2 ++ b2) in FR by reass.
      rewrite Nat.add_0_r in FR. simpl app in Rt.
      rewrite FR. cbn [bind].
      set (seg := x :: s2) in *.
      change (x :: s2 ++ b2) with (seg ++ b2) in Okr, HS, Inj, Orth, Dis |- *.
      apply Forall_app in Okr. destruct Okr as [Oks Okb].
      assert (Hsr : forall e, In e seg -> e_route e = e_route x).
      { intros e [<-|He]; [reflexivity|now apply Rt]. }
      assert (Hxs : In x seg) by now left.
      destruct (by_route_spec (S (S (length (out ++ junk) + length s2) - length (out ++ junk)))
                  ordered (length out) out (length (out ++ junk ++ seg ++ [])) b2 (e_route x)
                  seg out junk seg [])
        as (new & junk' & E & L1 & L2 & P1 & P2 & P3 & P4); auto.
      { apply firstn_all. }
      { discriminate. }
      { unfold seg. cbn [length]. lia. }
      { intros e He. split; [|split].
        - rewrite Forall_forall in Oks. auto.
        - now apply Hsr.
        - now left. }
      assert (E' : compress_by_route
          (S (S (length (out ++ junk) + length s2) - length (out ++ junk))) ordered
          (length out) (S (length (out ++ junk) + length s2))
          (out ++ junk ++ seg ++ b2) (length out) (length (out ++ junk))
          (length (out ++ junk) + length s2)
        = Ok (out ++ new ++ junk' ++ b2, length (out ++ new))).
      { rewrite <- E. f_equal; unfold seg; try reass; lens. }
      rewrite E'. cbn [bind].
      assert (Hnr : forall e, In e new -> e_route e = e_route x)
        by (intros e0 He0; destruct (P1 e0 He0) as (_ & ? & _); assumption).
      assert (Hno : forall e, In e new -> entry_ok e)
        by (intros e0 He0; destruct (P1 e0 He0) as (? & _ & _); assumption).
      apply ss_app in HS. destruct HS as (Ss1 & Sb & Sc2).
      assert (Sdis : forall a d k, In a seg -> In d b2 -> entry_matches k a -> entry_matches k d -> False).
      { intros a d k Ha Hd. intros Ma Md. exact (fop_app_inv _ _ _ Orth a d Ha Hd k (conj Ma Md)). }
      assert (Ndis : forall h d k, In h new -> In d b2 -> entry_matches k h -> entry_matches k d -> False).
      { intros h d k Hh Hd Mh Md. destruct (P1 h Hh) as (_ & _ & [Hs|[Fr _]]).
        - exact (Sdis h d k Hs Hd Mh Md).
        - exact (Fr d Hd k (conj Mh Md)). }
      assert (Nfree : forall a h k, In a new -> In h new -> covers h a -> blocked ordered out b2 (merged a h) -> entry_matches k a -> False).
      { intros a h k0 Ha Hh C (d & k & Hd & Md & Mm) _.
        assert (Mh : entry_matches k h) by (apply (merged_inside a h); auto).
        destruct Hd as [Hd|[Eo Hd]]; [exact (Ndis h d k Hh Hd Mh Md)|].
        destruct (P1 h Hh) as (_ & _ & [Hs|[_ Fr]]).
        - apply (Dis d h k); auto. apply in_or_app. now left.
        - exact (Fr Eo d Hd k (conj Mh Md)). }
      destruct (IH ordered (out ++ new) junk' b2 (done ++ seg)) as (arr & w & E2 & R1 & R2 & R3 & R4).
      { revert Hfuel. unfold seg. simpl. lens. }
      { apply Forall_app. split; [assumption|]. apply Forall_forall. exact Hno. }
      { assumption. }
      { assumption. }
      { intros a c Ha Hc. apply Inj; apply in_or_app; now right. }
      { eapply fop_app_r, Orth. }
      { intros o d k Ho Hd Mo Md. apply in_app_or in Ho. destruct Ho as [Ho|Ho].
        - apply (Dis o d k); auto. apply in_or_app. now right.
        - exact (Ndis o d k Ho Hd Mo Md). }
      { rewrite map_app. apply nodup_app.
        - exact ND.
        - clear - P4 Nfree Hno. assert (Z : forall h a, In h new -> In a new -> blocked ordered out b2 (merged a h) ->
            (e_key a, e_mask a) <> (e_key h, e_mask h)).
          { intros h a Hh Ha B Eq. apply (Nfree a h (e_key a) Ha Hh); auto.
            - now apply same_km_covers.
            - apply Hno in Ha. exact Ha. }
          clear Nfree Hno. revert Z P4. induction new as [|y new IHn]; intros Z F; [constructor|].
          inversion F as [|? ? F1 F2]; subst. cbn [map]. constructor.
          + intros I. apply in_map_iff in I. destruct I as (z & Ez & Hz). rewrite Forall_forall in F1.
            apply (Z z y); [now right|now left|auto|auto].
          + apply IHn; [|assumption]. intros h a Hh Ha. apply Z; now right.
        - intros p Hp Hq. apply in_map_iff in Hp, Hq. destruct Hp as (o & <- & Ho), Hq as (n & En & Hn).
          destruct (P3 n Hn) as (e & He & C).
          apply (Dis o e (e_key e)); auto.
          + apply in_or_app. now left.
          + apply (same_km_covers o n); [now symmetry|]. apply C. rewrite Forall_forall in Oks. apply Oks. exact He.
          + rewrite Forall_forall in Oks. apply Oks. exact He. }
      { intros o Ho. apply in_app_or in Ho. destruct Ho as [Ho|Ho].
        - destruct (Cov o Ho) as (e & He & C). exists e. split; [apply in_or_app; now left|exact C].
        - destruct (P3 o Ho) as (e & He & C). exists e. split; [apply in_or_app; now right|exact C]. }
      { intros e He. apply in_app_or in He. destruct He as [He|He]; [now apply held_app, Hld|].
        destruct (P2 e He) as (h & Hh & C & D).
        assert (Sp := in_split h new Hh). destruct Sp as (n1 & n2 & En).
        exists (out ++ n1), h, n2. split; [rewrite En; reass|]. split; [exact C|].
        split; [rewrite (Hnr h Hh), (Hsr e He); reflexivity|]. split; [exact D|].
        intros c k Hc Mc Me. apply in_app_or in Hc. destruct Hc as [Hc|Hc].
        - exfalso. apply (Dis c e k); auto. apply in_or_app. now left.
        - assert (Hcn : In c new) by (rewrite En; apply in_or_app; now left).
          split; [rewrite (Hnr c Hcn), (Hsr e He); reflexivity|]. intros Eq.
          apply (Nfree c h k Hcn Hh); auto.
          + intros k' M'. apply C. apply (same_km_covers e c); [now symmetry|exact M'].
          + rewrite En in P4. apply in_split in Hc. destruct Hc as (m1 & m2 & ->).
            rewrite <- app_assoc in P4. simpl in P4. apply fop_pair in P4. exact P4. }
      exists arr, w. split; [|split; [assumption|split; [assumption|]]].
      + replace ((out ++ new) ++ junk' ++ b2) with (out ++ new ++ junk' ++ b2) in E2 by reass.
        rewrite <- E2. f_equal.
        revert L1. unfold seg. lens.
      + rewrite <- app_assoc in R3, R4. split; assumption.
  Qed.
End Loop.

(** * The three-way quicksort, on any kind of cell *)
Fixpoint gpart {A} (cmp : A -> A -> res Z) (fuel : nat) (arr : list A) (pivot : A)
    (low check high : nat) : res (list A * nat * nat) :=
  match fuel with
  | O => Err OutOfFuel
  | S fuel' =>
      if check <=? high then
        let* e := aget arr check in
        let* c := cmp e pivot in
        if Z.ltb c 0 then
          let* arr' := swap arr low check in
          gpart cmp fuel' arr' pivot (S low) (S check) high
        else if Z.gtb c 0 then
          let* arr' := swap arr high check in
          gpart cmp fuel' arr' pivot low check (high - 1)
        else gpart cmp fuel' arr pivot low (S check) high
      else Ok (arr, low, check)
  end.

Fixpoint gquick {A} (cmp : A -> A -> res Z) (fuel : nat) (arr : list A) (low high : nat)
    : res (list A) :=
  match fuel with
  | O => Err OutOfFuel
  | S fuel' =>
      if low <? high then
        let* p := aget arr low in
        let* (arr1, lft, rgt) := gpart cmp (S (S high - low)) arr p low (S low) high in
        let* arr2 := gquick cmp fuel' arr1 low (lft - 1) in
        gquick cmp fuel' arr2 rgt high
      else Ok arr
  end.

Section Quick.
  Context {A : Type} (cmp : A -> A -> res Z) (key : A -> nat) (P : A -> Prop).
  Context (Hcmp : forall x y, P x -> P y -> exists c, cmp x y = Ok c /\
             ((c < 0)%Z <-> key y < key x) /\ ((0 < c)%Z <-> key x < key y)).

  Let desc := fun a b : A => key b <= key a.

  Lemma swap_at : forall (a : list A) x b y c i j,
    i = length a -> j = length (a ++ x :: b) ->
    swap (a ++ x :: b ++ y :: c) i j = Ok (a ++ y :: b ++ x :: c).
  Proof.
    intros a x b y c i j -> ->. unfold swap.
    rewrite aget_app. cbn [bind].
    replace (a ++ x :: b ++ y :: c) with ((a ++ x :: b) ++ y :: c) by reass.
    rewrite aget_app. cbn [bind].
    replace ((a ++ x :: b) ++ y :: c) with (a ++ x :: b ++ y :: c) by reass.
    rewrite aset_app. cbn [bind].
    replace (a ++ y :: b ++ y :: c) with ((a ++ y :: b) ++ y :: c) by reass.
    rewrite aset_at by lens. f_equal. reass.
  Qed.

  Lemma swap_same : forall (a : list A) x c i,
    i = length a -> swap (a ++ x :: c) i i = Ok (a ++ x :: c).
  Proof.
    intros a x c i ->. unfold swap. rewrite aget_app. cbn [bind].
    rewrite aset_app. cbn [bind]. now rewrite aset_app.
  Qed.

  Lemma gpart_spec : forall fuel p X L E U G B,
    P p -> Forall P (L ++ E ++ U ++ G) ->
    Forall (fun e => key p < key e) L -> Forall (fun e => key e = key p) E ->
    Forall (fun e => key e < key p) G -> E <> [] -> length U < fuel ->
    exists L' E' G',
      gpart cmp fuel (X ++ L ++ E ++ U ++ G ++ B) p (length (X ++ L)) (length (X ++ L ++ E))
        (length (X ++ L ++ E ++ U) - 1)
      = Ok (X ++ L' ++ E' ++ G' ++ B, length (X ++ L'), length (X ++ L' ++ E')) /\
      Permutation (L ++ E ++ U ++ G) (L' ++ E' ++ G') /\
      Forall (fun e => key p < key e) L' /\ Forall (fun e => key e = key p) E' /\
      Forall (fun e => key e < key p) G' /\ E' <> [].
  Proof.
    induction fuel as [|fuel IH]; intros p X L E U G B Pp PF HL HE HG Hne Hf; [lia|].
    cbn [gpart]. destruct U as [|u U].
    - destruct (Nat.leb_spec (length (X ++ L ++ E)) (length (X ++ L ++ E ++ []) - 1)) as [H|H].
      { destruct E; [congruence|]. revert H. lens. }
      exists L, E, G. split; [reflexivity|]. split; [reflexivity|]. auto.
    - destruct (Nat.leb_spec (length (X ++ L ++ E)) (length (X ++ L ++ E ++ u :: U) - 1)) as [_|H];
        [|revert H; lens].
      replace (X ++ L ++ E ++ (u :: U) ++ G ++ B)
        with ((X ++ L ++ E) ++ u :: U ++ G ++ B) by reass.
      rewrite aget_app. cbn [bind].
      assert (Pu : P u).
      { rewrite Forall_forall in PF. apply PF. rewrite !in_app_iff. simpl. auto. }
      destruct (Hcmp u p Pu Pp) as (c & -> & C1 & C2). cbn [bind].
      destruct (Z.ltb_spec c 0) as [Hc|Hc].
      + destruct E as [|e0 E]; [congruence|]. inversion HE as [|? ? He0 HE']; subst.
        replace ((X ++ L ++ e0 :: E) ++ u :: U ++ G ++ B)
          with ((X ++ L) ++ e0 :: E ++ u :: U ++ G ++ B) by reass.
        rewrite swap_at by lens. cbn [bind].
        destruct (IH p X (L ++ [u]) (E ++ [e0]) U G B) as (L' & E' & G' & Eq & Pm & R); auto.
        { eapply Permutation_Forall; [|exact PF]. rewrite <- !app_assoc. simpl.
          apply Permutation_app_head.
          change (e0 :: E ++ u :: U ++ G) with ((e0 :: E) ++ u :: U ++ G).
          rewrite <- Permutation_middle. constructor. simpl.
          apply Permutation_middle. }
        { apply Forall_app. split; [assumption|]. constructor; [|constructor]. now apply C1. }
        { apply Forall_app. split; [assumption|]. now constructor. }
        { destruct E; discriminate. }
        { simpl in Hf. lia. }
        exists L', E', G'. split; [|split; [|exact R]].
        * rewrite <- Eq. f_equal; try (repeat (rewrite <- app_assoc || rewrite <- app_comm_cons));
            try reflexivity; lens.
        * rewrite <- Pm. rewrite <- !app_assoc. simpl.
          apply Permutation_app_head.
          change (e0 :: E ++ u :: U ++ G) with ((e0 :: E) ++ u :: U ++ G).
          rewrite <- Permutation_middle. constructor. simpl.
          apply Permutation_middle.
      + destruct (Z.gtb_spec c 0) as [Hg|Hg].
        * assert (Hsw : exists U', swap ((X ++ L ++ E) ++ u :: U ++ G ++ B)
                      (length (X ++ L ++ E ++ u :: U) - 1) (length (X ++ L ++ E))
                    = Ok (X ++ L ++ E ++ U' ++ (u :: G) ++ B)
                    /\ Permutation U U').
          { destruct (rev U) as [|z V] eqn:EV.
            - assert (U = []) by (rewrite <- (rev_involutive U), EV; reflexivity). subst U.
              exists []. split; [|reflexivity].
              replace (length (X ++ L ++ E ++ [u]) - 1) with (length (X ++ L ++ E)) by lens.
              rewrite swap_same by reflexivity. f_equal. reass.
            - assert (EU : U = rev V ++ [z]) by
                (rewrite <- (rev_involutive U), EV; reflexivity).
              exists (z :: rev V). rewrite EU. split.
              + unfold swap.
                replace ((X ++ L ++ E) ++ u :: (rev V ++ [z]) ++ G ++ B)
                  with (((X ++ L ++ E) ++ u :: rev V) ++ z :: G ++ B) by reass.
                rewrite aget_at by lens. cbn [bind].
                replace (((X ++ L ++ E) ++ u :: rev V) ++ z :: G ++ B)
                  with ((X ++ L ++ E) ++ u :: rev V ++ z :: G ++ B) by reass.
                rewrite aget_app. cbn [bind].
                replace ((X ++ L ++ E) ++ u :: rev V ++ z :: G ++ B)
                  with (((X ++ L ++ E) ++ u :: rev V) ++ z :: G ++ B) by reass.
                rewrite aset_at by lens. cbn [bind].
                replace (((X ++ L ++ E) ++ u :: rev V) ++ u :: G ++ B)
                  with ((X ++ L ++ E) ++ u :: rev V ++ u :: G ++ B) by reass.
                rewrite aset_app. f_equal. reass.
              + symmetry. apply (Permutation_app_comm [z]). }
          destruct Hsw as (U' & -> & PU). cbn [bind].
          destruct (IH p X L E U' (u :: G) B) as (L' & E' & G' & Eq & Pm & R); auto.
          { eapply Permutation_Forall; [|exact PF].
            do 2 apply Permutation_app_head. simpl. rewrite PU. apply Permutation_middle. }
          { constructor; [|assumption]. apply C2. lia. }
          { rewrite <- PU. simpl in Hf. lia. }
          exists L', E', G'. split; [|split; [|exact R]].
          -- rewrite <- Eq. pose proof (Permutation_length PU). f_equal; lens.
          -- rewrite <- Pm. do 2 apply Permutation_app_head. simpl. rewrite PU.
             apply Permutation_middle.
        * destruct (IH p X L (E ++ [u]) U G B) as (L' & E' & G' & Eq & Pm & R); auto.
          { eapply Permutation_Forall; [|exact PF]. rewrite <- !app_assoc. reflexivity. }
          { apply Forall_app. split; [assumption|]. constructor; [|constructor].
            apply Nat.le_antisymm; apply Nat.nlt_ge; intros Hk;
              [apply C1 in Hk|apply C2 in Hk]; lia. }
          { destruct E; discriminate. }
          { simpl in Hf. lia. }
          exists L', E', G'. split; [|split; [|exact R]].
          -- rewrite <- Eq. f_equal; try (repeat (rewrite <- app_assoc || rewrite <- app_comm_cons));
               try reflexivity; lens.
          -- rewrite <- Pm. rewrite <- !app_assoc. reflexivity.
  Qed.

  Lemma ssd_app : forall l1 l2,
    StronglySorted desc l1 -> StronglySorted desc l2 ->
    (forall a b, In a l1 -> In b l2 -> desc a b) -> StronglySorted desc (l1 ++ l2).
  Proof.
    induction l1 as [|x l1 IH]; intros l2 H1 H2 H; [assumption|].
    inversion H1; subst. simpl. constructor.
    - apply IH; auto. intros a b Ha Hb. apply H; [now right|assumption].
    - apply Forall_app. split; [assumption|]. apply Forall_forall. intros b Hb.
      apply H; [now left|assumption].
  Qed.

  Lemma gquick_spec : forall fuel X M B,
    Forall P M -> length M <= fuel -> 0 < fuel ->
    exists M', gquick cmp fuel (X ++ M ++ B) (length X) (length X + length M - 1)
      = Ok (X ++ M' ++ B) /\ Permutation M M' /\ StronglySorted desc M'.
  Proof.
    induction fuel as [|fuel IH]; intros X M B PM Hf H0; [lia|]. cbn [gquick].
    destruct (Nat.ltb_spec (length X) (length X + length M - 1)) as [Hlt|Hge].
    - destruct M as [|p M]; [simpl in Hlt; lia|]. cbn [app].
      rewrite aget_app. cbn [bind].
      destruct (gpart_spec (S (S (length X + length (p :: M) - 1) - length X)) p X [] [p] M [] B)
        as (L & E & G & Eq & Pm & HL & HE & HG & Hne); auto.
      { now inversion PM. }
      { now rewrite app_nil_r. }
      { discriminate. }
      { cbn [length]. lia. }
      assert (Eq' : gpart cmp (S (S (length X + length (p :: M) - 1) - length X))
          (X ++ p :: M ++ B) p (length X) (S (length X)) (length X + length (p :: M) - 1)
        = Ok (X ++ L ++ E ++ G ++ B, length (X ++ L), length (X ++ L ++ E))).
      { rewrite <- Eq. f_equal; lens. }
      rewrite Eq'. cbn [bind]. cbn [app] in Pm. rewrite app_nil_r in Pm.
      assert (PF : Forall P (L ++ E ++ G)) by (eapply Permutation_Forall; eauto).
      apply Forall_app in PF. destruct PF as [PL PF]. apply Forall_app in PF. destruct PF as [PE PG].
      pose proof (Permutation_length Pm) as Ln. rewrite !app_length in Ln. cbn [length] in Ln.
      assert (1 <= length E) by (destruct E; [congruence|simpl; lia]).
      destruct (IH X L (E ++ G ++ B)) as (L' & E1 & P1 & S1); [assumption|simpl in Hf; lia|simpl in *; lia|].
      replace (length (X ++ L) - 1) with (length X + length L - 1) by lens.
      rewrite E1. cbn [bind].
      destruct (IH (X ++ L' ++ E) G B) as (G' & E2 & P2 & S2); [assumption|simpl in Hf; lia|simpl in *; lia|].
      exists (L' ++ E ++ G'). split; [|split].
      + replace (X ++ L' ++ E ++ G ++ B) with ((X ++ L' ++ E) ++ G ++ B) by reass.
        pose proof (Permutation_length P1).
        replace (length (X ++ L ++ E)) with (length (X ++ L' ++ E)) by lens.
        replace (length X + length (p :: M) - 1)
          with (length (X ++ L' ++ E) + length G - 1) by lens.
        rewrite E2. f_equal. reass.
      + rewrite Pm. now rewrite P1, P2.
      + assert (HL' : Forall (fun e => key p < key e) L') by (eapply Permutation_Forall; eauto).
        assert (HG' : Forall (fun e => key e < key p) G') by (eapply Permutation_Forall; eauto).
        rewrite Forall_forall in HL', HG', HE.
        assert (SE : StronglySorted desc E).
        { clear - HE. induction E as [|e E IHE]; constructor.
          - apply IHE. intros x Hx. apply HE. now right.
          - apply Forall_forall. intros b Hb. unfold desc.
            rewrite (HE e), (HE b); [lia|now right|now left]. }
        apply ssd_app; [assumption| |].
        * apply ssd_app; [assumption..|]. intros a b Ha Hb. unfold desc.
          rewrite (HE a Ha). specialize (HG' b Hb). simpl in HG'. lia.
        * intros a b Ha Hb. unfold desc. specialize (HL' a Ha). simpl in HL'.
          apply in_app_or in Hb. destruct Hb as [Hb|Hb].
          -- rewrite (HE b Hb). lia.
          -- specialize (HG' b Hb). simpl in HG'. lia.
    - exists M. split; [reflexivity|]. split; [reflexivity|].
      destruct M as [|a [|b M]]; [constructor|repeat constructor|].
      simpl in Hge. lia.
  Qed.

  (** The built-in sort. *)
  Lemma insertM_by : forall x l,
    P x -> Forall P l -> StronglySorted desc l ->
    exists l', insertM cmp x l = Ok l' /\ Permutation (x :: l) l' /\ StronglySorted desc l'.
  Proof.
    intros x l Px. induction l as [|y l IH]; intros Pl HS; simpl.
    - exists [x]. split; [reflexivity|]. split; [reflexivity|]. repeat constructor.
    - inversion Pl as [|? ? Py Pl']; subst. inversion HS as [|? ? HS1 HF]; subst.
      destruct (Hcmp x y Px Py) as (c & -> & C1 & C2). cbn [bind].
      destruct (Z.ltb_spec c 0) as [Hc|Hc].
      + exists (x :: y :: l). split; [reflexivity|]. split; [reflexivity|].
        apply C1 in Hc. constructor; [assumption|]. constructor; [unfold desc; lia|].
        eapply Forall_impl; [|exact HF]. unfold desc. intros a Ha. lia.
      + destruct IH as (l' & -> & Pm & S'); auto. cbn [bind].
        exists (y :: l'). split; [reflexivity|]. split.
        * rewrite perm_swap. now constructor.
        * constructor; [assumption|]. apply (Permutation_Forall Pm). constructor; [|assumption].
          unfold desc. apply Nat.nlt_ge. intros Hk. apply C1 in Hk. lia.
  Qed.

  Lemma sortM_by : forall l acc,
    Forall P l -> Forall P acc -> StronglySorted desc acc ->
    exists l', sortM_acc cmp acc l = Ok l' /\ Permutation (acc ++ l) l' /\ StronglySorted desc l'.
  Proof.
    induction l as [|x l IH]; intros acc Pl Pa HS; simpl.
    - exists acc. rewrite app_nil_r. auto.
    - inversion Pl as [|? ? Px Pl']; subst.
      destruct (insertM_by x acc Px Pa HS) as (acc' & -> & Pm & S'). cbn [bind].
      destruct (IH acc') as (l' & E & Pm' & S''); auto.
      { apply (Permutation_Forall Pm). now constructor. }
      exists l'. split; [assumption|]. split; [|assumption].
      rewrite <- Pm', <- Pm. symmetry. apply Permutation_middle.
  Qed.
End Quick.

(** * The two quicksorts of the compressor are this one *)
Lemma partition_table_eq : forall fuel h arr p low check high,
  partition_table fuel h arr (e_route p) low check high
  = gpart (compare_entries h) fuel arr p low check high.
Proof.
  induction fuel as [|fuel IH]; intros h arr p low check high; [reflexivity|].
  cbn [partition_table gpart]. destruct (check <=? high); [|reflexivity].
  destruct (aget arr check) as [e|]; [|reflexivity]. cbn [bind].
  unfold compare_entries at 1.
  destruct (compare_routes h (e_route e) (e_route p)) as [c|]; [|reflexivity]. cbn [bind].
  destruct (Z.ltb c 0); [destruct (swap arr low check); [apply IH|reflexivity]|].
  destruct (Z.gtb c 0); [destruct (swap arr high check); [apply IH|reflexivity]|].
  apply IH.
Qed.

Lemma quicksort_table_eq : forall fuel h arr low high,
  quicksort_table fuel h arr low high = gquick (compare_entries h) fuel arr low high.
Proof.
  induction fuel as [|fuel IH]; intros h arr low high; [reflexivity|].
  cbn [quicksort_table gquick]. destruct (low <? high); [|reflexivity].
  destruct (aget arr low) as [p|]; [|reflexivity]. cbn [bind].
  rewrite partition_table_eq.
  destruct (gpart _ _ _ _ _ _ _) as [((arr1 & l) & r)|]; [|reflexivity]. cbn [bind].
  rewrite IH. destruct (gquick _ _ _ _ _) as [arr2|]; [|reflexivity]. cbn [bind].
  apply IH.
Qed.

Definition unzip (c : nat) (ps : list (nat * N)) : hist := mkHist (map snd ps) (map fst ps) c.

Definition by_count (x y : nat * N) : res Z := Ok (Z.of_nat (fst y) - Z.of_nat (fst x))%Z.

Lemma aget_map {A B} (f : A -> B) l i : aget (map f l) i = let* x := aget l i in Ok (f x).
Proof. unfold aget. rewrite nth_error_map. now destruct (nth_error l i). Qed.

Lemma upd_map {A B} (f : A -> B) : forall l i x, upd (map f l) i (f x) = map f (upd l i x).
Proof. induction l; intros [|i] x; simpl; try reflexivity. f_equal. auto. Qed.

Lemma aset_map {A B} (f : A -> B) l i x :
  aset (map f l) i (f x) = let* l' := aset l i x in Ok (map f l').
Proof.
  unfold aset. rewrite map_length. destruct (i <? length l); [|reflexivity].
  cbn [bind]. now rewrite upd_map.
Qed.

Lemma swap_map {A B} (f : A -> B) l i j :
  swap (map f l) i j = let* l' := swap l i j in Ok (map f l').
Proof.
  unfold swap. rewrite !aget_map.
  destruct (aget l i) as [x|]; [|reflexivity]. cbn [bind].
  destruct (aget l j) as [y|]; [|reflexivity]. cbn [bind].
  rewrite aset_map. destruct (aset l i y) as [l1|]; [|reflexivity]. cbn [bind].
  apply aset_map.
Qed.

Lemma swap_routes_eq c ps i j :
  swap_routes (unzip c ps) i j = let* ps' := swap ps i j in Ok (unzip c ps').
Proof.
  unfold swap_routes, unzip. cbn [h_freq h_routes h_count]. rewrite !swap_map.
  now destruct (swap ps i j).
Qed.

Lemma partition_routes_eq : forall fuel c ps p low check high,
  partition_routes fuel (unzip c ps) (fst p) low check high
  = let* (ps', l, r) := gpart by_count fuel ps p low check high in Ok (unzip c ps', l, r).
Proof.
  induction fuel as [|fuel IH]; intros c ps p low check high; [reflexivity|].
  cbn [partition_routes gpart]. destruct (check <=? high); [|reflexivity].
  unfold unzip at 1. cbn [h_freq]. rewrite aget_map.
  destruct (aget ps check) as [e|]; [|reflexivity]. cbn [bind].
  unfold by_count at 1. cbn [bind]. rewrite !swap_routes_eq.
  destruct (Nat.ltb_spec (fst p) (fst e)) as [H1|H1].
  - destruct (Z.ltb_spec (Z.of_nat (fst p) - Z.of_nat (fst e)) 0) as [_|H2]; [|lia].
    destruct (swap ps low check) as [ps'|]; [|reflexivity]. cbn [bind]. apply IH.
  - destruct (Z.ltb_spec (Z.of_nat (fst p) - Z.of_nat (fst e)) 0) as [H2|_]; [lia|].
    destruct (Nat.ltb_spec (fst e) (fst p)) as [H3|H3].
    + destruct (Z.gtb_spec (Z.of_nat (fst p) - Z.of_nat (fst e)) 0) as [_|H4]; [|lia].
      destruct (swap ps high check) as [ps'|]; [|reflexivity]. cbn [bind]. apply IH.
    + destruct (Z.gtb_spec (Z.of_nat (fst p) - Z.of_nat (fst e)) 0) as [H4|_]; [lia|].
      apply IH.
Qed.

Lemma quicksort_routes_eq : forall fuel c ps low high,
  quicksort_routes fuel (unzip c ps) low high
  = let* ps' := gquick by_count fuel ps low high in Ok (unzip c ps').
Proof.
  induction fuel as [|fuel IH]; intros c ps low high; [reflexivity|].
  cbn [quicksort_routes gquick]. destruct (low <? high); [|reflexivity].
  unfold unzip at 1. cbn [h_freq]. rewrite aget_map.
  destruct (aget ps low) as [p|]; [|reflexivity]. cbn [bind].
  rewrite partition_routes_eq.
  destruct (gpart _ _ _ _ _ _ _) as [((ps1 & l) & r)|]; [|reflexivity]. cbn [bind].
  rewrite IH. destruct (gquick by_count fuel ps1 low (l - 1)) as [ps2|]; [|reflexivity].
  cbn [bind]. apply IH.
Qed.

(** * The histogram *)
Definition cnt (t : list entry) (r : N) : nat := count_occ N.eq_dec (map e_route t) r.

Fixpoint pos (us : list N) (r : N) : nat :=
  match us with
  | [] => 0
  | u :: us' => if N.eqb u r then 0 else S (pos us' r)
  end.

Lemma pos_lt us r : In r us -> pos us r < length us.
Proof.
  induction us as [|u us IH]; intros H; [destruct H|]. simpl.
  destruct (N.eqb_spec u r); [lia|]. destruct H as [H|H]; [congruence|]. specialize (IH H). lia.
Qed.

Lemma pos_nth us r : In r us -> nth_error us (pos us r) = Some r.
Proof.
  induction us as [|u us IH]; intros H; [destruct H|]. simpl.
  destruct (N.eqb_spec u r); [now subst|]. destruct H as [H|H]; [congruence|]. now apply IH.
Qed.

Lemma pos_inj us a b : In a us -> In b us -> pos us a = pos us b -> a = b.
Proof. intros Ha Hb E. apply pos_nth in Ha. apply pos_nth in Hb. congruence. Qed.

Definition hist_full (n : nat) (seen : list entry) (h : hist) : Prop :=
  exists us,
    NoDup us /\ (forall r, In r us <-> In r (map e_route seen)) /\
    length us = h_count h /\ h_count h <= n /\
    h_routes h = us ++ repeat 0%N (n - h_count h) /\
    h_freq h = map (cnt seen) us ++ repeat 0 (n - h_count h).

Lemma find_route_full : forall route us2 us1 pad,
  find_route (us1 ++ us2 ++ pad) route (length us1) (length us2)
  = Ok (if in_dec N.eq_dec route us2 then Some (length us1 + pos us2 route) else None).
Proof.
  induction us2 as [|u us2 IH]; intros us1 pad.
  - reflexivity.
  - cbn [length find_route]. change ((u :: us2) ++ pad) with (u :: us2 ++ pad).
    rewrite aget_app. cbn [bind pos].
    destruct (N.eqb_spec u route) as [->|Hu].
    + destruct (in_dec N.eq_dec route (route :: us2)) as [_|H]; [|elim H; now left].
      now rewrite Nat.add_0_r.
    + specialize (IH (us1 ++ [u]) pad). rewrite <- app_assoc in IH. cbn [app] in IH.
      rewrite app_length in IH. cbn [length] in IH. rewrite Nat.add_1_r in IH. rewrite IH.
      destruct (in_dec N.eq_dec route us2) as [H|H],
        (in_dec N.eq_dec route (u :: us2)) as [H'|H'].
      * do 2 f_equal. lia.
      * elim H'. now right.
      * destruct H' as [H'|H']; [congruence|contradiction].
      * reflexivity.
Qed.

Lemma cnt_snoc seen e r : cnt (seen ++ [e]) r = cnt seen r + (if N.eq_dec (e_route e) r then 1 else 0).
Proof.
  unfold cnt. rewrite map_app, count_occ_app. simpl. destruct (N.eq_dec (e_route e) r); lia.
Qed.

Lemma update_frequency_full : forall n seen h e h',
  hist_full n seen h -> update_frequency h e = Ok h' -> hist_full n (seen ++ [e]) h'.
Proof.
  intros n seen h e h' (us & ND & Hus & Lus & Hn & Er & Ef) H.
  unfold update_frequency in H.
  pose proof (find_route_full (e_route e) us [] (repeat 0%N (n - h_count h))) as FR.
  cbn [app length] in FR. rewrite Er, <- Lus, Lus in H. rewrite Lus in FR. rewrite FR in H.
  cbn [bind] in H. rewrite Nat.add_0_l in H.
  destruct (in_dec N.eq_dec (e_route e) us) as [Hin|Hin].
  - destruct (in_split (e_route e) us Hin) as (u1 & u2 & Eu).
    assert (N1 : ~ In (e_route e) u1 /\ ~ In (e_route e) u2).
    { rewrite Eu in ND. apply NoDup_remove_2 in ND. rewrite in_app_iff in ND. tauto. }
    assert (Hp : pos us (e_route e) = length u1).
    { rewrite Eu. clear - N1. destruct N1 as [N1 _]. induction u1 as [|u u1 IH]; simpl.
      - now rewrite N.eqb_refl.
      - destruct (N.eqb_spec u (e_route e)); [elim N1; now left|]. f_equal. apply IH.
        intros H. apply N1. now right. }
    rewrite Hp, Ef, Eu, map_app, <- app_assoc in H. cbn [map app] in H.
    rewrite aget_at in H by now rewrite map_length. cbn [bind] in H.
    rewrite aset_at in H by now rewrite map_length. cbn [bind] in H.
    injection H as <-. exists us. cbn [h_routes h_freq h_count].
    split; [assumption|]. split.
    { intros r. rewrite Hus, map_app, in_app_iff. simpl.
      split; [tauto|]. intros [H|[<-|[]]]; [assumption|]. apply Hus. exact Hin. }
    split; [assumption|]. split; [assumption|]. split; [congruence|].
    rewrite Eu, map_app, <- app_assoc. cbn [map app].
    assert (Hs : forall l, ~ In (e_route e) l -> map (cnt (seen ++ [e])) l = map (cnt seen) l).
    { intros l Hl. apply map_ext_in. intros r Hr. rewrite cnt_snoc.
      destruct (N.eq_dec (e_route e) r); [congruence|lia]. }
    rewrite !Hs by tauto. rewrite cnt_snoc.
    destruct (N.eq_dec (e_route e) (e_route e)); [|congruence].
    now rewrite Nat.add_1_r.
  - destruct (n - h_count h) as [|m] eqn:Em.
    + rewrite app_nil_r in H. unfold aset in H.
      destruct (Nat.ltb_spec (h_count h) (length us)); [lia|discriminate].
    + cbn [repeat] in *. rewrite aset_at in H by congruence. cbn [bind] in H.
      rewrite Ef in H. rewrite aset_at in H by (rewrite map_length; congruence).
      cbn [bind] in H. injection H as <-.
      exists (us ++ [e_route e]). cbn [h_routes h_freq h_count].
      split.
      { apply NoDup_app_snoc || idtac.
        apply (Permutation_NoDup (l := e_route e :: us)).
        - apply Permutation_cons_append.
        - now constructor. }
      split.
      { intros r. rewrite map_app, !in_app_iff, Hus. simpl. tauto. }
      split; [lens|]. split; [lia|].
      replace (n - S (h_count h)) with m by lia.
      split; [reass|].
      rewrite map_app, <- app_assoc. cbn [map app]. f_equal.
      * apply map_ext_in. intros r Hr. rewrite cnt_snoc.
        destruct (N.eq_dec (e_route e) r); [congruence|lia].
      * f_equal. rewrite cnt_snoc. destruct (N.eq_dec (e_route e) (e_route e)); [|congruence].
        assert (E0 : cnt seen (e_route e) = 0).
        { unfold cnt. apply count_occ_not_In. intros Hm. apply Hin. now apply Hus. }
        lia.
Qed.

Lemma histogram_full : forall n t seen h h',
  hist_full n seen h -> foldM update_frequency h t = Ok h' -> hist_full n (seen ++ t) h'.
Proof.
  induction t as [|e t IH]; intros seen h h' I H; simpl in H.
  - injection H as <-. now rewrite app_nil_r.
  - apply bind_Ok_inv in H. destruct H as (h1 & E1 & E2).
    apply (update_frequency_full n seen h e h1 I) in E1.
    replace (seen ++ e :: t) with ((seen ++ [e]) ++ t) by reass.
    eapply IH; eauto.
Qed.

Lemma hist_full_init n : hist_full n [] (mkHist (repeat 0%N n) (repeat 0 n) 0).
Proof.
  exists []. simpl. rewrite Nat.sub_0_r. split; [constructor|].
  split; [tauto|]. split; [reflexivity|]. split; [lia|]. auto.
Qed.

(** * Sorting as a whole *)
Lemma compare_loop_pos : forall routes a b n i,
  a <> b -> i + n <= length routes -> In a (firstn n (skipn i routes)) ->
  compare_loop routes a b i n
  = Ok (if pos (firstn n (skipn i routes)) a <? pos (firstn n (skipn i routes)) b
        then 1%Z else (-1)%Z).
Proof.
  intros routes a b. induction n as [|n IH]; intros i Hab Hl Hin; [destruct Hin|].
  cbn [compare_loop]. destruct (aget_lt routes i) as (r & Hr); [lia|]. rewrite Hr. cbn [bind].
  apply aget_Ok_iff in Hr.
  assert (Esk : skipn i routes = r :: skipn (S i) routes).
  { clear - Hr. revert i Hr. induction routes as [|x l IHl]; intros [|i] Hr; simpl in *;
      try discriminate; [now injection Hr as ->|]. rewrite (IHl i Hr). reflexivity. }
  rewrite Esk in Hin |- *. cbn [firstn] in Hin |- *. cbn [pos].
  destruct (N.eqb_spec r a) as [->|Ha].
  - destruct (N.eqb_spec a b); [contradiction|]. reflexivity.
  - destruct Hin as [Hin|Hin]; [congruence|].
    destruct (N.eqb_spec r b) as [->|Hb].
    + reflexivity.
    + rewrite IH by (assumption || lia). reflexivity.
Qed.

Lemma compare_entries_pos h us : 
  firstn (h_count h) (h_routes h) = us -> h_count h <= length (h_routes h) ->
  forall x y, In (e_route x) us -> In (e_route y) us ->
    exists c, compare_entries h x y = Ok c /\
      ((c < 0)%Z <-> pos us (e_route y) < pos us (e_route x)) /\
      ((0 < c)%Z <-> pos us (e_route x) < pos us (e_route y)).
Proof.
  intros Eu Hl x y Hx Hy. unfold compare_entries, compare_routes.
  destruct (N.eqb_spec (e_route x) (e_route y)) as [->|Hne].
  - exists 0%Z. split; [reflexivity|]. lia.
  - rewrite compare_loop_pos; simpl skipn; rewrite ?Eu; auto; try lia.
    eexists; split; [reflexivity|].
    assert (pos us (e_route x) <> pos us (e_route y)).
    { intros E. apply Hne. eapply pos_inj; eauto. }
    destruct (Nat.ltb_spec (pos us (e_route x)) (pos us (e_route y))); lia.
Qed.

Lemma combine_unzip : forall (fs : list nat) (us : list N),
  length fs = length us ->
  map fst (combine fs us) = fs /\ map snd (combine fs us) = us.
Proof.
  induction fs as [|f fs IH]; intros [|u us] H; simpl in *; try discriminate; [auto|].
  destruct (IH us) as [E1 E2]; [lia|]. now rewrite E1, E2.
Qed.

(** Both ways of sorting put the entries into the order of a list of the routes in
    which the routes that more entries use come earlier; the entries of the later
    routes come first. *)
Lemma sort_entries_full c_sort n t h :
  hist_full n t h -> 0 < n ->
  exists us arr,
    sort_entries c_sort h t = Ok arr /\ Permutation t arr /\
    (forall r, In r us <-> In r (map e_route t)) /\
    StronglySorted (fun a b => cnt t b <= cnt t a) us /\
    StronglySorted (fun a b => pos us (e_route b) <= pos us (e_route a)) arr.
Proof.
  intros (us & ND & Hus & Lus & Hn & Er & Ef) Hpos.
  set (M := map (fun r => (cnt t r, r)) us).
  set (B := repeat (0, 0%N) (n - h_count h)).
  assert (EM1 : map fst M = map (cnt t) us) by (unfold M; now rewrite map_map).
  assert (EM2 : map snd M = us).
  { unfold M. rewrite map_map. simpl. apply map_id. }
  assert (LM : length M = h_count h) by (unfold M; now rewrite map_length).
  assert (EB1 : map fst B = repeat 0 (n - h_count h)).
  { unfold B. clear. induction (n - h_count h); simpl; congruence. }
  assert (EB2 : map snd B = repeat 0%N (n - h_count h)).
  { unfold B. clear. induction (n - h_count h); simpl; congruence. }
  assert (Eh : h = unzip (h_count h) (M ++ B)).
  { unfold unzip. rewrite !map_app, EM1, EM2, EB1, EB2, <- Er, <- Ef. now destruct h. }
  assert (Hbc : forall x y : nat * N, True -> True -> exists c, by_count x y = Ok c /\
             ((c < 0)%Z <-> fst y < fst x) /\ ((0 < c)%Z <-> fst x < fst y)).
  { intros x y _ _. eexists. split; [reflexivity|]. lia. }
  assert (HT : forall l : list (nat * N), Forall (fun _ => True) l)
    by (intros l; apply Forall_forall; auto).
  (* from a sorted histogram to the result *)
  assert (Fin : forall M' h',
    Permutation M M' -> StronglySorted (fun a b : nat * N => fst b <= fst a) M' ->
    firstn (h_count h') (h_routes h') = map snd M' -> h_count h' <= length (h_routes h') ->
    (forall r, In r (map snd M') <-> In r (map e_route t)) /\
    StronglySorted (fun a b => cnt t b <= cnt t a) (map snd M') /\
    (forall x y, In x t -> In y t -> exists c, compare_entries h' x y = Ok c /\
      ((c < 0)%Z <-> pos (map snd M') (e_route y) < pos (map snd M') (e_route x)) /\
      ((0 < c)%Z <-> pos (map snd M') (e_route x) < pos (map snd M') (e_route y)))).
  { intros M' h' PM SM Ef' Hl.
    assert (I1 : forall r, In r (map snd M') <-> In r (map e_route t)).
    { intros r. rewrite <- Hus, <- EM2. split; apply Permutation_in; apply Permutation_map;
        [now symmetry|assumption]. }
    split; [assumption|]. split.
    - assert (HM : forall m, In m M' -> fst m = cnt t (snd m)).
      { intros m Hm. apply (Permutation_in (l' := M)) in Hm; [|now symmetry].
        unfold M in Hm. apply in_map_iff in Hm. destruct Hm as (r & <- & _). reflexivity. }
      clear - SM HM. induction SM as [|m l SM IH F]; [constructor|]. simpl. constructor.
      + apply IH. intros m' Hm'. apply HM. now right.
      + rewrite Forall_map. rewrite Forall_forall in F |- *. intros m' Hm'.
        rewrite <- (HM m'), <- (HM m) by (simpl; auto). now apply F.
    - intros x y Hx Hy. apply compare_entries_pos; auto; apply I1; now apply in_map. }
  unfold sort_entries. destruct c_sort.
  - pose proof (quicksort_routes_eq (S (h_count h)) (h_count h) (M ++ B) 0 (h_count h - 1)) as Q.
    rewrite <- Eh in Q.
    assert (Ec : exists M', gquick by_count (S (h_count h)) (M ++ B) 0 (h_count h - 1)
               = Ok (M' ++ B) /\ Permutation M M' /\
                 StronglySorted (fun a b : nat * N => fst b <= fst a) M').
    { destruct (gquick_spec by_count fst (fun _ => True) Hbc (S (h_count h)) [] M B)
        as (M' & E & PM & SM); [apply HT|lia|lia|].
      exists M'. simpl in E. rewrite LM in E. auto. }
    destruct Ec as (M' & E & PM & SM).
    rewrite E in Q. cbn [bind] in Q. rewrite Q. cbn [bind].
    destruct (Fin M' (unzip (h_count h) (M' ++ B))) as (I1 & I2 & I3); auto.
    { cbn [unzip h_count h_routes]. rewrite map_app, firstn_app, map_length.
      rewrite <- (Permutation_length PM), LM, Nat.sub_diag. cbn [firstn]. rewrite app_nil_r.
      apply firstn_all2. rewrite map_length, <- (Permutation_length PM). lia. }
    { cbn [unzip h_count h_routes]. rewrite map_length, app_length, <- (Permutation_length PM). lia. }
    rewrite quicksort_table_eq.
    destruct (gquick_spec (compare_entries (unzip (h_count h) (M' ++ B)))
                (fun e => pos (map snd M') (e_route e)) (fun e => In e t) I3
                (S (length t)) [] t []) as (arr & Ea & Pa & Sa).
    { apply Forall_forall. auto. }
    { lia. }
    { lia. }
    simpl in Ea. rewrite !app_nil_r in Ea.
    exists (map snd M'), arr. auto.
  - unfold sort_hist.
    assert (Ez : combine (h_freq h) (h_routes h) = M ++ B).
    { rewrite Er, Ef, combine_app by now rewrite map_length.
      rewrite combine_repeat. f_equal. unfold M. clear. induction us; simpl; congruence. }
    rewrite Ez.
    destruct (sortM_by by_count fst (fun _ => True) Hbc (M ++ B) [] (HT _) (HT _))
      as (srt & Es & Ps & Ss); [constructor|].
    unfold by_count in Es. unfold sortM. rewrite Es. cbn [bind].
    simpl app in Ps.
    assert (Ls : length srt = n).
    { rewrite <- Ps, app_length, LM. unfold B. rewrite repeat_length. lia. }
    assert (Esp : exists M' B', srt = M' ++ B' /\ Permutation M M').
    { exists (filter (fun x : nat * N => 0 <? fst x) srt),
        (filter (fun x : nat * N => negb (0 <? fst x)) srt). split.
      - clear - Ss. induction Ss as [|m l S IH F]; [reflexivity|]. simpl.
        destruct (Nat.ltb_spec 0 (fst m)) as [Hm|Hm]; simpl.
        + f_equal. exact IH.
        + assert (E0 : filter (fun x : nat * N => 0 <? fst x) l = []).
          { rewrite Forall_forall in F. clear - F Hm. induction l as [|a l IHl]; [reflexivity|].
            simpl. destruct (Nat.ltb_spec 0 (fst a)) as [Ha|Ha].
            - specialize (F a (or_introl eq_refl)). lia.
            - apply IHl. intros x Hx. apply F. now right. }
          rewrite E0 in IH |- *. simpl in IH |- *. now rewrite <- IH.
      - rewrite <- (filter_perm _ _ _ Ps), filter_app.
        assert (E0 : filter (fun x : nat * N => 0 <? fst x) B = []).
        { unfold B. clear. induction (n - h_count h); simpl; auto. }
        rewrite E0, app_nil_r.
        assert (E1 : filter (fun x : nat * N => 0 <? fst x) M = M).
        { unfold M. assert (Hc : forall r, In r us -> 0 < cnt t r).
          { intros r Hr. unfold cnt. apply count_occ_In. now apply Hus. }
          clear - Hc. induction us as [|u l IHl]; [reflexivity|]. simpl.
          destruct (Nat.ltb_spec 0 (cnt t u)) as [H|H].
          - f_equal. apply IHl. intros r Hr. apply Hc. now right.
          - specialize (Hc u (or_introl eq_refl)). lia. }
        now rewrite E1. }
    destruct Esp as (M' & B' & Esp & PM).
    assert (SM : StronglySorted (fun a b : nat * N => fst b <= fst a) M').
    { rewrite Esp in Ss. clear - Ss. induction M' as [|m l IHl]; [constructor|].
      simpl in Ss. inversion Ss as [|? ? S1 F]; subst. apply Forall_app in F.
      constructor; [now apply IHl|tauto]. }
    destruct (Fin M' (unzip (h_count h) srt)) as (I1 & I2 & I3); auto.
    { cbn [unzip h_count h_routes]. rewrite Esp, map_app, firstn_app, map_length.
      rewrite <- (Permutation_length PM), LM, Nat.sub_diag. cbn [firstn]. rewrite app_nil_r.
      apply firstn_all2. rewrite map_length, <- (Permutation_length PM). lia. }
    { cbn [unzip h_count h_routes]. rewrite map_length. lia. }
    assert (Eh' : (match srt with
             | [] => Err ValueError
             | _ :: _ => Ok (mkHist (map snd srt) (map fst srt) (h_count h))
             end) = Ok (unzip (h_count h) srt)).
    { destruct srt; [simpl in Ls; lia|reflexivity]. }
    rewrite Eh'. cbn [bind].
    destruct (sortM_by (compare_entries (unzip (h_count h) srt))
                (fun e => pos (map snd M') (e_route e)) (fun e => In e t) I3 t [])
      as (arr & Ea & Pa & Sa).
    { apply Forall_forall. auto. }
    { constructor. }
    { constructor. }
    exists (map snd M'), arr. auto.
Qed.

(** * The whole compressor *)
Lemma ss_split : forall {A} (R : A -> A -> Prop) l1 a l2 b l3,
  StronglySorted R (l1 ++ a :: l2 ++ b :: l3) ->
  R a b /\ (forall c, In c l2 -> R a c /\ R c b) /\ (forall c, In c l1 -> R c b).
Proof.
  intros A R l1 a l2 b l3. induction l1 as [|x l1 IH]; simpl; intros H.
  - inversion H as [|? ? H1 H2]; subst. rewrite Forall_forall in H2.
    split; [apply H2; rewrite in_app_iff; simpl; auto|]. split; [|intros c []].
    intros c Hc. split; [apply H2; rewrite in_app_iff; auto|].
    clear - H1 Hc. induction l2 as [|y l2 IH]; [destruct Hc|]. simpl in H1.
    inversion H1 as [|? ? H2 H3]; subst. destruct Hc as [<-|Hc]; [|auto].
    rewrite Forall_forall in H3. apply H3. rewrite in_app_iff. simpl. auto.
  - inversion H as [|? ? H1 H2]; subst. apply IH in H1. destruct H1 as (A1 & A2 & A3).
    split; [assumption|]. split; [assumption|]. intros c [<-|Hc]; [|auto].
    rewrite Forall_forall in H2. apply H2. rewrite in_app_iff. simpl. rewrite in_app_iff.
    simpl. auto.
Qed.

Lemma fop_split : forall {A} (R : A -> A -> Prop) l1 a l2 b l3,
  ForallOrdPairs R (l1 ++ a :: l2 ++ b :: l3) -> R a b.
Proof.
  intros A R l1 a l2 b l3. induction l1 as [|x l1 IH]; simpl; intros H; inversion H; subst; auto.
  rewrite Forall_forall in H2. apply H2. rewrite in_app_iff. simpl. auto.
Qed.

Lemma sorted_cnt t us : StronglySorted (fun a b => cnt t b <= cnt t a) us ->
  forall a b, In a us -> In b us -> pos us b <= pos us a -> cnt t a <= cnt t b.
Proof.
  induction 1 as [|u us S IH F]; intros a b Ha Hb Hp; [destruct Ha|]. simpl in Hp.
  rewrite Forall_forall in F.
  destruct (N.eqb_spec u a) as [Ea|Na], (N.eqb_spec u b) as [Eb|Nb]; try lia.
  - subst. lia.
  - subst u. destruct Ha as [Ha|Ha]; [congruence|]. now apply F.
  - destruct Ha as [Ha|Ha]; [congruence|]. destruct Hb as [Hb|Hb]; [congruence|].
    apply IH; auto. lia.
Qed.

Lemma compress_table_full ordered c_sort n t out :
  Forall entry_ok t -> compress_table ordered c_sort n t = Ok out ->
  exists us,
    (forall r, In r us <-> In r (map e_route t)) /\
    StronglySorted (fun a b => cnt t b <= cnt t a) us /\
    Forall entry_ok out /\
    StronglySorted (fun a b => pos us (e_route b) <= pos us (e_route a)) out /\
    ForallOrdPairs (hit (pos us) ordered out) out /\
    (forall o, In o out -> In (e_route o) us).
Proof.
  intros Hok H. unfold compress_table in H.
  apply bind_Ok_inv in H. destruct H as (h & Eh & H).
  destruct (Nat.eq_dec n 0) as [->|Hn].
  { destruct t as [|e t].
    - simpl in Eh. injection Eh as <-. destruct c_sort; vm_compute in H; [|discriminate].
      injection H as <-. exists []. split; [tauto|]. repeat constructor. intros o [].
    - simpl in Eh. discriminate. }
  apply (histogram_full n t [] _ h (hist_full_init n)) in Eh. simpl app in Eh.
  destruct (sort_entries_full c_sort n t h Eh ltac:(lia)) as (us & arr & Ea & Pa & Hus & Su & Sa).
  rewrite Ea in H. cbn [bind] in H.
  assert (Hr : forall a, In a arr -> In (e_route a) us).
  { intros a Ha. apply Hus. apply in_map. eapply Permutation_in; [symmetry; exact Pa|assumption]. }
  destruct (loop_full (pos us) (S (length arr)) ordered [] [] arr) as (arr' & w & E & R1 & R2 & R3 & R4).
  - lia.
  - constructor.
  - eapply Permutation_Forall; eauto.
  - exact Sa.
  - simpl. intros a b Ha Hb. apply pos_inj; auto.
  - intros o d [].
  - constructor.
  - cbn [app length] in E. rewrite E in H. cbn [bind] in H. injection H as <-.
    exists us. split; [assumption|]. split; [assumption|]. split; [assumption|].
    split; [assumption|]. split; [assumption|].
    intros o Ho. destruct (R4 o Ho) as (d & Hd & <-). now apply Hr.
Qed.

Lemma pair_grouped : forall ordered c_sort n t l1 a l2 b l3,
  Forall entry_ok t ->
  compress_table ordered c_sort n t = Ok (l1 ++ a :: l2 ++ b :: l3) ->
  count_occ N.eq_dec (map e_route t) (e_route a)
    <= count_occ N.eq_dec (map e_route t) (e_route b) /\
  (e_route a = e_route b -> forall c, In c l2 -> e_route c = e_route a).
Proof.
  intros ordered c_sort n t l1 a l2 b l3 Hok H.
  destruct (compress_table_full _ _ _ _ _ Hok H) as (us & Hus & Su & _ & So & _ & Hr).
  apply ss_split in So. destruct So as (A1 & A2 & _).
  assert (Ha : In (e_route a) us) by (apply Hr; rewrite in_app_iff; simpl; auto).
  assert (Hb : In (e_route b) us).
  { apply Hr. rewrite in_app_iff. simpl. rewrite in_app_iff. simpl. auto. }
  split; [now apply (sorted_cnt t us Su)|].
  intros E c Hc. destruct (A2 c Hc) as [B1 B2]. rewrite <- E in B2.
  apply (pos_inj us); [|assumption|].
  - apply Hr. rewrite in_app_iff. simpl. rewrite in_app_iff. auto.
  - now apply Nat.le_antisymm.
Qed.

Lemma pair_no_more_merges : forall ordered c_sort n t l1 a l2 b l3 K M,
  Forall entry_ok t ->
  compress_table ordered c_sort n t = Ok (l1 ++ a :: l2 ++ b :: l3) ->
  e_route a = e_route b ->
  (forall k, entry_matches k a \/ entry_matches k b -> N.land k M = K) ->
  exists d k,
    In d (if ordered then l3 else l1 ++ a :: l2 ++ b :: l3) /\
    e_route d <> e_route a /\ entry_matches k d /\ N.land k M = K.
Proof.
  intros ordered c_sort n t l1 a l2 b l3 K M Hok H E Cov.
  destruct (compress_table_full _ _ _ _ _ Hok H) as (us & _ & _ & Oko & So & HF & _).
  apply fop_split in HF. destruct (HF E) as (d & k & Hd & Hne & Ho & Md & Mm).
  apply ss_split in So. destruct So as (A1 & A2 & A3).
  exists d, k. split; [|split; [assumption|split; [assumption|]]].
  - destruct ordered; [|assumption]. specialize (Ho eq_refl). rewrite E in Ho.
    rewrite in_app_iff in Hd. simpl in Hd. rewrite in_app_iff in Hd. simpl in Hd.
    destruct Hd as [Hd|[<-|[Hd|[<-|Hd]]]]; [| | | |assumption]; exfalso.
    + specialize (A3 d Hd). simpl in A3. lia.
    + lia.
    + destruct (A2 d Hd) as [_ A4]. lia.
    + lia.
  - rewrite Forall_forall in Oko.
    apply (merge_minimal (e_key a) (e_mask a) (e_key b) (e_mask b)).
    + apply Oko. rewrite in_app_iff. simpl. auto.
    + apply Oko. rewrite in_app_iff. simpl. rewrite in_app_iff. simpl. auto.
    + intros k' H'. apply Cov. now left.
    + intros k' H'. apply Cov. now right.
    + exact Mm.
Qed.
