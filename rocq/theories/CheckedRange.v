(** The entries that the ranged compressor writes: no two with the same key and
    mask, and each is an entry of the table or is not defaultable. *)
From Coq Require Import List Arith NArith ZArith Bool Lia Permutation.
From Verif Require Import Base RouteSpec KeyMask RangeModel RangeProofs.
Import ListNotations.
Local Open Scope Z_scope.
Notation zlen l := (Z.of_nat (length l)).

Definition klt (a b : entry) : Prop :=
  exists k, (k < 2 ^ 32)%N /\ entry_matches k b /\
    forall k', (k' < 2 ^ 32)%N -> entry_matches k' a -> (k' < k)%N.

Lemma klt_nodup l : ForallOrdPairs klt l -> NoDup (map (fun e => (e_key e, e_mask e)) l).
Proof.
  induction l as [|a l IH]; intros F; [constructor|]. inversion F as [|? ? F1 F2]; subst.
  cbn [map]. constructor; [|now apply IH]. intros I. apply in_map_iff in I.
  destruct I as (b & [= E1 E2] & Hb). rewrite Forall_forall in F1.
  destruct (F1 b Hb) as (k & Hk & Mk & L).
  assert (Ma : entry_matches k a) by (unfold entry_matches in *; rewrite E1, E2 in Mk; exact Mk).
  specialize (L k Hk Ma). lia.
Qed.

Lemma fop_join {A} (R : A -> A -> Prop) : forall l1 l2,
  ForallOrdPairs R l1 -> ForallOrdPairs R l2 -> (forall a b, In a l1 -> In b l2 -> R a b) ->
  ForallOrdPairs R (l1 ++ l2).
Proof.
  induction l1 as [|x l1 IH]; intros l2 H1 H2 H; [exact H2|]. inversion H1 as [|? ? F1 F2]; subst.
  cbn [app]. constructor.
  - apply Forall_app. split; [exact F1|]. apply Forall_forall. intros b Hb. apply H; [now left|exact Hb].
  - apply IH; auto. intros a b Ha Hb. apply H; [now right|exact Hb].
Qed.

Lemma end_matches e : entry32 e -> entry_matches (Z.to_N (endz e)) e.
Proof.
  intros E3. pose proof (endz_bounds e E3) as EB. destruct E3 as (Ok1 & Hk & Hm).
  apply matches_Z. rewrite Z2N.id by lia. unfold endz. rewrite ones32.
  assert (A : Z.land (Z.of_N (e_key e)) (Z.of_N (e_mask e)) = Z.of_N (e_key e)) by (now apply matches_Z).
  assert (B : Z.land (Z.of_N (e_mask e)) (Z.ones 32) = Z.of_N (e_mask e)).
  { apply land_ones_small; [|lia]. split; [lia|]. change (2 ^ 32) with (Z.of_N (2 ^ 32)). lia. }
  rewrite <- A at 2. apply Z.bits_inj'. intros n Hn.
  assert (Bn : Z.testbit (Z.land (Z.of_N (e_mask e)) (Z.ones 32)) n = Z.testbit (Z.of_N (e_mask e)) n) by (now rewrite B).
  rewrite Z.land_spec in Bn.
  rewrite !Z.land_spec, Z.lor_spec, Z.lnot_spec by assumption.
  destruct (Z.testbit (Z.of_N (e_key e)) n), (Z.testbit (Z.of_N (e_mask e)) n),
    (Z.testbit (Z.ones 32) n); simpl in *; congruence.
Qed.

Section WithTable.
  Variable es : list entry.
  Hypothesis E32 : Forall entry32 es.
  Hypothesis V : valid es.

  Lemma merge_range_stuck first last : 0 <= first < last -> last < zlen es ->
    (forall fuel, exists b, merge_range (S fuel) es first last =
       let* more := merge_range fuel es first last in Ok (b :: more)) ->
    forall fuel out, merge_range fuel es first last <> Ok out.
  Proof.
    intros H1 H2 St. induction fuel as [|fuel IH]; intros out H; [discriminate|].
    destruct (St fuel) as (b & E). rewrite E in H. apply bind_Ok_inv in H.
    destruct H as (more & Em & _). exact (IH more Em).
  Qed.

  Lemma merge_range_seq : forall fuel first last out,
    0 <= first <= last -> last < zlen es ->
    merge_range fuel es first last = Ok out ->
    ForallOrdPairs klt out /\
    (forall b, In b out -> exists k, (k < 2 ^ 32)%N /\ entry_matches k b /\ Ef es first <= Z.of_N k) /\
    (forall a k, In a out -> (k < 2 ^ 32)%N -> entry_matches k a -> Z.of_N k < Kf es (last + 1)) /\
    (forall o, In o out -> entry32 o /\ (In o es \/ e_def o = false)).
  Proof.
    induction fuel as [|fuel IH]; intros first last out H1 H2 Hm; [discriminate|].
    destruct (Z.eq_dec first last) as [->|Hne].
    - cbn [merge_range] in Hm. rewrite Z.eqb_refl in Hm.
      destruct (zget_nth es last) as (e & He & Hz); [lia|].
      rewrite Hz in Hm. cbn [bind] in Hm. injection Hm as <-.
      assert (E3 : entry32 e) by (eapply nth32; eauto).
      assert (EKl : Kf es last = keyz e) by (unfold Kf; now rewrite He).
      assert (EEl : Ef es last = endz e).
      { unfold Ef. rewrite He. destruct (Z.ltb_spec last 0); [lia|reflexivity]. }
      split; [repeat constructor|]. split; [|split].
      + intros b [<-|[]]. exists (Z.to_N (endz e)).
        pose proof (endz_bounds e E3) as EB.
        assert (B2 : (Z.to_N (endz e) < 2 ^ 32)%N).
        { change (2 ^ 32)%N with (Z.to_N (2 ^ 32)). apply Z2N.inj_lt; lia. }
        split; [exact B2|]. split; [|rewrite Z2N.id; lia].
        apply end_matches; exact E3.
      + intros a k [<-|[]] Hk M. pose proof (match_bounds e k E3 Hk M). pose proof (V last). lia.
      + intros o [<-|[]]. split; [exact E3|]. left. eapply nth_error_In; eauto.
    - destruct (merge_range_step_all es E32 V first last) as (j & last' & e & He & S1 & S2 & S2b & S3 & S4 & S5 & S6 & S7);
        try lia.
      assert (Pr : first <= last').
      { destruct (Z.leb_spec first last') as [L|L]; [exact L|exfalso].
        assert (El : last' + 1 = first) by lia.
        eapply (merge_range_stuck first last); [lia|lia| |exact Hm].
        intros f. eexists. rewrite S7. destruct (Z.eqb_spec last last'); [lia|]. rewrite El. reflexivity. }
      rewrite S7 in Hm. clear S7.
      set (p := 2 ^ Z.of_nat j) in *.
      assert (Hp : 0 < p) by (apply Z.pow_pos_nonneg; lia).
      assert (Hp32 : p <= 2 ^ 32) by (apply Z.pow_le_mono_r; lia).
      set (low := Kf es first / p * p) in *.
      pose proof (K_bounds es E32 first) as KB.
      assert (Hlow : low <= Kf es first < low + p).
      { unfold low. pose proof (Z.mul_div_le (Kf es first) p).
        pose proof (Z.mul_succ_div_gt (Kf es first) p). lia. }
      assert (Hlow0 : 0 <= low).
      { unfold low. apply Z.mul_nonneg_nonneg; [|lia]. apply Z.div_pos; lia. }
      assert (Hq : exists q, low = q * 2 ^ Z.of_nat j) by (exists (Kf es first / p); reflexivity).
      set (b := block_entry low j (e_route e)) in *.
      assert (Rb : forall k, (k < 2 ^ 32)%N -> (entry_matches k b <-> low <= Z.of_N k < low + p))
        by (intros k Hk; apply block_entry_range; auto).
      assert (Bb : entry32 b /\ (In b es \/ e_def b = false)).
      { split; [|right; reflexivity]. split; [apply block_entry_ok; auto; lia|].
        unfold b, block_entry. cbn [e_key e_mask]. fold p.
        split; change (2 ^ 32)%N with (Z.to_N (2 ^ 32)); apply Z2N.inj_lt; lia. }
      assert (Bf : exists k, (k < 2 ^ 32)%N /\ entry_matches k b /\ Ef es first <= Z.of_N k).
      { exists (Z.to_N (Ef es first)).
        pose proof (E_bounds es E32 first) as EB. pose proof (K_le_E es E32 first) as KE.
        pose proof (E_mono es E32 V first last') as EM.
        assert (B2 : (Z.to_N (Ef es first) < 2 ^ 32)%N).
        { change (2 ^ 32)%N with (Z.to_N (2 ^ 32)). apply Z2N.inj_lt; lia. }
        split; [exact B2|]. rewrite (Rb _ B2), Z2N.id by lia. lia. }
      assert (Bl : forall k, (k < 2 ^ 32)%N -> entry_matches k b -> Z.of_N k < Kf es (last + 1)).
      { intros k Hk M. apply Rb in M; [lia|exact Hk]. }
      destruct (Z.eqb_spec last last') as [El|Hnl].
      + injection Hm as <-. split; [repeat constructor|]. split; [|split].
        * intros c [<-|[]]. exact Bf.
        * intros a k [<-|[]]. apply Bl.
        * intros o [<-|[]]. exact Bb.
      + destruct (bind_Ok_inv _ _ _ Hm) as (more & Hmore & Eo). injection Eo as <-.
        destruct (IH (last' + 1) last more) as (C1 & C2 & C3 & C4); try lia; auto.
        split; [|split; [|split]].
        * constructor; [|exact C1]. apply Forall_forall. intros c Hc.
          destruct (C2 c Hc) as (k & Hk & Mk & Lk). exists k. split; [exact Hk|]. split; [exact Mk|].
          intros k' Hk' M'. apply Rb in M'; [|exact Hk']. pose proof (S5 (last' + 1)). lia.
        * intros c [<-|Hc]; [exact Bf|]. destruct (C2 c Hc) as (k & Hk & Mk & Lk).
          exists k. split; [exact Hk|]. split; [exact Mk|].
          pose proof (E_mono es E32 V first (last' + 1)). lia.
        * intros a k [<-|Ha]; [apply Bl|]. now apply C3.
        * intros o [<-|Ho]; [exact Bb|]. now apply C4.
  Qed.

  Lemma ranges_seq : forall fuel todo pre first route out,
    es = pre ++ todo ->
    0 <= first <= zlen pre ->
    (first = zlen pre -> exists e t, todo = e :: t /\ e_route e = route) ->
    ranges fuel es todo (zlen pre) first route = Ok out ->
    ForallOrdPairs klt out /\
    (forall b, In b out -> exists k, (k < 2 ^ 32)%N /\ entry_matches k b /\ Ef es first <= Z.of_N k) /\
    (forall o, In o out -> entry32 o /\ (In o es \/ e_def o = false)).
  Proof.
    induction todo as [|x todo IH]; intros pre first route out Ees Hf Hfe Hm.
    - simpl in Hm. rewrite app_nil_r in Ees. subst pre.
      assert (first <> zlen es) by (intros C; destruct (Hfe C) as (e & t & D & _); discriminate).
      destruct (merge_range_seq fuel first (zlen es - 1) out) as (C1 & C2 & _ & C4); try lia; auto.
    - cbn [ranges] in Hm.
      assert (Ees2 : es = (pre ++ [x]) ++ todo) by (rewrite <- app_assoc; exact Ees).
      assert (Lp : zlen (pre ++ [x]) = zlen pre + 1) by (rewrite app_length; simpl; lia).
      assert (Ln : zlen es = zlen pre + 1 + zlen todo).
      { rewrite Ees, app_length. simpl. lia. }
      destruct (N.eqb_spec (e_route x) route) as [Ex|Nx].
      + rewrite <- Lp in Hm. apply (IH (pre ++ [x]) first route out); auto; lia.
      + assert (first <> zlen pre).
        { intros C. destruct (Hfe C) as (e & t & D & R). injection D as <- <-. contradiction. }
        destruct (bind_Ok_inv _ _ _ Hm) as (a & Ha & Hm2).
        destruct (bind_Ok_inv _ _ _ Hm2) as (b & Hb & Eo). injection Eo as <-.
        destruct (merge_range_seq fuel first (zlen pre - 1) a) as (C1 & C2 & C3 & C4); try lia; auto.
        rewrite <- Lp in Hb.
        destruct (IH (pre ++ [x]) (zlen pre) (e_route x) b) as (D1 & D2 & D3); auto; try lia.
        replace (zlen pre - 1 + 1) with (zlen pre) in C3 by lia.
        split; [|split].
        * apply fop_join; auto. intros u v Hu Hv. destruct (D2 v Hv) as (k & Hk & Mk & Lk).
          exists k. split; [exact Hk|]. split; [exact Mk|]. intros k' Hk' M'.
          specialize (C3 u k' Hu Hk' M'). pose proof (K_le_E es E32 (zlen pre)). lia.
        * intros v Hv. apply in_app_or in Hv. destruct Hv as [Hv|Hv]; [now apply C2|].
          destruct (D2 v Hv) as (k & Hk & Mk & Lk). exists k. split; [exact Hk|]. split; [exact Mk|].
          pose proof (E_mono es E32 V first (zlen pre)). lia.
        * intros o Ho. apply in_app_or in Ho. destruct Ho; auto.
  Qed.
End WithTable.

Lemma orthogonal_nodup t : Forall entry_ok t -> orthogonal t -> NoDup (map (fun e => (e_key e, e_mask e)) t).
Proof.
  induction t as [|a t IH]; intros Ok1 F; [constructor|]. inversion F as [|? ? F1 F2]; subst.
  inversion Ok1 as [|? ? Oa Ot]; subst. cbn [map]. constructor; [|now apply IH].
  intros I. apply in_map_iff in I. destruct I as (b & [= E1 E2] & Hb). rewrite Forall_forall in F1.
  apply (F1 b Hb (e_key a)). split; [exact Oa|]. unfold entry_matches. rewrite E1, E2. exact Oa.
Qed.

Lemma range_seq fuel as_far target table out :
  Forall entry32 table -> orthogonal table ->
  range_compress fuel as_far target table = Ok out ->
  Forall entry32 out /\ NoDup (map (fun e => (e_key e, e_mask e)) out) /\
  (forall o, In o out -> In o table \/ e_def o = false).
Proof.
  intros E32 O. assert (Same : Forall entry32 table /\ NoDup (map (fun e => (e_key e, e_mask e)) table) /\
    (forall o, In o table -> In o table \/ e_def o = false)).
  { split; [exact E32|]. split; [|auto]. apply orthogonal_nodup; [|exact O].
    rewrite Forall_forall in *. intros e He. apply E32. exact He. }
  unfold range_compress.
  destruct (negb as_far && Nat.ltb (length table) target)%bool.
  { intros H. injection H as <-. exact Same. }
  destruct (validate_total (sort_by_key table)) as (b & -> & Hb). cbn [bind].
  destruct b; [|intros H; injection H as <-; exact Same].
  clear Same. assert (V : valid (sort_by_key table)) by (now apply Hb). clear Hb.
  pose proof (sort_by_key_perm table) as P.
  assert (E32s : Forall entry32 (sort_by_key table)).
  { rewrite Forall_forall in *. intros x Hx. apply E32. eapply Permutation_in; eauto. }
  set (es := sort_by_key table) in *. clearbody es.
  destruct es as [|e0 es0] eqn:Ees; [discriminate|]. rewrite <- Ees in *.
  intros H.
  destruct (ranges_seq es E32s V fuel es [] 0 (e_route e0) out) as (C1 & _ & C3); auto.
  - simpl. lia.
  - intros _. exists e0, es0. auto.
  - split; [apply Forall_forall; intros o Ho; now apply C3|]. split; [now apply klt_nodup|].
    intros o Ho. destruct (C3 o Ho) as (_ & [I|D]); [|now right]. left. eapply Permutation_in; eauto.
Qed.
