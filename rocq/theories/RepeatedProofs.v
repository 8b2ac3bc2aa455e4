(** What the checker compares with when the compressed table repeats a key and mask. *)
From Coq Require Import List Arith NArith Bool Lia.
From Verif Require Import Base RouteSpec KeyMask CheckerModel CheckerProofs.
Import ListNotations.

Definition km (e : entry) : N * N := (e_key e, e_mask e).
Definition km_dec (a b : N * N) : {a = b} + {a <> b}.
Proof. decide equality; apply N.eq_dec. Defined.
Definition kept (t : list entry) : list entry := map snd (codify_table t 32).

Lemma codify_table_snoc t e : codify_table (t ++ [e]) 32 = dict_set (codify_table t 32) (codify e 32) e.
Proof. unfold codify_table. rewrite fold_left_app. reflexivity. Qed.
Lemma dict_codes d : dict_ok d -> d = map (fun e => (codify e 32, e)) (map snd d).
Proof. induction 1 as [|[c e] d [E _] D IH]; cbn [map fst snd] in *; [reflexivity|]. rewrite E. f_equal. exact IH. Qed.
Lemma codify_km a b : km a = km b -> codify a 32 = codify b 32.
Proof. unfold km, codify. intros E. injection E as -> ->. reflexivity. Qed.

Lemma dict_set_kept d e : dict_ok d -> e32 e ->
  map km (map snd (dict_set d (codify e 32) e)) = (if in_dec km_dec (km e) (map km (map snd d)) then map km (map snd d) else map km (map snd d) ++ [km e]) /\
  (NoDup (map km (map snd d)) -> forall x, In x (map snd (dict_set d (codify e 32) e)) <-> x = e \/ (In x (map snd d) /\ km x <> km e)).
Proof.
  intros D E. induction D as [|[c y] d [C Y] D [IH1 IH2]]; cbn [map fst snd dict_set] in *.
  - destruct (in_dec _ _ _) as [[]|_]. split; [reflexivity|]. intros _ x. cbn [In]. intuition.
  - destruct (code_eqb c (codify e 32)) eqn:Q.
    + apply code_eqb_eq in Q. rewrite C in Q. destruct (codify_inj y e Y E Q) as [K1 K2].
      assert (K : km y = km e) by (unfold km; congruence). cbn [map snd]. split.
      * destruct (in_dec km_dec (km e) (km y :: map km (map snd d))) as [_|X]; [rewrite K; reflexivity|]. exfalso. apply X. left. exact K.
      * intros ND x. inversion ND as [|? ? N1 N2]; subst. cbn [In]. split.
        -- intros [<-|X]; [auto|]. right. split; [auto|]. intros Kx. apply N1. rewrite K, <- Kx. apply in_map. exact X.
        -- intros [->|[[<-|X] NK]]; [auto | contradiction | auto].
    + assert (NK : km y <> km e) by (intros K; apply codify_km in K; rewrite C, K in Q; rewrite (proj2 (code_eqb_eq _ _) eq_refl) in Q; discriminate).
      cbn [map snd]. split.
      * rewrite IH1. destruct (in_dec km_dec (km e) (map km (map snd d))) as [I|I]; destruct (in_dec km_dec (km e) (km y :: map km (map snd d))) as [J|J]; auto.
        -- exfalso. apply J. right. exact I.
        -- destruct J as [J|J]; contradiction.
      * intros ND x. inversion ND as [|? ? N1 N2]; subst. cbn [In]. rewrite (IH2 N2 x). split.
        -- intros [<-|[->|[X Z]]]; auto.
        -- intros [->|[[<-|X] Z]]; auto.
Qed.

Lemma kept_spec t : Forall e32 t ->
  map km (kept t) = rev (nodup km_dec (rev (map km t))) /\ NoDup (map km (kept t)) /\
  (forall e, In e (kept t) <-> exists pre post, t = pre ++ e :: post /\ ~ In (km e) (map km post)) /\
  codify_table (kept t) 32 = codify_table t 32.
Proof.
  intros F.
  assert (A : map km (kept t) = rev (nodup km_dec (rev (map km t))) /\
    (forall e, In e (kept t) <-> exists pre post, t = pre ++ e :: post /\ ~ In (km e) (map km post))).
  { revert F. induction t as [|e t IH] using rev_ind; intros F.
    - split; [reflexivity|]. intros e. split; [intros []|]. intros (pre & post & X & _). destruct pre; discriminate.
    - apply Forall_app in F. destruct F as [F1 F2]. inversion F2 as [|? ? F3 _]; subst. destruct (IH F1) as [I1 I2].
      unfold kept. rewrite codify_table_snoc. destruct (dict_set_kept _ e (codify_table_ok t F1) F3) as [D1 D2].
      fold (kept t) in D1, D2. split.
      + rewrite D1, map_app, rev_app_distr. cbn [map rev app nodup].
        destruct (in_dec km_dec (km e) (map km (kept t))) as [X|X]; destruct (in_dec km_dec (km e) (rev (map km t))) as [Y|Y].
        * exact I1.
        * exfalso. apply Y. rewrite I1, <- in_rev, nodup_In in X. exact X.
        * exfalso. apply X. rewrite I1, <- in_rev, nodup_In. exact Y.
        * cbn [rev]. rewrite <- I1. reflexivity.
      + intros x. assert (ND : NoDup (map km (kept t))) by (rewrite I1; apply NoDup_rev, NoDup_nodup).
        rewrite (D2 ND x), I2. split.
        * intros [->|[(pre & post & -> & N1) N2]].
          -- exists t, []. split; [reflexivity | intros []].
          -- exists pre, (post ++ [e]). split; [rewrite <- app_assoc; reflexivity|]. rewrite map_app, in_app_iff. cbn [map In]. intros [Z|[Z|[]]]; congruence.
        * intros (pre & post & Z & NI). destruct post as [|q post] using rev_ind.
          -- apply app_inj_tail in Z. left. symmetry. exact (proj2 Z).
          -- clear IHpost. rewrite app_comm_cons, app_assoc in Z. apply app_inj_tail in Z. destruct Z as [Z1 Z2]. subst q. right.
             rewrite map_app, in_app_iff in NI. cbn [map In] in NI. split; [exists pre, post; split; [exact Z1 | tauto]|]. intros Z. apply NI. auto. }
  destruct A as [A1 A2]. assert (ND : NoDup (map km (kept t))) by (rewrite A1; apply NoDup_rev, NoDup_nodup).
  split; [exact A1|]. split; [exact ND|]. split; [exact A2|].
  assert (FK : Forall e32 (kept t)).
  { apply Forall_forall. intros e I. apply A2 in I. destruct I as (pre & post & E & _). rewrite Forall_forall in F. apply F. rewrite E. apply in_elt. }
  rewrite (dict_codes _ (codify_table_ok _ FK)), (codify_table_nodup (kept t) FK ND), (dict_codes _ (codify_table_ok t F)) at 1. reflexivity.
Qed.

Lemma repeated_checked : forall entry_eq original compressed, Forall e32 original -> Forall e32 compressed ->
  exists t, map km t = rev (nodup km_dec (rev (map km compressed))) /\
    (forall e, In e t <-> exists pre post, compressed = pre ++ e :: post /\ ~ In (km e) (map km post)) /\
    compare_tables entry_eq original compressed = compare_tables entry_eq original t /\
    (compare_tables entry_eq original compressed = Ok tt -> forall o k, In o original -> entry_matches k o ->
       routes_to t k (e_route o) \/ (first_match t k = None /\ e_def o = true)).
Proof.
  intros eq og co FO FC. destruct (kept_spec co FC) as (A & ND & B & C). exists (kept co). split; [exact A|]. split; [exact B|].
  assert (E : compare_tables eq og co = compare_tables eq og (kept co)) by (unfold compare_tables; rewrite C; reflexivity).
  split; [exact E|]. rewrite E. intros OK. apply (checker_sound eq og (kept co)); auto.
  apply Forall_forall. intros e I. apply B in I. destruct I as (pre & post & Q & _). rewrite Forall_forall in FC. apply FC. rewrite Q. apply in_elt.
Qed.
