(** Ordered covering ends on every table, also one whose entries overlap. *)
From Coq Require Import List Arith NArith ZArith Bool Lia Sorted Permutation.
From Verif Require Import Base RouteSpec KeyMask DefaultModel OrderedModel OrderedProofs.
Import ListNotations.
Local Open Scope nat_scope.

Lemma apply_shrinks : forall t a m, gsorted t -> merge_of t m -> StronglySorted lt (mg_entries m) -> mg_entries m <> [] ->
  exists t' a', apply_merge t a m = Ok (t', a') /\ gsorted t' /\ length t' + length (mg_entries m) = length t + 1.
Proof.
  intros t a m IS M SS Hne. unfold apply_merge.
  destruct (mg_entries m) as [|i s] eqn:ES; [congruence|]. rewrite <- ES in *.
  destruct (aget_lt t i) as [e He]. { apply (mo_range t m M). rewrite ES. left; auto. }
  rewrite He. cbn [bind].
  remember (mkEntry (mg_key m) (mg_mask m) (e_route e) (mg_def m)) as ne eqn:Ene.
  pose proof (apply_loop_table m ne t 0 a [] ltac:(lia)) as TB.
  destruct (apply_loop m ne 0 t a []) as [[nt a'] ours]. cbn [fst snd] in *. rewrite Nat.sub_0_r in TB.
  set (t1 := del (mg_entries m) 0 (firstn (mg_ins m) t)) in *.
  set (t2 := del (mg_entries m) (mg_ins m) (skipn (mg_ins m) t)) in *.
  exists (t1 ++ ne :: t2), (alias_set a' (mg_key m, mg_mask m) ours). split.
  { f_equal. f_equal. destruct (Nat.eqb_spec (mg_ins m) (length t)) as [EL|EL].
    - rewrite EL in TB. destruct (Nat.ltb_spec (length t) (length t)) as [L|L]; [lia|].
      unfold t1, t2. rewrite TB, EL, firstn_all, skipn_all. cbn [del]. reflexivity.
    - pose proof (mo_ins t m M). destruct (Nat.ltb_spec (mg_ins m) (length t)) as [L|L]; [|lia]. exact TB. }
  assert (SPLIT : del (mg_entries m) 0 t = t1 ++ t2).
  { unfold t1, t2. rewrite <- (firstn_skipn (mg_ins m) t) at 1. rewrite del_app, firstn_length. pose proof (mo_ins t m M).
    rewrite Nat.min_l by lia. reflexivity. }
  split.
  - pose proof (del_sorted (mg_entries m) t 0 IS) as DS. rewrite SPLIT in DS.
    assert (B1 : forall x, In x t1 -> gle x ne).
    { intros x Hx. apply del_In in Hx. destruct Hx as [j [Hj Hn]]. apply nth_error_firstn_Some in Hj. destruct Hj as [Hj1 Hj2].
      pose proof (mo_below t m M j x ltac:(assumption) ltac:(assumption)). subst ne. unfold gle, entry_generality in *. cbn [e_key e_mask]. lia. }
    assert (B2 : forall x, In x t2 -> gle ne x).
    { intros x Hx. apply del_In in Hx. destruct Hx as [j [Hj Hn]]. rewrite nth_error_skipn' in Hj.
      pose proof (mo_above t m M (mg_ins m + j) x ltac:(lia) Hj). subst ne. unfold gle, entry_generality in *. cbn [e_key e_mask]. lia. }
    clear -DS B1 B2. clearbody t1 t2. unfold gsorted in *. induction t1 as [|x l IH]; cbn [app] in *.
    + constructor; auto. apply Forall_forall. auto.
    + inversion DS; subst. constructor.
      * apply IH; auto. intros y Hy. apply B1. right; auto.
      * rewrite Forall_forall in *. intros y Hy. apply in_app_or in Hy. destruct Hy as [Hy|[<-|Hy]].
        -- apply H2. apply in_or_app; auto.
        -- apply B1. left; auto.
        -- apply H2. apply in_or_app; auto.
  - pose proof (del_length (mg_entries m) t 0 SS) as DL. rewrite SPLIT in DL.
    rewrite app_length in *. cbn [length] in *.
    assert (length t1 + length t2 + length (mg_entries m) = length t); [|lia].
    apply DL. intros x Hx. pose proof (mo_range t m M x Hx). lia.
Qed.

Lemma oc_loop_any : forall fuel t a target, gsorted t -> (t <> [] \/ target <> None) -> length t < fuel ->
  exists t' a', oc_loop fuel t a target = Ok (t', a') /\ gsorted t' /\ length t' <= length t.
Proof.
  induction fuel as [|f IH]; intros t a target I Ht HF; [lia|].
  cbn [oc_loop]. destruct (want_more target t) eqn:W; [|exists t, a; auto].
  assert (Hne : t <> []).
  { destruct Ht as [Ht|Ht]; auto. destruct target as [n|]; [|congruence].
    unfold want_more in W. apply Nat.ltb_lt in W. intro; subst; cbn in W; lia. }
  destruct (best_merge_spec t a Hne I) as [m [E H]]. rewrite E. cbn [bind].
  destruct (Z.leb_spec (goodness m) 0) as [L|L]; [exists t, a; auto|].
  destruct H as [H|[V [OR G]]]; [rewrite goodness_empty in L by exact H; lia|].
  assert (Hm : mg_entries m <> []) by (intro X; rewrite goodness_empty in G by exact X; lia).
  destruct V as [M [SS _]]. destruct (apply_shrinks t a m I M SS Hm) as [t' [a' [E' [I' LN]]]]. rewrite E'. cbn [bind fst snd].
  unfold goodness in G.
  assert (LM : length (mg_entries m) <= length t). { apply sorted_length_range; auto. apply (mo_range t m M). }
  assert (T' : t' <> []) by (intro X; rewrite X in LN; cbn in LN; lia).
  destruct (IH t' a' target I' (or_introl T') ltac:(lia)) as [t2 [a2 [E2 [I2 L2]]]]. exists t2, a2. split; [exact E2|]. split; [exact I2 | lia].
Qed.

Lemma covering_any : forall table target a no_raise, (table <> [] \/ target <> None) ->
  exists out al, length out <= length table /\
    (ordered_covering table target a no_raise = Ok (out, al) \/
     (no_raise = false /\ (exists n, target = Some n /\ n < length out) /\
      ordered_covering table target a no_raise = Err MinimisationFailed)).
Proof.
  intros table target a no_raise H. unfold ordered_covering.
  pose proof (Permutation_length (sort_perm table)) as PL.
  destruct (oc_loop_any (S (length (sort_entries table))) (sort_entries table) a target (sort_sorted table)) as [t' [a' [E [S L]]]]; [|lia|].
  { destruct H as [H|H]; [left|right; exact H]. intros X. rewrite X in PL. destruct table; [congruence | discriminate]. }
  rewrite E. cbn [bind fst]. exists t', a'. split; [lia|]. destruct no_raise; cbn [negb andb]; [left; reflexivity|].
  destruct target as [n|]; [|left; reflexivity]. destruct (Nat.ltb_spec n (length t')); [|left; reflexivity]. right. eauto 6.
Qed.
Lemma oc_compress_any : forall table target, (table <> [] \/ target <> None) ->
  (exists out, oc_compress_table table target = Ok out /\ length out <= length table) \/
  oc_compress_table table target = Err MinimisationFailed.
Proof.
  intros table target H. unfold oc_compress_table.
  destruct (covering_any table target [] true H) as [t' [a' [L [E|[X _]]]]]; [|discriminate X]. rewrite E. cbn [bind fst].
  unfold remove_default_routes.
  assert (D : forall t, length (drop_checked t) <= length t).
  { induction t as [|x t IH]; [cbn; lia|]. cbn [drop_checked]. destruct (negb (e_def x)); [cbn [length]; lia|]. destruct (existsb _ _); cbn [length]; lia. }
  assert (F : forall t, length (filter (fun e => negb (e_def e)) t) <= length t).
  { induction t as [|x t IH]; [cbn; lia|]. cbn [filter]. destruct (negb _); cbn [length]; lia. }
  assert (G : length (if needs_check t' true then drop_checked t' else filter (fun e => negb (e_def e)) t') <= length table)
    by (destruct (needs_check t' true); [specialize (D t') | specialize (F t')]; lia).
  destruct target as [[|n]|]; [left; eauto| |left; eauto].
  destruct (Nat.ltb (S n) _); [right; reflexivity | left; eauto].
Qed.
