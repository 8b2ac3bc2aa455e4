(** Property C211: the picture of the placements. *)
From Coq Require Import List Arith ZArith Bool Lia.
From Verif Require Import Base Dict TreeModel SdramModel PlacementsModel PlacementsProofs PlacerModel PlacerProofs PlacerFinal FailModel FailProofs PlacerProps FailProps DrawModel.
Import ListNotations.
Local Open Scope nat_scope.

(** The picture that the placer draws: every chip is shown as unused, whatever is placed. *)
Theorem C211_all_unused : forall e app chips sys apps d, drawn e app chips sys apps = Some d ->
  d = map (fun c => (c, None)) chips.
Proof.
  intros e app chips sys apps d. unfold drawn. pose proof (place_call_same e sys apps) as K.
  destruct (place_call e sys apps) as [after [p|x]]; [|discriminate]. cbn [fst snd] in K. rewrite (K p eq_refl).
  intros H. injection H as <-. unfold board_colours. induction chips as [|c chips IH]; cbn; [reflexivity|].
  rewrite Nat.eqb_refl. cbn. f_equal. exact IH.
Qed.
Print Assumptions C211_all_unused.

(** The chip (0, 0) has two vertices of application vertex 7. *)
Theorem C211_used_refuted : exists e app chips sys l apps p d pl,
  wf_machine e /\ set_ok e /\ made l sys /\ place_graph e sys apps = Ok p /\ drawn e app chips sys apps = Some d /\
  In pl (abs p) /\ ~ In pl l /\ app (pl_v pl) <> None /\ In ((pl_x pl, pl_y pl), None) d.
Proof.
  exists xenv, (fun v => if Nat.leb 10 v then Some 7 else None), [(0, 0); (0, 1); (1, 0); (1, 1)], xsys, xmon, (firstn 1 seven).
  eexists. eexists. exists (mkPl 10 0 0 2).
  split; [exact xwf|]. split; [exact xset|]. split; [exact xmade|]. split; [vm_compute; reflexivity|].
  split; [vm_compute; reflexivity|]. split; [vm_compute; tauto|].
  split; [intros H; cbn in H; intuition discriminate|]. split; [discriminate|]. vm_compute. tauto.
Qed.
Print Assumptions C211_used_refuted.

Lemma rep_n_on : forall p l cs c, Rep p l cs -> n_on p c = length (filter (on c) l) /\
  match dget xy_eqb (ps_chips p) c with Some d => map snd d | None => [] end = filter (on c) l.
Proof.
  intros p l cs c R. unfold n_on. destruct (mem c cs) eqn:M.
  - apply mem_In in M. rewrite (r_chips _ _ _ R c M), map_length, map_map. cbn. rewrite map_id. auto.
  - assert (N : ~ In c cs) by (rewrite <- mem_In; congruence).
    destruct (rep_none _ _ _ _ R N) as [-> ->]. auto.
Qed.
Lemma rep_nodup : forall p l cs, Rep p l cs -> NoDup l.
Proof. intros p l cs R. exact (NoDup_map_inv _ _ (r_v _ _ _ R)). Qed.
Lemma first_found : forall A (f : A -> bool) l a, find f l = Some a ->
  exists x y, l = x ++ a :: y /\ f a = true /\ forall b, In b x -> f b = false.
Proof.
  induction l as [|b l IH]; intros a; cbn; [discriminate|]. destruct (f b) eqn:F.
  - intros H. injection H as <-. exists [], l. repeat split; auto. intros b' [].
  - intros H. destruct (IH a H) as (x & y & -> & Y & Z). exists (b :: x), y. repeat split; auto. intros c [<-|C]; auto.
Qed.

(** Drawn from two objects of which the first has all placements of the second: every
    chip has a colour; it is "unused" if all placements on the chip are of the system, and
    otherwise that of the application vertex of the first placement that is not. *)
Theorem C211_colours_partial : forall app chips p sys all system,
  made all p -> made system sys -> incl system all ->
  map fst (board_colours app chips p sys) = chips /\
  forall x y k, In ((x, y), k) (board_colours app chips p sys) ->
    (forall pl, In pl all -> pl_x pl = x -> pl_y pl = y -> In pl system) /\ k = None \/
    exists pre pl post, all = pre ++ pl :: post /\ pl_x pl = x /\ pl_y pl = y /\ ~ In pl system /\ k = app (pl_v pl) /\
      forall q, In q pre -> pl_x q = x -> pl_y q = y -> In q system.
Proof.
  intros app chips p sys all system M N I.
  destruct (made_ok _ _ M) as [[cs R] E]. rewrite E in R. destruct (made_ok _ _ N) as [[cs' R'] E'].
  assert (PL : forall pl, In pl all -> (is_placed sys (pl_v pl) = true <-> In pl system)).
  { intros pl A. rewrite (is_placed_iff sys (pl_v pl)) by (exists cs'; exact R'). rewrite E'. unfold vplaced. split.
    - intros [q [S0 Q]].
      assert (Z : q = pl); [|subst; exact S0].
      pose proof (r_v _ _ _ R) as V. pose proof (I q S0) as B. clear - V A B Q. induction all as [|z all IH]; [destruct A|].
      cbn in V. inversion V as [|? ? V1 V2]; subst. destruct A as [->|A], B as [->|B]; auto.
      + exfalso. apply V1. rewrite <- Q. apply in_map. exact B.
      + exfalso. apply V1. rewrite Q. apply in_map. exact A.
    - intros H. exists pl. auto. }
  rewrite E' in R'.
  assert (ON : forall c pl, on c pl = true <-> pl_x pl = fst c /\ pl_y pl = snd c).
  { intros [x y] pl. unfold on. rewrite xy_eqb_spec. cbn. split; [intros H; injection H; auto | intros [-> ->]; reflexivity]. }
  assert (ONE : forall c, 
    (Nat.eqb (n_on p c) (n_on sys c) = true /\ forall pl, In pl all -> on c pl = true -> In pl system) \/
    (Nat.eqb (n_on p c) (n_on sys c) = false /\ exists pre pl post, on_chip_first p sys c = Some pl /\ all = pre ++ pl :: post /\
       on c pl = true /\ ~ In pl system /\ forall q, In q pre -> on c q = true -> In q system)).
  { intros c. destruct (rep_n_on p all cs c R) as [-> D]. destruct (rep_n_on sys system cs' c R') as [-> _].
    destruct (Nat.eqb_spec (length (filter (on c) all)) (length (filter (on c) system))) as [L|L]; [left | right]; (split; [reflexivity|]).
    - intros pl A O. assert (X : In pl (filter (on c) system)); [|apply filter_In in X; tauto].
      apply (NoDup_length_incl (l' := filter (on c) all)).
      + apply NoDup_filter. exact (rep_nodup _ _ _ R').
      + lia.
      + intros q Q. apply filter_In in Q. apply filter_In. split; [apply I|]; tauto.
      + apply filter_In. auto.
    - set (g := fun pl => on c pl && negb (is_placed sys (pl_v pl))).
      assert (F : on_chip_first p sys c = find g all).
      { unfold on_chip_first. destruct (dget xy_eqb (ps_chips p) c) as [d|].
        - rewrite D. unfold g. clear. induction all as [|q all IH]; cbn; [reflexivity|]. destruct (on c q); cbn; [|exact IH].
          destruct (negb (is_placed sys (pl_v q))); auto.
        - unfold g. destruct (find g all) as [q|] eqn:G; [|symmetry; exact G]. apply find_some in G. destruct G as [G1 G2].
          unfold g in G2. apply andb_true_iff in G2. destruct G2 as [G2 _]. exfalso.
          assert (X : In q (filter (on c) all)) by (apply filter_In; auto). rewrite <- D in X. destruct X. }
      rewrite F. destruct (find g all) as [pl|] eqn:G.
      + destruct (first_found _ _ _ _ G) as (pre & post & A & B & C). exists pre, pl, post. unfold g in B. apply andb_true_iff in B. destruct B as [B1 B2].
        split; [reflexivity|]. split; [exact A|]. split; [exact B1|]. assert (Y : In pl all) by (rewrite A; apply in_elt).
        split.
        * intros S0. apply (PL pl Y) in S0. rewrite S0 in B2. discriminate.
        * intros q Q O. specialize (C q Q). unfold g in C. rewrite O in C. cbn in C. apply negb_false_iff in C. apply (PL q); [|exact C].
          rewrite A. apply in_or_app. left. exact Q.
      + exfalso. apply L. apply Nat.le_antisymm; apply NoDup_incl_length.
        * apply NoDup_filter. exact (rep_nodup _ _ _ R).
        * intros q Q. apply filter_In in Q. destruct Q as [Q O]. apply filter_In. split; [|exact O].
          apply (PL q Q). pose proof (find_none _ _ G q Q) as Z. unfold g in Z. rewrite O in Z. cbn in Z. apply negb_false_iff in Z. exact Z.
        * apply NoDup_filter. exact (rep_nodup _ _ _ R').
        * intros q Q. apply filter_In in Q. apply filter_In. split; [apply I|]; tauto. }
  split.
  - unfold board_colours. induction chips as [|c chips IH]; cbn [flat_map]; [reflexivity|]. rewrite map_app, IH.
    destruct (ONE c) as [[-> _]|[-> (pre & pl & post & -> & _)]]; reflexivity.
  - intros x y k H. unfold board_colours in H. apply in_flat_map in H. destruct H as [c [_ H]].
    destruct (ONE c) as [[Q S0]|[Q (pre & pl & post & F & A & O & NS & P)]]; rewrite Q in H.
    + destruct H as [H|[]]. injection H as -> <-. left. split; [|reflexivity]. intros pl B X Y. apply S0; [exact B|]. apply ON. auto.
    + rewrite F in H. destruct H as [H|[]]. injection H as -> <-. right. exists pre, pl, post. apply ON in O. cbn in O. destruct O as [O1 O2].
      repeat (split; [assumption || reflexivity|]). intros q B X Y. apply (P q B). apply ON. auto.
Qed.
Print Assumptions C211_colours_partial.

(** Had the caller's placements been copied before the call, the chip would be shown with
    the colour of application vertex 7. *)
Example C211_example : exists p all, place_graph xenv xsys (firstn 1 seven) = Ok p /\ abs p = all /\
  made xmon xsys /\ made all (fst (add_placements empty_placements all)) /\ incl xmon all /\
  board_colours (fun v => if Nat.leb 10 v then Some 7 else None) [(0, 0); (0, 1)] p xsys = [((0, 0), Some 7); ((0, 1), None)].
Proof.
  eexists. eexists. split; [vm_compute; reflexivity|]. split; [reflexivity|]. split; [exact xmade|].
  split; [vm_compute; reflexivity|]. split; [|vm_compute; reflexivity]. vm_compute. intros pl H. tauto.
Qed.
