(** What a failing call of the placer leaves behind (C175, C176). *)
From Coq Require Import List Arith ZArith Bool Lia.
From Verif Require Import Base Dict SdramModel PlacementsModel PlacementsProofs PlacerModel PlacerProofs PlacerFinal FailModel.
Import ListNotations.
Local Open Scope nat_scope.

(** * The state-keeping functions and those of PlacerModel *)
Definition out {S} (r : S * option exn) : res S := match r with (s, None) => Ok s | (_, Some x) => Err x end.

Lemma foldE_foldM : forall {S A} (f : S -> A -> res S) (g : S -> A -> S * option exn),
  (forall s a, f s a = out (g s a)) -> forall l s, foldM f s l = out (foldE g s l).
Proof.
  intros S A f g H. induction l as [|a l IH]; intros s; cbn [foldM foldE]; [reflexivity|]. rewrite H.
  destruct (g s a) as [s' [x|]]; cbn [out bind]; [reflexivity | apply IH].
Qed.
Lemma lift_raised : forall p r, lift_add (p, r) = out (p, raised r).
Proof. intros p [[]|x]; reflexivity. Qed.

Lemma fixed_core_out : forall e x y acc v, fixed_core e x y acc v = out (fixed_coreE e x y acc v).
Proof.
  intros e x y [p it] v. unfold fixed_core, fixed_coreE. destruct (get_fixed e v) as [[[x' y'] [q|]]|]; try reflexivity.
  destruct (it_find q it) as [it'|]; [|reflexivity]. destruct (add_placement p (mkPl v x y q)) as [p' r].
  rewrite lift_raised. destruct r as [[]|z]; reflexivity.
Qed.
Lemma free_core_out : forall e x y acc v, free_core e x y acc v = out (free_coreE e x y acc v).
Proof.
  intros e x y [p it] v. unfold free_core, free_coreE. destruct (get_fixed e v) as [[[x' y'] [q|]]|]; try reflexivity;
    (destruct it as [|q it]; [reflexivity|]; destruct (add_placement p (mkPl v x y q)) as [p' r]; rewrite lift_raised;
     destruct r as [[]|z]; reflexivity).
Qed.
Lemma do_fixed_out : forall e p vs, do_fixed e p vs = out (do_fixedE e p vs).
Proof.
  intros e p vs. unfold do_fixed, do_fixedE. destruct (first_fixed e vs) as [[[x y] o]|]; [|reflexivity].
  destruct (m_chip (pe_machine e) (x, y)) as [c|]; [|reflexivity]. destruct (on_chip p (x, y)) as [p1 pls].
  rewrite (foldE_foldM _ _ (fixed_core_out e x y)).
  destruct (foldE (fixed_coreE e x y) _ vs) as [[p2 it] [z|]]; cbn [out bind fst]; [reflexivity|].
  rewrite (foldE_foldM _ _ (free_core_out e x y)).
  destruct (foldE (free_coreE e x y) (p2, it) vs) as [[p3 it'] [z|]]; reflexivity.
Qed.
Lemma fixed_group_out : forall e p g, fixed_group e p g = out (fixed_groupE e p g).
Proof.
  intros e p g. unfold fixed_group, fixed_groupE. destruct (filter_vertices e p (fst g)) as [vs|x]; [|reflexivity].
  cbn [bind]. apply do_fixed_out.
Qed.
Lemma fixed_step_out : forall e s a, fixed_step e s a = out (fixed_stepE e s a).
Proof.
  intros e s a. unfold fixed_step, fixed_stepE. destruct (has_fixed e a); [|reflexivity].
  unfold place_fixed. destruct (a_groups a) as [|g gs]; [reflexivity|].
  rewrite (foldE_foldM _ _ (fixed_group_out e)). destruct (foldE (fixed_groupE e) (s_pls s) (g :: gs)) as [p [x|]]; reflexivity.
Qed.
Lemma place_vertex_out : forall e s a, place_vertex e s a = out (place_vertexE e s a).
Proof.
  intros e s a. unfold place_vertex, place_vertexE. destruct (a_groups a) as [|g gs]; [reflexivity|]. cbv zeta.
  match goal with |- context [place_loop ?f ?e' ?s' ?l] => destruct (place_loop f e' s' l) as [[s1 m]|x] end; [|reflexivity].
  cbn [bind]. destruct (add_placements (s_pls s1) m) as [p r]. rewrite lift_raised. destruct r as [[]|z]; reflexivity.
Qed.
Lemma place_call_result : forall e sys apps, snd (place_call e sys apps) = place_graph e sys apps.
Proof.
  intros e sys apps. unfold place_call, place_graph. destruct (init_placer e sys) as [s|x]; cbn [bind]; [|reflexivity].
  rewrite (foldE_foldM _ _ (fixed_step_out e)). destruct (foldE (fixed_stepE e) s apps) as [s1 [x|]]; cbn [out bind]; [reflexivity|].
  rewrite (foldE_foldM _ _ (place_vertex_out e)). destruct (foldE (place_vertexE e) s1 apps) as [s2 [x|]]; reflexivity.
Qed.
Lemma place_call_same : forall e sys apps p, snd (place_call e sys apps) = Ok p -> fst (place_call e sys apps) = p.
Proof.
  intros e sys apps p. unfold place_call. destruct (init_placer e sys) as [s|x]; [|discriminate].
  destruct (foldE (fixed_stepE e) s apps) as [s1 [x|]]; [discriminate|].
  destruct (foldE (place_vertexE e) s1 apps) as [s2 [x|]]; cbn [snd fst]; [discriminate|]. congruence.
Qed.

(** * Nothing is taken away *)
(** The placements of the chips are those of vertices. *)
Definition known (p : placements) : Prop :=
  forall c d q, In (c, d) (ps_chips p) -> In q d -> is_placed p (pl_v (snd q)) = true.
(** [q] has the placements of [p] and further ones, of vertices in [l]. *)
Definition more (l : list nat) (p q : placements) : Prop :=
  (exists m, abs q = abs p ++ m /\ forall pl, In pl m -> In (pl_v pl) l) /\ (known p -> known q).

Lemma more_refl : forall l p, more l p p.
Proof. intros l p. split; [|auto]. exists []. rewrite app_nil_r. split; [reflexivity|]. intros pl []. Qed.
Definition alike (p q : placements) : Prop := ps_verts q = ps_verts p /\ (known p -> known q).
Lemma alike_trans : forall p q r, alike p q -> alike q r -> alike p r.
Proof. intros p q r [A B] [C D]. split; [congruence | auto]. Qed.
Lemma more_same : forall l p q, alike p q -> more l p q.
Proof. intros l p q [H K]. split; [|exact K]. exists []. rewrite app_nil_r. unfold abs. rewrite H. split; [reflexivity|]. intros pl []. Qed.
Lemma more_trans : forall l p q r, more l p q -> more l q r -> more l p r.
Proof.
  intros l p q r [[m [E1 H1]] K1] [[m' [E2 H2]] K2]. split; [|auto]. exists (m ++ m'). split; [rewrite E2, E1, app_assoc; reflexivity|].
  intros pl H. apply in_app_iff in H. destruct H; auto.
Qed.
Lemma more_incl : forall l l' p q, incl l l' -> more l p q -> more l' p q.
Proof. intros l l' p q I [[m [E H]] K]. split; [|exact K]. exists m. split; [exact E|]. intros pl P. apply I, H, P. Qed.

Lemma touch_verts : forall c p, alike p (fst (touch c p)).
Proof.
  intros c p. unfold touch, alike. destruct (dget xy_eqb (ps_chips p) c); cbn [fst ps_verts]; (split; [reflexivity|]); [auto|].
  intros K c' d q I Q. cbn [ps_chips] in I.
  apply (dset_In xy_eqb (pair_eqb_spec Nat.eqb Nat.eqb Nat.eqb_eq Nat.eqb_eq)) in I.
  destruct I as [[-> ->]|I]; [destruct Q|]. exact (K c' d q I Q).
Qed.
Lemma on_chip_verts : forall p c, alike p (fst (on_chip p c)).
Proof. intros p c. pose proof (touch_verts c p) as T. unfold on_chip. destruct (touch c p). exact T. Qed.
Lemma dset_new : forall {A} (d : list (nat * A)) k x, dmem Nat.eqb d k = false -> dset Nat.eqb d k x = d ++ [(k, x)].
Proof.
  intros A. induction d as [|[k' y] d IH]; intros k x H; [reflexivity|]. unfold dmem in *. cbn [dget dset app] in *.
  destruct (Nat.eqb k' k); [discriminate|]. rewrite IH; [reflexivity | exact H].
Qed.
Lemma add_more : forall l p pl, In (pl_v pl) l -> more l p (fst (add_placement p pl)).
Proof.
  intros l p pl I. unfold add_placement.
  destruct (match dget xy_eqb (ps_chips p) (pl_x pl, pl_y pl) with Some d => dmem Nat.eqb d (pl_p pl) | None => false end);
    [apply more_refl|].
  destruct (dmem Nat.eqb (ps_verts p) (pl_v pl)) eqn:M; [apply more_refl|].
  pose proof (touch_verts (pl_x pl, pl_y pl) p) as [T K].
  assert (D : forall s1 d, touch (pl_x pl, pl_y pl) p = (s1, d) -> forall q, In q d -> exists c, In (c, d) (ps_chips p)).
  { intros s1 d. unfold touch. destruct (dget xy_eqb (ps_chips p) (pl_x pl, pl_y pl)) as [d'|] eqn:G; intros E; injection E as _ <-; intros q Q.
    - exists (pl_x pl, pl_y pl). apply (dget_In xy_eqb (pair_eqb_spec Nat.eqb Nat.eqb Nat.eqb_eq Nat.eqb_eq)). exact G.
    - destruct Q. }
  destruct (touch (pl_x pl, pl_y pl) p) as [s1 d]. cbn [fst] in *. specialize (D s1 d eq_refl). split.
  - exists [pl]. unfold abs. cbn [ps_verts]. rewrite T, (dset_new _ _ _ M), map_app. split; [reflexivity|].
    intros q [<-|[]]. exact I.
  - intros KP. specialize (K KP). intros c d' q C Q. cbn [ps_chips] in C.
    assert (OLD : forall v, is_placed p v = true -> is_placed (mkPls (dset xy_eqb (ps_chips s1) (pl_x pl, pl_y pl) (dset Nat.eqb d (pl_p pl) pl))
             (dset Nat.eqb (ps_verts s1) (pl_v pl) pl)) v = true).
    { intros v V. unfold is_placed in *. cbn [ps_verts]. rewrite T, (dset_new _ _ _ M). unfold dmem in *.
      clear - V. induction (ps_verts p) as [|[k y] r IH]; cbn [app dget] in *; [discriminate|]. destruct (Nat.eqb k v); [reflexivity | auto]. }
    assert (NEW : is_placed (mkPls (dset xy_eqb (ps_chips s1) (pl_x pl, pl_y pl) (dset Nat.eqb d (pl_p pl) pl))
             (dset Nat.eqb (ps_verts s1) (pl_v pl) pl)) (pl_v pl) = true).
    { unfold is_placed. cbn [ps_verts]. unfold dmem. rewrite (dget_dset_eq Nat.eqb Nat.eqb_eq). reflexivity. }
    apply (dset_In xy_eqb (pair_eqb_spec Nat.eqb Nat.eqb Nat.eqb_eq Nat.eqb_eq)) in C. destruct C as [[-> ->]|C].
    + destruct q as [k q]. apply (dset_In Nat.eqb Nat.eqb_eq) in Q. destruct Q as [[-> ->]|Q]; [exact NEW|].
      apply OLD. destruct (D _ Q) as [c' C']. exact (KP c' d _ C' Q).
    + apply OLD. pose proof (K c d' q C Q) as X. unfold is_placed in *. rewrite <- T. exact X.
Qed.
Lemma adds_more : forall l m p, (forall pl, In pl m -> In (pl_v pl) l) -> more l p (fst (add_placements p m)).
Proof.
  intros l. induction m as [|pl m IH]; intros p H; cbn [add_placements]; [apply more_refl|].
  pose proof (add_more l p pl (H pl (or_introl eq_refl))) as A. destruct (add_placement p pl) as [p' [[]|x]]; cbn [fst] in *; [|exact A].
  apply (more_trans _ _ p'); [exact A|]. apply IH. intros q Q. apply H. right. exact Q.
Qed.
Lemma foldE_inv : forall {S A} (f : S -> A -> S * option exn) (R : S -> S -> Prop), (forall s, R s s) ->
  (forall s s' s'', R s s' -> R s' s'' -> R s s'') -> forall l, (forall s a, In a l -> R s (fst (f s a))) ->
  forall s, R s (fst (foldE f s l)).
Proof.
  intros S A f R R0 RT. induction l as [|a l IH]; intros H s; cbn [foldE]; [apply R0|].
  pose proof (H s a (or_introl eq_refl)) as X. destruct (f s a) as [s' [x|]]; cbn [fst] in *; [exact X|].
  apply (RT _ s'); [exact X|]. apply IH. intros s2 b B. apply H. right. exact B.
Qed.

Lemma do_fixed_more : forall e p vs, more vs p (fst (do_fixedE e p vs)).
Proof.
  intros e p vs. unfold do_fixedE. destruct (first_fixed e vs) as [[[x y] o]|]; [|apply more_refl].
  destruct (m_chip (pe_machine e) (x, y)) as [c|]; [|apply more_refl].
  pose proof (on_chip_verts p (x, y)) as V. destruct (on_chip p (x, y)) as [p1 pls]. cbn [fst] in V.
  apply (more_trans _ _ p1); [apply more_same; exact V|]. clear V.
  set (R := fun a b : placements * list nat => more vs (fst a) (fst b)).
  assert (R0 : forall s, R s s) by (intros s; apply more_refl).
  assert (RT : forall s s' s'', R s s' -> R s' s'' -> R s s'') by (intros s s' s''; apply more_trans).
  assert (F1 : forall s a, In a vs -> R s (fst (fixed_coreE e x y s a))).
  { intros [q it] v I. unfold fixed_coreE, R. destruct (get_fixed e v) as [[[x' y'] [n|]]|]; try apply more_refl.
    destruct (it_find n it) as [it'|]; [|apply more_refl]. pose proof (add_more vs q (mkPl v x y n) I) as A.
    destruct (add_placement q (mkPl v x y n)) as [q' r]. exact A. }
  assert (F2 : forall s a, In a vs -> R s (fst (free_coreE e x y s a))).
  { intros [q it] v I. unfold free_coreE, R. destruct (get_fixed e v) as [[[x' y'] [n|]]|]; try apply more_refl;
      (destruct it as [|n it]; [apply more_refl|]; pose proof (add_more vs q (mkPl v x y n) I) as A;
       destruct (add_placement q (mkPl v x y n)) as [q' r]; exact A). }
  match goal with |- context [foldE (fixed_coreE e x y) ?s0 vs] => pose proof (foldE_inv _ R R0 RT vs F1 s0) as A;
    destruct (foldE (fixed_coreE e x y) s0 vs) as [acc [z|]] end; [exact A|].
  pose proof (foldE_inv _ R R0 RT vs F2 acc) as B. destruct (foldE (free_coreE e x y) acc vs) as [acc' r]. cbn [fst] in *.
  unfold R in *. cbn [fst] in *. apply (more_trans _ _ (fst acc)); assumption.
Qed.
Lemma filter_sub : forall e p vs l, filter_vertices e p vs = Ok l -> incl l vs.
Proof.
  intros e p vs l. unfold filter_vertices. destruct (_ && _); [discriminate|]. intros H. injection H as <-.
  intros v I. apply filter_In in I. destruct I as [I _]. apply filter_In in I. apply I.
Qed.
Lemma fixed_step_more : forall e s a, more (flat_map fst (a_groups a)) (s_pls s) (s_pls (fst (fixed_stepE e s a))).
Proof.
  intros e s a. unfold fixed_stepE. destruct (has_fixed e a); [|apply more_refl].
  destruct (a_groups a) as [|g gs]; [apply more_refl|]. remember (g :: gs) as l eqn:E. clear E g gs.
  assert (F : more (flat_map fst l) (s_pls s) (fst (foldE (fixed_groupE e) (s_pls s) l))).
  { apply foldE_inv; [apply more_refl | intros ? ? ?; apply more_trans|]. intros p g I. unfold fixed_groupE.
    destruct (filter_vertices e p (fst g)) as [vs|x] eqn:Q; [|apply more_refl].
    apply (more_incl vs); [|apply do_fixed_more]. intros v V. apply filter_sub in Q. apply in_flat_map.
    exists g. split; [exact I | exact (Q v V)]. }
  destruct (foldE (fixed_groupE e) (s_pls s) l) as [p r]. exact F.
Qed.

(** ** The search *)
Definition same (s s' : st) : Prop := alike (s_pls s) (s_pls s').
Lemma alike_refl : forall p, alike p p.
Proof. intros p. split; auto. Qed.
Lemma neighbours_same : forall e c s s', add_neighbours e s c = Ok s' -> s_pls s' = s_pls s.
Proof.
  intros e c. unfold add_neighbours. induction (c_links c) as [|d l IH]; intros s s' H; cbn [foldM] in H; [congruence|].
  apply bind_Ok_inv in H. destruct H as [s1 [H1 H2]]. rewrite (IH _ _ H2). unfold add_neighbour in H1.
  destruct (m_chip (pe_machine e) d) as [t|]; [|discriminate].
  destruct (chip_mem t (s_full s) || chip_mem t (s_prep s)); [congruence|]. destruct (xy_eqb (c_eth t) (s_eth s)); injection H1 as <-; reflexivity.
Qed.
Lemma space_same : forall e s c n q s' b, space_on_chip e s c n q = Ok (s', b) -> same s s'.
Proof.
  intros e s c n q s' b H. unfold space_on_chip, same in *. pose proof (on_chip_verts (s_pls s) (c_xy c)) as V.
  destruct (on_chip (s_pls s) (c_xy c)) as [p' pls]. cbn [fst] in V.
  destruct (Nat.eqb (length pls) (length (c_procs c))); [injection H as <- _; exact V|].
  apply bind_Ok_inv in H. destruct H as [[free used] [_ H]]. apply bind_Ok_inv in H. destruct H as [plan [_ H]].
  destruct (Z.ltb (cap_sdram e) plan); [injection H as <- _; exact V|].
  apply bind_Ok_inv in H. destruct H as [both [_ H]]. apply bind_Ok_inv in H. destruct H as [plan' [_ H]].
  destruct (_ || _).
  - apply bind_Ok_inv in H. destruct H as [[] [_ H]]. injection H as <- _. exact V.
  - apply bind_Ok_inv in H. destruct H as [s1 [H1 H]]. injection H as <- _. rewrite (neighbours_same _ _ _ _ H1). exact V.
Qed.
Lemma start_same : forall fuel e s n q s' c, start_loop fuel e s n q = Ok (s', c) -> same s s'.
Proof.
  induction fuel as [|k IH]; intros e s n q s' c H; cbn [start_loop] in H; [discriminate|].
  apply bind_Ok_inv in H. destruct H as [[s1 c1] [H1 H]]. apply bind_Ok_inv in H. destruct H as [[s2 b] [H2 H]].
  apply space_same in H2. unfold same in *. cbn [set_neighbours set_starts s_pls] in H2.
  assert (P : s_pls s1 = s_pls s).
  { unfold pop_start in H1. destruct (pop_until (s_full s) (s_rest s)) as [[d r]|].
    - injection H1 as <- _. reflexivity.
    - destruct (pop_until (s_full s) (s_chips s)) as [[d r]|]; [|discriminate]. injection H1 as <- _. reflexivity. }
  rewrite P in H2. destruct b; [injection H as <- _; exact H2|]. apply IH in H. exact (alike_trans _ _ _ H2 H).
Qed.
Lemma neighbour_same : forall fuel e s n q s' c, neighbour_loop fuel e s n q = Ok (s', c) -> same s s'.
Proof.
  induction fuel as [|k IH]; intros e s n q s' c H; cbn [neighbour_loop] in H; [discriminate|].
  assert (P : s_pls (fst (pop_neighbour s)) = s_pls s).
  { unfold pop_neighbour. destruct (s_same s) as [|d r]; [destruct (s_other s) as [|d r]|]; reflexivity. }
  destruct (pop_neighbour s) as [s1 [d|]]; cbn [fst] in P; unfold same in *.
  - apply bind_Ok_inv in H. destruct H as [[s2 b] [H2 H]]. apply space_same in H2. unfold same in H2. rewrite P in H2.
    destruct b; [injection H as <- _; exact H2|]. apply IH in H. exact (alike_trans _ _ _ H2 H).
  - injection H as <- _. rewrite P. apply alike_refl.
Qed.
Lemma next_same : forall e s n q s' c, next_chip e s n q = Ok (s', c) -> same s s'.
Proof.
  intros e s n q s' c H. unfold next_chip in H. destruct (s_cur s) as [d|].
  - apply bind_Ok_inv in H. destruct H as [both [_ H]]. apply bind_Ok_inv in H. destruct H as [plan [_ H]].
    destruct (_ && _); [injection H as <- _; apply alike_refl|]. exact (neighbour_same _ _ _ _ _ _ _ H).
  - apply bind_Ok_inv in H. destruct H as [[s1 c1] [H1 H]]. injection H as <- _. exact (start_same _ _ _ _ _ _ _ H1).
Qed.
Lemma take_vertices : forall c vs free f l, take_cores c free vs = Ok (f, l) -> map pl_v l = vs.
Proof.
  intros c. induction vs as [|v vs IH]; intros free f l H; destruct free as [|p free]; cbn [take_cores] in H;
    try discriminate; try (injection H as _ <-; reflexivity).
  apply bind_Ok_inv in H. destruct H as [[f1 l1] [H1 H]].
  injection H as _ <-. cbn [map pl_v]. rewrite (IH _ _ _ H1). reflexivity.
Qed.
Lemma prepare_same : forall e gs s made s' o, prepare_loop e s made gs = Ok (s', o) -> same s s' /\
  (forall m, o = Some m -> forall pl, In pl m -> In pl made \/ In (pl_v pl) (flat_map fst gs)).
Proof.
  intros e. induction gs as [|[vs q] gs IH]; intros s made s' o H; cbn [prepare_loop] in H.
  - injection H as <- <-. split; [apply alike_refl|]. intros m X. injection X as <-. auto.
  - apply bind_Ok_inv in H. destruct H as [todo [_ H]]. destruct todo as [|v todo].
    + apply IH in H. destruct H as [A B]. split; [exact A|]. intros m X pl P. destruct (B m X pl P) as [Y|Y]; [auto|].
      right. cbn [flat_map]. apply in_app_iff. auto.
    + apply bind_Ok_inv in H. destruct H as [[s1 c] [H1 H]]. apply next_same in H1. destruct c as [c|].
      * apply bind_Ok_inv in H. destruct H as [[free l] [H2 H]]. apply take_vertices in H2. apply IH in H.
        destruct H as [A B]. unfold same in *. cbn [set_current s_pls] in A. split; [exact (alike_trans _ _ _ H1 A)|].
        intros m X pl P. destruct (B m X pl P) as [Y|Y].
        -- apply in_app_iff in Y. destruct Y as [Y|Y]; [auto|]. right. cbn [flat_map fst]. apply in_app_iff. left.
           rewrite <- H2. apply in_map. exact Y.
        -- right. cbn [flat_map]. apply in_app_iff. auto.
      * injection H as <- <-. split; [exact H1|]. discriminate.
Qed.
Lemma place_loop_same : forall fuel e gs s s' m, place_loop fuel e s gs = Ok (s', m) -> same s s' /\
  forall pl, In pl m -> In (pl_v pl) (flat_map fst gs).
Proof.
  induction fuel as [|k IH]; intros e gs s s' m H; cbn [place_loop] in H; [discriminate|].
  apply bind_Ok_inv in H. destruct H as [[s1 o] [H1 H]]. unfold prepare in H1. apply prepare_same in H1.
  destruct H1 as [A B]. unfold same in *. cbn [set_current set_prep s_pls] in A. destruct o as [l|].
  - injection H as <- <-. split; [exact A|]. intros pl P. destruct (B l eq_refl pl P) as [[]|X]. exact X.
  - apply IH in H. destruct H as [C D]. split; [exact (alike_trans _ _ _ A C) | exact D].
Qed.
Lemma place_vertex_more : forall e s a, more (flat_map fst (a_groups a)) (s_pls s) (s_pls (fst (place_vertexE e s a))).
Proof.
  intros e s a. unfold place_vertexE. destruct (a_groups a) as [|g gs]; [apply more_refl|].
  remember (g :: gs) as l eqn:E. clear E g gs. cbv zeta.
  match goal with |- context [place_loop ?f e ?s0 l] => destruct (place_loop f e s0 l) as [[s1 m]|x] eqn:L end; [|apply more_refl].
  apply place_loop_same in L. destruct L as [A B]. unfold same in A. cbn [set_starts s_pls] in A.
  pose proof (adds_more (flat_map fst l) m (s_pls s1) B) as M. destruct (add_placements (s_pls s1) m) as [p r].
  cbn [fst set_pls s_pls] in *. apply (more_trans _ _ (s_pls s1)); [apply more_same; exact A | exact M].
Qed.
Lemma place_call_more : forall e sys apps, more (all_of apps) sys (fst (place_call e sys apps)).
Proof.
  intros e sys apps. unfold place_call. destruct (init_placer e sys) as [s|x] eqn:I; [|apply more_refl].
  assert (P : s_pls s = sys). { unfold init_placer in I. destruct (Z.eqb _ _); [discriminate|]. injection I as <-. reflexivity. }
  set (R := fun s s' : st => more (all_of apps) (s_pls s) (s_pls s')).
  assert (R0 : forall s, R s s) by (intros; apply more_refl).
  assert (RT : forall s s' s'', R s s' -> R s' s'' -> R s s'') by (intros ? ? ?; apply more_trans).
  assert (SUB : forall a, In a apps -> incl (flat_map fst (a_groups a)) (all_of apps)).
  { intros a A v V. exact (all_of_In apps a v A V). }
  pose proof (foldE_inv (fixed_stepE e) R R0 RT apps (fun s a A => more_incl _ _ _ _ (SUB a A) (fixed_step_more e s a)) s) as F1.
  destruct (foldE (fixed_stepE e) s apps) as [s1 [x|]]; cbn [fst] in F1; unfold R in F1; rewrite P in F1; [exact F1|].
  pose proof (foldE_inv (place_vertexE e) R R0 RT apps (fun s a A => more_incl _ _ _ _ (SUB a A) (place_vertex_more e s a)) s1) as F2.
  destruct (foldE (place_vertexE e) s1 apps) as [s2 [x|]]; cbn [fst] in *; exact (more_trans _ _ _ _ F1 F2).
Qed.

(** * Without fixed vertices: what the first vertices get *)
Lemma foldE_split : forall {S A} (f : S -> A -> S * option exn) l s s' x, foldE f s l = (s', Some x) ->
  exists l1 a l2 s1, l = l1 ++ a :: l2 /\ foldE f s l1 = (s1, None) /\ f s1 a = (s', Some x).
Proof.
  intros S A f. induction l as [|a l IH]; intros s s' x H; cbn [foldE] in H; [discriminate|].
  destruct (f s a) as [s1 [y|]] eqn:E.
  - injection H as <- <-. exists [], a, l, s. auto.
  - apply IH in H. destruct H as (l1 & b & l2 & s2 & -> & B & C). exists (a :: l1), b, l2, s2.
    split; [reflexivity|]. cbn [foldE]. rewrite E. auto.
Qed.
Lemma foldE_app : forall {S A} (f : S -> A -> S * option exn) l1 l2 s,
  foldE f s (l1 ++ l2) = match foldE f s l1 with (s', None) => foldE f s' l2 | r => r end.
Proof.
  intros S A f. induction l1 as [|a l1 IH]; intros l2 s; cbn [foldE app]; [reflexivity|].
  destruct (f s a) as [s1 [y|]]; [reflexivity | apply IH].
Qed.
Lemma unfixed_nothing : forall e apps s, (forall a, In a apps -> has_fixed e a = false) -> foldE (fixed_stepE e) s apps = (s, None).
Proof.
  intros e. induction apps as [|a apps IH]; intros s H; [reflexivity|]. cbn [foldE]. unfold fixed_stepE at 1.
  rewrite (H a (or_introl eq_refl)). apply IH. intros b B. apply H. right. exact B.
Qed.
Lemma add_raises : forall p pl p' x, add_placement p pl = (p', Err x) -> x = ProcessorOccupied \/ x = AlreadyPlaced.
Proof.
  intros p pl p' x. unfold add_placement. destruct (match dget xy_eqb (ps_chips p) (pl_x pl, pl_y pl) with Some d => _ | None => _ end);
    [intros H; injection H as _ <-; auto|]. destruct (dmem Nat.eqb (ps_verts p) (pl_v pl)); [intros H; injection H as _ <-; auto|].
  destruct (touch (pl_x pl, pl_y pl) p). discriminate.
Qed.
Lemma adds_raise : forall m p p' x, add_placements p m = (p', Err x) -> x = ProcessorOccupied \/ x = AlreadyPlaced.
Proof.
  induction m as [|pl m IH]; intros p p' x H; cbn [add_placements] in H; [discriminate|].
  destruct (add_placement p pl) as [p1 [[]|y]] eqn:A; [exact (IH _ _ _ H)|].
  injection H as <- <-. exact (add_raises _ _ _ _ A).
Qed.
Lemma first_ones : forall e sys apps after x, (forall a, In a apps -> has_fixed e a = false) -> max_cores e <> 0%Z ->
  place_call e sys apps = (after, Err x) -> x <> ProcessorOccupied -> x <> AlreadyPlaced ->
  exists pre a post p, apps = pre ++ a :: post /\ place_graph e sys pre = Ok p /\ after = p /\
    place_graph e sys (pre ++ [a]) = Err x.
Proof.
  intros e sys apps after x NF MC H X1 X2.
  assert (IN : exists s0, init_placer e sys = Ok s0).
  { unfold init_placer. destruct (Z.eqb_spec (max_cores e) 0); [contradiction|]. eauto. }
  destruct IN as [s0 IN]. unfold place_call in H. rewrite IN in H.
  rewrite (unfixed_nothing e apps s0 NF) in H.
  destruct (foldE (place_vertexE e) s0 apps) as [s2 [y|]] eqn:F; [|discriminate]. injection H as <- ->.
  destruct (foldE_split _ _ _ _ _ F) as (pre & a & post & s1 & E & F1 & F2).
  exists pre, a, post, (s_pls s1). split; [exact E|].
  assert (NP : forall b, In b (pre ++ [a]) -> has_fixed e b = false).
  { intros b B. apply NF. rewrite E. apply in_app_iff in B. apply in_app_iff. destruct B as [B|[<-|[]]]; [auto|]. right. left. reflexivity. }
  assert (NP1 : forall b, In b pre -> has_fixed e b = false) by (intros b B; apply NP, in_app_iff; auto).
  split; [|split].
  - rewrite <- place_call_result. unfold place_call. rewrite IN, (unfixed_nothing e pre s0 NP1), F1. reflexivity.
  - unfold place_vertexE in F2. destruct (a_groups a) as [|g gs]; [discriminate|]. cbv zeta in F2.
    match type of F2 with context [place_loop ?f e ?s0 ?l] => destruct (place_loop f e s0 l) as [[s3 m]|z] end.
    + destruct (add_placements (s_pls s3) m) as [p [[]|z]] eqn:AP; [discriminate|]. injection F2 as _ <-.
      apply adds_raise in AP. destruct AP; contradiction.
    + injection F2 as <- _. reflexivity.
  - rewrite <- place_call_result. unfold place_call. rewrite IN, (unfixed_nothing e (pre ++ [a]) s0 NP).
    rewrite foldE_app, F1. cbn [foldE]. rewrite F2. reflexivity.
Qed.

(** * The report *)
Lemma lists_nothing : forall p, (forall c d q, In (c, d) (ps_chips p) -> In q d -> is_placed p (pl_v (snd q)) = true) -> listed p p = [].
Proof.
  intros p H. unfold listed. apply incl_l_nil. intros [c l] I. exfalso. apply filter_In in I. destruct I as [I N].
  apply in_map_iff in I. destruct I as [[c' d] [E I]]. cbn [fst snd] in *. injection E as <- <-.
  destruct (filter (fun pl => negb (is_placed p (pl_v pl))) (map snd d)) as [|pl r] eqn:F; [discriminate|].
  assert (X : In pl (pl :: r)) by (left; reflexivity). rewrite <- F in X. apply filter_In in X. destruct X as [X Y].
  apply in_map_iff in X. destruct X as [q [<- Q]]. rewrite (H _ _ _ I Q) in Y. discriminate.
Qed.
Lemma all_unused : forall e p, unused e p p =
  map (fun c => (c_xy c, (Z.of_nat (length (c_procs c)) - Z.of_nat (n_on p (c_xy c)))%Z)) (chip_order (pe_machine e)).
Proof.
  intros e p. unfold unused. induction (chip_order (pe_machine e)) as [|c l IH]; [reflexivity|]. cbn [flat_map map].
  rewrite Z.sub_diag. cbn [Z.eqb app]. rewrite IH. reflexivity.
Qed.
Lemma seems_spec : forall e p gs, (forall g, In g gs -> fst g <> [] /\ forall v, In v (fst g) -> pe_virtual e v = false) ->
  exists b, seems_placed e p gs = Ok b /\
    (b = false <-> exists g v r, In g gs /\ fst g = v :: r /\ is_placed p v = false).
Proof.
  intros e p. induction gs as [|[vs q] gs IH]; intros H; cbn [seems_placed].
  - exists true. split; [reflexivity|]. split; [discriminate|]. intros (g & v & r & [] & _).
  - destruct (H _ (or_introl eq_refl)) as [NE NV]. cbn [fst] in *. destruct vs as [|v vs]; [contradiction|].
    rewrite (NV v (or_introl eq_refl)). destruct (is_placed p v) eqn:PL.
    + destruct (IH (fun g G => H g (or_intror G))) as (b & -> & B). exists b. split; [reflexivity|]. rewrite B.
      split; intros (g & w & r & G & E & W).
      * exists g, w, r. split; [right; exact G | auto].
      * destruct G as [<-|G]; [cbn [fst] in E; congruence|]. exists g, w, r. auto.
    + exists false. split; [reflexivity|]. split; [|auto]. intros _. exists (v :: vs, q), v, vs.
      split; [left; reflexivity|]. auto.
Qed.
Lemma unplaceable_spec : forall e p apps,
  (forall a g, In a apps -> In g (a_groups a) -> fst g <> [] /\ forall v, In v (fst g) -> pe_virtual e v = false) ->
  exists l, unplaceable e p apps = Ok l /\ forall a, In a l <->
    In a apps /\ exists g v r, In g (a_groups a) /\ fst g = v :: r /\ is_placed p v = false.
Proof.
  intros e p. induction apps as [|a apps IH]; intros H; cbn [unplaceable].
  - exists []. split; [reflexivity|]. intros a. split; [intros [] | intros [[] _]].
  - destruct (seems_spec e p (a_groups a) (fun g G => H a g (or_introl eq_refl) G)) as (b & -> & B). cbn [bind].
    destruct (IH (fun a' g A G => H a' g (or_intror A) G)) as (l & -> & L). cbn [bind].
    exists (if b then l else a :: l). split; [reflexivity|]. intros a'. destruct b.
    + rewrite L. split; intros [A C].
      * split; [right; exact A | exact C].
      * destruct A as [<-|A]; [|auto]. apply B in C. discriminate.
    + cbn [In]. rewrite L. split.
      * intros [<-|[A C]]; [|auto]. split; [auto|]. apply B. reflexivity.
      * intros [[<-|A] C]; auto.
Qed.

(** * The counts of the report *)
Lemma half_some : forall e p apps acc,
  (forall a g, In a apps -> In g (a_groups a) -> fst g <> [] /\ forall v, In v (fst g) -> pe_virtual e v = false) ->
  exists n, half_counts e p apps acc = Ok n.
Proof.
  intros e p. induction apps as [|a apps IH]; intros acc H; cbn [half_counts]; [eauto|].
  assert (X : forall gs b, (forall g, In g gs -> fst g <> []) -> exists o, half_placed e p gs b = Ok o).
  { clear. induction gs as [|[[|v vs] q] gs IH]; intros b N; cbn [half_placed]; [eauto | exfalso; exact (N _ (or_introl eq_refl) eq_refl)|].
    destruct (pe_virtual e v); [eauto|]. destruct (is_placed p v); [|eauto]. apply IH. intros g G. apply N. right. exact G. }
  destruct (X (a_groups a) false) as [o ->]; [intros g G; exact (proj1 (H a g (or_introl eq_refl) G))|].
  cbn [bind]. apply IH. intros b g B. apply H. right. exact B.
Qed.
Lemma half_none : forall e p gs b, (forall g, In g gs -> fst g <> [] /\ forall v, In v (fst g) -> pe_virtual e v = false) ->
  (forall g v, In g gs -> In v (fst g) -> is_placed p v = true) -> half_placed e p gs b = Ok None /\ seems_placed e p gs = Ok true.
Proof.
  intros e p. induction gs as [|[vs q] gs IH]; intros b H P; cbn [half_placed seems_placed]; [auto|].
  destruct (H _ (or_introl eq_refl)) as [NE NV]. cbn [fst] in *. destruct vs as [|v vs]; [contradiction|].
  rewrite (NV v (or_introl eq_refl)), (P (v :: vs, q) v (or_introl eq_refl) (or_introl eq_refl)).
  apply IH; intros g; [intros G; apply H; right; exact G|]. intros w G. apply P. right. exact G.
Qed.
Definition has_groups (a : appv) : bool := match a_groups a with [] => false | _ => true end.
Lemma half_first : forall e p gs, (forall g, In g gs -> fst g <> [] /\ forall v, In v (fst g) -> pe_virtual e v = false) ->
  (forall g v, In g gs -> In v (fst g) -> is_placed p v = false) ->
  half_placed e p gs false = Ok None /\ seems_placed e p gs = Ok (match gs with [] => true | _ => false end).
Proof.
  intros e p [|[vs q] gs] H P; cbn [half_placed seems_placed]; [auto|].
  destruct (H _ (or_introl eq_refl)) as [NE NV]. cbn [fst] in *. destruct vs as [|v vs]; [contradiction|].
  rewrite (NV v (or_introl eq_refl)), (P (v :: vs, q) v (or_introl eq_refl) (or_introl eq_refl)). auto.
Qed.
Lemma half_zero : forall e p pre post acc,
  (forall a g, In a (pre ++ post) -> In g (a_groups a) -> fst g <> [] /\ forall v, In v (fst g) -> pe_virtual e v = false) ->
  (forall a g v, In a pre -> In g (a_groups a) -> In v (fst g) -> is_placed p v = true) ->
  (forall a g v, In a post -> In g (a_groups a) -> In v (fst g) -> is_placed p v = false) ->
  half_counts e p (pre ++ post) acc = Ok acc /\ unplaceable e p (pre ++ post) = Ok (filter has_groups post).
Proof.
  intros e p pre post acc. induction pre as [|a pre IH]; cbn [app].
  - induction post as [|a post IH]; intros H P Q; cbn [half_counts unplaceable filter]; [auto|].
    destruct (half_first e p (a_groups a)) as [E1 E2]; [intros g G; apply (H a g); [left; reflexivity | exact G]|
      intros g v G V; apply (Q a g v); [left; reflexivity | exact G | exact V]|].
    rewrite E1, E2. cbn [bind]. destruct IH as [I1 I2]; [intros b g B; apply H; right; exact B | exact P | intros b g v B; apply Q; right; exact B|].
    rewrite I1, I2. cbn [bind]. assert (HG : has_groups a = match a_groups a with [] => false | _ => true end) by reflexivity.
    rewrite HG. destruct (a_groups a); auto.
  - intros H P Q. cbn [half_counts unplaceable].
    destruct (half_none e p (a_groups a) false) as [E1 E2]; [intros g G; apply (H a g); [left; reflexivity | exact G]|
      intros g v G V; apply (P a g v); [left; reflexivity | exact G | exact V]|].
    rewrite E1, E2. cbn [bind]. destruct IH as [I1 I2]; [intros b g B; apply H; right; exact B | intros b g v B; apply P; right; exact B | exact Q|].
    rewrite I1, I2. cbn [bind]. auto.
Qed.

Lemma counts_zero : forall e sys l apps after, wf_machine e -> set_ok e -> made l sys ->
  (forall a, In a apps -> has_fixed e a = false) -> separate apps -> (forall a, In a apps -> not_system l a) ->
  (forall a g, In a apps -> In g (a_groups a) -> fst g <> [] /\ forall v, In v (fst g) -> pe_virtual e v = false) ->
  place_call e sys apps = (after, Err NoSpace) ->
  exists pre a post r, apps = pre ++ a :: post /\ place_graph e sys (pre ++ [a]) = Err NoSpace /\
    error_report e sys apps = Some (Ok r) /\ rp_not_placed r = filter has_groups (a :: post) /\ rp_counts r = (0, 0).
Proof.
  intros e sys l apps after W SO M NF SEP NS H C.
  assert (MC : max_cores e <> 0%Z).
  { intros Z. unfold place_call, init_placer in C. rewrite Z in C. discriminate C. }
  destruct (first_ones e sys apps after NoSpace NF MC C) as (pre & a & post & p & E & G & EQ & X); [discriminate | discriminate|].
  subst after. exists pre, a, post.
  destruct (graph_result e sys l W SO M False pre p G ltac:(intros [])) as (O & _).
  destruct (half_zero e p pre (a :: post) (0, 0)) as [Z1 Z2].
  - rewrite <- E. exact H.
  - intros b g v I J K. apply is_placed_iff; [exact O|].
    assert (IB : In b apps) by (rewrite E; apply in_app_iff; auto).
    destruct (place_all e sys l W SO M pre p G b g v I J K (proj2 (H b g IB J) v K)) as (pl & P1 & P2). exists pl. auto.
  - intros b g v I J K. apply not_true_iff_false. rewrite is_placed_iff by exact O. intros (pl & P1 & P2).
    destruct (place_call_more e sys pre) as [[m [E1 HM]] _].
    assert (FP : fst (place_call e sys pre) = p) by (apply place_call_same; rewrite place_call_result; exact G).
    rewrite FP in E1. rewrite E1 in P1. apply in_app_iff in P1. destruct P1 as [P1|P1].
    + destruct (made_ok l sys M) as [_ AL]. rewrite AL in P1. apply (NS b) with v; [rewrite E; apply in_app_iff; auto | | rewrite <- P2; apply in_map; exact P1].
      apply in_flat_map. exists g. auto.
    + apply HM in P1. unfold separate in SEP. rewrite E, all_of_app in SEP.
      assert (Q : In (pl_v pl) (all_of (a :: post))) by (apply (all_of_In _ b); [exact I|]; apply in_flat_map; exists g; rewrite P2; auto).
      clear - SEP P1 Q. induction (all_of pre) as [|z t IH]; [destruct P1|]. cbn [app] in SEP. inversion SEP as [|? ? N1 N2]; subst.
      destruct P1 as [->|P1]; [apply N1, in_app_iff; auto | exact (IH N2 P1)].
  - unfold error_report. rewrite C. unfold place_report. rewrite E, Z1, Z2. cbn [bind].
    eexists. split; [reflexivity|]. split; [exact X|]. split; [reflexivity|]. split; reflexivity.
Qed.
