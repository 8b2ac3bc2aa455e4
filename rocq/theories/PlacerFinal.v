(** The placer: facts about the result of [place_graph]. *)
From Coq Require Import List Arith ZArith Bool Lia Permutation.
From Verif Require Import Base Dict SdramModel SdramProofs SdramBelow PlacementsModel PlacementsProofs PlacerModel PlacerProofs.
Import ListNotations.
Local Open Scope nat_scope.

(** The Placements object made from a list. *)
Definition made (l : list placement) (p : placements) : Prop :=
  add_placements empty_placements l = (p, Ok tt).

Lemma ok_empty : ok empty_placements.
Proof.
  exists []. constructor; cbn; try constructor; try (intros; contradiction); auto.
Qed.

Lemma made_ok : forall l p, made l p -> ok p /\ abs p = l.
Proof.
  intros l p M. unfold made in M.
  assert (W : wp (lift_add (add_placements empty_placements l)) (fun p' => ok p' /\ abs p' = l) (fun _ => True)).
  { apply adds_wp; [apply ok_empty| | |]; auto. }
  rewrite M in W. exact W.
Qed.

Lemma ok_cores : forall p, ok p -> NoDup (map triple (abs p)).
Proof. intros p (cs & R). exact (r_p _ _ _ R). Qed.

Lemma ok_vertices : forall p, ok p -> NoDup (map pl_v (abs p)).
Proof. intros p (cs & R). exact (r_v _ _ _ R). Qed.

Section Env.
Variable e : penv.

Lemma run_ext : forall SD A apps B, run e SD A apps B ->
  exists m, B = A ++ m /\ forall pl, In pl m -> In (pl_v pl) (all_of apps) /\ placed_ok e pl.
Proof.
  intros SD A apps B R. induction R as [A|A a m apps B S R IH].
  - exists []. rewrite app_nil_r. split; [reflexivity|]. intros pl [].
  - destruct IH as (m2 & -> & H). exists (m ++ m2). split; [now rewrite app_assoc|].
    intros pl I. unfold all_of in *. cbn [flat_map]. rewrite in_app_iff. apply in_app_iff in I. destruct I as [I|I].
    + split.
      * left. assert (X : In (pl_v pl) (map pl_v m)) by (apply in_map, I).
        rewrite (sg_vs _ _ _ _ _ S) in X. apply (pick_In e) in X. apply X.
      * destruct (sg_on _ _ _ _ _ S pl I) as (c & C1 & C2 & C3 & _). exists c. auto.
    + destruct (H pl I). auto.
Qed.

Lemma run_at : forall SD A as1 a as2 B, run e SD A (as1 ++ a :: as2) B ->
  exists A1 m m2, run e SD A as1 A1 /\ segment e SD A1 (a_groups a) m /\ B = A1 ++ m ++ m2 /\
    forall pl, In pl m2 -> In (pl_v pl) (all_of as2).
Proof.
  intros SD A as1. revert A. induction as1 as [|b as1 IH]; intros A a as2 B R; cbn [app] in R.
  - inversion R as [|? ? m ? ? S R2]; subst. apply run_ext in R2. destruct R2 as (m2 & -> & M2).
    exists A, m, m2. split; [constructor|]. split; [assumption|]. split; [now rewrite app_assoc|].
    intros pl I. apply (M2 pl I).
  - inversion R as [|? ? m ? ? S R2]; subst. destruct (IH _ _ _ _ R2) as (A1 & m1 & m2 & R3 & S1 & -> & M2).
    exists A1, m1, m2. split; [econstructor; eassumption|]. auto.
Qed.

Lemma run_load : forall (SD : Prop), SD -> forall A apps B, run e SD A apps B ->
  forall m c pl, B = A ++ m -> mchip e c -> In pl m -> xy_of pl = c_xy c ->
  sum_le e (reqs_on e B c) (c_sdram c).
Proof.
  intros SD sd A apps B R. induction R as [A|A a m0 apps B S R IH]; intros m c pl E C I X.
  - assert (m = []) by (apply (app_inv_head A); now rewrite app_nil_r). subst m. destruct I.
  - pose proof (run_ext _ _ _ _ R) as (m1 & E1 & _).
    assert (EM : m = m0 ++ m1) by (apply (app_inv_head A); rewrite app_assoc; congruence). subst m.
    destruct (existsb (on (c_xy c)) m1) eqn:EX.
    + apply existsb_exists in EX. destruct EX as (pl1 & I1 & O1). apply xy_eqb_spec in O1.
      apply (IH m1 c pl1); auto.
    + assert (F1 : filter (on (c_xy c)) m1 = []).
      { apply filter_none. intros y Y. destruct (on (c_xy c) y) eqn:O; [|reflexivity].
        assert (existsb (on (c_xy c)) m1 = true) by (apply existsb_exists; eauto). congruence. }
      apply in_app_iff in I. destruct I as [I|I].
      * destruct (sg_on _ _ _ _ _ S pl I) as (d & D1 & D2 & D3 & D4).
        assert (d = c) by (apply (mchip_inj e); congruence). subst d.
        rewrite E1, reqs_on_app. unfold reqs_on at 2. rewrite F1. cbn [reqs map]. rewrite app_nil_r. apply D4, sd.
      * exfalso. assert (In pl []); [|contradiction]. rewrite <- F1. apply filter_In. split; [assumption|].
        apply xy_eqb_spec. symmetry. exact X.
Qed.

Variable sys : placements.
Variable l : list placement.
Hypothesis W : wf_machine e.
Hypothesis SO : set_ok e.
Hypothesis MADE : made l sys.

Lemma graph_result : forall (SD : Prop) apps p, place_graph e sys apps = Ok p ->
  (SD -> coh e /\ forall a, In a apps -> Forall (covered e) (a_groups a)) ->
  ok p /\ exists F, fixed_part e apps F /\ run e SD (l ++ F) apps (abs p).
Proof.
  intros SD apps p H SDG. destruct (made_ok _ _ MADE) as (O & A).
  pose proof (place_graph_wp e W SO SD sys apps O SDG) as P. rewrite H, A in P. exact P.
Qed.

(** ** Cores *)
Lemma place_cores : forall apps p, place_graph e sys apps = Ok p ->
  NoDup (map triple (abs p)) /\ NoDup (map pl_v (abs p)) /\
  exists m, abs p = l ++ m /\ forall pl, In pl m -> exists c,
    m_chip (pe_machine e) (pl_x pl, pl_y pl) = Some c /\ In (pl_p pl) (c_procs c).
Proof.
  intros apps p H. destruct (graph_result False apps p H ltac:(intros [])) as (O & F & (F1 & F2 & F3) & R).
  split; [apply ok_cores, O|]. split; [apply ok_vertices, O|].
  apply run_ext in R. destruct R as (m & E & M). exists (F ++ m). split; [rewrite E, app_assoc; reflexivity|].
  intros pl I. assert (P : placed_ok e pl).
  { apply in_app_iff in I. destruct I as [I|I]; [rewrite Forall_forall in F1; auto|]. apply M, I. }
  destruct P as (c & C1 & C2 & C3). exists c. split; [|assumption]. unfold xy_of in C2. rewrite C2. exact C1.
Qed.

Definition strict (apps : list appv) : Prop :=
  links_ok e /\ placable e l /\
  forall a, In a apps -> Forall (fun g => unmixed e (fst g)) (a_groups a) /\ NoDup (flat_map fst (a_groups a)).

Lemma place_errors : forall (SD : Prop) apps x,
  (SD -> coh e /\ forall a, In a apps -> Forall (covered e) (a_groups a)) ->
  strict apps -> place_graph e sys apps = Err x ->
  (x = ZeroDivision /\ max_cores e = 0%Z) \/
  (x = ConfigurationException /\ ((exists a, In a apps /\ has_fixed e a = true) \/ ~ SD)) \/
  x = NotImplemented \/ x = NoSpace \/
  (x = TooBig /\ exists a g, In a apps /\ In g (a_groups a) /\ ~ fits e (length (fst g)) (snd g)).
Proof.
  intros SD apps x SDG (S1 & S2 & S3) H. destruct (made_ok _ _ MADE) as (O & A).
  pose proof (place_graph_wp e W SO SD sys apps O SDG) as P. rewrite H, A in P. cbn [wp] in P.
  destruct (P S1 S2 S3) as [X|[([X|X] & Y)|[X|[X|[X|(X & Y)]]]]]; auto 8.
Qed.

(** A group that asks for the sum of what its vertices need. *)
Lemma sum_covered : coh e -> forall g, sum (map (pe_sdram e) (fst g)) = Ok (snd g) -> covered e g.
Proof.
  intros CO (vs, q) E. cbn [fst snd] in *.
  assert (F : Forall (okq e) (map (pe_sdram e) vs)).
  { apply Forall_forall. intros s I. apply in_map_iff in I. destruct I as (v & <- & _).
    apply U_from; [exact CO|]. exists v. reflexivity. }
  split; cbn [fst snd].
  - destruct (sum_from_ok _ _ CO _ F) as (r & R1 & R2). assert (r = q) by congruence. now subst r.
  - apply below_sum; [|exact E]. eapply Forall_impl; [|exact F]. intros s S. apply S.
Qed.

(** ** SDRAM *)
Lemma place_sdram : forall apps p, place_graph e sys apps = Ok p ->
  coh e -> (forall a g, In a apps -> In g (a_groups a) -> covered e g) ->
  forall pl c, In pl (abs p) -> ~ In (pl_v pl) (map pl_v l) ->
  (forall a, In a apps -> has_fixed e a = true -> ~ In (pl_v pl) (flat_map fst (a_groups a))) ->
  m_chip (pe_machine e) (pl_x pl, pl_y pl) = Some c ->
  sum_le e (reqs_on e (abs p) c) (c_sdram c).
Proof.
  intros apps p H CO SDG pl c I NL NF C.
  destruct (graph_result True apps p H) as (O & F & (F1 & F2 & F3) & R).
  { intros _. split; [exact CO|]. intros a A. apply Forall_forall. intros g G. apply (SDG a g A G). }
  pose proof R as R2. apply run_ext in R2. destruct R2 as (m & E & _).
  assert (X : c_xy c = (pl_x pl, pl_y pl)) by apply (W _ _ C).
  apply (run_load True Logic.I (l ++ F) apps (abs p) R m c pl E).
  - unfold mchip. rewrite X. exact C.
  - rewrite E in I. rewrite !in_app_iff in I. destruct I as [[I|I]|I]; [| |assumption].
    + exfalso. apply NL, in_map, I.
    + exfalso. destruct (F2 pl I) as (a & A1 & A2 & A3 & _). apply (NF a A1 A2 A3).
  - symmetry. exact X.
Qed.

(** ** Everything is placed *)
Lemma place_all : forall apps p, place_graph e sys apps = Ok p ->
  forall a g v, In a apps -> In g (a_groups a) -> In v (fst g) -> pe_virtual e v = false ->
  exists pl, In pl (abs p) /\ pl_v pl = v.
Proof.
  intros apps p H a g v IA IG IV VR. destruct (graph_result False apps p H ltac:(intros [])) as (O & F & (F1 & F2 & F3) & R).
  apply in_split in IA. destruct IA as (as1 & as2 & ->). apply run_at in R.
  destruct R as (A1 & m & m2 & R & S & E & _). rewrite E.
  destruct (sg_split _ _ _ _ _ S g IG) as [AP|NP].
  - unfold all_placed in AP. rewrite Forall_forall in AP. destruct (AP v IV) as (pl & P1 & P2). exists pl.
    split; [apply in_app_iff; auto|assumption].
  - assert (PK : pick e A1 (fst g) <> []).
    { rewrite pick_none; [|assumption].
      replace (existsb (real e) (fst g)) with true.
      - intro X. rewrite X in IV. destruct IV.
      - symmetry. apply existsb_exists. exists v. split; [assumption|]. unfold real. now rewrite VR. }
    destruct (sg_together _ _ _ _ _ S g IG PK) as (c & T). destruct (T v IV) as (pl & P1 & P2 & _). exists pl.
    split; [rewrite !in_app_iff; auto|assumption].
Qed.

(** Vertices of one application vertex appear in no other. *)
Definition separate (apps : list appv) : Prop := NoDup (all_of apps).
Definition not_system (a : appv) : Prop := forall v, In v (flat_map fst (a_groups a)) -> ~ In v (map pl_v l).

Lemma all_of_app : forall x y, all_of (x ++ y) = all_of x ++ all_of y.
Proof. intros x y. unfold all_of. apply flat_map_app. Qed.

Lemma all_of_In : forall apps a v, In a apps -> In v (flat_map fst (a_groups a)) -> In v (all_of apps).
Proof. intros apps a v A V. unfold all_of. apply in_flat_map. exists a. auto. Qed.

(** The vertices of an application vertex without fixed locations are placed in its
    own turn. *)
Lemma free_segment : forall (SD : Prop) apps p, place_graph e sys apps = Ok p ->
  (SD -> coh e /\ forall a, In a apps -> Forall (covered e) (a_groups a)) ->
  separate apps -> forall a, In a apps -> has_fixed e a = false -> not_system a ->
  exists A1 m m2, segment e SD A1 (a_groups a) m /\ abs p = A1 ++ m ++ m2 /\
    (forall v, In v (flat_map fst (a_groups a)) -> ~ vplaced A1 v) /\
    forall v, In v (flat_map fst (a_groups a)) -> ~ vplaced m2 v.
Proof.
  intros SD apps p H SDG SEP a IA HF NS.
  destruct (graph_result SD apps p H SDG) as (O & F & (F1 & F2 & F3) & R).
  apply in_split in IA. destruct IA as (as1 & as2 & ->). apply run_at in R.
  destruct R as (A1 & m & m2 & R & S & E & M2). exists A1, m, m2. split; [assumption|]. split; [assumption|].
  apply run_ext in R. destruct R as (m0 & -> & M0).
  unfold separate in SEP. rewrite all_of_app in SEP. unfold all_of at 2 in SEP. cbn [flat_map] in SEP. fold (all_of as2) in SEP.
  apply NoDup_app_inv in SEP. destruct SEP as (_ & SEP2 & SEP3). apply NoDup_app_inv in SEP2. destruct SEP2 as (_ & _ & SEP2).
  split.
  2:{ intros v V (pl & P1 & P2). apply (SEP2 v V). rewrite <- P2. apply M2, P1. }
  intros v V (pl & P1 & P2). rewrite !in_app_iff in P1. destruct P1 as [[P1|P1]|P1].
  - apply (NS v V). rewrite <- P2. apply in_map, P1.
  - destruct (F2 pl P1) as (b & B1 & B2 & B3 & _). rewrite P2 in B3. apply in_app_iff in B1. destruct B1 as [B1|[<-|B1]].
    + apply (SEP3 v); [eapply all_of_In; eassumption|]. apply in_app_iff. left. exact V.
    + congruence.
    + apply (SEP2 v V). eapply all_of_In; eassumption.
  - destruct (M0 pl P1) as (M1 & _). rewrite P2 in M1. apply (SEP3 v M1). apply in_app_iff. left. exact V.
Qed.

Lemma real_true : forall v, pe_virtual e v = false -> real e v = true.
Proof. intros v H. unfold real. now rewrite H. Qed.

(** ** Groups stay together *)
Lemma place_together : forall apps p, place_graph e sys apps = Ok p -> separate apps ->
  forall a g, In a apps -> not_system a -> In g (a_groups a) ->
  exists x y, forall v, In v (fst g) -> pe_virtual e v = false ->
    exists q, In (mkPl v x y q) (abs p).
Proof.
  intros apps p H SEP a g IA NS IG.
  assert (BUILD : forall x y (Q : placement -> Prop) v m, (exists pl, In pl m /\ pl_v pl = v /\ xy_of pl = (x, y)) -> exists q, In (mkPl v x y q) m).
  { intros x y _ v m (pl & P1 & P2 & P3). exists (pl_p pl). injection P3 as <- <-. subst v. destruct pl. exact P1. }
  destruct (has_fixed e a) eqn:HF.
  - destruct (graph_result False apps p H ltac:(intros [])) as (O & F & (F1 & F2 & F3) & R).
    destruct (F3 a g IA HF IG) as (c & x & y & o & G1 & G2 & G3). exists x, y. intros v V VR.
    apply (BUILD x y (fun _ => True)). destruct (G3 v V (real_true v VR)) as (pl & P1 & P2 & (P3 & _)). exists pl.
    split; [|split; [assumption|congruence]].
    apply run_ext in R. destruct R as (m & -> & _). rewrite !in_app_iff. auto.
  - destruct (free_segment False apps p H ltac:(intros []) SEP a IA HF NS) as (A1 & m & m2 & S & E & NP & NP2).
    destruct (existsb (real e) (fst g)) eqn:EX.
    + assert (PK : pick e A1 (fst g) <> []).
      { rewrite pick_none.
        - rewrite EX. intro X. rewrite X in EX. discriminate.
        - apply Forall_forall. intros v V. apply NP. apply in_flat_map. exists g. auto. }
      destruct (sg_together _ _ _ _ _ S g IG PK) as ((x, y) & T). exists x, y. intros v V _.
      apply (BUILD x y (fun _ => True)). destruct (T v V) as (pl & P1 & P2 & P3). exists pl.
      split; [rewrite E, !in_app_iff; auto|auto].
    + exists 0, 0. intros v V VR. exfalso.
      assert (existsb (real e) (fst g) = true); [|congruence]. apply existsb_exists. exists v. split; [assumption|]. apply real_true, VR.
Qed.

(** ** Fixed locations *)
Lemma first_fixed_In : forall vs x y o, first_fixed e vs = Some (x, y, o) ->
  exists v, In v vs /\ get_fixed e v = Some (x, y, o).
Proof.
  induction vs as [|v vs IH]; intros x y o H; [discriminate|]. cbn [first_fixed] in H.
  destruct (get_fixed e v) as [lc|] eqn:G.
  - injection H as ->. exists v. split; [left; reflexivity|assumption].
  - destruct (IH x y o H) as (w & W1 & W2). exists w. split; [right|]; assumption.
Qed.

Lemma place_at_fixed : forall apps p, place_graph e sys apps = Ok p ->
  forall a g v x y o, In a apps -> In g (a_groups a) -> In v (fst g) -> In v (a_vertices a) ->
  pe_virtual e v = false -> get_fixed e v = Some (x, y, o) ->
  (forall w x' y' o', In w (fst g) -> pe_virtual e w = false -> get_fixed e w = Some (x', y', o') -> (x', y') = (x, y)) ->
  exists q, In (mkPl v x y q) (abs p) /\ forall r, o = Some r -> q = r.
Proof.
  intros apps p H a g v x y o IA IG IV IVA VR GF ALL.
  assert (HF : has_fixed e a = true).
  { unfold has_fixed. destruct (a_loc a); [reflexivity|]. apply existsb_exists. exists v. split; [assumption|]. now rewrite GF. }
  destruct (graph_result False apps p H ltac:(intros [])) as (O & F & (F1 & F2 & F3) & R).
  destruct (F3 a g IA HF IG) as (c & x0 & y0 & o0 & G1 & G2 & G3).
  apply first_fixed_In in G1. destruct G1 as (w & W1 & W2). apply filter_In in W1. destruct W1 as (W1 & W3).
  assert (XY : (x0, y0) = (x, y)).
  { apply (ALL w x0 y0 o0); auto. unfold real in W3. destruct (pe_virtual e w); [discriminate|reflexivity]. }
  injection XY as -> ->. destruct (G3 v IV (real_true v VR)) as (pl & P1 & P2 & (P3 & P4 & P5)).
  exists (pl_p pl). split.
  - apply run_ext in R. destruct R as (m & -> & _). rewrite !in_app_iff. left. right.
    rewrite G2 in P3. injection P3 as <- <-. subst v. destruct pl. exact P1.
  - intros r ->. rewrite P2 in P5. apply (P5 x y). exact GF.
Qed.

(** ** Neighbouring chips *)
Inductive reach (used : xy -> Prop) : xy -> xy -> Prop :=
| reach_refl : forall a, reach used a a
| reach_step : forall a b c, reach used a b -> linked e b c -> used c -> reach used a c.

Lemma walked_reach : forall m pl0 m' (used : xy -> Prop), m = pl0 :: m' -> walked e m ->
  (forall pl, In pl m -> used (xy_of pl)) ->
  forall pl, In pl m -> reach used (xy_of pl0) (xy_of pl).
Proof.
  intros m pl0 m' used E WK US pl I. apply in_split in I. destruct I as (l1 & l2 & EM).
  revert pl l2 EM. induction l1 as [l1 IH] using (well_founded_induction (Wf_nat.well_founded_ltof _ (@length placement))).
  intros pl l2 EM. destruct (WK l1 pl l2 EM) as [->|(pl1 & I1 & LK)].
  - cbn [app] in EM. assert (pl = pl0) by congruence. subst pl. constructor.
  - apply in_split in I1. destruct I1 as (k1 & k2 & ->).
    assert (RC : reach used (xy_of pl0) (xy_of pl1)).
    { apply (IH k1) with (l2 := k2 ++ pl :: l2).
      - unfold ltof. rewrite app_length. cbn [length]. lia.
      - rewrite EM, <- app_assoc. reflexivity. }
    destruct LK as [EQ|LK]; [rewrite <- EQ; exact RC|]. econstructor; [exact RC|exact LK|].
    apply US. rewrite EM. apply in_app_iff. right. left. reflexivity.
Qed.

Definition chip_of (p : placements) (a : appv) (c : xy) : Prop :=
  exists pl, In pl (abs p) /\ In (pl_v pl) (flat_map fst (a_groups a)) /\ (pl_x pl, pl_y pl) = c.

Lemma place_connected : forall apps p, place_graph e sys apps = Ok p -> separate apps ->
  forall a, In a apps -> has_fixed e a = false -> not_system a ->
  exists start, forall c, chip_of p a c -> chip_of p a start /\ reach (chip_of p a) start c.
Proof.
  intros apps p H SEP a IA HF NS.
  destruct (free_segment False apps p H ltac:(intros []) SEP a IA HF NS) as (A1 & m & m2 & S & E & NP & NP2).
  assert (MV : forall pl, In pl m -> In (pl_v pl) (flat_map fst (a_groups a))).
  { intros pl I. assert (X : In (pl_v pl) (map pl_v m)) by (apply in_map, I).
    rewrite (sg_vs _ _ _ _ _ S) in X. apply (pick_In e) in X. apply X. }
  assert (CH : forall pl, In pl m -> chip_of p a (xy_of pl)).
  { intros pl I. exists pl. split; [rewrite E, !in_app_iff; auto|]. split; [auto|reflexivity]. }
  assert (IN : forall pl, In pl (abs p) -> In (pl_v pl) (flat_map fst (a_groups a)) -> In pl m).
  { intros pl I V. rewrite E, !in_app_iff in I. destruct I as [I|[I|I]]; [|assumption|].
    - exfalso. apply (NP _ V). exists pl. auto.
    - exfalso. apply (NP2 _ V). exists pl. auto. }
  destruct m as [|pl0 m'] eqn:EM.
  - exists (0, 0). intros c (pl & P1 & P2 & _). destruct (IN pl P1 P2).
  - rewrite <- EM in *. exists (xy_of pl0). intros c (pl & P1 & P2 & <-).
    split; [apply CH; rewrite EM; left; reflexivity|]. apply (walked_reach m pl0 m'); auto. apply S.
Qed.

(** ** A vertex that fits is placed *)
Lemma adds_not_NoSpace : forall p m x, ok p -> lift_add (add_placements p m) = Err x -> x <> NoSpace /\ x <> ConfigurationException.
Proof.
  intros p m x O H.
  assert (P : wp (lift_add (add_placements p m)) (fun _ => True) (fun x => x <> NoSpace /\ x <> ConfigurationException)).
  { apply adds_wp; auto; split; discriminate. }
  rewrite H in P. exact P.
Qed.

Lemma place_single : forall s vs q al av d, GInv e s -> links_ok e -> placable e (abs (s_pls s)) -> nonneg e -> okq e q ->
  vs <> [] -> NoDup vs -> (forall v, In v vs -> pe_virtual e v = false) -> none_placed (abs (s_pls s)) vs ->
  fits e (length vs) q -> In d (chip_order (pe_machine e)) -> room e (abs (s_pls s)) d (length vs) q ->
  exists s', place_vertex e s (mkApp al av [(vs, q)]) = Ok s'.
Proof.
  intros s vs q al av d G LO PA NN OQ VNE ND VR NP FT DO RM.
  pose proof (place_vertex_wp e W False s (mkApp al av [(vs, q)]) (gi_n _ _ G) ltac:(intros [])) as PV.
  assert (NOS : forall bad, bad = NoSpace \/ bad = ConfigurationException ->
                place_vertex e s (mkApp al av [(vs, q)]) <> Err bad).
  { clear PV. intros bad BAD. unfold place_vertex. cbn [a_groups].
    remember (set_starts s (s_chips s) (s_rest s ++ s_tried s) []) as s0 eqn:E0.
    assert (N0 : NInv e s0).
    { destruct (gi_n _ _ G) as [n1 n2 n3 n4 n5 n6 n7 n8 n9 n10 n11 n12 n13 n14]. rewrite E0.
      constructor; cbn [set_starts s_pls s_full s_prep s_rest s_tried s_chips s_same s_other s_cur s_eth]; auto.
      apply Forall_app. auto. }
    assert (P0 : s_pls s0 = s_pls s) by (rewrite E0; reflexivity).
    assert (D0 : In d (s_full s0) \/ In d (s_rest s0) \/ In d (s_chips s0)).
    { pose proof (gi_pool _ _ G d DO) as X. rewrite E0. unfold in_pool in X. cbn [set_starts s_full s_rest s_chips].
      rewrite in_app_iff. tauto. }
    assert (F0 : ~ In d (s_full s0)).
    { rewrite E0. cbn [set_starts s_full]. intro X. apply (gi_full _ _ G NN) in X. revert RM. apply wfull_room; [assumption|].
      destruct vs; [contradiction|cbn; lia]. }
    clear E0. cbn [place_loop]. unfold prepare. cbn [prepare_loop].
    pose proof (filter_vertices_wp e (s_pls s0) vs (ni_ok _ _ N0)) as FV. rewrite P0 in FV.
    assert (AR : filter (real e) vs = vs).
    { clear - VR. induction vs as [|v vs IH]; [reflexivity|]. cbn [filter]. unfold real at 1.
      rewrite (VR v (or_introl eq_refl)). cbn [negb]. f_equal. apply IH. intros; apply VR; right; assumption. }
    cbn [set_current set_prep s_pls]. rewrite P0.
    destruct (filter_vertices e (s_pls s) vs) as [todo|x]; cbn [wp] in FV.
    2:{ exfalso. destruct FV as (_ & (v & V1 & V2) & _). unfold none_placed in NP. rewrite Forall_forall in NP. apply (NP v V1 V2). }
    assert (TD : todo = vs).
    { destruct FV as [(X & _)|(_ & X)]; [|congruence]. exfalso. destruct vs as [|v vs]; [contradiction|].
      apply Forall_inv in X, NP. contradiction. }
    subst todo.
    assert (MV : forall (T : Type) (a b : T), match vs with [] => a | _ :: _ => b end = b)
      by (intros; destruct vs; [contradiction|reflexivity]).
    cbn [bind]. rewrite MV. clear MV.
    remember (set_current (set_prep s0 []) None (s_free s0) (s_used s0)) as s1 eqn:E1.
    assert (P : PInv e False (abs (s_pls s)) s1 []).
    { rewrite E1. constructor; cbn [set_current set_prep s_pls s_cur].
      - destruct N0 as [n1 n2 n3 n4 n5 n6 n7 n8 n9 n10 n11 n12 n13 n14].
        constructor; cbn [set_current set_prep s_pls s_full s_prep s_rest s_tried s_chips s_same s_other s_cur s_eth]; auto.
        discriminate.
      - now rewrite P0.
      - intros pl [].
      - constructor.
      - reflexivity.
      - intros l1 pl l2 X. destruct l1; discriminate.
      - congruence. }
    assert (C1 : s_cur s1 = None) by (rewrite E1; reflexivity).
    pose proof (next_chip_wp e W False (abs (s_pls s)) s1 [] (length vs) q ltac:(intros []) P) as NC.
    change (mkSt (s_pls s0) (s_chips s0) (s_full s0) [] (s_rest s0) (s_tried s0) None (s_free s0) (s_used s0) (s_eth s0) (s_same s0) (s_other s0))
      with (set_current (set_prep s0 []) None (s_free s0) (s_used s0)).
    rewrite <- ?E1. cbn [bind].
    destruct (next_chip e s1 (length vs) q) as [(s2, o)|x]; cbn [wp bind] in NC |- *.
    2:{ intros [= ->]. destruct (NC LO PA) as [(_ & X)|[(-> & _)|(_ & X)]].
        { apply X. split; [apply NN|]. auto. }
        { destruct BAD; discriminate. }
        specialize (X C1 ltac:(destruct vs; [contradiction|cbn; lia]) d).
        rewrite E1 in X. cbn [set_current set_prep s_rest s_chips s_full] in X. destruct X as [X|X]; tauto. }
    destruct NC as (N2 & G2 & M2 & _ & R). destruct o as [c|]; [|congruence].
    pose proof (take_cores_wp c vs (s_free s2)) as TC.
    destruct (take_cores c (s_free s2) vs) as [(free, m)|x]; cbn [wp bind] in TC |- *.
    - cbn [app bind s_pls set_current].
      destruct (lift_add (add_placements (s_pls s2) m)) as [p'|x] eqn:AD; cbn [bind]; [discriminate|].
      intros [= ->]. apply adds_not_NoSpace in AD; [tauto|apply N2].
    - intros [= ->]. destruct TC as (-> & _). destruct BAD; discriminate. }
  destruct (place_vertex e s (mkApp al av [(vs, q)])) as [s'|x]; [eauto|]. exfalso. cbn [wp a_groups flat_map fst] in PV.
  rewrite app_nil_r in PV.
  destruct (PV LO PA) as [(-> & g & [<-|[]] & (v & V1 & V2) & _)|[(-> & g & [<-|[]] & X)|[-> |(-> & _)]]].
  - constructor; [|constructor]. right. exact VR.
  - assumption.
  - unfold none_placed in NP. rewrite Forall_forall in NP. apply (NP v V1 V2).
  - apply X, FT.
  - apply (NOS NoSpace); auto.
  - apply (NOS ConfigurationException); auto.
Qed.

Lemma foldM_app : forall (S A : Type) (f : S -> A -> res S) x y s,
  foldM f s (x ++ y) = let* s' := foldM f s x in foldM f s' y.
Proof.
  intros S A f. induction x as [|a x IH]; intros y s; [reflexivity|]. cbn [app foldM].
  destruct (f s a) as [s1|er]; cbn [bind]; [apply IH|reflexivity].
Qed.

Lemma place_fits : forall apps p vs q al av d, place_graph e sys apps = Ok p ->
  links_ok e -> placable e l -> nonneg e -> okq e q ->
  has_fixed e (mkApp al av [(vs, q)]) = false ->
  vs <> [] -> NoDup vs -> (forall v, In v vs -> pe_virtual e v = false /\ ~ In v (map pl_v (abs p))) ->
  fits e (length vs) q -> In d (chip_order (pe_machine e)) -> room e (abs p) d (length vs) q ->
  exists p', place_graph e sys (apps ++ [mkApp al av [(vs, q)]]) = Ok p'.
Proof.
  intros apps p vs q al av d H LO PA NN OQ HF VNE ND VS FT DO RM.
  destruct (made_ok _ _ MADE) as (O & A).
  unfold place_graph in *. destruct (init_placer e sys) as [s|x] eqn:IN; [|discriminate]. cbn [bind] in *.
  rewrite !foldM_app.
  assert (PS : s_pls s = sys) by (unfold init_placer in IN; destruct (Z.eqb (max_cores e) 0); [discriminate|]; injection IN as <-; reflexivity).
  assert (G0 : GInv e (set_pls s sys)) by exact (init_ginv e W sys s sys O IN O).
  assert (E0 : set_pls s sys = s) by (rewrite <- PS; destruct s; reflexivity). rewrite E0 in G0. clear E0.
  pose proof (fixed_steps_wp e W SO apps s (gi_n _ _ G0)) as F.
  destruct (foldM (fixed_step e) s apps) as [s1|x]; cbn [bind wp] in *; [|discriminate].
  assert (FS : foldM (fixed_step e) s1 [mkApp al av [(vs, q)]] = Ok s1).
  { cbn [foldM]. unfold fixed_step. rewrite HF. reflexivity. }
  rewrite FS. cbn [bind]. rewrite foldM_app.
  destruct F as (p1 & -> & O1 & m & A1 & P1 & _). rewrite PS, A in A1.
  assert (G1 : GInv e (set_pls s p1)) by exact (init_ginv e W sys s p1 O IN O1).
  pose proof (place_apps_wp e W False apps (set_pls s p1) G1 ltac:(intros [])) as R. cbn [set_pls s_pls] in R. rewrite A1 in R.
  destruct (foldM (place_vertex e) (set_pls s p1) apps) as [s2|x]; cbn [bind wp] in *; [|discriminate].
  injection H as <-. destruct R as (G2 & R).
  assert (PA2 : placable e (abs (s_pls s2))).
  { apply run_ext in R. destruct R as (m2 & -> & M2). apply fixed_placable.
    - apply fixed_placable; assumption.
    - apply Forall_forall. intros pl I. apply (M2 pl I). }
  destruct (place_single s2 vs q al av d) as (s3 & E3); auto.
  - intros v V. apply VS, V.
  - apply Forall_forall. intros v V X. apply vplaced_map in X. destruct (VS v V). contradiction.
  - cbn [foldM]. rewrite E3. cbn [bind]. eauto.
Qed.

(** ** Virtual vertices *)
Lemma run_real : forall SD A apps B, run e SD A apps B ->
  (forall a g, In a apps -> In g (a_groups a) -> unmixed e (fst g)) ->
  forall pl, In pl B -> In pl A \/ pe_virtual e (pl_v pl) = false.
Proof.
  clear. intros SD A apps B R. induction R as [A|A a m apps B S R IH]; intros U pl I; [auto|].
  destruct (IH (fun b g B0 G => U b g (or_intror B0) G) pl I) as [J|J]; [|auto].
  apply in_app_iff in J. destruct J as [J|J]; [auto|]. right.
  assert (X : In (pl_v pl) (map pl_v m)) by (apply in_map, J). rewrite (sg_vs _ _ _ _ _ S) in X.
  apply in_flat_map in X. destruct X as (g & G & X). unfold pick in X.
  destruct (existsb (fun v => existsb (has_vertex v) A) (fst g)); [destruct X|].
  destruct (existsb (real e) (fst g)) eqn:EX; [|destruct X]. apply existsb_exists in EX. destruct EX as (v & V1 & V2).
  destruct (U a g (or_introl eq_refl) G) as [Y|Y]; [|auto]. unfold real in V2. rewrite (Y v V1) in V2. discriminate.
Qed.

Lemma place_real : forall apps p, place_graph e sys apps = Ok p ->
  (forall a g, In a apps -> In g (a_groups a) -> unmixed e (fst g)) ->
  forall pl, In pl (abs p) -> In pl l \/ pe_virtual e (pl_v pl) = false.
Proof.
  intros apps p H U pl I. destruct (graph_result False apps p H ltac:(intros [])) as (O & F & (F1 & F2 & F3) & R).
  destruct (run_real _ _ _ _ R U pl I) as [J|J]; [|auto]. apply in_app_iff in J. destruct J as [J|J]; [auto|].
  destruct (F2 pl J) as (a & _ & _ & _ & X). right. unfold real in X. destruct (pe_virtual e (pl_v pl)); [discriminate|reflexivity].
Qed.

(** ** A fixed core that is free *)
Lemma it_find_In : forall q it, In q it -> exists it', it_find q it = Some it'.
Proof.
  intros q. induction it as [|a it IH]; intros I; [destruct I|]. cbn [it_find]. destruct (Nat.eqb_spec a q); [eauto|].
  destruct I as [I|I]; [contradiction|]. auto.
Qed.

Lemma fixed_single : forall v s x y q c, get_fixed e v = Some (x, y, Some q) -> m_chip (pe_machine e) (x, y) = Some c ->
  In q (c_procs c) -> ~ occupied l x y q -> ~ vplaced l v -> pe_virtual e v = false ->
  exists p, fixed_group e sys ([v], s) = Ok p /\ abs p = l ++ [mkPl v x y q].
Proof.
  intros v s x y q c GF C IQ NO NV VR. destruct (made_ok _ _ MADE) as (O & A).
  unfold fixed_group. cbn [fst]. pose proof (filter_vertices_wp e sys [v] O) as F. rewrite A in F.
  destruct (filter_vertices e sys [v]) as [todo|ex]; cbn [wp bind] in *.
  2:{ destruct F as (_ & (w & [<-|[]] & X) & _). contradiction. }
  destruct F as [(X & _)|(_ & ->)]; [apply Forall_inv in X; contradiction|]. cbn [filter].
  replace (real e v) with true by (symmetry; apply real_true, VR). unfold do_fixed. cbn [first_fixed]. rewrite GF, C.
  destruct (on_chip sys (x, y)) as (p1, pls) eqn:OC. apply on_chip_ok in OC; [|assumption].
  destruct OC as (O1 & A1 & _ & PL). cbn [foldM].
  remember (pe_set_order e (filter (fun q => negb (existsb (Nat.eqb q) (map pl_p pls))) (c_procs c))) as it eqn:EI.
  assert (I1 : In q it).
  { pose proof (SO (filter (fun q => negb (existsb (Nat.eqb q) (map pl_p pls))) (c_procs c))) as PM. rewrite <- EI in PM.
    apply (Permutation_in _ (Permutation_sym PM)). apply filter_In. split; [assumption|]. apply Bool.negb_true_iff.
    destruct (existsb (Nat.eqb q) (map pl_p pls)) eqn:EX; [|reflexivity]. exfalso. apply NO.
    apply existsb_exists in EX. destruct EX as (z & Z1 & Z2). apply Nat.eqb_eq in Z2. subst z.
    apply in_map_iff in Z1. destruct Z1 as (pl & Z1 & Z2). rewrite PL, A in Z2. apply filter_In in Z2.
    destruct Z2 as (Z2 & Z3). apply xy_eqb_spec in Z3. injection Z3 as Z3 Z4. exists pl. auto. }
  destruct (it_find_In q it I1) as (it' & E1). unfold fixed_core. rewrite GF, E1.
  assert (AD : wp (lift_add (add_placement p1 (mkPl v x y q))) (fun p => abs p = l ++ [mkPl v x y q]) (fun _ => False)).
  { apply add_wp; [assumption|..]; cbn [pl_x pl_y pl_p pl_v]; rewrite A1, A; [intros _ _ p' _ E; exact E|contradiction..]. }
  destruct (lift_add (add_placement p1 (mkPl v x y q))) as [p2|ex]; cbn [wp] in AD; [|contradiction].
  cbn [bind]. unfold free_core. rewrite GF. cbn [bind]. eauto.
Qed.
End Env.

(** The fixed location of a machine vertex: its own, or else that of its application
    vertex.  An application vertex has none when neither it nor a machine vertex of
    it does. *)
Definition fixed_at (e : penv) (v x y : nat) (o : option nat) : Prop :=
  pe_own_loc e v = Some (x, y, o) \/
  (pe_own_loc e v = None /\ pe_app_loc e v = Some (x, y, o)).
Definition not_fixed (e : penv) (a : appv) : Prop :=
  a_loc a = None /\
  forall v, In v (a_vertices a) -> pe_own_loc e v = None /\ pe_app_loc e v = None.

Lemma get_fixed_at : forall e v x y o, get_fixed e v = Some (x, y, o) <-> fixed_at e v x y o.
Proof.
  intros e v x y o. unfold get_fixed, fixed_at. destruct (pe_own_loc e v).
  - split; [auto|]. intros [H|(H & _)]; [assumption|discriminate].
  - split; [auto|]. intros [H|(_ & H)]; [discriminate|assumption].
Qed.

Lemma has_fixed_not : forall e a, has_fixed e a = false <-> not_fixed e a.
Proof.
  intros e a. unfold has_fixed, not_fixed. destruct (a_loc a) as [l|].
  - split; [discriminate|intros (H & _); discriminate].
  - split.
    + intros H. split; [reflexivity|]. intros v V.
      destruct (get_fixed e v) as [l|] eqn:G.
      * assert (X : existsb (fun v => match get_fixed e v with Some _ => true | None => false end)
                      (a_vertices a) = true).
        { apply existsb_exists. exists v. rewrite G. auto. }
        congruence.
      * unfold get_fixed in G. destruct (pe_own_loc e v); [discriminate|auto].
    + intros (_ & H). destruct (existsb _ _) eqn:X; [|reflexivity].
      apply existsb_exists in X. destruct X as (v & V & X). destruct (H v V) as (H1 & H2).
      unfold get_fixed in X. rewrite H1, H2 in X. discriminate.
Qed.
