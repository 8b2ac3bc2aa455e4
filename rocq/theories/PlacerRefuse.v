(** Graphs that the placer does not support. *)
From Coq Require Import List Arith ZArith QArith Bool Lia Permutation Sorted.
From Verif Require Import Base Dict SdramModel SdramProofs SdramBelow PlacementsModel PlacementsProofs PlacerModel PlacerProofs PlacerFinal PlacerFixed.
Import ListNotations.
Local Open Scope nat_scope.

Section Env.
Variable e : penv.
Hypothesis W : wf_machine e.
Hypothesis SO : set_ok e.

(** No vertex that is still to be placed has a fixed location. *)
Definition loose (A : list placement) (vs : list nat) : Prop :=
  forall v, In v vs -> pe_virtual e v = false -> ~ vplaced A v -> get_fixed e v = None.
Definition bad (A : list placement) (vs : list nat) : Prop := half_placed A vs \/ loose A vs.

Lemma first_fixed_none : forall vs, first_fixed e vs = None -> forall v, In v vs -> get_fixed e v = None.
Proof.
  induction vs as [|w vs IH]; cbn [first_fixed]; intros H v; [intros []|].
  destruct (get_fixed e w) eqn:G; [discriminate|]. intros [<-|I]; auto.
Qed.
Lemma first_fixed_some : forall vs x y o, first_fixed e vs = Some (x, y, o) -> exists v, In v vs /\ get_fixed e v <> None.
Proof.
  induction vs as [|w vs IH]; cbn [first_fixed]; intros x y o H; [discriminate|].
  destruct (get_fixed e w) eqn:G.
  - exists w. split; [now left|congruence].
  - destruct (IH _ _ _ H) as (v & V & X). exists v. split; [now right|exact X].
Qed.
Lemma real_iff : forall v, real e v = true <-> pe_virtual e v = false.
Proof. intro v. unfold real. destruct (pe_virtual e v); cbn; split; congruence. Qed.

Lemma fixed_group_bad : forall p g, ok p ->
  match fixed_group e p g with
  | Ok p' => ok p' /\ ~ bad (abs p) (fst g) /\ exists m, abs p' = abs p ++ m /\ forall pl, In pl m -> In (pl_v pl) (fst g)
  | Err x => NoDup (fst g) -> x = NotImplemented -> bad (abs p) (fst g)
  end.
Proof.
  intros p g O. pose proof (fixed_group_wp e W SO p g O) as G.
  unfold fixed_group in *. pose proof (filter_vertices_wp e p (fst g) O) as F.
  destruct (filter_vertices e p (fst g)) as [todo|x]; cbn [wp bind] in *.
  2:{ destruct F as (-> & F1 & F2). intros _ _. left. split; assumption. }
  pose proof (do_fixed_wp e W SO p todo O) as D.
  destruct F as [(AP & ->)|(NP & ->)].
  - cbn. intros _ _. right. intros v V _ X. unfold all_placed in AP. rewrite Forall_forall in AP. exfalso. apply X, AP, V.
  - unfold none_placed in NP. rewrite Forall_forall in NP.
    destruct (do_fixed e p (filter (real e) (fst g))) as [p'|x]; cbn [wp] in *.
    + destruct G as (O' & m & A & _ & V & _). split; [exact O'|]. split; [|exists m; split; [exact A|]; intros pl I; apply (V pl I)].
      destruct D as (_ & c & _ & x & y & o & FF & _). apply first_fixed_some in FF. destruct FF as (v & I & X).
      apply filter_In in I. destruct I as (I & R). apply real_iff in R.
      intros [((w & I1 & I2) & _)|L]; [exact (NP w I1 I2)|]. apply X, (L v I R), NP, I.
    + intros ND ->. right. destruct D as [(_ & FF)|X]; [apply NoDup_filter, ND| | |discriminate].
      * apply Forall_forall. intros v V. apply filter_In in V. apply NP, V.
      * intros v V R _. apply (first_fixed_none _ FF), filter_In. split; [exact V|apply real_iff, R].
Qed.

Lemma vplaced_more : forall A m v, (forall pl, In pl m -> pl_v pl <> v) -> (vplaced (A ++ m) v <-> vplaced A v).
Proof.
  intros A m v H. split; intros (pl & I & X).
  - apply in_app_iff in I. destruct I as [I|I]; [exists pl; auto|]. exfalso. exact (H pl I X).
  - exists pl. split; [apply in_app_iff; auto|exact X].
Qed.
Lemma half_more : forall A B vs, (forall v, In v vs -> (vplaced B v <-> vplaced A v)) -> half_placed B vs -> half_placed A vs.
Proof.
  intros A B vs H ((v & V1 & V2) & (w & W1 & W2)). split; [exists v; split; [exact V1|apply H; auto]|].
  exists w. split; [exact W1|]. intro X. apply W2, H; auto.
Qed.
Lemma bad_more : forall A B vs, (forall v, In v vs -> (vplaced B v <-> vplaced A v)) -> bad B vs -> bad A vs.
Proof.
  intros A B vs H [X|X]; [left; eapply half_more; eassumption|right]. intros v V R N. apply X; auto.
  intro Y. apply N, H; auto.
Qed.

Lemma fixed_groups_bad : forall gs p, ok p -> NoDup (flat_map fst gs) ->
  match foldM (fixed_group e) p gs with
  | Ok p' => ok p' /\ (forall g, In g gs -> ~ bad (abs p) (fst g)) /\
      exists m, abs p' = abs p ++ m /\ forall pl, In pl m -> In (pl_v pl) (flat_map fst gs)
  | Err x => x = NotImplemented -> exists g, In g gs /\ bad (abs p) (fst g)
  end.
Proof.
  induction gs as [|g gs IH]; intros p O ND.
  - cbn. split; [exact O|]. split; [intros g []|]. exists []. rewrite app_nil_r. split; [reflexivity|intros pl []].
  - cbn [foldM flat_map] in *. apply NoDup_app_inv in ND. destruct ND as (N1 & N2 & N3).
    pose proof (fixed_group_bad p g O) as G. destruct (fixed_group e p g) as [p1|x]; cbn [bind].
    2:{ intro X. exists g. split; [now left|]. apply G; assumption. }
    destruct G as (O1 & B1 & m1 & A1 & V1). specialize (IH p1 O1 N2).
    assert (SAME : forall g', In g' gs -> forall v, In v (fst g') -> (vplaced (abs p1) v <-> vplaced (abs p) v)).
    { intros g' G' v V. rewrite A1. apply vplaced_more. intros pl I E. apply (N3 v).
      - rewrite <- E. apply V1, I.
      - apply in_flat_map. exists g'. auto. }
    destruct (foldM (fixed_group e) p1 gs) as [p2|x].
    + destruct IH as (O2 & B2 & m2 & A2 & V2). split; [exact O2|]. split.
      * intros g' [<-|G'] B; [exact (B1 B)|]. apply (B2 g' G'). revert B. apply bad_more. intros v V. symmetry. apply (SAME g' G' v V).
      * exists (m1 ++ m2). split; [rewrite A2, A1, app_assoc; reflexivity|]. intros pl I. apply in_app_iff.
        apply in_app_iff in I. destruct I as [I|I]; auto.
    + intro X. destruct (IH X) as (g' & G' & B). exists g'. split; [now right|]. revert B. apply bad_more, SAME, G'.
Qed.

(** Of an application vertex. *)
Definition unsupported (A : list placement) (a : appv) : Prop :=
  (has_fixed e a = true /\ a_groups a = []) \/
  exists g, In g (a_groups a) /\ (half_placed A (fst g) \/ (has_fixed e a = true /\ loose A (fst g))).

Definition fixed_bad (A : list placement) (a : appv) : Prop :=
  has_fixed e a = true /\ (a_groups a = [] \/ exists g, In g (a_groups a) /\ bad A (fst g)).

Lemma fixed_steps_bad : forall apps s, ok (s_pls s) -> NoDup (all_of apps) ->
  match foldM (fixed_step e) s apps with
  | Ok s' => forall a, In a apps -> ~ fixed_bad (abs (s_pls s)) a
  | Err x => x = NotImplemented -> exists a, In a apps /\ fixed_bad (abs (s_pls s)) a
  end.
Proof.
  induction apps as [|a apps IH]; intros s O ND.
  - cbn. intros a [].
  - unfold all_of in ND. cbn [flat_map] in ND. fold (all_of apps) in ND. apply NoDup_app_inv in ND. destruct ND as (N1 & N2 & N3).
    cbn [foldM].
    assert (G : match fixed_step e s a with
      | Ok s' => ok (s_pls s') /\ ~ fixed_bad (abs (s_pls s)) a /\
          exists m, abs (s_pls s') = abs (s_pls s) ++ m /\ forall pl, In pl m -> In (pl_v pl) (flat_map fst (a_groups a))
      | Err x => x = NotImplemented -> fixed_bad (abs (s_pls s)) a
      end).
    { unfold fixed_step. destruct (has_fixed e a) eqn:HF.
      2:{ split; [exact O|]. split; [intros (X & _); congruence|]. exists []. rewrite app_nil_r. split; [reflexivity|intros pl []]. }
      unfold place_fixed. pose proof (fixed_groups_bad (a_groups a) (s_pls s) O N1) as G.
      destruct (a_groups a) as [|g0 gs0] eqn:EG; [intros _; split; [exact HF|left; exact EG]|]. rewrite <- EG in *.
      destruct (foldM (fixed_group e) (s_pls s) (a_groups a)) as [p'|x]; cbn [bind].
      - destruct G as (O' & B & m & A & V). cbn [set_pls s_pls]. split; [exact O'|]. split; [|exists m; auto].
        intros (_ & [X|(g & G & X)]); [congruence|]. exact (B g G X).
      - intro X. split; [exact HF|right; exact (G X)]. }
    destruct (fixed_step e s a) as [s1|x]; cbn [bind].
    2:{ intro X. exists a. split; [now left|exact (G X)]. }
    destruct G as (O1 & B1 & m & A1 & V1). specialize (IH s1 O1 N2).
    assert (SAME : forall b, In b apps -> forall g, In g (a_groups b) -> forall v, In v (fst g) -> (vplaced (abs (s_pls s1)) v <-> vplaced (abs (s_pls s)) v)).
    { intros b Hb g G v V. rewrite A1. apply vplaced_more. intros pl I E. apply (N3 v).
      - rewrite <- E. apply V1, I.
      - eapply all_of_In; [exact Hb|]. apply in_flat_map. exists g. auto. }
    destruct (foldM (fixed_step e) s1 apps) as [s2|x].
    + intros b [<-|Hb] FB; [exact (B1 FB)|]. apply (IH b Hb). destruct FB as (HF & [X|(g & G & X)]); (split; [exact HF|]); [left; exact X|].
      right. exists g. split; [exact G|]. revert X. apply bad_more. intros v V. symmetry. apply (SAME b Hb g G v V).
    + intro X. destruct (IH X) as (b & Hb & (HF & Y)). exists b. split; [now right|]. split; [exact HF|].
      destruct Y as [Y|(g & G & Y)]; [left; exact Y|right]. exists g. split; [exact G|]. revert Y. apply bad_more. apply (SAME b Hb g G).
Qed.

(** The second round finds only groups placed in part before. *)
Lemma place_apps_half : forall apps s, GInv e s -> links_ok e -> placable e (abs (s_pls s)) -> NoDup (all_of apps) ->
  (forall a, In a apps -> Forall (fun g => unmixed e (fst g)) (a_groups a)) ->
  foldM (place_vertex e) s apps = Err NotImplemented ->
  exists a g, In a apps /\ In g (a_groups a) /\ half_placed (abs (s_pls s)) (fst g).
Proof.
  induction apps as [|a apps IH]; intros s G LO PA ND U H; [discriminate|].
  unfold all_of in ND. cbn [flat_map] in ND. fold (all_of apps) in ND. apply NoDup_app_inv in ND. destruct ND as (N1 & N2 & N3).
  cbn [foldM] in H. pose proof (place_vertex_ginv e W False s a G ltac:(intros [])) as P.
  destruct (place_vertex e s a) as [s1|x]; cbn [wp bind] in *.
  - destruct P as (G1 & m & A1 & S1).
    destruct (IH s1 G1 LO) as (b & g & Hb & Hg & HP).
    + rewrite A1. eapply segment_placable; eassumption.
    + exact N2.
    + intros b Hb. apply U. now right.
    + exact H.
    + exists b, g. split; [now right|]. split; [exact Hg|]. revert HP. apply half_more. intros v V. rewrite A1. apply vplaced_more.
      intros pl I E. apply (N3 v).
      * assert (X : In (pl_v pl) (map pl_v m)) by (apply in_map, I). rewrite (sg_vs _ _ _ _ _ S1) in X. apply (pick_In e) in X.
        rewrite <- E. apply X.
      * eapply all_of_In; [exact Hb|]. apply in_flat_map. exists g. auto.
  - injection H as ->. destruct (P LO PA (U a (or_introl eq_refl)) N1) as [(_ & g & Hg & HP)|[(X & _)|[X|(X & _)]]]; try discriminate.
    exists a, g. split; [now left|]. auto.
Qed.

Lemma owner : forall apps a b v, NoDup (all_of apps) -> In a apps -> In b apps ->
  In v (flat_map fst (a_groups a)) -> In v (flat_map fst (a_groups b)) -> a = b.
Proof.
  induction apps as [|c apps IH]; intros a b v ND A B VA VB; [destruct A|].
  unfold all_of in ND. cbn [flat_map] in ND. fold (all_of apps) in ND. apply NoDup_app_inv in ND. destruct ND as (N1 & N2 & N3).
  destruct A as [<-|A], B as [<-|B].
  - reflexivity.
  - exfalso. apply (N3 v VA). eapply all_of_In; eassumption.
  - exfalso. apply (N3 v VB). eapply all_of_In; eassumption.
  - eapply IH; eassumption.
Qed.

Variable sys : placements.
Variable l : list placement.
Hypothesis MADE : made l sys.

Lemma unsupported_when : forall apps, strict e l apps -> separate apps -> place_graph e sys apps = Err NotImplemented ->
  exists a, In a apps /\ unsupported l a.
Proof.
  intros apps (LO & PA & U) SEP H. destruct (made_ok _ _ MADE) as (O & A). unfold place_graph in H.
  destruct (init_placer e sys) as [s|x] eqn:IN; cbn [bind] in H.
  2:{ unfold init_placer in IN. destruct (Z.eqb (max_cores e) 0); congruence. }
  assert (PS : s_pls s = sys) by (unfold init_placer in IN; destruct (Z.eqb (max_cores e) 0); [discriminate|]; injection IN as <-; reflexivity).
  assert (G0 : GInv e (set_pls s sys)) by (eapply init_ginv; eassumption).
  assert (E0 : set_pls s sys = s) by (rewrite <- PS; destruct s; reflexivity). rewrite E0 in G0. clear E0.
  pose proof (fixed_steps_wp e W SO apps s (gi_n _ _ G0)) as F.
  pose proof (fixed_steps_bad apps s ltac:(rewrite PS; exact O) SEP) as FB. rewrite PS, A in FB.
  destruct (foldM (fixed_step e) s apps) as [s1|x]; cbn [bind wp] in *.
  - destruct F as (p1 & -> & O1 & m & A1 & P1 & V1 & F1). rewrite PS, A in A1.
    assert (G1 : GInv e (set_pls s p1)) by exact (init_ginv e W sys s p1 O IN O1).
    destruct (foldM (place_vertex e) (set_pls s p1) apps) as [s2|x] eqn:PE; cbn [bind] in H; [discriminate|]. injection H as ->.
    destruct (place_apps_half apps _ G1 LO) as (a & g & Ha & Hg & HP).
    + cbn [set_pls s_pls]. rewrite A1. apply fixed_placable; assumption.
    + exact SEP.
    + intros a Ha. apply U, Ha.
    + exact PE.
    + cbn [set_pls s_pls] in HP. rewrite A1 in HP. exists a. split; [exact Ha|]. right. exists g. split; [exact Hg|]. left.
      destruct (has_fixed e a) eqn:HF.
      * exfalso. destruct (F1 a g Ha HF Hg) as (c & x & y & o & FF & _ & D). apply first_fixed_some in FF. destruct FF as (v & V & _).
        apply filter_In in V. destruct V as (V & R). apply real_iff in R.
        destruct (U a Ha) as (UM & _). rewrite Forall_forall in UM. destruct (UM g Hg) as [UV|UR]; [rewrite (UV v V) in R; discriminate|].
        destruct HP as (_ & (w & W1 & W2)). apply W2. destruct (D w W1) as (pl & I & E & _); [apply real_iff, UR, W1|].
        exists pl. split; [apply in_app_iff; auto|exact E].
      * revert HP. apply half_more. intros v V. apply vplaced_more. intros pl I E.
        destruct (V1 pl I) as (b & B1 & B2 & B3 & _). rewrite E in B3.
        assert (a = b); [|congruence]. eapply owner; [exact SEP|exact Ha|exact B1| |exact B3]. apply in_flat_map. exists g. auto.
  - injection H as ->. destruct (FB eq_refl) as (a & Ha & HF & [X|(g & G & X)]).
    + exists a. split; [exact Ha|]. left. auto.
    + exists a. split; [exact Ha|]. right. exists g. split; [exact G|]. destruct X; auto.
Qed.

Lemma unsupported_fails : forall apps p, separate apps -> place_graph e sys apps = Ok p ->
  forall a, In a apps -> ~ unsupported l a.
Proof.
  intros apps p SEP H a Ha UN. destruct (made_ok _ _ MADE) as (O & A).
  assert (NB : ~ fixed_bad l a).
  { unfold place_graph in H. destruct (init_placer e sys) as [s|x] eqn:IN; cbn [bind] in H; [|discriminate].
    assert (PS : s_pls s = sys) by (unfold init_placer in IN; destruct (Z.eqb (max_cores e) 0); [discriminate|]; injection IN as <-; reflexivity).
    pose proof (fixed_steps_bad apps s ltac:(rewrite PS; exact O) SEP) as FB. rewrite PS, A in FB.
    destruct (foldM (fixed_step e) s apps) as [s1|x]; cbn [bind] in *; [|discriminate]. apply FB, Ha. }
  destruct UN as [(HF & X)|(g & G & [HP|(HF & X)])].
  - apply NB. split; auto.
  - destruct (has_fixed e a) eqn:HF.
    + apply NB. split; [exact HF|]. right. exists g. split; [exact G|]. left. exact HP.
    + destruct (graph_result e sys l W SO MADE False apps p H ltac:(intros [])) as (_ & F & (F1 & F2 & F3) & R).
      pose proof Ha as Ha'. apply in_split in Ha'. destruct Ha' as (as1 & as2 & EA). rewrite EA in R. apply run_at in R.
      destruct R as (A1 & m & m2 & R & S & _ & _). apply run_ext in R. destruct R as (m0 & -> & M0).
      destruct HP as ((v & V1 & V2) & (w & W1 & W2)).
      destruct (sg_split _ _ _ _ _ S g G) as [AP|NP].
      * unfold all_placed in AP. rewrite Forall_forall in AP. destruct (AP w W1) as (pl & I & E). rewrite !in_app_iff in I.
        assert (WG : In w (flat_map fst (a_groups a))) by (apply in_flat_map; exists g; auto).
        destruct I as [[I|I]|I].
        -- apply W2. exists pl. auto.
        -- destruct (F2 pl I) as (b & B1 & B2 & B3 & _). rewrite E in B3.
           assert (a = b) by (eapply owner; eassumption). congruence.
        -- destruct (M0 pl I) as (X & _). rewrite E in X. unfold separate in SEP. rewrite EA, all_of_app in SEP.
           apply NoDup_app_inv in SEP. destruct SEP as (_ & _ & N3). apply (N3 w X). unfold all_of. cbn [flat_map]. apply in_app_iff. auto.
      * unfold none_placed in NP. rewrite Forall_forall in NP. apply (NP v V1). destruct V2 as (pl & I & E). exists pl.
        split; [rewrite !in_app_iff; auto|exact E].
  - apply NB. split; [exact HF|]. right. exists g. split; [exact G|]. right. exact X.
Qed.
End Env.

(** An application vertex without fixed locations that has nothing to place changes
    nothing. *)
Lemma nothing_filter : forall e p vs, ok p ->
  ((forall v, In v vs -> pe_virtual e v = true) /\ none_placed (abs p) vs) \/ all_placed (abs p) vs -> filter_vertices e p vs = Ok [].
Proof.
  intros e p vs O H. pose proof (filter_vertices_wp e p vs O) as F. destruct (filter_vertices e p vs) as [todo|x]; cbn [wp] in F.
  - f_equal. destruct F as [(_ & ->)|(NP & ->)]; [reflexivity|]. apply filter_none. intros v V. unfold real.
    destruct H as [(H & _)|H]; [now rewrite (H v V)|]. exfalso. unfold all_placed in H. unfold none_placed in NP. rewrite Forall_forall in *.
    exact (NP v V (H v V)).
  - exfalso. destruct F as (_ & (v & V1 & V2) & (w & W1 & W2)). unfold all_placed, none_placed in H. rewrite !Forall_forall in H.
    destruct H as [(_ & H)|H]; [exact (H v V1 V2)|exact (W2 (H w W1))].
Qed.
Lemma nothing_loop : forall e gs s, ok (s_pls s) ->
  (forall g, In g gs -> ((forall v, In v (fst g) -> pe_virtual e v = true) /\ none_placed (abs (s_pls s)) (fst g)) \/ all_placed (abs (s_pls s)) (fst g)) ->
  prepare_loop e s [] gs = Ok (s, Some []).
Proof.
  intros e gs s O H. induction gs as [|(vs, q) gs IH]; cbn [prepare_loop]; [reflexivity|].
  rewrite (nothing_filter e (s_pls s) vs O (H (vs, q) (or_introl eq_refl))). cbn [bind]. apply IH. intros g G. apply H. now right.
Qed.
Lemma nothing_vertex : forall e s a, ok (s_pls s) ->
  (forall g, In g (a_groups a) -> ((forall v, In v (fst g) -> pe_virtual e v = true) /\ none_placed (abs (s_pls s)) (fst g)) \/ all_placed (abs (s_pls s)) (fst g)) ->
  exists s', place_vertex e s a = Ok s' /\ s_pls s' = s_pls s.
Proof.
  intros e s a O H. unfold place_vertex. destruct (a_groups a) as [|g0 gs0] eqn:EG; [exists s; auto|]. rewrite <- EG in *.
  cbn [place_loop]. unfold prepare. rewrite nothing_loop; [|exact O|exact H]. cbn [bind].
  eexists. split; [cbn; reflexivity|reflexivity].
Qed.
