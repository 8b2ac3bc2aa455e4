(** When a group with fixed locations is placed. *)
From Coq Require Import List Arith ZArith Bool Lia Permutation Sorted.
From Verif Require Import Base Dict SdramModel SdramProofs SdramBelow PlacementsModel PlacementsProofs PlacerModel PlacerProofs PlacerFinal.
Import ListNotations.
Local Open Scope nat_scope.

(** The first list is the second with elements left out. *)
Inductive subseq : list nat -> list nat -> Prop :=
| sub_nil : forall l, subseq [] l
| sub_skip : forall a x l, subseq a l -> subseq a (x :: l)
| sub_take : forall a x l, subseq a l -> subseq (x :: a) (x :: l).

(** The iterator after the asked cores have been looked for in turn. *)
Fixpoint consume (qs it : list nat) : option (list nat) :=
  match qs with
  | [] => Some it
  | q :: r => match it_find q it with Some it' => consume r it' | None => None end
  end.

Lemma subseq_app : forall pre a l, subseq a l -> subseq a (pre ++ l).
Proof. induction pre as [|x pre IH]; intros a l H; cbn [app]; [exact H|]. constructor. auto. Qed.

Lemma consume_sub : forall qs it r, consume qs it = Some r -> exists pre, it = pre ++ r /\ subseq qs pre.
Proof.
  induction qs as [|q qs IH]; intros it r H; cbn [consume] in H.
  - injection H as <-. exists []. split; [reflexivity|constructor].
  - destruct (it_find q it) as [it'|] eqn:F; [|discriminate]. apply it_find_spec in F. destruct F as (pre & ->).
    destruct (IH it' r H) as (pre' & -> & S). exists (pre ++ q :: pre'). split.
    + rewrite <- app_assoc. reflexivity.
    + apply subseq_app. now apply sub_take.
Qed.

Lemma consume_greedy : forall qs pre suf, subseq qs pre -> exists r, consume qs (pre ++ suf) = Some r /\ length suf <= length r.
Proof.
  induction qs as [|q qs IH]; intros pre suf H; cbn [consume].
  - exists (pre ++ suf). split; [reflexivity|]. rewrite app_length. lia.
  - remember (q :: qs) as a eqn:A. revert q qs IH A. induction H as [l|a x l H IHs|a x l H IHs]; intros q qs IH A.
    + discriminate.
    + cbn [app it_find]. destruct (Nat.eqb_spec x q) as [->|NE].
      * subst a. assert (S : subseq qs l).
        { clear - H. remember (q :: qs) as b eqn:B. induction H; [discriminate| |].
          - constructor. auto.
          - injection B as -> ->. now apply sub_skip. }
        exact (IH l suf S).
      * exact (IHs q qs IH A).
    + injection A as -> ->. cbn [app it_find]. rewrite Nat.eqb_refl. exact (IH l suf H).
Qed.

Lemma consume_iff : forall qs it n,
  (exists r, consume qs it = Some r /\ n <= length r) <->
  (exists pre suf, it = pre ++ suf /\ subseq qs pre /\ n <= length suf).
Proof.
  intros qs it n. split.
  - intros (r & H & L). destruct (consume_sub _ _ _ H) as (pre & E & S). exists pre, r. auto.
  - intros (pre & suf & -> & S & L). destruct (consume_greedy qs pre suf S) as (r & R & LR). exists r. split; [exact R|lia].
Qed.

(** Increasing lists. *)
Lemma sorted_subseq : forall l qs, StronglySorted lt l -> StronglySorted lt qs -> incl qs l -> subseq qs l.
Proof.
  induction l as [|x l IH]; intros qs L Q I.
  - destruct qs as [|q qs]; [constructor|]. destruct (I q). now left.
  - inversion L as [|? ? L1 L2]; subst. rewrite Forall_forall in L2.
    destruct qs as [|q qs]; [constructor|]. inversion Q as [|? ? Q1 Q2]; subst. rewrite Forall_forall in Q2.
    destruct (Nat.eq_dec q x) as [->|NE].
    + apply sub_take. apply IH; [exact L1|exact Q1|]. intros z Z. destruct (I z (or_intror Z)) as [<-|H]; [|exact H].
      specialize (Q2 _ Z). lia.
    + apply sub_skip. apply IH; [exact L1|exact Q|]. intros z Z. destruct (I z Z) as [<-|H]; [|exact H].
      destruct (I q (or_introl eq_refl)) as [->|H]; [congruence|]. specialize (L2 _ H).
      destruct Z as [->|Z]; [lia|]. specialize (Q2 _ Z). lia.
Qed.

Section Env.
Variable e : penv.

Definition pins (vs : list nat) : list nat :=
  flat_map (fun v => match get_fixed e v with Some (_, _, Some q) => [q] | _ => [] end) vs.

Lemma fixed_fold : forall c vs p it, ok p -> it_ok c p it -> NoDup vs -> none_placed (abs p) vs ->
  match consume (pins vs) it with
  | Some it' => exists p', foldM (fixed_core e (fst (c_xy c)) (snd (c_xy c))) (p, it) vs = Ok (p', it')
  | None => foldM (fixed_core e (fst (c_xy c)) (snd (c_xy c))) (p, it) vs = Err ConfigurationException
  end.
Proof.
  intros c. induction vs as [|v vs IH]; intros p it O I ND NP; cbn [pins flat_map foldM consume]; [eauto|].
  fold (pins vs). unfold fixed_core at 1 3. inversion ND as [|? ? NI ND2]; subst.
  pose proof (Forall_inv_tail NP) as NP2.
  destruct (get_fixed e v) as [((lx, ly), [q|])|] eqn:GF; cbn [app consume bind].
  - destruct (it_find q it) as [it'|] eqn:F; cbn [bind]; [|reflexivity].
    apply it_find_spec in F. destruct F as (pre & ->).
    assert (AD : wp (lift_add (add_placement p (mkPl v (fst (c_xy c)) (snd (c_xy c)) q)))
                   (fun p' => ok p' /\ abs p' = abs p ++ [mkPl v (fst (c_xy c)) (snd (c_xy c)) q]) (fun _ => False)).
    { apply add_wp; [assumption|..]; cbn [pl_x pl_y pl_p pl_v].
      - auto.
      - intro X. destruct I as (_ & I). destruct (I q) as (_ & Y); [|contradiction].
        apply in_app_iff. right. now left.
      - intro X. apply Forall_inv in NP. contradiction. }
    destruct (lift_add _) as [p'|x]; cbn [wp bind] in *; [|contradiction]. destruct AD as (O' & A').
    apply IH; [exact O'| |exact ND2|].
    + eapply it_ok_add; eassumption.
    + apply Forall_forall. intros w Wv. unfold none_placed in NP2. rewrite Forall_forall in NP2.
      eapply not_placed_add; [exact A'|auto|]. cbn [pl_v]. intros ->. contradiction.
  - exact (IH p it O I ND2 NP2).
  - exact (IH p it O I ND2 NP2).
Qed.

Lemma free_fold : forall c vs p it, ok p -> it_ok c p it -> NoDup vs ->
  none_placed (abs p) (filter (fun v => negb (pinned e v)) vs) ->
  if Nat.leb (length (filter (fun v => negb (pinned e v)) vs)) (length it)
  then exists r, foldM (free_core e (fst (c_xy c)) (snd (c_xy c))) (p, it) vs = Ok r
  else foldM (free_core e (fst (c_xy c)) (snd (c_xy c))) (p, it) vs = Err ConfigurationException.
Proof.
  intros c. induction vs as [|v vs IH]; intros p it O I ND NP; cbn [filter foldM length Nat.leb]; [eauto|].
  inversion ND as [|? ? NI ND2]; subst. cbn [filter] in NP.
  assert (PV : pinned e v = match get_fixed e v with Some (_, _, Some _) => true | _ => false end) by reflexivity.
  unfold free_core at 1 3. rewrite PV in *. clear PV.
  assert (STEP : forall q it', it = q :: it' -> none_placed (abs p) (v :: filter (fun v => negb (pinned e v)) vs) ->
    exists p', lift_add (add_placement p (mkPl v (fst (c_xy c)) (snd (c_xy c)) q)) = Ok p' /\ ok p' /\ it_ok c p' it' /\
      none_placed (abs p') (filter (fun v => negb (pinned e v)) vs)).
  { intros q it' -> NP1. pose proof (Forall_inv_tail NP1) as NP2.
    assert (AD : wp (lift_add (add_placement p (mkPl v (fst (c_xy c)) (snd (c_xy c)) q)))
                   (fun p' => ok p' /\ abs p' = abs p ++ [mkPl v (fst (c_xy c)) (snd (c_xy c)) q]) (fun _ => False)).
    { apply add_wp; [assumption|..]; cbn [pl_x pl_y pl_p pl_v].
      - auto.
      - intro X. destruct I as (_ & I). destruct (I q) as (_ & Y); [now left|contradiction].
      - intro X. apply Forall_inv in NP1. contradiction. }
    destruct (lift_add _) as [p'|x]; cbn [wp] in *; [|contradiction]. destruct AD as (O' & A').
    exists p'. split; [reflexivity|]. split; [exact O'|]. split; [eapply (it_ok_add c p p' []); eassumption|].
    apply Forall_forall. intros w Wv. rewrite Forall_forall in NP2.
    eapply not_placed_add; [exact A'|auto|]. cbn [pl_v]. intros ->. apply filter_In in Wv. tauto. }
  destruct (get_fixed e v) as [((lx, ly), [q|])|] eqn:GF; cbn [negb length bind] in *.
  - exact (IH p it O I ND2 NP).
  - destruct it as [|q it]; cbn [length Nat.leb bind]; [reflexivity|].
    destruct (STEP q it eq_refl NP) as (p' & -> & O' & I' & NP'). cbn [bind]. exact (IH p' it O' I' ND2 NP').
  - destruct it as [|q it]; cbn [length Nat.leb bind]; [reflexivity|].
    destruct (STEP q it eq_refl NP) as (p' & -> & O' & I' & NP'). cbn [bind]. exact (IH p' it O' I' ND2 NP').
Qed.

(** The free cores of a chip in the order in which they are tried. *)
Definition tried (l : list placement) (xy : nat * nat) (c : chip) : list nat :=
  pe_set_order e (filter (fun q => negb (existsb (Nat.eqb q) (map pl_p (filter (on xy) l)))) (c_procs c)).

Lemma do_fixed_exact : wf_machine e -> set_ok e -> forall p vs x y o c, ok p -> NoDup vs -> none_placed (abs p) vs ->
  first_fixed e vs = Some (x, y, o) -> m_chip (pe_machine e) (x, y) = Some c ->
  match do_fixed e p vs with
  | Ok _ => exists r, consume (pins vs) (tried (abs p) (x, y) c) = Some r /\
                      length (filter (fun v => negb (pinned e v)) vs) <= length r
  | Err x' => x' = ConfigurationException /\
              ~ exists r, consume (pins vs) (tried (abs p) (x, y) c) = Some r /\
                          length (filter (fun v => negb (pinned e v)) vs) <= length r
  end.
Proof.
  intros W SO p vs x y o c O ND NP FF M. unfold do_fixed. rewrite FF, M.
  assert (CX : c_xy c = (x, y)) by apply (W _ _ M).
  destruct (on_chip p (x, y)) as (p1, pls) eqn:OC. apply on_chip_ok in OC; [|assumption].
  destruct OC as (O1 & A1 & _ & PL). rewrite PL. fold (tried (abs p) (x, y) c).
  assert (I1 : it_ok c p1 (tried (abs p) (x, y) c)).
  { pose proof (SO (filter (fun q => negb (existsb (Nat.eqb q) (map pl_p (filter (on (x, y)) (abs p))))) (c_procs c))) as PM.
    fold (tried (abs p) (x, y) c) in PM. split.
    - eapply Permutation_NoDup; [apply Permutation_sym; exact PM|]. apply NoDup_filter. apply (W _ _ M).
    - intros z Z. apply (Permutation_in _ PM) in Z. apply filter_In in Z. destruct Z as (Z1 & Z2). split; [assumption|].
      intros (pl & P1 & P2 & P3 & P4). rewrite CX in P2, P3. cbn [fst snd] in P2, P3. apply Bool.negb_true_iff in Z2.
      assert (X : existsb (Nat.eqb z) (map pl_p (filter (on (x, y)) (abs p))) = true); [|congruence].
      apply existsb_exists. exists z. split; [|apply Nat.eqb_refl]. apply in_map_iff. exists pl.
      split; [assumption|]. apply filter_In. rewrite <- A1. split; [assumption|]. apply xy_eqb_spec. congruence. }
  assert (NP1 : none_placed (abs p1) vs) by (rewrite A1; exact NP).
  pose proof (fixed_core_wp e c vs p1 _ O1 I1) as F1. pose proof (fixed_fold c vs p1 _ O1 I1 ND NP1) as G1.
  rewrite CX in F1, G1. cbn [fst snd] in F1, G1.
  destruct (consume (pins vs) (tried (abs p) (x, y) c)) as [it2|] eqn:CO.
  2:{ rewrite G1. cbn [bind]. split; [reflexivity|]. intros (r & R & _). discriminate. }
  destruct G1 as (p2 & G1). rewrite G1 in F1 |- *. cbn [wp bind fst snd] in F1 |- *.
  destruct F1 as (O2 & I2 & m1 & M1 & M2 & M3).
  assert (NP2 : none_placed (abs p2) (filter (fun v => negb (pinned e v)) vs)).
  { rewrite M1. apply Forall_forall. intros v V.
    apply filter_In in V. destruct V as (V1 & V2). unfold none_placed in NP1. rewrite Forall_forall in NP1.
    intros (pl & P1 & P2). apply in_app_iff in P1. destruct P1 as [P1|P1].
    - apply (NP1 v V1). exists pl. auto.
    - assert (X : In v (map pl_v m1)) by (apply in_map_iff; eauto). rewrite M2 in X. apply filter_In in X.
      destruct X as (_ & X). rewrite X in V2. discriminate. }
  pose proof (free_fold c vs p2 it2 O2 I2 ND NP2) as G2. rewrite CX in G2. cbn [fst snd] in G2.
  destruct (Nat.leb_spec (length (filter (fun v => negb (pinned e v)) vs)) (length it2)) as [L|L].
  - destruct G2 as ((p3, it3) & ->). cbn [bind]. eauto.
  - rewrite G2. cbn [bind]. split; [reflexivity|]. intros (r & [= <-] & R). lia.
Qed.

Lemma first_fixed_at : forall vs x y, (exists v o, In v vs /\ get_fixed e v = Some (x, y, o)) ->
  (forall v x' y' o, In v vs -> get_fixed e v = Some (x', y', o) -> (x', y') = (x, y)) ->
  exists o, first_fixed e vs = Some (x, y, o).
Proof.
  induction vs as [|v vs IH]; intros x y (w & o & I & F) A; [destruct I|]. cbn [first_fixed].
  destruct (get_fixed e v) as [((x', y'), o')|] eqn:GF.
  - exists o'. now rewrite (A v x' y' o' (or_introl eq_refl) GF).
  - destruct I as [->|I]; [congruence|]. apply IH; [eauto|]. intros z x' y' o' Z. apply (A z). now right.
Qed.

Lemma fixed_group_exact : wf_machine e -> set_ok e -> forall sys l vs s x y c, made l sys -> vs <> [] -> NoDup vs ->
  (forall v, In v vs -> pe_virtual e v = false /\ ~ vplaced l v) ->
  (exists v o, In v vs /\ get_fixed e v = Some (x, y, o)) ->
  (forall v x' y' o, In v vs -> get_fixed e v = Some (x', y', o) -> (x', y') = (x, y)) ->
  m_chip (pe_machine e) (x, y) = Some c ->
  match fixed_group e sys (vs, s) with
  | Ok _ => exists pre suf, tried l (x, y) c = pre ++ suf /\ subseq (pins vs) pre /\
              length (filter (fun v => negb (pinned e v)) vs) <= length suf
  | Err x' => x' = ConfigurationException /\
              ~ exists pre suf, tried l (x, y) c = pre ++ suf /\ subseq (pins vs) pre /\
                  length (filter (fun v => negb (pinned e v)) vs) <= length suf
  end.
Proof.
  intros W SO sys l vs s x y c MD NE ND RV EX AG M. destruct (made_ok _ _ MD) as (O & A).
  unfold fixed_group. cbn [fst]. pose proof (filter_vertices_wp e sys vs O) as F. rewrite A in F.
  destruct (filter_vertices e sys vs) as [todo|ex]; cbn [wp bind] in *.
  2:{ destruct F as (_ & (v & V & X) & _). destruct (RV v V). contradiction. }
  assert (T : none_placed l vs /\ todo = vs).
  { destruct F as [(X & _)|(X & ->)].
    - destruct vs as [|v vs]; [congruence|]. apply Forall_inv in X. destruct (RV v (or_introl eq_refl)). contradiction.
    - split; [exact X|]. clear - RV. induction vs as [|v vs IH]; [reflexivity|]. cbn [filter].
      replace (real e v) with true by (symmetry; apply real_true, (RV v (or_introl eq_refl))).
      f_equal. apply IH. intros w H. apply RV. now right. }
  destruct T as (NP & ->). destruct (first_fixed_at vs x y EX AG) as (o & FF).
  assert (NP1 : none_placed (abs sys) vs) by (rewrite A; exact NP).
  pose proof (do_fixed_exact W SO sys vs x y o c O ND NP1 FF M) as D. rewrite A in D.
  destruct (do_fixed e sys vs) as [p|x'].
  - apply consume_iff. exact D.
  - destruct D as (-> & D). split; [reflexivity|]. intro X. apply D, consume_iff, X.
Qed.
End Env.
