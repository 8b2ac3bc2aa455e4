(** An application vertex with many machine vertices that need little SDRAM: the search
    over neighbouring chips finds all cores that can be reached. *)
From Coq Require Import List Arith ZArith QArith Bool Lia Permutation Sorted.
From Verif Require Import Base Dict SdramModel SdramProofs SdramBelow PlacementsModel PlacementsProofs PlacerModel PlacerProofs PlacerFinal PlacerFixed PlacerTotal PlacerProps Counted.
Import ListNotations.
Local Open Scope nat_scope.

(** One group for each machine vertex (abstract_splitter_common.py 198-210). *)
Definition singles (e : penv) (vs : list nat) : list (list nat * sdram) := map (fun v => ([v], pe_sdram e v)) vs.
Definition many (e : penv) (vs : list nat) : appv := mkApp None vs (singles e vs).

(** * All neighbours are remembered *)
Section Near.
Variable e : penv.
Hypothesis W : wf_machine e.

Lemma add_neighbour_all : forall s s' d, NInv e s -> add_neighbour e s d = Ok s' ->
  NInv e s' /\ nframe s s' /\ (forall t, In t (near s) -> In t (near s')) /\
  forall t, mchip e t -> c_xy t = d -> In t (s_full s) \/ In t (s_prep s) \/ In t (near s').
Proof.
  intros s s' d N H. pose proof (add_neighbour_wp e W s d N) as P. rewrite H in P. cbn [wp] in P.
  destruct P as (N' & F & _). split; [exact N'|]. split; [exact F|].
  unfold add_neighbour in H. destruct (m_chip (pe_machine e) d) as [t0|] eqn:M; [|discriminate].
  assert (T0 : mchip e t0) by (unfold mchip; destruct (W _ _ M) as (-> & _); exact M).
  assert (TE : forall t, mchip e t -> c_xy t = d -> t = t0) by (intros t T X; unfold mchip in T; rewrite X in T; congruence).
  destruct (chip_mem t0 (s_full s)) eqn:MF; cbn [orb] in H.
  { injection H as <-. split; [auto|]. intros t T X. rewrite (TE t T X). left. apply (chip_mem_In e); auto. apply N. }
  destruct (chip_mem t0 (s_prep s)) eqn:MP.
  { injection H as <-. split; [auto|]. intros t T X. rewrite (TE t T X). right. left. apply (chip_mem_In e); auto. apply N. }
  unfold near. destruct (xy_eqb (c_eth t0) (s_eth s)); injection H as <-; cbn [set_neighbours s_same s_other].
  - split.
    + intros t. rewrite !in_app_iff. intros [T|T]; [left|right; exact T]. apply (chip_add_In e); [exact T0|apply N|auto].
    + intros t T X. rewrite (TE t T X). right. right. apply in_app_iff. left. apply (chip_add_In e); [exact T0|apply N|auto].
  - split.
    + intros t. rewrite !in_app_iff. intros [T|T]; [left; exact T|right]. apply (chip_add_In e); [exact T0|apply N|auto].
    + intros t T X. rewrite (TE t T X). right. right. apply in_app_iff. right. apply (chip_add_In e); [exact T0|apply N|auto].
Qed.

Lemma add_neighbours_all : forall ds s s', NInv e s -> foldM (add_neighbour e) s ds = Ok s' ->
  NInv e s' /\ nframe s s' /\ (forall t, In t (near s) -> In t (near s')) /\
  forall t, mchip e t -> In (c_xy t) ds -> In t (s_full s) \/ In t (s_prep s) \/ In t (near s').
Proof.
  induction ds as [|d ds IH]; intros s s' N H; cbn [foldM] in H.
  - injection H as <-. split; [exact N|]. split; [apply nframe_refl|]. split; [auto|]. intros t _ [].
  - destruct (add_neighbour e s d) as [s1|x] eqn:E; cbn [bind] in H; [|discriminate].
    destruct (add_neighbour_all s s1 d N E) as (N1 & F1 & M1 & A1).
    destruct (IH s1 s' N1 H) as (N2 & F2 & M2 & A2).
    split; [exact N2|]. split; [eapply nframe_trans; eassumption|]. split; [auto|].
    destruct F1 as (_ & _ & F1 & F1' & _).
    intros t T [X|X].
    + destruct (A1 t T (eq_sym X)) as [Y|[Y|Y]]; auto.
    + destruct (A2 t T X) as [Y|[Y|Y]]; [left; congruence|right; left; congruence|auto].
Qed.

Lemma pop_neighbour_all : forall s s' c, pop_neighbour s = (s', Some c) ->
  forall t, In t (near s) -> t = c \/ In t (near s').
Proof.
  intros s s' c. unfold pop_neighbour, near. destruct (s_same s) as [|d r] eqn:ES.
  - destruct (s_other s) as [|d r] eqn:EO; [discriminate|]. intro H. injection H as <- <-.
    cbn [set_neighbours s_same s_other app]. intros t [->|T]; [auto|]. right. apply in_app_iff.
    destruct (xy_eqb (c_eth t) (c_eth d)) eqn:B; [left|right]; apply filter_In; rewrite B; auto.
  - intro H. injection H as <- <-. cbn [set_neighbours s_same s_other app]. intros t [->|T]; auto.
Qed.

(** What an accepted chip gives. *)
Lemma space_all : forall s s' c n q, NInv e s -> mchip e c -> ~ In c (near s) ->
  space_on_chip e s c n q = Ok (s', true) ->
  length (c_procs c) = length (s_free s') + length (used_on (abs (s_pls s)) c) /\
  length (used_on (abs (s_pls s)) c) <> length (c_procs c) /\
  sum_le e (reqs_on e (abs (s_pls s)) c) (cap_sdram e) /\
  (forall t, In t (near s) -> In t (near s')) /\
  forall t, mchip e t -> In (c_xy t) (c_links c) -> In t (s_full s) \/ t = c \/ In t (s_prep s) \/ In t (near s').
Proof.
  intros s s' c n q N C D H. unfold space_on_chip in H.
  destruct (on_chip (s_pls s) (c_xy c)) as (p', pls) eqn:OC.
  destruct (on_chip_ok _ _ _ _ (ni_ok _ s N) OC) as (O' & A' & V' & ->). clear OC.
  cbn [set_pls s_pls s_full] in H.
  destruct (Nat.eqb_spec (length (filter (on (c_xy c)) (abs (s_pls s)))) (length (c_procs c))) as [EL|NL]; [discriminate|].
  assert (NP : NoDup (c_procs c)) by apply (W _ _ C).
  pose proof (take_core_spec e (filter (on (c_xy c)) (abs (s_pls s))) (c_procs c) (Const 0) NP
    (used_on_NoDup _ _ (ni_ok _ s N))) as T.
  change (foldM add (Const 0) (reqs e (filter (on (c_xy c)) (abs (s_pls s))))) with (sum (reqs_on e (abs (s_pls s)) c)) in T.
  destruct (foldM (take_core e) (c_procs c, Const 0) (filter (on (c_xy c)) (abs (s_pls s)))) as [(free, used)|x];
    cbn [wp fst snd bind] in *; [|discriminate].
  destruct T as (T1 & T2 & T3 & T4).
  destruct (total (pe_steps e) used) as [plan|x] eqn:TU; cbn [bind] in H; [|discriminate].
  destruct (Z.ltb (cap_sdram e) plan) eqn:CAP; [discriminate|]. apply Z.ltb_ge in CAP.
  destruct (add used q) as [both|x]; cbn [bind] in H; [|discriminate].
  destruct (total (pe_steps e) both) as [plan2|x]; cbn [bind] in H; [|discriminate].
  destruct (Nat.ltb (length free) n || Z.ltb (c_sdram c) plan2).
  { destruct (check_could_fit e n q); discriminate. }
  match type of H with bind ?r _ = _ => destruct r as [s2|x] eqn:AN; cbn [bind] in H; [|discriminate] end.
  injection H as <-. unfold add_neighbours in AN. apply add_neighbours_all in AN.
  - cbn [set_current set_prep set_pls s_pls s_full s_prep s_rest s_tried s_chips s_same s_other s_cur s_free s_eth near] in AN.
    destruct AN as (_ & FR & M & AL).
    assert (SF : s_free s2 = free) by apply FR.
    assert (LU : length (used_on (abs (s_pls s)) c) = length (filter (on (c_xy c)) (abs (s_pls s)))) by (unfold used_on; apply map_length).
    rewrite SF, LU. split; [lia|]. split; [lia|]. split; [exists used, plan; auto|]. split; [exact M|].
    intros t TT L. destruct (AL t TT L) as [X|[X|X]]; auto.
    cbn [set_current set_prep set_pls s_prep] in X. apply (chip_add_In e) in X; [|exact C|apply N]. tauto.
  - destruct N as [n1 n2 n3 n4 n5 n6 n7 n8 n9 n10 n11 n12 n13 n14].
    constructor; cbn [set_current set_prep set_pls s_pls s_full s_prep s_rest s_tried s_chips s_same s_other s_cur s_eth] in *; auto.
    + now apply chip_add_Forall.
    + intros d [= <-]. exact C.
    + intros d I J. apply (chip_add_In e) in J; [|assumption..]. destruct J as [->|J]; [contradiction|]. now apply (n14 d).
Qed.
End Near.

(** * The search *)
Section Search.
Variable e : penv.
Hypothesis W : wf_machine e.
Hypothesis LO : links_ok e.
Variable A : list placement.
Hypothesis PA : placable e A.
Variable s0 : Z.
Hypothesis S0 : (0 <= s0)%Z.
Hypothesis LI : forall v, light e s0 (pe_sdram e v).
Hypothesis BIG : (s0 <= max_sdram e)%Z.
Hypothesis K1 : (1 <= max_cores e)%Z.

(** A chip with a free core that does not count as full, and its free cores. *)
Definition openc (c : chip) : Prop :=
  mchip e c /\ length (used_on A c) < length (c_procs c) /\ sum_le e (reqs_on e A c) (cap_sdram e).
Definition fr (c : chip) : nat := length (c_procs c) - length (used_on A c).
Definition frees (l : list chip) : nat := fold_right (fun c n => fr c + n) 0 l.
Hypothesis SP : forall c, openc c -> sum_le e (reqs_on e A c) (c_sdram c - Z.of_nat (fr c) * s0).

Lemma search_coh : coh e.
Proof.
  apply fit_coh. split.
  - intro v. destruct (LI v) as (P & z & T & _). split; [now apply plain_wf|eauto].
  - intros v v' a x y I1. destruct (LI v) as (P & _). rewrite (plain_shared _ P) in I1. destruct I1.
Qed.
Lemma search_okq : forall v, okq e (pe_sdram e v).
Proof. intro v. apply U_from; [exact search_coh|]. exists v. reflexivity. Qed.
Lemma search_fits : forall v, fits e 1 (pe_sdram e v).
Proof. intro v. destruct (LI v) as (_ & z & T & L). split; [exists z; split; [exact T|lia]|lia]. Qed.

Lemma reqs_plain : forall c, Forall plain (reqs_on e A c).
Proof.
  intro c. unfold reqs_on, reqs. apply Forall_forall. intros q Q. apply in_map_iff in Q. destruct Q as (pl & <- & _). apply LI.
Qed.

Lemma open_snoc : forall c v, openc c -> exists r x, sum (reqs_on e A c ++ [pe_sdram e v]) = Ok r /\ plain r /\
  total (pe_steps e) r = Ok x /\ (x + Z.of_nat (fr c - 1) * s0 <= c_sdram c)%Z.
Proof.
  intros c v O. destruct (SP c O) as (r & x & R & X & L). pose proof (sum_plain _ _ (reqs_plain c) R) as P.
  destruct (fold_light e s0 [pe_sdram e v] r x P X) as (r2 & y & R2 & P2 & Y & B); [constructor; [apply LI|constructor]|].
  exists r2, y. split; [rewrite sum_app, R; exact R2|]. split; [exact P2|]. split; [exact Y|].
  destruct O as (_ & O & _). unfold fr in *. cbn [length] in B. nia.
Qed.

Lemma room_open : forall c v, openc c -> room e A c 1 (pe_sdram e v).
Proof.
  intros c v O. destruct (open_snoc c v O) as (r & x & R & _ & X & L). destruct O as (_ & O1 & O2).
  split; [lia|]. split; [exact O2|]. exists r, x. split; [exact R|]. split; [exact X|]. nia.
Qed.

Lemma full_closed : forall c, is_full e A c -> ~ openc c.
Proof. intros c [F|F] (_ & O1 & O2); [lia|]. exact (sum_le_gt _ _ _ O2 F). Qed.

(** [V]: the chips accepted so far; [h]: a chip just taken from the neighbours. *)
Record J (V : list chip) (h : list chip) (s : st) : Prop := mkJ {
  j_n : NInv e s;
  j_abs : abs (s_pls s) = A;
  j_full : forall d, In d (s_full s) -> ~ openc d;
  j_prep : forall d, In d (s_prep s) -> In d V \/ ~ openc d;
  j_nd : NoDup V;
  j_open : forall d, In d V -> openc d /\ In d (s_prep s);
  j_links : forall d t, In d V -> openc t -> In (c_xy t) (c_links d) -> In t V \/ In t (near s) \/ In t h }.

Record ready (s : st) (c : chip) : Prop := mkReady {
  rd_cur : s_cur s = Some c;
  rd_free : length (s_free s) = fr c;
  rd_used : exists x, plain (s_used s) /\ total (pe_steps e) (s_used s) = Ok x /\
    (x + Z.of_nat (fr c - 1) * s0 <= c_sdram c)%Z }.

Lemma try_chip : forall V s c v, J V [c] s -> mchip e c -> ~ In c (near s) -> ~ In c V ->
  exists s' b, space_on_chip e s c 1 (pe_sdram e v) = Ok (s', b) /\ frame s s' /\
    if b then openc c /\ J (c :: V) [] s' /\ ready s' c
    else ~ openc c /\ J V [] s' /\ near s' = near s.
Proof.
  intros V s c v [j1 j2 j3 j4 j5 j6 j7] C NN NV.
  pose proof (space_on_chip_wp e W s c 1 (pe_sdram e v) j1 C NN) as P.
  destruct (space_on_chip e s c 1 (pe_sdram e v)) as [(s', b)|x] eqn:E; cbn [wp fst snd] in P.
  2:{ exfalso. rewrite j2 in P. destruct (P LO PA) as [(_ & X)|(_ & X)].
      - apply X. split; [exact search_coh|apply search_okq].
      - apply X, search_fits. }
  destruct P as (N' & F & P). exists s', b. split; [reflexivity|]. split; [exact F|].
  assert (AB : abs (s_pls s') = A) by (destruct F as (F & _); congruence).
  destruct b.
  - destruct (space_all e W s s' c 1 (pe_sdram e v) j1 C NN E) as (B1 & B2 & B3 & B4 & B5). rewrite j2 in *.
    destruct P as (P1 & P2 & P3 & P4 & P5 & P6 & P7 & P8 & P9). rewrite j2 in *.
    assert (OC : openc c) by (split; [exact C|]; split; [lia|exact B3]).
    split; [exact OC|]. split.
    + constructor; auto.
      * rewrite P1. exact j3.
      * intros d D. apply P2 in D. destruct D as [->|D]; [left; left; reflexivity|]. destruct (j4 d D); [left; right; assumption|auto].
      * constructor; assumption.
      * intros d [<-|D]; [split; [exact OC|apply P2; auto]|]. destruct (j6 d D). split; [assumption|apply P2; auto].
      * intros d t [<-|D] T L.
        -- destruct (B5 t (proj1 T) L) as [X|[->|[X|X]]].
           ++ exfalso. exact (j3 t X T).
           ++ left. left. reflexivity.
           ++ destruct (j4 t X) as [Y|Y]; [left; right; exact Y|contradiction].
           ++ right. left. exact X.
        -- destruct (j7 d t D T L) as [X|[X|[<-|[]]]]; [left; right; exact X|right; left; auto|left; left; reflexivity].
    + destruct (open_snoc c v OC) as (r & x & R & PR & X & LX). constructor; [exact P3| |].
      * unfold fr. lia.
      * assert (r = s_used s') by congruence. subst r. exists x. auto.
  - destruct P as (R1 & R2 & R3 & R4 & R5 & R6 & R7 & R8 & R9 & R10). rewrite j2 in *.
    assert (NO : ~ openc c) by (intro O; apply (R10 ltac:(lia)); now apply room_open).
    assert (NE : near s' = near s) by (unfold near; rewrite R4, R5; reflexivity).
    split; [exact NO|]. split; [|exact NE]. constructor; auto.
    + intros d D. apply R7 in D. destruct D as [D|(-> & D)]; [auto|assumption].
    + intros d D. apply R9 in D. destruct D as [D| ->]; auto.
    + intros d D. destruct (j6 d D). auto.
    + intros d t D T L. rewrite NE. destruct (j7 d t D T L) as [X|[X|[<-|[]]]]; auto. contradiction.
Qed.

(** What stays when the search goes on from neighbour to neighbour. *)
Definition stays (s s' : st) : Prop :=
  s_rest s' = s_rest s /\ s_chips s' = s_chips s /\ s_tried s' = s_tried s.

Lemma neighbour_loop_all : forall v fuel V s, J V [] s -> length (near s) < fuel ->
  exists s' o, neighbour_loop fuel e s 1 (pe_sdram e v) = Ok (s', o) /\ stays s s' /\
    match o with
    | None => J V [] s' /\ near s' = []
    | Some c => ~ In c V /\ J (c :: V) [] s' /\ ready s' c
    end.
Proof.
  intros v. induction fuel as [|k IH]; intros V s JJ L; [lia|]. cbn [neighbour_loop].
  destruct (pop_neighbour s) as (s1, [c|]) eqn:P.
  2:{ apply pop_neighbour_None in P. destruct P as (-> & P). exists s, None. split; [reflexivity|].
      split; [unfold stays; auto|]. auto. }
  pose proof (pop_neighbour_all s s1 c P) as AL. apply (pop_neighbour_Some e) in P; [|apply JJ].
  destruct P as (N1 & (F1 & F2 & F3 & F4 & F5 & F6 & F7 & F8 & F9) & C & I & NI & SUB & LEN).
  assert (NV : ~ In c V).
  { intro X. destruct (j_open _ _ _ JJ c X) as (_ & Y). exact (ni_dis _ _ (j_n _ _ _ JJ) c I Y). }
  assert (J1 : J V [c] s1).
  { destruct JJ as [j1 j2 j3 j4 j5 j6 j7]. constructor; auto; rewrite ?F1, ?F2, ?F3; auto.
    intros d t D T TL. destruct (j7 d t D T TL) as [X|[X|[]]]; [auto|]. destruct (AL t X) as [->|Y]; [right; right; left; reflexivity|auto]. }
  destruct (try_chip V s1 c v J1 C NI NV) as (s2 & b & E & (G1 & G2 & G3 & G4 & G5) & R).
  rewrite E. cbn [bind].
  assert (ST : stays s s2) by (unfold stays; rewrite G2, G3, G4, F7, F8, F9; auto).
  destruct b.
  - exists s2, (Some c). split; [reflexivity|]. split; [exact ST|]. destruct R as (_ & R1 & R2). auto.
  - destruct R as (_ & R1 & R2). destruct (IH V s2 R1) as (s3 & o & E3 & (T1 & T2 & T3) & R3); [rewrite R2; lia|].
    exists s3, o. split; [exact E3|]. split; [|exact R3]. destruct ST as (U1 & U2 & U3). unfold stays. rewrite T1, T2, T3. auto.
Qed.

(** ** From a start *)
(** [m] placements made so far. *)
Record P1 (V : list chip) (c : chip) (m : nat) (s : st) : Prop := mkP1 {
  p1_j : J V [] s;
  p1_in : In c V;
  p1_cur : s_cur s = Some c;
  p1_count : m + length (s_free s) = frees V;
  p1_used : exists x, plain (s_used s) /\ total (pe_steps e) (s_used s) = Ok x /\
    (x + Z.of_nat (length (s_free s)) * s0 <= c_sdram c)%Z }.

Lemma set_current_J : forall V s f u, J V [] s -> J V [] (set_current s (s_cur s) f u).
Proof.
  intros V s f u [j1 j2 j3 j4 j5 j6 j7]. constructor; auto.
  destruct j1 as [n1 n2 n3 n4 n5 n6 n7 n8 n9 n10 n11 n12 n13 n14].
  constructor; cbn [set_current s_pls s_full s_prep s_rest s_tried s_chips s_same s_other s_cur s_eth]; auto.
Qed.

Definition placed_A (v : nat) : Prop := pe_virtual e v = false /\ ~ vplaced A v.

Lemma filter_one : forall s v, ok (s_pls s) -> abs (s_pls s) = A -> placed_A v -> filter_vertices e (s_pls s) [v] = Ok [v].
Proof.
  intros s v O AB (V1 & V2). pose proof (filter_vertices_wp e (s_pls s) [v] O) as F. rewrite AB in F.
  destruct (filter_vertices e (s_pls s) [v]) as [todo|x]; cbn [wp] in F.
  - destruct F as [(X & _)|(_ & ->)]; [apply Forall_inv in X; contradiction|]. cbn [filter]. unfold real. now rewrite V1.
  - exfalso. destruct F as (_ & (w & [<-|[]] & X) & _). contradiction.
Qed.

Lemma take_one : forall c p f v, take_cores c (p :: f) [v] = Ok (f, [mkPl v (fst (c_xy c)) (snd (c_xy c)) p]).
Proof. intros c p f v. destruct f; reflexivity. Qed.

(** After a core was taken on the chip that [next_chip] gave. *)
Lemma take_ready : forall V s c m v, J V [] s -> In c V -> ready s c -> m + fr c = frees V -> openc c ->
  exists p f, take_cores c (s_free s) [v] = Ok (f, [mkPl v (fst (c_xy c)) (snd (c_xy c)) p]) /\
    P1 V c (S m) (set_current s (s_cur s) f (s_used s)).
Proof.
  intros V s c m v JJ I [R1 R2 R3] CT (_ & O & _).
  destruct (s_free s) as [|p f] eqn:F; [unfold fr in R2; cbn [length] in R2; lia|].
  exists p, f. split; [apply take_one|]. constructor; [now apply set_current_J|exact I|exact R1| |].
  - cbn [set_current s_free length] in *. lia.
  - destruct R3 as (x & X1 & X2 & X3). exists x. cbn [set_current s_free s_used]. split; [exact X1|]. split; [exact X2|].
    cbn [length] in R2. replace (length f) with (fr c - 1) by lia. exact X3.
Qed.

Lemma prepare_loop_all : forall vs V c m made s, P1 V c m s -> (forall v, In v vs -> placed_A v) ->
  exists s' o, prepare_loop e s made (singles e vs) = Ok (s', o) /\ stays s s' /\ 
    (exists V', (forall d, In d V -> In d V') /\ J V' [] s' /\
      (o = None -> frees V' < m + length vs /\ near s' = [])).
Proof.
  induction vs as [|v vs IH]; intros V c m made s P HV.
  - exists s, (Some made). split; [reflexivity|]. split; [unfold stays; auto|]. exists V. split; [auto|]. split; [apply P|]. discriminate.
  - destruct P as [JJ I CU CT (x & PL & T & LX)]. cbn [singles map prepare_loop].
    rewrite (filter_one s v (ni_ok _ _ (j_n _ _ _ JJ)) (j_abs _ _ _ JJ) (HV v (or_introl eq_refl))). cbn [bind length].
    unfold next_chip. rewrite CU.
    destruct (LI v) as (PV & z & TV & LV).
    destruct (add_plain (pe_sdram e v) (s_used s) PV PL) as (b & AB & PB & _).
    destruct (total_bounds _ _ b (pe_steps e) z x PV PL AB TV T) as (y & TY & BY & _).
    rewrite AB. cbn [bind]. rewrite TY. cbn [bind].
    destruct (s_free s) as [|p f] eqn:F.
    + cbn [length Nat.leb andb]. unfold get_next_neighbour.
      destruct (neighbour_loop_all v (S (length (s_same s) + length (s_other s))) V s JJ) as (s1 & o & E & (ST1 & ST2 & ST3) & R).
      { unfold near. rewrite app_length. lia. }
      rewrite E. cbn [bind]. destruct o as [d|].
      * destruct R as (R1 & R2 & R3).
        assert (OD : openc d) by (apply (j_open _ _ _ R2); left; reflexivity).
        destruct (take_ready (d :: V) s1 d m v R2 (or_introl eq_refl) R3) as (p & f & TC & P2).
        { cbn [frees fold_right] in *. fold (frees V) in *. cbn [length] in CT. lia. }
        { exact OD. }
        rewrite TC. cbn [bind].
        destruct (IH (d :: V) d (S m) (made ++ [mkPl v (fst (c_xy d)) (snd (c_xy d)) p]) _ P2) as (s2 & o2 & E2 & (T1 & T2 & T3) & V' & Q1 & Q2 & Q3).
        { intros w H. apply HV. right. exact H. }
        exists s2, o2. split; [exact E2|]. split; [unfold stays; cbn [set_current s_rest s_chips s_tried] in *; rewrite T1, T2, T3; auto|].
        exists V'. split; [intros u U; apply Q1; right; exact U|]. split; [exact Q2|].
        intro X. destruct (Q3 X) as (Q4 & Q5). cbn [length]. split; [lia|exact Q5].
      * destruct R as (R1 & R2). exists s1, None. split; [reflexivity|]. split; [unfold stays; auto|].
        exists V. split; [auto|]. split; [exact R1|]. intros _. cbn [length] in *. split; [lia|exact R2].
    + cbn [length] in LX, CT. cbn [length Nat.leb andb]. rewrite Nat2Z.inj_succ in LX.
      assert (LF : (0 <= Z.of_nat (length f) * s0)%Z) by (apply Z.mul_nonneg_nonneg; lia).
      rewrite Z.mul_succ_l in LX.
      destruct (Z.leb_spec y (c_sdram c)) as [LE|GT]; [|exfalso; lia]. cbn [bind set_current s_free]. rewrite take_one. cbn [bind].
      destruct (IH V c (S m) (made ++ [mkPl v (fst (c_xy c)) (snd (c_xy c)) p]) (set_current s (Some c) f b)) as (s2 & o2 & E2 & (T1 & T2 & T3) & V' & Q1 & Q2 & Q3).
      { rewrite <- CU. constructor; [now apply set_current_J|exact I|exact CU| |].
        - cbn [set_current s_free]. lia.
        - exists y. cbn [set_current s_free s_used]. split; [exact PB|]. split; [exact TY|]. lia. }
      { intros w H. apply HV. right. exact H. }
      exists s2, o2. split; [exact E2|]. split; [unfold stays; cbn [set_current s_rest s_chips s_tried] in *; rewrite T1, T2, T3; auto|].
      exists V'. split; [exact Q1|]. split; [exact Q2|]. intro X. destruct (Q3 X) as (Q4 & Q5). cbn [length]. split; [lia|exact Q5].
Qed.

(** ** One start after the other *)
Record Bs (s : st) : Prop := mkBs {
  bs_n : NInv e s;
  bs_abs : abs (s_pls s) = A;
  bs_full : forall d, In d (s_full s) -> ~ openc d }.
Definition waits (c : chip) (s : st) : Prop := In c (s_rest s) \/ In c (s_chips s).

Lemma start_loop_all : forall v c0, openc c0 -> forall fuel s, J [] [] s -> s_same s = [] -> s_other s = [] ->
  measure s < fuel -> waits c0 s ->
  exists s' c, start_loop fuel e s 1 (pe_sdram e v) = Ok (s', c) /\ openc c /\ J [c] [] s' /\ ready s' c /\
    measure s' < measure s /\ (c = c0 \/ waits c0 s').
Proof.
  intros v c0 O0. induction fuel as [|k IH]; intros s JJ SA OT L WT; [lia|]. cbn [start_loop].
  destruct JJ as [j1 j2 j3 j4 j5 j6 j7].
  pose proof (pop_start_wp e s j1) as P. destruct (pop_start s) as [(s1, c)|x]; cbn [wp bind] in P |- *.
  2:{ exfalso. destruct P as (_ & P). exact (j3 c0 (P c0 WT) O0). }
  destruct P as (N1 & (F1 & F2 & F3 & F4 & F5 & F6 & F7 & F8 & F9 & F10) & C & M1 & PL).
  remember (set_neighbours (set_starts s1 (s_chips s1) (s_rest s1) (s_tried s1 ++ [c])) (c_eth c)
             (s_same (set_starts s1 (s_chips s1) (s_rest s1) (s_tried s1 ++ [c])))
             (s_other (set_starts s1 (s_chips s1) (s_rest s1) (s_tried s1 ++ [c])))) as s2 eqn:E2.
  assert (S2 : s_same s2 = [] /\ s_other s2 = []).
  { rewrite E2. cbn [set_neighbours set_starts s_same s_other]. now rewrite F8, F9. }
  destruct S2 as (S2 & O2).
  assert (J2 : J [] [c] s2).
  { constructor.
    - destruct N1 as [n1 n2 n3 n4 n5 n6 n7 n8 n9 n10 n11 n12 n13 n14].
      constructor; rewrite ?S2, ?O2; try rewrite E2; cbn [set_neighbours set_starts s_pls s_full s_prep s_rest s_tried s_chips s_same s_other s_cur s_eth]; auto;
        try (constructor; fail).
      + apply Forall_app. split; [assumption|]. constructor; [assumption|constructor].
    - rewrite E2. cbn [set_neighbours set_starts s_pls]. congruence.
    - rewrite E2. cbn [set_neighbours set_starts s_full]. rewrite F2. exact j3.
    - rewrite E2. cbn [set_neighbours set_starts s_prep]. rewrite F3. exact j4.
    - constructor.
    - intros d [].
    - intros d t []. }
  assert (W2 : c = c0 \/ waits c0 s2).
  { destruct (PL c0 WT) as [X|[X|X]]; [exfalso; exact (j3 c0 X O0)|auto|]. right. unfold waits. rewrite E2. exact X. }
  assert (EM : measure s2 = measure s1) by (rewrite E2; reflexivity).
  destruct (try_chip [] s2 c v J2 C) as (s3 & b & E3 & (G1 & G2 & G3 & G4 & G5) & R).
  { unfold near. rewrite S2, O2. intros []. }
  { intros []. }
  rewrite E3. cbn [bind].
  assert (M3 : measure s3 = measure s2) by (unfold measure; rewrite G2, G3; reflexivity).
  assert (W3 : c = c0 \/ waits c0 s3) by (unfold waits; rewrite G2, G3; exact W2).
  destruct b.
  - destruct R as (R1 & R2 & R3). exists s3, c. split; [reflexivity|]. split; [exact R1|]. split; [exact R2|].
    split; [exact R3|]. split; [lia|exact W3].
  - destruct R as (R1 & R2 & R3). destruct W3 as [->|W3]; [contradiction|].
    assert (NE : s_same s3 ++ s_other s3 = []) by (change (near s3 = []); rewrite R3; unfold near; now rewrite S2, O2).
    apply app_eq_nil in NE. destruct NE as (NE1 & NE2).
    destruct (IH s3 R2 NE1 NE2 ltac:(lia) W3) as (s4 & d & E4 & Q1 & Q2 & Q3 & Q4 & Q5).
    exists s4, d. split; [exact E4|]. split; [exact Q1|]. split; [exact Q2|]. split; [exact Q3|]. split; [lia|exact Q5].
Qed.

Lemma prepare_all : forall c0, openc c0 -> forall s v vs, Bs s -> waits c0 s ->
  (forall w, In w (v :: vs) -> placed_A w) ->
  exists s' o, prepare e s (singles e (v :: vs)) = Ok (s', o) /\ Bs s' /\ measure s' < measure s /\
    (o = None -> (exists V, In c0 V /\ Forall (mchip e) V /\ (forall d t, In d V -> openc t -> In (c_xy t) (c_links d) -> In t V) /\
                   frees V < S (length vs)) \/ waits c0 s').
Proof.
  intros c0 O0 s v vs [b1 b2 b3] WT HV. unfold prepare. cbn [singles map prepare_loop].
  remember (set_current (set_prep s []) None (s_free s) (s_used s)) as s1 eqn:E1.
  assert (N1 : NInv e s1).
  { destruct b1 as [n1 n2 n3 n4 n5 n6 n7 n8 n9 n10 n11 n12 n13 n14]. rewrite E1.
    constructor; cbn [set_current set_prep s_pls s_full s_prep s_rest s_tried s_chips s_same s_other s_cur s_eth]; auto. discriminate. }
  assert (A1 : abs (s_pls s1) = A) by (rewrite E1; exact b2).
  rewrite (filter_one s1 v (ni_ok _ _ N1) A1 (HV v (or_introl eq_refl))). cbn [bind length].
  unfold next_chip. assert (C1 : s_cur s1 = None) by (rewrite E1; reflexivity). rewrite C1.
  unfold get_next_start.
  remember (set_neighbours s1 (s_eth s1) [] []) as s2 eqn:E2.
  assert (J2 : J [] [] s2).
  { rewrite E2. constructor; cbn [set_neighbours s_pls s_full s_prep].
    - destruct N1 as [n1 n2 n3 n4 n5 n6 n7 n8 n9 n10 n11 n12 n13 n14].
      constructor; cbn [set_neighbours s_pls s_full s_prep s_rest s_tried s_chips s_same s_other s_cur s_eth]; auto; try (constructor; fail).
    - exact A1.
    - rewrite E1. exact b3.
    - rewrite E1. intros d [].
    - constructor.
    - intros d [].
    - intros d t []. }
  assert (M2 : measure s2 = measure s) by (rewrite E2, E1; reflexivity).
  assert (W2 : waits c0 s2) by (rewrite E2, E1; exact WT).
  assert (FU : length (s_rest s1) + length (s_chips s1) = measure s2) by (rewrite E2; reflexivity).
  destruct (start_loop_all v c0 O0 (S (length (s_rest s1) + length (s_chips s1))) s2 J2) as (s3 & c & E3 & OC & J3 & R3 & M3 & W3);
    [rewrite E2; reflexivity|rewrite E2; reflexivity|lia|exact W2|].
  rewrite E3. cbn [bind].
  destruct (take_ready [c] s3 c 0 v J3 (or_introl eq_refl) R3) as (p & f & TC & P3); [cbn [frees fold_right]; lia|exact OC|].
  rewrite TC. cbn [bind app].
  destruct (prepare_loop_all vs [c] c 1 [mkPl v (fst (c_xy c)) (snd (c_xy c)) p] _ P3) as (s4 & o & E4 & (T1 & T2 & T3) & V & Q1 & Q2 & Q3).
  { intros w H. apply HV. right. exact H. }
  exists s4, o. split; [exact E4|]. split; [destruct Q2; constructor; assumption|].
  cbn [set_current s_rest s_chips] in T1, T2.
  split; [unfold measure in *; rewrite T1, T2; lia|].
  intro X. destruct (Q3 X) as (Q4 & Q5). destruct W3 as [<-|W3].
  - left. exists V. split; [apply Q1; left; reflexivity|].
    split; [apply Forall_forall; intros d D; apply (j_open _ _ _ Q2 d D)|]. split; [|lia].
    intros d t D T L. destruct (j_links _ _ _ Q2 d t D T L) as [Y|[Y|[]]]; [exact Y|]. rewrite Q5 in Y. destruct Y.
  - right. unfold waits. rewrite T1, T2. exact W3.
Qed.

Lemma frees_split : forall a c b, frees (a ++ c :: b) = fr c + frees (a ++ b).
Proof. induction a as [|x a IH]; intros c b; cbn [app frees fold_right]; [reflexivity|]. fold (frees (a ++ c :: b)) (frees (a ++ b)). rewrite IH. lia. Qed.
Lemma frees_incl : forall R V, NoDup R -> incl R V -> frees R <= frees V.
Proof.
  induction R as [|c R IH]; intros V ND IN; [cbn; lia|]. inversion ND as [|? ? NI ND2]; subst.
  destruct (in_split c V (IN c (or_introl eq_refl))) as (a & b & ->). rewrite frees_split.
  cbn [frees fold_right]. fold (frees R). apply Nat.add_le_mono_l. apply IH; [exact ND2|].
  intros d D. specialize (IN d (or_intror D)). rewrite in_app_iff in *. cbn [In] in IN.
  destruct IN as [X|[->|X]]; [auto|contradiction|auto].
Qed.

Lemma place_loop_all : forall c0 R v vs, openc c0 -> NoDup R ->
  (forall V, In c0 V -> Forall (mchip e) V -> (forall d t, In d V -> openc t -> In (c_xy t) (c_links d) -> In t V) -> incl R V) ->
  S (length vs) <= frees R -> (forall w, In w (v :: vs) -> placed_A w) ->
  forall fuel s, Bs s -> waits c0 s -> measure s < fuel ->
  exists s' m, place_loop fuel e s (singles e (v :: vs)) = Ok (s', m) /\ Bs s'.
Proof.
  intros c0 R v vs O0 ND RG LE HV. induction fuel as [|k IH]; intros s B WT L; [lia|]. cbn [place_loop].
  destruct (prepare_all c0 O0 s v vs B WT HV) as (s1 & o & E & B1 & M & H). rewrite E. cbn [bind].
  destruct o as [m|]; [exists s1, m; auto|].
  destruct (H eq_refl) as [(V & V1 & V0 & V2 & V3)|WT1].
  - exfalso. pose proof (frees_incl R V ND (RG V V1 V0 V2)). lia.
  - apply IH; [exact B1|exact WT1|lia].
Qed.
End Search.

(** * The placer *)
Section Many.
Variable e : penv.
Variable sys : placements.
Variable l : list placement.
Hypothesis W : wf_machine e.
Hypothesis SO : set_ok e.
Hypothesis MADE : made l sys.
Hypothesis LO : links_ok e.
Hypothesis PL : placable e l.
Variable s0 : Z.
Hypothesis S0 : (0 <= s0)%Z.
Hypothesis LI : forall v, light e s0 (pe_sdram e v) /\ parts_nonneg (pe_steps e) (pe_sdram e v).
Hypothesis BIG : (s0 <= max_sdram e)%Z.
Hypothesis K1 : (1 <= max_cores e)%Z.

Lemma many_coh : coh e.
Proof. apply (search_coh e s0). intro v. apply LI. Qed.

Lemma vertex_many : forall s v vs c0 R, GInv e s -> placable e (abs (s_pls s)) ->
  (forall c, openc e (abs (s_pls s)) c -> sum_le e (reqs_on e (abs (s_pls s)) c) (c_sdram c - Z.of_nat (fr (abs (s_pls s)) c) * s0)) ->
  NoDup (v :: vs) -> (forall w, In w (v :: vs) -> placed_A e (abs (s_pls s)) w) ->
  openc e (abs (s_pls s)) c0 -> In c0 (chip_order (pe_machine e)) -> NoDup R ->
  (forall V, In c0 V -> Forall (mchip e) V -> (forall d t, In d V -> openc e (abs (s_pls s)) t -> In (c_xy t) (c_links d) -> In t V) -> incl R V) ->
  S (length vs) <= frees (abs (s_pls s)) R ->
  exists s', place_vertex e s (many e (v :: vs)) = Ok s'.
Proof.
  intros s v vs c0 R G PA SP NV HV O0 CO ND RG LE.
  assert (LI' : forall w, light e s0 (pe_sdram e w)) by (intro w; apply LI).
  assert (FM : flat_map fst (singles e (v :: vs)) = v :: vs).
  { clear. unfold singles. induction (v :: vs) as [|w r IH]; [reflexivity|]. cbn [map flat_map fst app]. now rewrite IH. }
  pose proof (place_vertex_wp e W False s (many e (v :: vs)) (gi_n _ _ G) ltac:(intros [])) as PV.
  assert (NOS : forall bad, bad = NoSpace \/ bad = ConfigurationException -> place_vertex e s (many e (v :: vs)) <> Err bad).
  { intros bad BAD. clear PV. unfold place_vertex. cbn [many a_groups].
    change (match singles e (v :: vs) with [] => Ok s | _ :: _ =>
      let s1 := set_starts s (s_chips s) (s_rest s ++ s_tried s) [] in
      let* (s2, m) := place_loop (S (length (s_rest s1) + length (s_chips s1))) e s1 (singles e (v :: vs)) in
      let* p := lift_add (add_placements (s_pls s2) m) in Ok (set_pls s2 p) end <> Err bad).
    cbn [singles map]. cbv zeta.
    remember (set_starts s (s_chips s) (s_rest s ++ s_tried s) []) as s1 eqn:E1.
    assert (N1 : NInv e s1).
    { destruct (gi_n _ _ G) as [n1 n2 n3 n4 n5 n6 n7 n8 n9 n10 n11 n12 n13 n14]. rewrite E1.
      constructor; cbn [set_starts s_pls s_full s_prep s_rest s_tried s_chips s_same s_other s_cur s_eth]; auto.
      apply Forall_app. auto. }
    assert (FU : forall d, In d (s_full s1) -> ~ openc e (abs (s_pls s)) d).
    { rewrite E1. cbn [set_starts s_full]. intros d D (_ & X1 & X2).
      destruct (gi_full _ _ G (conj many_coh (fun w => proj2 (LI w))) d D) as [Y|Y]; [lia|]. exact (sum_le_gt _ _ _ X2 Y). }
    assert (B1 : Bs e (abs (s_pls s)) s1) by (constructor; [exact N1|rewrite E1; reflexivity|exact FU]).
    assert (WT : waits c0 s1).
    { pose proof (gi_pool _ _ G c0 CO) as X. unfold waits. assert (Y : s_full s1 = s_full s) by (rewrite E1; reflexivity).
      destruct X as [X|X]; [exfalso; rewrite <- Y in X; exact (FU c0 X O0)|].
      rewrite E1. cbn [set_starts s_rest s_chips]. rewrite in_app_iff. tauto. }
    destruct (place_loop_all e W LO (abs (s_pls s)) PA s0 S0 LI' BIG K1 SP c0 R v vs O0 ND RG LE HV
      (S (length (s_rest s1) + length (s_chips s1))) s1 B1 WT) as (s2 & m & E2 & B2); [unfold measure; lia|].
    cbn [singles map] in E2. unfold singles in *. rewrite E2. cbn [bind].
    destruct (lift_add (add_placements (s_pls s2) m)) as [p'|x] eqn:AD; cbn [bind]; [discriminate|].
    intros [= ->]. apply adds_not_NoSpace in AD; [destruct BAD; tauto|apply B2]. }
  destruct (place_vertex e s (many e (v :: vs))) as [s'|x]; [eauto|]. exfalso. cbn [wp many a_groups] in PV.
  rewrite FM in PV.
  assert (GR : forall g, In g (singles e (v :: vs)) -> exists w, In w (v :: vs) /\ g = ([w], pe_sdram e w)).
  { intros g H. apply in_map_iff in H. destruct H as (w & <- & H). eauto. }
  destruct (PV LO PA) as [(-> & g & GI & (w & W1 & W2) & _)|[(-> & g & GI & X)|[-> |(-> & _)]]].
  - apply Forall_forall. intros g H. destruct (GR g H) as (w & I & ->). right. intros u [<-|[]]. apply (HV w I).
  - exact NV.
  - destruct (GR g GI) as (u & I & ->). destruct W1 as [<-|[]]. apply (HV u I). exact W2.
  - destruct (GR g GI) as (u & I & ->). apply X. apply (search_fits e s0 LI' BIG K1).
  - apply (NOS NoSpace); auto.
  - apply (NOS ConfigurationException); auto.
Qed.

Lemma graph_step : forall apps p a, place_graph e sys apps = Ok p -> not_fixed e a ->
  exists s, GInv e s /\ s_pls s = p /\ placable e (abs p) /\
    forall p', place_graph e sys (apps ++ [a]) = Ok p' <-> exists s', place_vertex e s a = Ok s' /\ s_pls s' = p'.
Proof.
  intros apps p a H NF. apply has_fixed_not in NF.
  destruct (made_ok _ _ MADE) as (O & A).
  unfold place_graph in *. destruct (init_placer e sys) as [s|x] eqn:IN; [|discriminate]. cbn [bind] in *.
  assert (PS : s_pls s = sys) by (unfold init_placer in IN; destruct (Z.eqb (max_cores e) 0); [discriminate|]; injection IN as <-; reflexivity).
  assert (G0 : GInv e (set_pls s sys)) by exact (init_ginv e W sys s sys O IN O).
  assert (E0 : set_pls s sys = s) by (rewrite <- PS; destruct s; reflexivity). rewrite E0 in G0. clear E0.
  rewrite foldM_app.
  pose proof (fixed_steps_wp e W SO apps s (gi_n _ _ G0)) as F.
  destruct (foldM (fixed_step e) s apps) as [s1|x]; cbn [bind wp] in *; [|discriminate].
  assert (FS : foldM (fixed_step e) s1 [a] = Ok s1).
  { cbn [foldM]. unfold fixed_step. rewrite NF. reflexivity. }
  rewrite FS. cbn [bind]. rewrite foldM_app.
  destruct F as (p1 & -> & O1 & m & A1 & P1 & _). rewrite PS, A in A1.
  assert (G1 : GInv e (set_pls s p1)) by exact (init_ginv e W sys s p1 O IN O1).
  pose proof (place_apps_wp e W False apps (set_pls s p1) G1 ltac:(intros [])) as R1. cbn [set_pls s_pls] in R1. rewrite A1 in R1.
  destruct (foldM (place_vertex e) (set_pls s p1) apps) as [s2|x]; cbn [bind wp] in *; [|discriminate].
  injection H as <-. destruct R1 as (G2 & R1). exists s2. split; [exact G2|]. split; [reflexivity|]. split.
  { apply run_ext in R1. destruct R1 as (m2 & -> & M2). apply fixed_placable.
    - apply fixed_placable; assumption.
    - apply Forall_forall. intros pl I. apply (M2 pl I). }
  intro p'. cbn [foldM]. destruct (place_vertex e s2 a) as [s3|x]; cbn [bind].
  - split; [intros [= <-]; eauto|intros (s' & [= <-] & <-); reflexivity].
  - split; [discriminate|intros (s' & X & _); discriminate].
Qed.

Lemma graph_many : forall apps p v vs c0 R, place_graph e sys apps = Ok p ->
  (forall c, openc e (abs p) c -> sum_le e (reqs_on e (abs p) c) (c_sdram c - Z.of_nat (fr (abs p) c) * s0)) ->
  NoDup (v :: vs) -> not_fixed e (many e (v :: vs)) ->
  (forall w, In w (v :: vs) -> pe_virtual e w = false /\ ~ In w (map pl_v (abs p))) ->
  openc e (abs p) c0 -> In c0 (chip_order (pe_machine e)) -> NoDup R ->
  (forall V, In c0 V -> Forall (mchip e) V -> (forall d t, In d V -> openc e (abs p) t -> In (c_xy t) (c_links d) -> In t V) -> incl R V) ->
  S (length vs) <= frees (abs p) R ->
  exists p', place_graph e sys (apps ++ [many e (v :: vs)]) = Ok p'.
Proof.
  intros apps p v vs c0 R H SP NV NF HV O0 CO ND RG LE.
  destruct (graph_step apps p _ H NF) as (s & G & <- & PA & IFF).
  destruct (vertex_many s v vs c0 R G PA SP NV) as (s3 & E3); auto.
  - intros w I. destruct (HV w I) as (X & Y). split; [exact X|]. intro Z. apply vplaced_map in Z. contradiction.
  - exists (s_pls s3). apply IFF. eauto.
Qed.
End Many.

(** * Where it was placed *)
Lemma count_on : forall (R : list chip) (m : list placement),
  (forall pl, In pl m -> exists c, In c R /\ c_xy c = xy_of pl) ->
  length m <= fold_right (fun c n => length (filter (on (c_xy c)) m) + n) 0 R.
Proof.
  intros R. induction m as [|pl m IH]; intros H; [cbn; lia|]. cbn [length].
  specialize (IH (fun q Q => H q (or_intror Q))).
  destruct (H pl (or_introl eq_refl)) as (c & C & X).
  destruct (in_split c R C) as (a & b & ->).
  assert (MONO : forall S : list chip, fold_right (fun c n => length (filter (on (c_xy c)) m) + n) 0 S <=
                   fold_right (fun c n => length (filter (on (c_xy c)) (pl :: m)) + n) 0 S).
  { induction S as [|d S IS]; cbn [fold_right]; [lia|].
    assert (L : length (filter (on (c_xy d)) m) <= length (filter (on (c_xy d)) (pl :: m)))
      by (cbn [filter]; destruct (on (c_xy d) pl); cbn [length]; lia). lia. }
  assert (SPL : forall (g : chip -> nat) (a b : list chip), fold_right (fun c n => g c + n) 0 (a ++ c :: b) =
                  g c + fold_right (fun c n => g c + n) 0 (a ++ b)).
  { clear. intros g. induction a as [|d a IA]; intro b; cbn [app fold_right]; [reflexivity|]. rewrite IA. lia. }
  rewrite (SPL (fun c => length (filter (on (c_xy c)) m))) in IH.
  rewrite (SPL (fun c => length (filter (on (c_xy c)) (pl :: m)))). specialize (MONO (a ++ b)).
  assert (ON : on (c_xy c) pl = true) by (apply xy_eqb_spec; exact X).
  assert (L : length (filter (on (c_xy c)) (pl :: m)) = S (length (filter (on (c_xy c)) m)))
    by (cbn [filter]; rewrite ON; reflexivity). lia.
Qed.

Lemma chips_of : forall e (xs : list xy), wf_machine e -> (forall d, In d xs -> exists c, m_chip (pe_machine e) d = Some c) ->
  exists R, map c_xy R = xs /\ Forall (mchip e) R.
Proof.
  intros e xs W. induction xs as [|d xs IH]; intros H; [exists []; split; [reflexivity|constructor]|].
  destruct (H d (or_introl eq_refl)) as (c & C). destruct (IH (fun q Q => H q (or_intror Q))) as (R & R1 & R2).
  exists (c :: R). destruct (W _ _ C) as (X & _). split; [cbn [map]; congruence|]. constructor; [unfold mchip; congruence|exact R2].
Qed.

Definition xy_dec : forall a b : xy, {a = b} + {a <> b}.
Proof. intros (a, b) (c, d). destruct (Nat.eq_dec a c), (Nat.eq_dec b d); [left; congruence|right; congruence..]. Defined.

Lemma placed_region : forall e s s' v vs, wf_machine e -> NInv e s -> placable e (abs (s_pls s)) ->
  (forall w, In w (v :: vs) -> placed_A e (abs (s_pls s)) w) ->
  place_vertex e s (many e (v :: vs)) = Ok s' ->
  exists c0 R, In c0 R /\ NoDup R /\ Forall (mchip e) R /\
    (forall c, In c R -> 0 < fr (abs (s_pls s)) c) /\
    (forall c, In c R -> reach e (fun d => In d (map c_xy R)) (c_xy c0) (c_xy c)) /\
    S (length vs) <= frees (abs (s_pls s)) R.
Proof.
  intros e s s' v vs W N PA HV H.
  pose proof (place_vertex_wp e W False s (many e (v :: vs)) N ltac:(intros [])) as PV. rewrite H in PV. cbn [wp] in PV.
  destruct PV as (N' & _ & m & AM & SG). remember (abs (s_pls s)) as A eqn:EA.
  assert (PK : forall w, In w (v :: vs) -> pick e A [w] = [w]).
  { intros w I. destruct (HV w I) as (V1 & V2). unfold pick. cbn [existsb orb]. 
    destruct (existsb (has_vertex w) A) eqn:X; [exfalso; apply V2; now apply has_vertex_placed|]. cbn [orb].
    unfold real. now rewrite V1. }
  assert (MV : map pl_v m = v :: vs).
  { rewrite (sg_vs _ _ _ _ _ SG). cbn [many a_groups]. unfold singles. revert PK. clear.
    induction (v :: vs) as [|w r IH]; intro PK; [reflexivity|]. cbn [map flat_map fst]. rewrite (PK w (or_introl eq_refl)).
    cbn [app]. f_equal. apply IH. intros u U. apply PK. right. exact U. }
  assert (LM : length m = S (length vs)) by (rewrite <- (map_length pl_v m), MV; reflexivity).
  destruct m as [|pl0 m'] eqn:EM; [discriminate|]. rewrite <- EM in *.
  destruct (chips_of e (nodup xy_dec (map xy_of m)) W) as (R & R1 & R2).
  { intros d D. apply nodup_In, in_map_iff in D. destruct D as (pl & <- & D).
    destruct (sg_on _ _ _ _ _ SG pl D) as (c & C & X & _). exists c. rewrite X. exact C. }
  assert (INR : forall pl, In pl m -> exists c, In c R /\ c_xy c = xy_of pl).
  { intros pl I. assert (X : In (xy_of pl) (map c_xy R)) by (rewrite R1; apply nodup_In, in_map, I).
    apply in_map_iff in X. destruct X as (c & X & Y). eauto. }
  assert (CNT : forall c, In c R -> length (filter (on (c_xy c)) m) <= fr A c).
  { intros c C. assert (MC : mchip e c) by (rewrite Forall_forall in R2; auto).
    pose proof (used_on_NoDup (s_pls s') c (ni_ok _ _ N')) as U. rewrite AM, used_on_app in U.
    assert (IN : incl (used_on A c ++ used_on m c) (c_procs c)).
    { intros q Q. apply in_app_iff in Q. destruct Q as [Q|Q]; apply in_map_iff in Q; destruct Q as (pl & <- & Q);
        apply filter_In in Q; destruct Q as (Q & ON); apply xy_eqb_spec in ON.
      - exact (PA pl c Q MC ON).
      - destruct (sg_on _ _ _ _ _ SG pl Q) as (d & D1 & D2 & D3 & _).
        assert (c = d) by (apply (mchip_inj e); auto; unfold xy_of in D2; congruence). subst d. exact D3. }
    pose proof (NoDup_incl_length U IN) as L. rewrite app_length in L. unfold used_on at 2 in L. rewrite map_length in L.
    unfold fr. lia. }
  destruct (INR pl0) as (c0 & C0 & X0); [rewrite EM; left; reflexivity|].
  exists c0, R. split; [exact C0|].
  split; [apply (NoDup_map_inv c_xy); rewrite R1; apply NoDup_nodup|]. split; [exact R2|]. split.
  { intros c C. specialize (CNT c C). assert (X : In (c_xy c) (map c_xy R)) by (apply in_map, C).
    rewrite R1 in X. apply nodup_In, in_map_iff in X. destruct X as (pl & X & Y).
    assert (Z : In pl (filter (on (c_xy c)) m)) by (apply filter_In; split; [exact Y|]; apply xy_eqb_spec; symmetry; exact X).
    destruct (filter (on (c_xy c)) m); [destruct Z|]. cbn [length] in CNT. lia. }
  split.
  { intros c C. assert (X : In (c_xy c) (map c_xy R)) by (apply in_map, C).
    rewrite R1 in X. apply nodup_In, in_map_iff in X. destruct X as (pl & X & Y). rewrite <- X, X0.
    apply (walked_reach e m pl0 m'); auto; [apply SG|]. intros q Q. rewrite R1. apply nodup_In, in_map, Q. }
  rewrite <- LM. etransitivity; [apply (count_on R m INR)|]. clear - CNT.
  induction R as [|c R IH]; cbn [fold_right frees]; [lia|]. fold (frees A R).
  pose proof (CNT c (or_introl eq_refl)). specialize (IH (fun d D => CNT d (or_intror D))). unfold frees in *. lia.
Qed.
