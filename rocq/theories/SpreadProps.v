(** Properties C195 and C196: application vertices spread over many chips. *)
From Coq Require Import List Arith ZArith QArith Bool Lia Permutation Sorted.
From Verif Require Import Base Dict SdramModel SdramProofs SdramBelow PlacementsModel PlacementsProofs PlacerModel PlacerProofs PlacerFinal PlacerFixed PlacerTotal PlacerProps Counted Spread.
Import ListNotations.
Local Open Scope nat_scope.

(** * What the statements below speak of *)
Definition free_cores (l : list placement) (c : chip) : nat := length (c_procs c) - length (used_on l c).
Definition total_free (l : list placement) (R : list chip) : nat := fold_right (fun c n => free_cores l c + n) 0 R.

(** Different chips with free cores, each of which is reached from the first over links
    between them. *)
Definition region (e : penv) (l : list placement) (start : chip) (R : list chip) : Prop :=
  In start R /\ NoDup R /\ forall c, In c R ->
    m_chip (pe_machine e) (c_xy c) = Some c /\ 0 < free_cores l c /\
    reach e (fun d => In d (map c_xy R)) (c_xy start) (c_xy c).

(** SDRAM is no limit: a chip with free cores is not given up, and has [s] bytes for
    each of them. *)
Definition roomy (e : penv) (l : list placement) (s : Z) : Prop :=
  forall c, m_chip (pe_machine e) (c_xy c) = Some c -> 0 < free_cores l c ->
    at_most e (costs_on e l c) (given_up e) /\
    at_most e (costs_on e l c) (c_sdram c - Z.of_nat (free_cores l c) * s).

Record small_costs (e : penv) (s : Z) : Prop := {
  sc_costs : forall v, light e s (pe_sdram e v) /\ parts_nonneg (pe_steps e) (pe_sdram e v);
  sc_small : (0 <= s <= chip_sdram e)%Z;
  sc_cores : (1 <= chip_cores e)%Z }.

(** The machine's chips are within its size and linked to chips. *)
Definition whole_machine (e : penv) : Prop :=
  wf_machine e /\ links_ok e /\
  forall x y c, m_chip (pe_machine e) (x, y) = Some c -> x < m_width (pe_machine e) /\ y < m_height (pe_machine e).

(** New vertices that may be placed anywhere. *)
Definition new_vertices (e : penv) (l : list placement) (vs : list nat) : Prop :=
  vs <> [] /\ NoDup vs /\ forall v, In v vs ->
    pe_virtual e v = false /\ pe_own_loc e v = None /\ pe_app_loc e v = None /\ ~ In v (map pl_v l).

Lemma region_closed : forall e l start R, region e l start R ->
  (forall c, In c R -> openc e l c) ->
  forall V, In start V -> Forall (mchip e) V ->
  (forall d t, In d V -> openc e l t -> In (c_xy t) (c_links d) -> In t V) -> incl R V.
Proof.
  intros e l start R (S & ND & H) OP V SV MV CL c C. destruct (H c C) as (_ & _ & RE).
  assert (X : forall d, reach e (fun d => In d (map c_xy R)) (c_xy start) d -> exists t, In t V /\ c_xy t = d).
  { clear - SV MV CL OP. intros d RE. remember (c_xy start) as a eqn:EA. induction RE as [a|a b d RE IH LK U].
    - exists start. auto.
    - destruct (IH EA) as (t & T1 & T2). destruct LK as (t' & M & L).
      assert (t' = t). { rewrite Forall_forall in MV. pose proof (MV t T1) as Y. unfold mchip in Y. rewrite T2 in Y. congruence. }
      subst t'. apply in_map_iff in U. destruct U as (u & U1 & U2). exists u. split; [|exact U1].
      apply (CL t u T1 (OP u U2)). now rewrite U1. }
  destruct (X (c_xy c) RE) as (t & T1 & T2). assert (c = t); [|congruence].
  apply (mchip_inj e); auto; [apply (OP c C)|]. rewrite Forall_forall in MV. auto.
Qed.

(** * C195 *)
Theorem C195_exact : forall e sys l s, whole_machine e -> set_ok e -> made l sys -> placable e l -> small_costs e s ->
  forall apps p vs, place_graph e sys apps = Ok p -> roomy e (abs p) s -> new_vertices e (abs p) vs ->
  ((exists p', place_graph e sys (apps ++ [many e vs]) = Ok p') <->
   exists start R, region e (abs p) start R /\ length vs <= total_free (abs p) R).
Proof.
  intros e sys l s (W & LO & BX) SO M PL [LI (S0 & S1) K1] apps p vs H RO (NE & ND & HV).
  destruct vs as [|v vs]; [contradiction|].
  assert (NF : not_fixed e (many e (v :: vs))).
  { split; [reflexivity|]. intros w I. destruct (HV w I) as (_ & X & Y & _). auto. }
  assert (OPC : forall c, m_chip (pe_machine e) (c_xy c) = Some c -> 0 < free_cores (abs p) c -> openc e (abs p) c).
  { intros c C F. destruct (RO c C F) as (X & _). split; [exact C|]. split; [unfold free_cores in F; lia|exact X]. }
  split.
  - intros (p' & H').
    destruct (graph_step e sys l W SO M PL apps p _ H NF) as (st & G & <- & PA & IFF).
    destruct (proj1 (IFF p') H') as (s' & E & _).
    destruct (placed_region e st s' v vs W (gi_n _ _ G) PA) as (c0 & R & R1 & R2 & R3 & R4 & R5 & R6); [|exact E|].
    { intros w I. destruct (HV w I) as (X & _ & _ & Y). split; [exact X|]. intro Z. apply vplaced_map in Z. contradiction. }
    exists c0, R. split; [|exact R6]. split; [exact R1|]. split; [exact R2|]. intros c C. rewrite Forall_forall in R3.
    split; [exact (R3 c C)|]. split; [exact (R4 c C)|exact (R5 c C)].
  - intros (c0 & R & RG & LE). pose proof RG as (R1 & R2 & R3).
    assert (OR : forall c, In c R -> openc e (abs p) c) by (intros c C; destruct (R3 c C) as (X & Y & _); auto).
    apply (graph_many e sys l W SO M LO PL s S0 LI S1 K1 apps p v vs c0 R); auto.
    + intros c (C1 & C2 & C3). apply (RO c C1). unfold free_cores. lia.
    + intros w I. destruct (HV w I) as (X & _ & _ & Y). auto.
    + destruct (OR c0 R1) as (C & _). unfold mchip in C. destruct (c_xy c0) as (x, y) eqn:XY.
      apply (chip_at_order e x y). destruct (BX x y c0 C). split; [assumption|]. split; assumption.
    + intros V V1 V0 V2. exact (region_closed e (abs p) c0 R RG OR V V1 V0 V2).
Qed.
Print Assumptions C195_exact.

(** * C196 *)
(** If all chips with free cores hang together, all their cores can be used. *)
Theorem C196_connected_partial : forall e sys l s, whole_machine e -> set_ok e -> made l sys -> placable e l -> small_costs e s ->
  forall apps p vs, place_graph e sys apps = Ok p -> roomy e (abs p) s -> new_vertices e (abs p) vs ->
  forall start R, region e (abs p) start R ->
  (forall c, m_chip (pe_machine e) (c_xy c) = Some c -> 0 < free_cores (abs p) c -> In c R) ->
  ((exists p', place_graph e sys (apps ++ [many e vs]) = Ok p') <-> length vs <= total_free (abs p) R).
Proof.
  intros e sys l s WM SO M PL SC apps p vs H RO NV start R RG ALL.
  rewrite (C195_exact e sys l s WM SO M PL SC apps p vs H RO NV). split.
  - intros (st & R' & (_ & ND & RG') & LE). etransitivity; [exact LE|].
    apply (frees_incl (abs p) R' R ND). intros c C. destruct (RG' c C) as (X & Y & _). apply ALL; assumption.
  - intro LE. exists start, R. auto.
Qed.
Print Assumptions C196_connected_partial.

(** Three chips in a row; the monitors take all cores of the one in the middle and leave
    one on each of the others. *)
Definition c196_chip (y : nat) : chip :=
  mkChip (0, y) (match y with 1 => [1] | _ => [1; 2] end) 120 (0, 0) (match y with 0 => [(0, 1)] | 1 => [(0, 0); (0, 2)] | _ => [(0, 1)] end).
Definition c196_env (middle : list nat) : penv := mkPenv
  (mkMachine 1 3 (fun c => match c with
    | (0, 0) => Some (c196_chip 0)
    | (0, 1) => Some (mkChip (0, 1) middle 120 (0, 0) [(0, 0); (0, 2)])
    | (0, 2) => Some (c196_chip 2) | _ => None end))
  (Some 10%Z) 120 20 5 1 1 (fun _ => false) (fun _ => None) (fun _ => None)
  (fun _ => Const 10) (fun l => l).
Definition c196_mon : list placement := [mkPl 0 0 0 1; mkPl 1 0 1 1; mkPl 2 0 2 1].
Definition c196_sys : placements := fst (add_placements empty_placements c196_mon).

Lemma c196_whole : forall middle, NoDup middle -> whole_machine (c196_env middle).
Proof.
  intros middle ND. split; [|split].
  - intros (x, y) c H. destruct x as [|x]; [|cbn in H; discriminate]. destruct y as [|[|[|y]]]; cbn in H; try discriminate; injection H as <-;
      (split; [reflexivity|]); try exact ND; repeat constructor; cbn; lia.
  - intros c d H I. unfold mchip in H. destruct (c_xy c) as (x, y). destruct x as [|x]; [|cbn in H; discriminate].
    destruct y as [|[|[|y]]]; cbn in H; try discriminate; injection H as <-; cbn in I;
      repeat (destruct I as [<-|I]; [eexists; reflexivity|]); destruct I.
  - intros x y c H. destruct x as [|x]; [|cbn in H; discriminate]. destruct y as [|[|[|y]]]; cbn in H; try discriminate; cbn; lia.
Qed.
Lemma c196_small : forall middle, small_costs (c196_env middle) 10.
Proof.
  intro middle. constructor; [|vm_compute; split; discriminate|vm_compute; discriminate].
  intro v. split; [split; [exact I|exists 10%Z; split; [reflexivity|lia]]|]. split; [vm_compute; discriminate|intros k w z []].
Qed.
Lemma c196_placable : forall middle, In 1 middle -> placable (c196_env middle) c196_mon.
Proof.
  intros middle I1 pl c [<-|[<-|[<-|[]]]] H X; unfold mchip in H; rewrite X in H; cbn in H; injection H as <-; cbn; auto.
Qed.
Lemma c196_new : forall middle, new_vertices (c196_env middle) c196_mon [10; 11].
Proof.
  intro middle. split; [discriminate|]. split; [repeat constructor; cbn; lia|].
  intros v H. repeat (split; [reflexivity|]). cbn in H |- *. lia.
Qed.
Lemma c196_chips : forall middle c, m_chip (pe_machine (c196_env middle)) (c_xy c) = Some c ->
  c = c196_chip 0 \/ c = mkChip (0, 1) middle 120 (0, 0) [(0, 0); (0, 2)] \/ c = c196_chip 2.
Proof.
  intros middle c H. destruct (c_xy c) as (x, y). destruct x as [|x]; [|cbn in H; discriminate].
  destruct y as [|[|[|y]]]; cbn in H; try discriminate; injection H as <-; auto.
Qed.
Lemma c196_roomy : forall middle, length middle <= 3 -> roomy (c196_env middle) c196_mon 10.
Proof.
  intros middle L c C F. apply c196_chips in C. destruct C as [-> |[-> | ->]].
  - split; eexists; eexists; (split; [vm_compute; reflexivity|]); (split; [vm_compute; reflexivity|]); vm_compute; discriminate.
  - split; eexists; eexists; (split; [vm_compute; reflexivity|]); (split; [vm_compute; reflexivity|]); [vm_compute; discriminate|].
    unfold free_cores. cbn [c_procs c_sdram]. replace (length (used_on c196_mon _)) with 1 by reflexivity. lia.
  - split; eexists; eexists; (split; [vm_compute; reflexivity|]); (split; [vm_compute; reflexivity|]); vm_compute; discriminate.
Qed.

(** Two free cores do not take two vertices. *)
Theorem C196_enough_cores_refuted : exists e sys l s p vs R,
  whole_machine e /\ set_ok e /\ made l sys /\ placable e l /\ small_costs e s /\
  place_graph e sys [] = Ok p /\ roomy e (abs p) s /\ new_vertices e (abs p) vs /\
  NoDup R /\ (forall c, In c R -> m_chip (pe_machine e) (c_xy c) = Some c) /\
  length vs <= total_free (abs p) R /\
  place_graph e sys [many e vs] = Err NoSpace.
Proof.
  exists (c196_env [1]), c196_sys, c196_mon, 10%Z, c196_sys, [10; 11], [c196_chip 0; c196_chip 2].
  split; [apply c196_whole; repeat constructor; intros []|]. split; [intro l; apply Permutation_refl|].
  split; [reflexivity|]. split; [apply c196_placable; now left|]. split; [apply c196_small|]. split; [reflexivity|].
  split; [apply c196_roomy; cbn; lia|]. split; [apply c196_new|].
  split; [repeat constructor; cbn; intuition discriminate|].
  split; [intros c [<-|[<-|[]]]; reflexivity|]. split; [vm_compute; lia|]. vm_compute. reflexivity.
Qed.
Print Assumptions C196_enough_cores_refuted.

(** * An example: with a free core on the chip in the middle three vertices are placed *)
Definition c195_middle : chip := mkChip (0, 1) [1; 4] 120 (0, 0) [(0, 0); (0, 2)].
Lemma c195_region : region (c196_env [1; 4]) c196_mon (c196_chip 0) [c196_chip 0; c195_middle; c196_chip 2].
Proof.
  assert (R0 : forall u, reach (c196_env [1; 4]) u (0, 0) (0, 0)) by (intro; constructor).
  assert (R1 : reach (c196_env [1; 4]) (fun d => In d [(0, 0); (0, 1); (0, 2)]) (0, 0) (0, 1)).
  { apply reach_step with (b := (0, 0)); [apply R0|exists (c196_chip 0); split; [reflexivity|now left]|cbn; auto]. }
  split; [left; reflexivity|]. split; [repeat constructor; cbn; intuition discriminate|].
  intros c [<-|[<-|[<-|[]]]]; (split; [reflexivity|]; split; [vm_compute; lia|]); cbn [map c_xy c196_chip c195_middle].
  - apply R0.
  - exact R1.
  - apply reach_step with (b := (0, 1)); [exact R1|exists c195_middle; split; [reflexivity|cbn; auto]|cbn; auto].
Qed.
Example C195_meets : whole_machine (c196_env [1; 4]) /\ set_ok (c196_env [1; 4]) /\ made c196_mon c196_sys /\
  placable (c196_env [1; 4]) c196_mon /\ small_costs (c196_env [1; 4]) 10 /\ place_graph (c196_env [1; 4]) c196_sys [] = Ok c196_sys /\
  roomy (c196_env [1; 4]) (abs c196_sys) 10 /\ new_vertices (c196_env [1; 4]) (abs c196_sys) [10; 11; 12].
Proof.
  split; [apply c196_whole; repeat constructor; cbn; lia|]. split; [intro l; apply Permutation_refl|].
  split; [reflexivity|]. split; [apply c196_placable; now left|]. split; [apply c196_small|]. split; [reflexivity|].
  split; [apply c196_roomy; cbn; lia|]. split; [discriminate|]. split; [repeat constructor; cbn; lia|].
  intros v H. repeat (split; [reflexivity|]). cbn in H |- *. lia.
Qed.
Example C195_ex : total_free c196_mon [c196_chip 0; c195_middle; c196_chip 2] = 3 /\
  match place_graph (c196_env [1; 4]) c196_sys [many (c196_env [1; 4]) [10; 11; 12]] with
  | Ok p => map (fun pl => (pl_v pl, (pl_y pl, pl_p pl))) (abs p) =
      [(0, (0, 1)); (1, (1, 1)); (2, (2, 1)); (10, (0, 2)); (11, (1, 4)); (12, (2, 2))]
  | Err _ => False
  end.
Proof. split; vm_compute; reflexivity. Qed.
Example C196_ex : forall c, m_chip (pe_machine (c196_env [1; 4])) (c_xy c) = Some c -> 0 < free_cores c196_mon c ->
  In c [c196_chip 0; c195_middle; c196_chip 2].
Proof. intros c C _. apply c196_chips in C. cbn. destruct C as [->|[-> | ->]]; auto. Qed.
