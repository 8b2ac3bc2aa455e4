(** Properties of the data shared between the stages. *)
From Coq Require Import String List Arith ZArith QArith Bool Lia Permutation.
From Verif Require Import Base Dict SdramModel SdramProofs GraphModel GraphProofs DataModel DataProofs.
Import ListNotations.
Local Open Scope string_scope.
Local Open Scope list_scope.
Local Open Scope nat_scope.

(** C141: what a stage gets is what was set last for it, unless there was a reset
    since. *)
Theorem C141_last_set : forall cls labels h s v, get_slot (drun cls (data_new labels) h) s = Some v <->
  exists h1 h2, h = h1 ++ DSet s (Obj v) :: h2 /\ forall c, In c h2 -> is_reset c = false /\ forall o, c <> DSet s (Obj o).
Proof. exact slot_last. Qed.
Print Assumptions C141_last_set.

(** C141: something of another type is refused, and a refused setter changes nothing. *)
Theorem C141_refused : forall cls d,
  (forall s, dstep cls d (DSet s Wrong) = (d, RRaise TypeError)) /\
  forall c e, snd (dstep cls d c) = RRaise e ->
    match c with DSet _ _ | DPlan _ | DRequired _ _ | DInGraph _ => fst (dstep cls d c) = d | _ => True end.
Proof. intros cls d. split; [reflexivity | exact (refused_same cls d)]. Qed.
Print Assumptions C141_refused.

Definition no_cls (_ : nat) : string := "Vertex".
Definition ex_calls : list dcall :=
  [DSetup; DSet STags (Obj 1); DSet SUncompressed (Obj 2); DHardReset; DSet SUncompressed (Obj 3); DSet SRoutingInfos (Obj 4); DSet SUncompressed (Obj 5);
   DSoftReset; DSet SUncompressed Wrong; DPlan (PInt 10); DPlan (PInt (-1)); DPlan POther; DRequired PNone (PInt 7); DRequired (PInt 2) PNone;
   DInGraph (PInt 30); DMonitor 0 true; DMonitor 1 false].
Example ex_slots : let d := drun no_cls (data_new []) ex_calls in
  map (get_slot d) [SPlacements; SRoutingInfos; STags; SUncompressed; SPrecompressed; SByPartition] = [None; Some 4; None; Some 5; None; None] /\
  map snd (dtrace no_cls (data_new []) ex_calls) =
    [RNone; RNone; RNone; RNone; RNone; RNone; RNone; RNone; RRaise TypeError; RNone; RRaise ConfigurationException; RRaise TypeError;
     RNone; RRaise ValueError; RNone; RNone; RNone].
Proof. vm_compute. split; reflexivity. Qed.

(** C142: the planned number of timesteps is the last accepted one since the set up
    and never negative; a hard reset keeps it. *)
Theorem C142_plan : forall cls labels h, let d := drun cls (data_new labels) h in
  get_plan d = last (flat_map plan_of (after_last is_setup h)) None /\ forall z, get_plan d = Some z -> (0 <= z)%Z.
Proof. intros cls labels h d. split; [apply plan_last | intros z; apply (plan_positive cls labels h)]. Qed.
Print Assumptions C142_plan.

(** C142: when set_plan_n_timesteps raises. *)
Theorem C142_accepted : forall cls d v, snd (dstep cls d (DPlan v)) =
  match v with PNone => RNone | PInt z => if Z.ltb z 0 then RRaise ConfigurationException else RNone | POther => RRaise TypeError end.
Proof. intros cls d [|z|]; try reflexivity. cbn. destruct (Z.ltb z 0); reflexivity. Qed.
Print Assumptions C142_accepted.

Example ex_plan :
  get_plan (drun no_cls (data_new []) ex_calls) = Some 10%Z /\
  get_plan (drun no_cls (data_new []) (ex_calls ++ [DHardReset])) = Some 10%Z /\
  get_plan (drun no_cls (data_new []) (ex_calls ++ [DPlan PNone])) = None /\
  get_plan (drun no_cls (data_new []) (ex_calls ++ [DMock])) = None.
Proof. vm_compute. repeat split; reflexivity. Qed.

(** C143: the boards or chips the user asked for first since the set up are used, and
    the number of chips of the graph only when they asked for no chips. *)
Theorem C143_required : forall cls labels h, let d := drun cls (data_new labels) h in
  let asked := hd_error (flat_map request_of (after_last is_setup h)) in
  let needs := last_opt (flat_map in_graph_of (after_last is_reset h)) in
  get_boards d = (match asked with Some (Boards z) => Some z | _ => None end) /\
  get_chips d = (match asked with Some (Chips z) => Some z | _ => needs end) /\
  has_boards d = (match get_boards d with Some _ => true | None => false end) /\
  has_chips d = (match get_chips d with Some _ => true | None => false end) /\
  get_required d = (match asked with Some (Boards z) => AskedBoards z | Some (Chips z) => AskedChips z
    | None => match needs with Some z => GraphRequires z | None => NothingKnown end end) /\
  (forall z, get_boards d = Some z \/ get_chips d = Some z -> (0 < z)%Z).
Proof. exact required_answers. Qed.
Print Assumptions C143_required.

(** C143: when set_n_required returns. *)
Theorem C143_accepted : forall cls labels h b c, let d := drun cls (data_new labels) h in
  snd (dstep cls d (DRequired b c)) = RNone <->
  (b = PNone /\ c = PNone) \/
  ((exists z, (0 < z)%Z /\ ((b = PInt z /\ c = PNone) \/ (b = PNone /\ c = PInt z))) /\ flat_map request_of (after_last is_setup h) = []).
Proof.
  intros cls labels h b c d. rewrite required_reply. pose proof (required_run cls labels h) as R. fold d in R.
  assert (Q : request_of (DRequired b c) <> [] <-> exists z, (0 < z)%Z /\ ((b = PInt z /\ c = PNone) \/ (b = PNone /\ c = PInt z))).
  { split.
    - intros N. destruct b as [|z|], c as [|y|]; cbn in N; try contradiction.
      + destruct (Z.leb y 0) eqn:E; [contradiction|]. apply Z.leb_gt in E. exists y. auto.
      + destruct (Z.leb z 0) eqn:E; [contradiction|]. apply Z.leb_gt in E. exists z. auto.
    - intros [z [P [[-> ->]|[-> ->]]]]; cbn; rewrite (proj2 (Z.leb_gt z 0) P); discriminate. }
  assert (F : flat_map request_of (after_last is_setup h) = [] <-> d_boards d = None /\ d_chips d = None).
  { destruct (flat_map request_of (after_last is_setup h)) as [|[z|z] l]; cbn [hd_error required_is] in R; destruct R as [R1 R2]; rewrite R1, R2; split;
      try (intros; split; reflexivity); try reflexivity; try discriminate; intros [X Y]; discriminate. }
  rewrite Q, F. tauto.
Qed.
Print Assumptions C143_accepted.

Example ex_required :
  let d := drun no_cls (data_new []) ex_calls in
  (get_boards d, get_chips d, has_boards d, has_chips d, get_required d) = (None, Some 7%Z, false, true, AskedChips 7) /\
  let d := drun no_cls (data_new []) (ex_calls ++ [DHardReset]) in
  (get_boards d, get_chips d, has_boards d, has_chips d, get_required d) = (None, Some 7%Z, false, true, AskedChips 7) /\
  let d := drun no_cls (data_new []) (ex_calls ++ [DSetup; DInGraph (PInt 3); DRequired (PInt 0) PNone; DRequired (PInt 2) PNone]) in
  (get_boards d, get_chips d, has_boards d, has_chips d, get_required d) = (Some 2%Z, Some 3%Z, true, true, AskedBoards 2).
Proof. vm_compute. repeat split; reflexivity. Qed.

(** C144: the SDRAM of the monitors is the sum over those added since the last reset,
    and Ethernet chips never need less than others. *)
Theorem C144_monitor_sdram : forall cls labels h f, (forall v, plain (f v)) -> let d := drun cls (data_new labels) h in
  let every := flat_map (monitor_of true) (after_last is_reset h) in let eth := flat_map (monitor_of false) (after_last is_reset h) in
  exists a e, all_monitor_sdram f d = Ok a /\ ethernet_monitor_sdram f d = Ok e /\
    (forall t, total t a = cost t (sum_fixed (map f every)) (sum_per (map f every))) /\
    (forall t, total t e = cost t (sum_fixed (map f eth)) (sum_per (map f eth))) /\
    ((forall v, (0 <= fixed (f v))%Z /\ (0 <= per_timestep (f v))%Q) ->
      forall t z, (forall n, t = Some n -> (0 <= n)%Z) -> total t e = Ok z -> exists y, total t a = Ok y /\ (y <= z)%Z).
Proof. exact monitor_sdram. Qed.
Print Assumptions C144_monitor_sdram.

Definition ex_cost (v : nat) : sdram := match v with 0 => Const 100 | _ => Var 10 (1 # 2) end.
Example ex_monitors : let d := drun no_cls (data_new []) ex_calls in
  (let* a := all_monitor_sdram ex_cost d in total (Some 5%Z) a) = Ok 100%Z /\ (let* e := ethernet_monitor_sdram ex_cost d in total (Some 5%Z) e) = Ok 113%Z.
Proof. vm_compute. split; reflexivity. Qed.

(** C145: the edges of the graph are those accepted since the set up. *)
Theorem C145_edges : forall cls labels h, let d := drun cls (data_new labels) h in
  let accepted := flat_map edge_added (after_last setup_entry (dtrace cls (data_new labels) h)) in
  Permutation (get_edges d) (map fst accepted) /\ get_n_partitions d = length (iterate_partitions d) /\
  forall v p, In p (parts_of (d_graph d) v) ->
    p_edges p <> [] /\ p_edges p = map fst (filter (fun en => Nat.eqb (g_pre (fst en)) v && String.eqb (snd en) (p_name p))%bool accepted).
Proof.
  intros cls labels h d accepted. destruct (edges_run cls labels h) as [K N P O I C A]. fold d in K, N, P, O, I, C, A. fold accepted in K, N, P, O, I, C, A.
  split; [exact A|]. split; [exact C|]. intros v p J. destruct (P v p J) as [P1 P2]. split; [exact P2 | exact P1].
Qed.
Print Assumptions C145_edges.

(** C145: a hard reset forgets the machine vertices and keeps the rest of the graph. *)
Theorem C145_hard_reset : forall cls d, let d' := fst (dstep cls d DHardReset) in
  iterate_vertices d' = iterate_vertices d /\ get_n_vertices d' = get_n_vertices d /\ iterate_partitions d' = iterate_partitions d /\ get_edges d' = get_edges d /\
  iterate_machine_vertices d' = [] /\ get_n_machine_vertices d' = 0.
Proof. intros cls d. exact (hard_reset_graph d). Qed.
Print Assumptions C145_hard_reset.

(** C145: after a set up the graph is empty. *)
Theorem C145_setup : forall cls d c, is_setup c = true -> let d' := fst (dstep cls d c) in
  iterate_vertices d' = [] /\ get_n_vertices d' = 0 /\ iterate_partitions d' = [] /\ get_n_partitions d' = 0 /\ get_edges d' = [] /\ iterate_machine_vertices d' = [].
Proof. intros cls d [] S; try discriminate; cbn; repeat split; reflexivity. Qed.
Print Assumptions C145_setup.

(** C145: the number of machine vertices is that of those iterated. *)
Theorem C145_n_machine_vertices : forall d, get_n_machine_vertices d = length (iterate_machine_vertices d).
Proof. exact n_machine. Qed.
Print Assumptions C145_n_machine_vertices.

(** C145: the writer changes the graph only while mapping is required; changes made
    through the view make it required. *)
Theorem C145_mapping : forall cls d c,
  (d_mapping d = false -> (exists v, c = DWriterVertex v) \/ (exists e n, c = DWriterEdge e n) -> dstep cls d c = (d, RRaise ConfigurationException)) /\
  (d_valid d = true -> (exists v, c = DViewVertex v) \/ (exists e n, c = DViewEdge e n) -> d_mapping (fst (dstep cls d c)) = true) /\
  (d_valid d = false -> (exists v, c = DViewVertex v) \/ (exists e n, c = DViewEdge e n) -> dstep cls d c = (d, RNotRunning)).
Proof.
  intros cls d c. split; [apply writer_refused|]. split; [apply view_marks|].
  intros V [[v ->]|[e [n ->]]]; cbn [dstep]; rewrite V; reflexivity.
Qed.
Print Assumptions C145_mapping.

(** C145: a machine vertex that is remembered once has its place among the machine
    vertices of its application vertex as its index. *)
Theorem C145_index : forall cls labels h, NoDup (flat_map remembered h) -> let d := drun cls (data_new labels) h in
  forall a n m, nth_error (macs_of d a) n = Some m -> dget Nat.eqb (d_index d) m = Some n.
Proof. intros cls labels h N d. apply (index_run cls labels h N). Qed.
Print Assumptions C145_index.

Definition ex_graph_calls : list dcall :=
  [DFlags true true; DSetup; DViewVertex 0; DViewVertex 1; DViewEdge (mkGEdge 0 0 1) "a"; DViewEdge (mkGEdge 1 0 7) "a"; DRemember 0 10; DRemember 1 11; DRemember 0 12;
   DFlags false true; DWriterEdge (mkGEdge 2 0 1) "a"; DViewEdge (mkGEdge 3 1 0) "b"; DWriterEdge (mkGEdge 4 1 0) "b"].
Definition ex_names : list (nat * string) := [(0, "one"); (1, "two"); (7, "three")].
Example ex_graph : let d := drun no_cls (data_new ex_names) ex_graph_calls in
  iterate_vertices d = [0; 1] /\ map g_id (get_edges d) = [0; 3; 4] /\ get_n_partitions d = 2 /\ iterate_machine_vertices d = [10; 12; 11] /\
  map (dget Nat.eqb (d_index d)) [10; 11; 12] = [Some 0; Some 0; Some 1] /\
  iterate_machine_vertices (hard_reset d) = [] /\ map g_id (get_edges (hard_reset d)) = [0; 3; 4].
Proof. vm_compute. repeat split; reflexivity. Qed.

(** C146: a vertex that is used again after a set up still has its old machine
    vertices. *)
Theorem C146_setup_forgets_refuted : exists cls labels h1 h2, let d := drun cls (data_new labels) (h1 ++ DSetup :: h2) in
  flat_map remembered h2 = [] /\ iterate_machine_vertices d <> [].
Proof.
  exists no_cls, ex_names, [DFlags true true; DViewVertex 0; DRemember 0 10], [DViewVertex 0].
  split; [reflexivity | vm_compute; discriminate].
Qed.
Print Assumptions C146_setup_forgets_refuted.

(** C146: it has none if there is a hard reset after it was added. *)
Theorem C146_setup_forgets_partial : forall cls labels h1 h2, let d := drun cls (data_new labels) (h1 ++ DHardReset :: h2) in
  let before := drun cls (data_new labels) h1 in
  forall a, In a (iterate_vertices before) -> forall m, In m (macs_of d a) -> In m (flat_map remembered h2).
Proof.
  intros cls labels h1 h2 d before a V. subst d. rewrite drun_app. cbn [drun]. fold before.
  assert (X : forall l d0, macs_of d0 a = [] -> forall m, In m (macs_of (drun cls d0 l) a) -> In m (flat_map remembered l)).
  { intros l. induction l as [|c l IH] using rev_ind; intros d0 E m I; [cbn in I; rewrite E in I; exact I|].
    rewrite drun_app in I. cbn [drun] in I. rewrite flat_map_app, in_app_iff. specialize (IH d0 E m). remember (drun cls d0 l) as d1 eqn:D. clear D.
    pose proof (macs_step cls d1 c) as S. cbn zeta in S.
    assert (K : (d_macs (fst (dstep cls d1 c)) = d_macs d1 \/ exists g, d_macs (fst (dstep cls d1 c)) = reset_vertices g (d_macs d1)) -> In m (flat_map remembered l)).
    { intros [Y|[g Y]]; apply IH; unfold macs_of in I |- *; rewrite Y in I; [exact I|]. rewrite reset_macs in I. destruct (existsb (Nat.eqb a) (vertices g)); [destruct I | exact I]. }
    destruct c as [| | | |s' o|z|b z|z|w b|w|e n|w|e n|w|w l'|a' m'|mp vl]; try (left; exact (K (proj2 S))).
    clear K. rewrite S in I. unfold remember, macs_of at 1 in I. cbv zeta in I. cbn [d_macs] in I. rewrite (dget_dset _ Nat.eqb_eq) in I.
    destruct (Nat.eqb a' a) eqn:EA; [|left; apply IH; exact I]. apply Nat.eqb_eq in EA. subst a'.
    destruct (mem_nat m' (macs_of d1 a)); [left; apply IH; exact I|]. apply in_app_iff in I. destruct I as [I|[->|[]]]; [left; apply IH; exact I | right; left; reflexivity]. }
  apply X. apply hard_reset_macs. exact V.
Qed.
Print Assumptions C146_setup_forgets_partial.

(** C147: a machine vertex that is remembered twice gets a wrong index. *)
Theorem C147_index_refuted : exists cls labels h a n m, let d := drun cls (data_new labels) h in
  nth_error (macs_of d a) n = Some m /\ dget Nat.eqb (d_index d) m <> Some n.
Proof. exists no_cls, [], [DRemember 0 10; DRemember 0 10], 0, 0, 10. split; [reflexivity | vm_compute; discriminate]. Qed.
Print Assumptions C147_index_refuted.
