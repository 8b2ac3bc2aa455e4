(** Property C183: the number of chips that partitioning returns and the data writer. *)
From Coq Require Import String List ZArith Bool Lia.
From Verif Require Import Base Dict DataModel SdramModel SdramProofs SliceModel SliceProofs
  SplitterModel SplitterProofs SplitterFinal.
Import ListNotations.

Lemma some_chip : forall pc ps x l, (1 <= cc_chips (count pc ps (x :: l)))%Z.
Proof.
  intros pc ps x l. unfold count. cbn [fold_left].
  assert (G : forall l c, (cc_chips c <= cc_chips (fold_left (add_core pc ps) l c))%Z).
  { clear. induction l as [|y l IH]; intros c; [apply Z.le_refl|]. cbn [fold_left]. eapply Z.le_trans; [|apply IH].
    unfold add_core. destruct ((cc_cores c =? 0) || (cc_sdram c <? y))%Z; cbn [cc_chips]; lia. }
  eapply Z.le_trans; [|apply G]. unfold add_core, new_counter. cbn [cc_cores cc_sdram cc_chips]. rewrite Z.eqb_refl. cbn [orb cc_chips]. lia.
Qed.

(** C183: if some vertex has a machine vertex, what splitter_partitioner returns is
    accepted by set_n_chips_in_graph, and is then the number of chips needed unless the
    user asked for one. *)
Theorem C183_chips_set_partial : forall pc ps ops w d, made_by pc ps ops false w ->
  no_reset ops \/ no_one_to_one w ->
  (exists v x, wv w v = Some x /\ v_mvs x <> []) ->
  let n := cc_chips (w_counter w) in
  exists d', set_in_graph d (PInt n) = (d', RNone) /\
    d_graph d' = d_graph d /\ d_boards d' = d_boards d /\ d_chips d' = d_chips d /\
    (d_chips d = None -> get_chips d' = Some n).
Proof.
  intros pc ps ops w d M R (v & x & V & N) n.
  assert (P : (1 <= n)%Z).
  { unfold n. rewrite (chips_spec pc ps ops w M R). unfold wv in V. apply nth_error_In in V.
    destruct (flat_map (fun x => map mv_sdram (v_mvs x)) (w_verts w)) as [|y l] eqn:E; [|apply some_chip].
    exfalso. destruct (v_mvs x) as [|m ms] eqn:EM; [now apply N|].
    assert (I : In (mv_sdram m) (flat_map (fun x => map mv_sdram (v_mvs x)) (w_verts w))).
    { apply in_flat_map. exists x. split; [exact V|]. rewrite EM. now left. }
    rewrite E in I. exact I. }
  unfold set_in_graph. destruct (Z.leb_spec n 0) as [L|L]; [lia|]. eexists. split; [reflexivity|]. cbn [d_graph d_boards d_chips].
  split; [reflexivity|]. split; [reflexivity|]. split; [reflexivity|]. intros C. unfold get_chips. cbn [d_chips d_in_graph].
  rewrite C. cbn [truthy]. destruct (Z.eqb_spec n 0); [lia|]. reflexivity.
Qed.
Print Assumptions C183_chips_set_partial.

(** A population of 12 atoms, at most 3 on a core, on chips with two cores. *)
Definition four_cores : list op :=
  [NewVertex (mkAV 12 [12]%Z (Some [3]%Z)) (CLegacy (fun s => sl_n s)); NewSplitter FixedLegacy; SetSplitter 0 0; Partition].
Example C183_example : exists w, made_by 2 1000 four_cores false w /\ no_reset four_cores /\
  option_map (fun x => length (v_mvs x)) (wv w 0) = Some 4%nat /\
  forall cls, get_chips (fst (set_in_graph (drun cls (data_new []) []) (PInt (cc_chips (w_counter w))))) = Some 2%Z.
Proof.
  eexists. split; [split; [vm_compute; reflexivity|reflexivity]|]. split; [|split; [reflexivity|intros cls; reflexivity]].
  intro H. repeat destruct H as [H|H]; try discriminate; contradiction.
Qed.

(** C183: a graph without vertices is partitioned onto 0 chips, and a device without
    connections too; 0 is refused. *)
Theorem C183_no_chips_refuted : exists ops1 ops2, forall d,
  (forall ops, ops = ops1 \/ ops = ops2 ->
     exists w, made_by 17 1000 ops false w /\ cc_chips (w_counter w) = 0%Z /\
       set_in_graph d (PInt (cc_chips (w_counter w))) = (d, RRaise ValueError)) /\
  ops1 = [Partition] /\ In (NewVertex (mkAV 5 [5]%Z None) (CFpga [] None 1)) ops2.
Proof.
  exists [Partition], [NewVertex (mkAV 5 [5]%Z None) (CFpga [] None 1); NewSplitter ExternalDevice; SetSplitter 0 0; Partition].
  intros d. split; [|split; [reflexivity|now left]].
  intros ops [-> | ->]; (eexists; split; [split; [vm_compute; reflexivity|reflexivity]|]; split; reflexivity).
Qed.
Print Assumptions C183_no_chips_refuted.
