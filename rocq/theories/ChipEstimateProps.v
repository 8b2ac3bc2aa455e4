(** Properties C200 and C201: the chips that devices are counted for, and the
    distance of the chip counter's estimate to the best packing. *)
From Coq Require Import String List ZArith Bool Lia Permutation.
From Verif Require Import Base Dict DataModel SdramModel SdramProofs SliceModel SliceProofs
  SplitterModel SplitterProofs SplitterFinal ChipEstimate.
Import ListNotations.
Local Open Scope Z_scope.

(** A vertex of a device on an FPGA or a SpiNNaker link. *)
Definition device_b (x : vertex) : bool :=
  match v_kind x with Fpga _ _ _ | Link _ _ _ => true | _ => false end.

(** The machine vertices, with the application vertex each belongs to. *)
Definition all_mvs (w : world) : list (vertex * mvertex) :=
  flat_map (fun x => map (pair x) (v_mvs x)) (w_verts w).

(** The SDRAM of the machine vertices that run on cores. *)
Definition on_cores (w : world) : list Z :=
  flat_map (fun x => map mv_sdram (v_mvs x)) (filter (fun x => negb (device_b x)) (w_verts w)).

Definition n_device_mvs (w : world) : nat :=
  length (flat_map v_mvs (filter device_b (w_verts w))).

Lemma all_mvs_sdram : forall vs,
  flat_map (fun x => map mv_sdram (v_mvs x)) vs =
  map (fun p => mv_sdram (snd p)) (flat_map (fun x => map (pair x) (v_mvs x)) vs).
Proof.
  induction vs as [|x vs IH]; [reflexivity|]. cbn [flat_map]. rewrite map_app, IH, map_map. reflexivity.
Qed.

Lemma filter_mvs : forall (p : vertex -> bool) vs,
  filter (fun q => p (fst q)) (flat_map (fun x => map (@pair vertex mvertex x) (v_mvs x)) vs) =
  flat_map (fun x => map (pair x) (v_mvs x)) (filter p vs).
Proof.
  intros p. induction vs as [|x vs IH]; [reflexivity|]. cbn [flat_map filter]. rewrite filter_app, IH.
  assert (E : filter (fun q => p (fst q)) (map (@pair vertex mvertex x) (v_mvs x)) =
              if p x then map (pair x) (v_mvs x) else []).
  { induction (v_mvs x) as [|m l IHl]; [now destruct (p x)|]. cbn [map filter fst]. rewrite IHl. now destruct (p x). }
  rewrite E. now destruct (p x).
Qed.

Lemma device_free : forall pc ps ops w v x m, made_by pc ps ops false w -> wv w v = Some x ->
  device_b x = true -> In m (v_mvs x) -> mv_sdram m = 0.
Proof.
  intros pc ps ops w v x m M Hx D I.
  destruct (all_split pc ps ops w v x M Hx) as (s & y & A & B & _ & F & _). apply suits_iff in F.
  unfold device_b in D. destruct y as [[c|o| |l o] g]; cbn [s_kind suits] in F.
  - destruct F as [f F]. now rewrite F in D.
  - destruct F as [[f F] _]. now rewrite F in D.
  - destruct F as [f F]. now rewrite F in D.
  - destruct (device_spec pc ps ops w v x s l o g M Hx A B) as (E & E1 & E2 & _).
    assert (G : Forall (fun d : slice * Z * role => snd (fst d) = 0) (map desc (v_mvs x))).
    { rewrite E, map_app, E1, E2. apply Forall_app. split.
      - unfold device_from. destruct (v_kind x) as [f|m0|i u k|[|] u k|]; try constructor.
        + unfold fpga_parts. apply Forall_flat_map. apply Forall_forall. intros j _.
          apply Forall_map. apply Forall_forall. reflexivity.
        + unfold link_parts. apply Forall_map. apply Forall_forall. reflexivity.
      - unfold to_part. destruct (device_out x); constructor; [reflexivity | constructor]. }
    rewrite Forall_map in G. rewrite Forall_forall in G. apply (G m I).
Qed.

(** C200: the number of chips of a partitioned graph is at least what a ChipCounter
    counts for the machine vertices that run on cores, and exceeds it by at most the
    number of machine vertices of devices. *)
Theorem C200_devices_partial : forall pc ps ops w, made_by pc ps ops false w ->
  no_reset ops \/ no_one_to_one w -> 1 <= pc -> 0 <= ps ->
  Forall (fun x => 0 <= x <= ps) (on_cores w) ->
  cc_chips (count pc ps (on_cores w)) <= cc_chips (w_counter w) <=
    cc_chips (count pc ps (on_cores w)) + Z.of_nat (n_device_mvs w).
Proof.
  intros pc ps ops w M R P S F. rewrite (chips_spec pc ps ops w M R).
  set (f := fun p : vertex * mvertex => mv_sdram (snd p)).
  set (p := fun q : vertex * mvertex => negb (device_b (fst q))).
  assert (Z0 : forall q, In q (all_mvs w) -> p q = false -> f q = 0).
  { intros [x m] I D. unfold all_mvs in I. apply in_flat_map in I. destruct I as (x' & I & J).
    apply in_map_iff in J. destruct J as (m' & E & J). injection E as -> ->.
    apply In_nth_error in I. destruct I as [v I]. unfold p in D. cbn [fst] in D.
    apply negb_false_iff in D. exact (device_free pc ps ops w v x m M I D J). }
  assert (EF : on_cores w = map f (filter p (all_mvs w))).
  { unfold on_cores, all_mvs, p, f.
    rewrite (filter_mvs (fun x => negb (device_b x)) (w_verts w)). apply all_mvs_sdram. }
  assert (EA : flat_map (fun x => map mv_sdram (v_mvs x)) (w_verts w) = map f (all_mvs w)) by apply all_mvs_sdram.
  assert (EN : n_device_mvs w = length (filter (fun q => negb (p q)) (all_mvs w))).
  { unfold n_device_mvs, all_mvs, p.
    rewrite (filter_ext _ (fun q => device_b (fst q))) by (intros q; apply negb_involutive).
    rewrite (filter_mvs device_b (w_verts w)). clear.
    induction (filter device_b (w_verts w)) as [|x l IH]; [reflexivity|]. cbn [flat_map].
    rewrite !app_length, map_length, IH. reflexivity. }
  assert (FA : Forall (fun q => 0 <= f q <= ps) (all_mvs w)).
  { apply Forall_forall. intros q I. destruct (p q) eqn:E.
    - rewrite EF, Forall_map, Forall_forall in F. apply F. apply filter_In. auto.
    - rewrite (Z0 q I E). lia. }
  rewrite EA, EF, EN. split.
  - apply count_filter; assumption.
  - apply (count_zeros _ f p pc ps (all_mvs w) [] P S); [constructor | exact FA | exact Z0].
Qed.
Print Assumptions C200_devices_partial.

(** A population on two cores and a device with two incoming links, on chips with
    two cores: one chip for the population, two chips returned. *)
Definition pop_and_device : list op :=
  [NewVertex (mkAV 6 [6]%Z (Some [3]%Z)) (CLegacy (fun s => sl_n s)); NewSplitter FixedLegacy; SetSplitter 0 0;
   NewVertex (mkAV 8 [8]%Z None) (CFpga [4; 6]%nat None 1); NewSplitter ExternalDevice; SetSplitter 1 1; Partition].
Example C200_example : exists w, made_by 2 1000 pop_and_device false w /\ no_reset pop_and_device /\
  on_cores w = [3; 3] /\ n_device_mvs w = 2%nat /\
  cc_chips (count 2 1000 (on_cores w)) = 1 /\ cc_chips (w_counter w) = 2.
Proof.
  eexists. split; [split; [vm_compute; reflexivity|reflexivity]|]. split.
  - intro H. repeat destruct H as [H|H]; try discriminate; contradiction.
  - vm_compute. auto.
Qed.

(** C200: devices are counted as if they needed cores: a graph of a device alone,
    with no vertex on a core, is said to need three chips. *)
Theorem C200_no_cores_refuted : exists ops w, made_by 2 1000 ops false w /\ no_reset ops /\
  on_cores w = [] /\ cc_chips (count 2 1000 (on_cores w)) = 0 /\ cc_chips (w_counter w) = 3.
Proof.
  exists [NewVertex (mkAV 8 [8]%Z None) (CFpga [4; 6; 7; 9]%nat (Some 4%nat) 1); NewSplitter ExternalDevice;
          SetSplitter 0 0; Partition].
  eexists. split; [split; [vm_compute; reflexivity|reflexivity]|]. split.
  - intro H. repeat destruct H as [H|H]; try discriminate; contradiction.
  - vm_compute. auto.
Qed.
Print Assumptions C200_no_cores_refuted.

(** C201: whatever the order of the requests, the counter counts less than three
    times the chips of any arrangement of the requests on chips. *)
Theorem C201_three_times_partial : forall pc ps l chips, 1 <= pc -> Forall (fun x => 0 <= x <= ps) l -> l <> [] ->
  Permutation (concat chips) l ->
  Forall (fun ch => Z.of_nat (length ch) <= pc /\ fold_right Z.add 0 ch <= ps) chips ->
  cc_chips (count pc ps l) <= 3 * Z.of_nat (length chips) - 1.
Proof. exact count_best. Qed.
Print Assumptions C201_three_times_partial.

(** C201: where no request is over an even share of a chip's SDRAM, the count is the
    number of requests divided by the cores of a chip, rounded up, in any order. *)
Theorem C201_even_share_partial : forall pc ps l, 1 <= pc -> Forall (fun x => 0 <= x /\ pc * x <= ps) l ->
  cc_chips (count pc ps l) = (Z.of_nat (length l) + pc - 1) / pc.
Proof. exact count_light. Qed.
Print Assumptions C201_even_share_partial.

Example C201_example :
  Permutation (concat [[60; 40]; [60; 40]; [1; 2; 3]]) [60; 60; 1; 40; 40; 2; 3] /\
  cc_chips (count 3 100 [60; 60; 1; 40; 40; 2; 3]) = 4 /\
  cc_chips (count 3 100 [33; 1; 33; 20; 0; 33; 32]) = (7 + 3 - 1) / 3.
Proof.
  split; [|vm_compute; auto]. cbn [concat app].
  apply perm_skip. apply (Permutation_cons_app [60; 1] [40; 2; 3]). cbn [app]. apply perm_skip.
  apply (Permutation_cons_app [1] [2; 3]). cbn [app]. reflexivity.
Qed.

(** C201: the same requests, in two orders, are counted differently. *)
Theorem C201_least_refuted : exists l l', Permutation l l' /\
  Forall (fun x => 0 <= x <= 100) l /\
  cc_chips (count 3 100 l) = 3 /\ cc_chips (count 3 100 l') = 2.
Proof.
  exists [60; 60; 40; 40], [60; 40; 60; 40]. split; [apply perm_skip, perm_swap|].
  split; [repeat (constructor; [lia|]); constructor|]. vm_compute. auto.
Qed.
Print Assumptions C201_least_refuted.
