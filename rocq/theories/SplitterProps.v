(** Properties of the splitters and of the partitioner: C112-C121. *)
From Coq Require Import List ZArith Bool Lia.
From Verif Require Import Base Dict SdramModel SdramProofs SliceModel SliceProofs
  SplitterModel SplitterProofs SplitterFinal.
Import ListNotations.

(** A graph with a vertex of each kind: a 2D population of 6x4 atoms with at most
    2x2 per core, a population of 10 atoms split one to one, a vertex with its own
    machine vertex, an FPGA device with two incoming links, two vertices on each,
    and an outgoing one, and a SpiNNaker link device with 7 atoms on 3 vertices. *)
Definition demo : list op :=
  [ NewVertex (mkAV 24 [6; 4]%Z (Some [2; 2]%Z)) (CLegacy (fun s => 100 + 10 * sl_n s)%Z);
    NewVertex (mkAV 10 [10]%Z None) (CLegacy (fun s => 7 * sl_n s)%Z);
    NewVertex (mkAV 5 [5]%Z None) (COneApp (mkSlice 0 5 None) 33);
    NewVertex (mkAV 9 [9]%Z None) (CFpga [4; 6]%nat (Some 2%nat) 2);
    NewVertex (mkAV 7 [7]%Z None) (CLink true false 3);
    NewSplitter FixedLegacy; NewSplitter OneToOneLegacy; NewSplitter OneAppOneMachine;
    NewSplitter ExternalDevice; NewSplitter ExternalDevice;
    SetSplitter 0 0; SetSplitter 1 1; SetSplitter 2 2; SetSplitter 3 3; SetSplitter 4 4 ].
Definition demo_world (ops : list op) : world := fst (run 3 1000 empty_world ops).

(** * C112: partitioning gives every atom to exactly one machine vertex *)

Theorem C112_fixed : forall pc ps ops w v x s c g, made_by pc ps ops false w ->
  wv w v = Some x -> v_split x = Some s -> ws w s = Some (mkS (SFixed c) g) -> sized (v_av x) ->
  exists f, v_kind x = Legacy f /\
    tiles 0 (map mv_slice (v_mvs x)) (av_n (v_av x)) /\
    (forall m, In m (v_mvs x) -> mv_sdram m = f (mv_slice m) /\ mv_role m = Core /\
       Forall2 (fun k lim => (0 < k <= lim)%Z) (sl_shape (mv_slice m)) (limits (v_av x))) /\
    (forall p, in_grid (av_shape (v_av x)) p ->
       exists i m, nth_error (v_mvs x) i = Some m /\ in_slice p (mv_slice m) /\
         forall j m', nth_error (v_mvs x) j = Some m' -> in_slice p (mv_slice m') -> j = i) /\
    (forall m p, In m (v_mvs x) -> in_slice p (mv_slice m) -> in_grid (av_shape (v_av x)) p) /\
    NoDup (map mv_id (v_mvs x)) /\
    (forall i m, nth_error (v_mvs x) i = Some m -> dget Nat.eqb (v_index x) (mv_id m) = Some i) /\
    out_vertices w s = Ok (v_mvs x) /\ in_vertices w s = Ok (v_mvs x) /\
    out_slices w s = (w, Ok (map mv_slice (v_mvs x))) /\
    in_slices w s = (w, Ok (map mv_slice (v_mvs x))).
Proof. exact fixed_spec. Qed.
Print Assumptions C112_fixed.

Theorem C112_one_to_one : forall pc ps ops w v x s o g, made_by pc ps ops false w -> no_reset ops ->
  wv w v = Some x -> v_split x = Some s -> ws w s = Some (mkS (SOne o) g) ->
  exists f m, v_kind x = Legacy f /\ v_mvs x = [m] /\
    mv_slice m = mkSlice 0 (av_n (v_av x)) None /\ mv_sdram m = f (mv_slice m) /\ mv_role m = Core /\
    dget Nat.eqb (v_index x) (mv_id m) = Some 0%nat /\
    out_vertices w s = Ok [m] /\ in_vertices w s = Ok [m] /\
    out_slices w s = (w, Ok [mv_slice m]) /\ in_slices w s = (w, Ok [mv_slice m]).
Proof. exact one_spec. Qed.
Print Assumptions C112_one_to_one.

Theorem C112_one_app : forall pc ps ops w v x s g, made_by pc ps ops false w ->
  wv w v = Some x -> v_split x = Some s -> ws w s = Some (mkS SOneApp g) ->
  exists m, v_kind x = OneApp m /\ v_mvs x = [m] /\
    dget Nat.eqb (v_index x) (mv_id m) = Some 0%nat /\
    out_vertices w s = Ok [m] /\ in_vertices w s = Ok [m] /\
    out_slices w s = (w, Ok [mv_slice m]) /\ in_slices w s = (w, Ok [mv_slice m]).
Proof. exact one_app_spec. Qed.
Print Assumptions C112_one_app.

(** Partitioning changes nothing else about a vertex. *)
Theorem C112_kept : forall pc ps ops w w', made_by pc ps ops true w -> partition pc ps w = done w' ->
  length (w_verts w') = length (w_verts w) /\
  forall v x, wv w v = Some x -> exists x', wv w' v = Some x' /\
    v_av x' = v_av x /\ v_kind x' = v_kind x /\ v_split x' = v_split x.
Proof. exact partition_frame. Qed.
Print Assumptions C112_kept.

Definition wv_demo (ops : list op) (v : nat) : option (list (slice * Z * role) * option nat) :=
  option_map (fun x => (map desc (v_mvs x), v_split x)) (wv (demo_world ops) v).

Example C112_example :
  run 3 1000 empty_world (demo ++ [Partition]) = done (demo_world (demo ++ [Partition])) /\
  phase true (demo ++ [Partition]) = Some false /\
  sized (mkAV 24 [6; 4]%Z (Some [2; 2]%Z)) /\ no_reset (demo ++ [Partition]) /\
  option_map (fun p => (length (fst p), snd p)) (wv_demo (demo ++ [Partition]) 0)
    = Some (6, Some 0)%nat /\
  wv_demo (demo ++ [Partition]) 1 = Some ([(mkSlice 0 10 None, 70%Z, Core)], Some 1%nat) /\
  wv_demo (demo ++ [Partition]) 2 = Some ([(mkSlice 0 5 None, 33%Z, Core)], Some 2%nat).
Proof.
  split; [vm_compute; reflexivity|]. split; [reflexivity|]. split.
  - unfold sized. cbn. repeat split; try lia; repeat constructor; lia.
  - split; [|vm_compute; auto]. intro H. repeat destruct H as [H|H]; try discriminate; contradiction.
Qed.

(** * C113: the machine vertices of devices *)

Theorem C113_devices : forall pc ps ops w v x s l o g, made_by pc ps ops false w ->
  wv w v = Some x -> v_split x = Some s -> ws w s = Some (mkS (SExt l o) g) ->
  v_mvs x = l ++ opt_list o /\ is_device x /\
  (let n := av_n (v_av x) in
   match v_kind x with
   | Fpga incoming outgoing m =>
       map desc l = fpga_parts n m incoming /\
       map desc (opt_list o) = (match outgoing with Some c => [(mkSlice 0 n None, 0%Z, ToDevice c)] | None => [] end)
   | Link incoming outgoing m =>
       map desc l = (if incoming then link_parts n m else []) /\
       map desc (opt_list o) = (if outgoing then [(mkSlice 0 n None, 0%Z, ToDevice 0)] else [])
   | _ => True
   end) /\ NoDup (map mv_id (v_mvs x)) /\
  (forall i m, nth_error (v_mvs x) i = Some m -> dget Nat.eqb (v_index x) (mv_id m) = Some i) /\
  out_vertices w s = (match l with [] => Err NotExist | _ => Ok l end) /\
  in_vertices w s = (match o with None => Err NotExist | Some m => Ok [m] end) /\
  out_slices w s = (w, Ok (map mv_slice l)) /\ in_slices w s = (w, Ok (map mv_slice (opt_list o))).
Proof.
  intros pc ps ops w v x s l o g M Hx Es Hy.
  destruct (device_spec pc ps ops w v x s l o g M Hx Es Hy) as (A & B & C & D & E).
  split; [exact A|]. split; [exact D|]. split; [|exact E]. rewrite B, C. unfold device_from, device_out.
  destruct (v_kind x) as [f|m0|i u m|[|] [|] m|]; auto.
Qed.
Print Assumptions C113_devices.

Example C113_example :
  wv_demo (demo ++ [Partition]) 3
    = Some ([(mkSlice 0 4 None, 0%Z, FromDevice 4); (mkSlice 0 4 None, 0%Z, FromDevice 6);
             (mkSlice 4 4 None, 0%Z, FromDevice 4); (mkSlice 4 4 None, 0%Z, FromDevice 6);
             (mkSlice 0 9 None, 0%Z, ToDevice 2)], Some 3%nat) /\
  wv_demo (demo ++ [Partition]) 4
    = Some ([(mkSlice 0 3 None, 0%Z, FromDevice 0); (mkSlice 3 3 None, 0%Z, FromDevice 0);
             (mkSlice 6 1 None, 0%Z, FromDevice 0)], Some 4%nat) /\
  in_vertices (demo_world (demo ++ [Partition])) 4 = Err NotExist.
Proof. vm_compute. auto. Qed.

(** * C114: when partitioning succeeds, how it fails, and the chips it asks for *)

Theorem C114_succeeds : forall pc ps ops w, made_by pc ps ops true w ->
  (forall v x, wv w v = Some x -> exists s y, v_split x = Some s /\ ws w s = Some y /\
     (forall c, s_kind y = SFixed c -> sized (v_av x) /\ splittable (v_av x))) ->
  exists w', partition pc ps w = done w'.
Proof. exact partition_outcome. Qed.
Print Assumptions C114_succeeds.

Theorem C114_fails : forall pc ps ops w w' e, made_by pc ps ops true w ->
  partition pc ps w = raises w' e ->
  exists v x, wv w v = Some x /\
    ((v_split x = None /\ e = ConfigurationException) \/
     exists s c g, v_split x = Some s /\ ws w s = Some (mkS (SFixed c) g) /\
       multi_slices (v_av x) = Err e).
Proof. exact partition_fails. Qed.
Print Assumptions C114_fails.

Theorem C114_all_split : forall pc ps ops w v x, made_by pc ps ops false w -> wv w v = Some x ->
  exists s y, v_split x = Some s /\ ws w s = Some y /\ s_gov y = Some v /\ suits (s_kind y) x /\
    (forall c, s_kind y = SFixed c -> sized (v_av x) -> splittable (v_av x)).
Proof.
  intros pc ps ops w v x M Hx. destruct (all_split pc ps ops w v x M Hx) as (s & y & A & B & C & D & E).
  exists s, y. apply suits_iff in D. auto.
Qed.
Print Assumptions C114_all_split.

Theorem C114_chips : forall pc ps ops w, made_by pc ps ops false w ->
  no_reset ops \/ no_one_to_one w ->
  w_counter w = count pc ps (flat_map (fun x => map mv_sdram (v_mvs x)) (w_verts w)).
Proof. exact chips_spec. Qed.
Print Assumptions C114_chips.

Example C114_example :
  (exists w, made_by 3 1000 demo true w) /\
  cc_chips (w_counter (demo_world (demo ++ [Partition]))) = 6%Z /\
  snd (run 3 1000 empty_world (NewVertex (mkAV 4 [4]%Z None) CPlain :: demo ++ [Partition]))
    = Some ConfigurationException.
Proof.
  split; [eexists; split; [vm_compute; reflexivity|reflexivity]|]. vm_compute. auto.
Qed.

(** * C115: partitioning again after a reset *)

Theorem C115_again : forall pc ps ops w, made_by pc ps ops false w ->
  exists w', run pc ps w [Reset; Partition] = done w' /\
    length (w_verts w') = length (w_verts w) /\ w_counter w' = w_counter w /\
    forall v x, wv w v = Some x -> exists x', wv w' v = Some x' /\
      v_av x' = v_av x /\ v_kind x' = v_kind x /\ v_split x' = v_split x /\
      forall s y, v_split x = Some s -> ws w s = Some y ->
        match s_kind y with SOne _ => True | _ => map desc (v_mvs x') = map desc (v_mvs x) end.
Proof. exact again_spec. Qed.
Print Assumptions C115_again.

Example C115_example :
  wv_demo (demo ++ [Partition; Reset; Partition]) 0 = wv_demo (demo ++ [Partition]) 0 /\
  wv_demo (demo ++ [Partition; Reset; Partition]) 3 = wv_demo (demo ++ [Partition]) 3 /\
  wv_demo (demo ++ [Partition; Reset]) 3 = Some ([], Some 3%nat).
Proof. vm_compute. auto. Qed.

(** * C116: false: a vertex split one to one has its machine vertex also after a reset *)

Theorem C116_one_to_one_reset_refuted : exists ops,
  let w := run 3 1000 empty_world ops in
  snd w = None /\ phase true ops = Some false /\
  option_map (fun x => (v_split x, v_mvs x)) (wv (fst w) 0) = Some (Some 0%nat, []) /\
  match out_vertices (fst w) 0 with
  | Ok [m] => mv_slice m = mkSlice 0 10 None /\ w_counter (fst w) = count 3 1000 [mv_sdram m]
  | _ => False
  end.
Proof.
  exists [NewVertex (mkAV 10 [10]%Z None) (CLegacy (fun s => sl_n s)); NewSplitter OneToOneLegacy;
          SetSplitter 0 0; Partition; Reset; Partition].
  vm_compute. auto.
Qed.
Print Assumptions C116_one_to_one_reset_refuted.

(** * C117: vertices and splitters refer to each other *)

Theorem C117_links : forall pc ps ops b w, made_by pc ps ops b w ->
  forall v s, (exists x, wv w v = Some x /\ v_split x = Some s) <->
              (exists y, ws w s = Some y /\ s_gov y = Some v).
Proof. exact links_spec. Qed.
Print Assumptions C117_links.

(** A vertex without a splitter and a splitter without a vertex are connected
    exactly when they fit, and nothing else is changed; otherwise only the
    splitter it has can be set. *)
Theorem C117_set : forall w v s x y, wv w v = Some x -> ws w s = Some y ->
  v_split x = None -> s_gov y = None ->
  ((exists w', set_splitter w v s = done w') <-> suits (s_kind y) x) /\
  (forall w', set_splitter w v s = done w' -> linked w w' v s).
Proof. intros w v s x y Hx Hy Hs Hg. rewrite suits_iff. now apply set_splitter_iff. Qed.
Print Assumptions C117_set.

Theorem C117_taken : forall pc ps ops w v s x y, made_by pc ps ops true w ->
  wv w v = Some x -> ws w s = Some y -> v_split x <> None \/ s_gov y <> None ->
  if match v_split x with Some s' => Nat.eqb s' s | None => false end
  then set_splitter w v s = done w
  else snd (set_splitter w v s) = Some ConfigurationException.
Proof. exact set_splitter_taken. Qed.
Print Assumptions C117_taken.

Example C117_example :
  option_map s_gov (ws (demo_world demo) 3) = Some (Some 3%nat) /\
  option_map v_split (wv (demo_world demo) 3) = Some (Some 3%nat) /\
  snd (set_splitter (demo_world demo) 3 3) = None /\
  snd (set_splitter (demo_world demo) 3 4) = Some ConfigurationException /\
  snd (set_splitter (new_splitter (new_vertex (demo_world demo) (mkAV 8 [8]%Z None) (CLink true true 3))
         ExternalDevice) 5 5) = None.
Proof. vm_compute. auto. Qed.

(** * C118: false: a splitter that refuses a vertex is not kept by it *)

(** The vertex keeps the refused splitter and then refuses a proper one. *)
Theorem C118_refused_splitter_kept_refuted : exists a,
  let w := run_on 3 1000 empty_world [NewVertex a (CLegacy (fun s => sl_n s));
        NewSplitter OneAppOneMachine; NewSplitter FixedLegacy] in
  let w' := fst (set_splitter w 0 0) in
  snd (set_splitter w 0 0) = Some ConfigurationException /\
  snd (set_splitter w 0 1) = None /\
  option_map v_split (wv w' 0) = Some (Some 0%nat) /\
  option_map s_gov (ws w' 0) = Some None /\
  snd (set_splitter w' 0 1) = Some ConfigurationException.
Proof. exists (mkAV 10 [10]%Z None). vm_compute. auto 10. Qed.
Print Assumptions C118_refused_splitter_kept_refuted.

(** A vertex given the splitter of another vertex keeps it, and partitioning
    then splits the other vertex twice and this one not at all. *)
Theorem C118_shared_splitter_refuted : exists a,
  let w := run_on 3 1000 empty_world [NewVertex a (CLegacy (fun s => sl_n s));
        NewVertex a (CLegacy (fun s => sl_n s)); NewSplitter FixedLegacy;
        SetSplitter 0 0; SetSplitter 1 0] in
  snd (set_splitter w 1 0) = None /\
  snd (partition 3 1000 w) = None /\
  option_map (fun x => map mv_slice (v_mvs x)) (wv (fst (partition 3 1000 w)) 0)
    = Some [mkSlice 0 10 None; mkSlice 0 10 None] /\
  option_map v_mvs (wv (fst (partition 3 1000 w)) 1) = Some [].
Proof. exists (mkAV 10 [10]%Z (Some [10]%Z)). vm_compute. auto 10. Qed.
Print Assumptions C118_shared_splitter_refuted.

(** * C119: false: set_governed_app_vertex does what the vertex's setter does *)

Theorem C119_governed_twice_refuted : exists a,
  let w := run_on 3 1000 empty_world [NewVertex a (CLegacy (fun s => sl_n s)); NewSplitter OneToOneLegacy] in
  snd (set_splitter w 0 0) = None /\
  option_map (fun x => map mv_slice (v_mvs x)) (wv (fst (set_splitter w 0 0)) 0)
    = Some [mkSlice 0 10 None] /\
  snd (set_governed w 0 0) = None /\
  option_map (fun x => map mv_slice (v_mvs x)) (wv (fst (set_governed w 0 0)) 0)
    = Some [mkSlice 0 10 None; mkSlice 0 10 None].
Proof. exists (mkAV 10 [10]%Z None). vm_compute. auto 10. Qed.
Print Assumptions C119_governed_twice_refuted.

(** For the splitters that make no machine vertices when they are set it does; one that
    does not suit the vertex is refused, and then nothing is changed. *)
Theorem C119_governed : forall w v s x y, wv w v = Some x -> ws w s = Some y -> v_split x = None -> s_gov y = None ->
  match s_kind y with SFixed _ | SOneApp => True | _ => False end ->
  (suits (s_kind y) x -> set_governed w s v = set_splitter w v s) /\
  (~ suits (s_kind y) x -> set_governed w s v = raises w ConfigurationException).
Proof. exact governed_same. Qed.
Print Assumptions C119_governed.

Example C119_example :
  let w := run_on 3 1000 empty_world [NewVertex (mkAV 10 [10]%Z None) (CLegacy (fun s => sl_n s)); NewSplitter FixedLegacy; NewSplitter OneAppOneMachine] in
  snd (set_governed w 0 0) = None /\ option_map v_split (wv (fst (set_governed w 0 0)) 0) = Some (Some 0%nat) /\
  set_governed w 1 0 = raises w ConfigurationException.
Proof. vm_compute. auto. Qed.

(** * C120: false: partitioning depends only on the vertices, not on earlier calls *)

Theorem C120_twice_refuted : exists ops,
  let w := run 3 1000 empty_world (ops ++ [Partition]) in
  let w2 := partition 3 1000 (fst w) in
  snd w = None /\ snd w2 = None /\
  (* without a reset the population is split twice *)
  option_map (fun x => map mv_slice (v_mvs x)) (wv (fst w2) 0)
    = Some [mkSlice 0 4 None; mkSlice 0 4 None] /\
  (* and the three vertices of the device all have index 3 *)
  option_map (fun x => map (fun m => dget Nat.eqb (v_index x) (mv_id m)) (v_mvs x)) (wv (fst w2) 1)
    = Some [Some 3; Some 3; Some 3]%nat.
Proof.
  exists [NewVertex (mkAV 4 [4]%Z (Some [4]%Z)) (CLegacy (fun s => sl_n s));
          NewVertex (mkAV 4 [4]%Z None) (CLink true true 2);
          NewSplitter FixedLegacy; NewSplitter ExternalDevice; SetSplitter 0 0; SetSplitter 1 1].
  vm_compute. auto.
Qed.
Print Assumptions C120_twice_refuted.

(** Slices asked for before the limit was set are used all the same. *)
Theorem C120_stale_slices_refuted : exists pre,
  (forall o, In o pre -> o <> Slices 0) /\
  let limit := [SetMax 0 (Some [2]%Z)] in
  let w1 := run 3 1000 empty_world (pre ++ limit ++ [Partition]) in
  let w2 := run 3 1000 empty_world (pre ++ [Slices 0] ++ limit ++ [Partition]) in
  snd w1 = None /\ snd w2 = None /\
  option_map (fun x => map mv_slice (v_mvs x)) (wv (fst w1) 0) = Some [mkSlice 0 2 None; mkSlice 2 2 None] /\
  option_map (fun x => map mv_slice (v_mvs x)) (wv (fst w2) 0) = Some [mkSlice 0 4 None].
Proof.
  exists [NewVertex (mkAV 4 [4]%Z (Some [4]%Z)) (CLegacy (fun s => sl_n s));
          NewSplitter FixedLegacy; SetSplitter 0 0].
  split; [|vm_compute; auto].
  intros o H. repeat destruct H as [<- | H]; try discriminate; contradiction.
Qed.
Print Assumptions C120_stale_slices_refuted.

(** * C121: false: setting the limit stores what is allowed and nothing else *)

(** Removing the limit with None raises, though it is removed; a refused limit is
    stored and makes partitioning fail. *)
Theorem C121_set_limit_refuted : exists a,
  let w := run_on 3 1000 empty_world [NewVertex a (CLegacy (fun s => sl_n s)); NewSplitter FixedLegacy;
        SetSplitter 0 0] in
  snd (partition 3 1000 w) = None /\
  snd (set_max w 0 None) = Some TypeError /\
  option_map (fun x => av_max (v_av x)) (wv (fst (set_max w 0 None)) 0) = Some None /\
  snd (set_max w 0 (Some [2]%Z)) = Some ValueError /\
  snd (partition 3 1000 (fst (set_max w 0 (Some [2]%Z)))) = Some ValueError.
Proof. exists (mkAV 12 [6; 2]%Z (Some [3; 2]%Z)). vm_compute. auto 10. Qed.
Print Assumptions C121_set_limit_refuted.

(** A limit that is accepted is the one used by the next partitioning. *)
Theorem C121_accepted_limit : forall w v x m w', wv w v = Some x -> set_max w v (Some m) = done w' ->
  exists x', wv w' v = Some x' /\ v_av x' = mkAV (av_n (v_av x)) (av_shape (v_av x)) (Some m) /\
    v_kind x' = v_kind x /\ v_mvs x' = v_mvs x /\ v_split x' = v_split x /\
    w_splits w' = w_splits w /\ forall u, u <> v -> wv w' u = wv w u.
Proof.
  intros w v x m w' Hx E. unfold set_max in E. unfold wv in *. rewrite Hx in E.
  destruct (check_atoms_per_core _ _) in E; [|discriminate]. unfold done in E. injection E as <-.
  eexists. unfold set_vert. cbn [w_verts w_splits]. split.
  - apply nth_error_upd_eq. apply nth_error_Some. congruence.
  - cbn [v_av v_kind v_mvs v_split]. repeat (split; [reflexivity|]).
    intros u Hu. apply nth_error_upd_neq. congruence.
Qed.
Print Assumptions C121_accepted_limit.

Example C121_example :
  snd (set_max (demo_world demo) 0 (Some [3; 4]%Z)) = None.
Proof. vm_compute. reflexivity. Qed.
