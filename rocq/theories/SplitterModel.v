(** Model of the splitters, of the application vertices they split and of the
    partitioner (pacman/model/partitioner_splitters/*.py,
    pacman/model/graphs/application/application_vertex.py 62-145 and 250-300,
    abstract_one_app_one_machine_vertex.py,
    pacman/operations/partition_algorithms/splitter_partitioner.py and the reset
    of pacman/model/graphs/application/application_graph.py 245-250).

    Python objects are numbered: application vertices and splitters by their
    position in the world, the machine vertices made for an application vertex
    by [mv_id] in the order they were made.  A step that raises
    leaves the changes made before the exception, so every operation returns the
    world together with the exception, if any.

    Simplified: labels are left out.  The methods of a LegacyPartitionerAPI
    vertex are user code: get_sdram_used_by_atoms is any function of the slice,
    giving the total for the planned number of timesteps, and
    create_machine_vertex returns a new machine vertex with the slice and SDRAM
    it is given.  No class is both a LegacyPartitionerAPI and an
    AbstractOneAppOneMachineVertex. *)
From Coq Require Import List ZArith Bool.
From Verif Require Import Base Dict SdramModel SliceModel.
Import ListNotations.
Local Open Scope Z_scope.

(** What a machine vertex stands for: a core, or traffic from or to a device
    over one of its connections (machine_fpga_vertex.py 26-62,
    machine_spinnaker_link_vertex.py 26-63). *)
Inductive role := Core | FromDevice (connection : nat) | ToDevice (connection : nat).

(** MachineVertex (machine_vertex.py 34-66): its slice and its sdram_required
    (0 for devices: machine_fpga_vertex.py 64-66).  The index (machine_vertex.py
    101-117) changes, so it is kept in the application vertex. *)
Record mvertex := mkMV { mv_id : nat; mv_slice : slice; mv_sdram : Z; mv_role : role }.

(** The classes of application vertex that the splitters tell apart:
    LegacyPartitionerAPI (with its get_sdram_used_by_atoms),
    AbstractOneAppOneMachineVertex (with its machine vertex),
    ApplicationFPGAVertex (incoming connections, outgoing connection,
    n_machine_vertices_per_link), ApplicationSpiNNakerLinkVertex (incoming,
    outgoing, n_machine_vertices) and anything else. *)
Inductive kind :=
| Legacy (sdram_of : slice -> Z)
| OneApp (m : mvertex)
| Fpga (incoming : list nat) (outgoing : option nat) (per_link : Z)
| Link (incoming outgoing : bool) (n_machine : Z)
| Plain.

(** ApplicationVertex (application_vertex.py 46-88): the sizes of SliceModel,
    _machine_vertices (an ordered set of objects) and _splitter; also the index
    of its machine vertices and the number of machine vertices made for it. *)
Record vertex := mkV {
  v_av : app_vertex;
  v_kind : kind;
  v_mvs : list mvertex;
  v_split : option nat;
  v_index : list (nat * nat);
  v_next : nat }.

(** The splitters and their fields: SplitterFixedLegacy.__slices
    (splitter_fixed_legacy.py 44-48), SplitterOneToOneLegacy._machine_vertex with
    the slice and SDRAM in it (splitter_one_to_one_legacy.py 39-48),
    SplitterOneAppOneMachine, and SplitterExternalDevice's incoming and outgoing
    vertices with their slices in them (splitter_external_device.py 43-58). *)
Inductive skind :=
| SFixed (slices : option (list slice))
| SOne (machine_vertex : option mvertex)
| SOneApp
| SExt (incoming : list mvertex) (outgoing : option mvertex).

(** AbstractSplitterCommon.__governed_app_vertex (abstract_splitter_common.py
    35-40). *)
Record splitter := mkS { s_kind : skind; s_gov : option nat }.

Record world := mkW {
  w_verts : list vertex;
  w_splits : list splitter;
  w_counter : counter }.          (* the ChipCounter of the last partitioning *)

Definition empty_world : world := mkW [] [] new_counter.

Definition outcome : Type := world * option exn.
Definition done (w : world) : outcome := (w, None).
Definition raises (w : world) (e : exn) : outcome := (w, Some e).
Definition and_then (o : outcome) (f : world -> outcome) : outcome :=
  match o with (w, None) => f w | (w, Some e) => (w, Some e) end.

Definition set_vert (w : world) (v : nat) (x : vertex) : world :=
  mkW (upd (w_verts w) v x) (w_splits w) (w_counter w).
Definition set_split (w : world) (s : nat) (x : splitter) : world :=
  mkW (w_verts w) (upd (w_splits w) s x) (w_counter w).
Definition set_skind (w : world) (s : nat) (k : skind) : world :=
  match nth_error (w_splits w) s with
  | Some x => set_split w s (mkS k (s_gov x))
  | None => w
  end.

Definition in_mvs (m : mvertex) (l : list mvertex) : bool :=
  existsb (fun m' => Nat.eqb (mv_id m) (mv_id m')) l.

(** ApplicationVertex.remember_machine_vertex (application_vertex.py 137-145):
    the index is set first, then the vertex added to the ordered set.
    AbstractOneAppOneMachineVertex only asserts that it is its own machine
    vertex (abstract_one_app_one_machine_vertex.py 42-44). *)
Definition remember (w : world) (v : nat) (m : mvertex) : outcome :=
  match nth_error (w_verts w) v with
  | None => raises w IndexError
  | Some x =>
      match v_kind x with
      | OneApp own => if Nat.eqb (mv_id m) (mv_id own) then done w else raises w AssertionError
      | _ =>
          let l := v_mvs x in
          done (set_vert w v (mkV (v_av x) (v_kind x) (if in_mvs m l then l else l ++ [m])
                                  (v_split x) (dset Nat.eqb (v_index x) (mv_id m) (length l))
                                  (v_next x)))
      end
  end.

(** A new machine vertex object for a vertex. *)
Definition made (x : vertex) (n : nat) : vertex :=
  mkV (v_av x) (v_kind x) (v_mvs x) (v_split x) (v_index x) (v_next x + n).

(** The slices of the incoming vertices of a device with the connection of each
    (splitter_external_device.py 72-80 and 105-106). *)
Definition device_parts (v : vertex) : res (list (slice * nat)) :=
  match v_kind v with
  | Fpga incoming _ m =>
      mapM (fun ic => let* s := fpga_slice (av_n (v_av v)) m (fst ic) in Ok (s, snd ic))
           (flat_map (fun i => map (fun c => (i, c)) incoming) (zrange 0 m))
  | Link true _ m =>
      mapM (fun i => let* s := link_slice (av_n (v_av v)) m i in Ok (s, 0%nat)) (zrange 0 m)
  | _ => Ok []
  end.

(** The connection of the outgoing vertex, if any (splitter_external_device.py
    87-88 and 113). *)
Definition device_out (v : vertex) : option nat :=
  match v_kind v with
  | Fpga _ o _ => o
  | Link _ true _ => Some 0%nat
  | _ => None
  end.

Fixpoint new_incoming (n : nat) (parts : list (slice * nat)) : list mvertex :=
  match parts with
  | [] => []
  | (s, c) :: t => mkMV n s 0 (FromDevice c) :: new_incoming (S n) t
  end.

(** SplitterExternalDevice.set_governed_app_vertex after the base class
    (splitter_external_device.py 64-122).  When a slice cannot be made the
    exception comes out of the loop; the vertices made so far stay in the
    splitter in the code, none do here. *)
Definition build_device (w : world) (s v : nat) : outcome :=
  match nth_error (w_verts w) v with
  | None => raises w IndexError
  | Some x =>
      let w0 := set_skind w s (SExt [] None) in
      match v_kind x with
      | Fpga _ _ _ | Link _ _ _ =>
          match device_parts x with
          | Err e => raises w0 e
          | Ok parts =>
              let n := length parts in
              let l := new_incoming (v_next x) parts in
              let w1 := set_vert w0 v (made x n) in
              match device_out x with
              | None => done (set_skind w1 s (SExt l None))
              | Some c =>
                  match make_slice 0 (av_n (v_av x) - 1) with
                  | Err e => raises (set_skind w1 s (SExt l None)) e
                  | Ok sl =>
                      done (set_skind (set_vert w0 v (made x (S n))) s
                              (SExt l (Some (mkMV (v_next x + n) sl 0 (ToDevice c)))))
                  end
              end
          end
      | _ => raises w0 ConfigurationException
      end
  end.

(** SplitterOneToOneLegacy.set_governed_app_vertex after the base class
    (splitter_one_to_one_legacy.py 56-63). *)
Definition build_one (w : world) (s v : nat) (sdram_of : slice -> Z) : outcome :=
  match nth_error (w_verts w) v with
  | None => raises w IndexError
  | Some x =>
      match make_slice 0 (av_n (v_av x) - 1) with
      | Err e => raises w e
      | Ok sl =>
          let m := mkMV (v_next x) sl (sdram_of sl) Core in
          remember (set_skind (set_vert w v (made x 1)) s (SOne (Some m))) v m
      end
  end.

Definition with_split (x : vertex) (o : option nat) : vertex :=
  mkV (v_av x) (v_kind x) (v_mvs x) o (v_index x) (v_next x).

(** ApplicationVertex.splitter's setter (application_vertex.py 119-135) and
    set_governed_app_vertex of the splitters (abstract_splitter_common.py 66-83,
    splitter_fixed_legacy.py 50-55, splitter_one_to_one_legacy.py 50-63,
    splitter_one_app_one_machine.py 39-46, splitter_external_device.py 60-122).
    Each calls the other; the fuel counts the calls. *)
Fixpoint attach (fuel : nat) (by_splitter : bool) (w : world) (v s : nat) : outcome :=
  match fuel with
  | O => raises w OutOfFuel
  | S fuel' =>
      match nth_error (w_verts w) v, nth_error (w_splits w) s with
      | Some x, Some y =>
          if by_splitter then
            (* s.set_governed_app_vertex(v) *)
            let base (w : world) : outcome :=
              match s_gov y with
              | Some v' => if Nat.eqb v' v then done w else raises w ConfigurationException
              | None => attach fuel' false (set_split w s (mkS (s_kind y) (Some v))) v s
              end in
            match s_kind y, v_kind x with
            | SFixed _, Legacy _ => base w
            | SFixed _, _ => raises w ConfigurationException
            | SOne _, Legacy f => and_then (base w) (fun w' => build_one w' s v f)
            | SOne _, _ => raises w ConfigurationException
            | SOneApp, OneApp _ => base w
            | SOneApp, _ => raises w ConfigurationException
            | SExt _ _, _ => and_then (base w) (fun w' => build_device w' s v)
            end
          else
            (* v.splitter = s *)
            match v_split x with
            | Some s' => if Nat.eqb s' s then done w else raises w ConfigurationException
            | None => attach fuel' true (set_vert w v (with_split x (Some s))) v s
            end
      | _, _ => raises w IndexError
      end
  end.

Definition set_splitter (w : world) (v s : nat) : outcome := attach 4 false w v s.
Definition set_governed (w : world) (s v : nat) : outcome := attach 4 true w v s.

(** ChipCounter.add_core on the counter of the running partitioning; [pc] and
    [ps] are the cores and the SDRAM of a chip (chip_counter.py 43-49). *)
Definition add_core_w (pc ps : Z) (w : world) (sdram : Z) : world :=
  mkW (w_verts w) (w_splits w) (add_core pc ps (w_counter w) sdram).

(** SplitterFixedLegacy.__fixed_slices (splitter_fixed_legacy.py 78-83): the
    cached slices, or those of the governed vertex, which are kept. *)
Definition fixed_slices (w : world) (s : nat) : world * res (list slice) :=
  match nth_error (w_splits w) s with
  | Some (mkS (SFixed (Some l)) _) => (w, Ok l)
  | Some (mkS (SFixed None) (Some v)) =>
      match nth_error (w_verts w) v with
      | None => (w, Err IndexError)
      | Some x =>
          match multi_slices (v_av x) with
          | Ok l => (set_skind w s (SFixed (Some l)), Ok l)
          | Err e => (w, Err e)
          end
      end
  | Some (mkS (SFixed None) None) => (w, Err ConfigurationException)
  | _ => (w, Err IndexError)
  end.

(** The loop of SplitterFixedLegacy.create_machine_vertices
    (splitter_fixed_legacy.py 92-98). *)
Fixpoint make_fixed (pc ps : Z) (w : world) (v : nat) (sdram_of : slice -> Z) (l : list slice)
  : outcome :=
  match l with
  | [] => done w
  | sl :: t =>
      let w1 := add_core_w pc ps w (sdram_of sl) in
      match nth_error (w_verts w1) v with
      | None => raises w1 IndexError
      | Some x =>
          let m := mkMV (v_next x) sl (sdram_of sl) Core in
          and_then (remember (set_vert w1 v (made x 1)) v m)
                   (fun w3 => make_fixed pc ps w3 v sdram_of t)
      end
  end.

(** The loop of SplitterExternalDevice.create_machine_vertices
    (splitter_external_device.py 126-134). *)
Fixpoint make_known (pc ps : Z) (w : world) (v : nat) (l : list mvertex) : outcome :=
  match l with
  | [] => done w
  | m :: t =>
      and_then (remember (add_core_w pc ps w (mv_sdram m)) v m)
               (fun w' => make_known pc ps w' v t)
  end.

Definition opt_list {A} (o : option A) : list A :=
  match o with Some a => [a] | None => [] end.

(** create_machine_vertices of each splitter (splitter_fixed_legacy.py 85-98,
    splitter_one_to_one_legacy.py 65-68, splitter_one_app_one_machine.py 48-51,
    splitter_external_device.py 124-134). *)
Definition create (pc ps : Z) (w : world) (s : nat) : outcome :=
  match nth_error (w_splits w) s with
  | None => raises w IndexError
  | Some (mkS _ None) => raises w ConfigurationException
  | Some (mkS k (Some v)) =>
      match nth_error (w_verts w) v with
      | None => raises w IndexError
      | Some x =>
          match k with
          | SFixed _ =>
              match v_kind x with
              | Legacy f =>
                  match fixed_slices w s with
                  | (w', Ok l) => make_fixed pc ps w' v f l
                  | (w', Err e) => raises w' e
                  end
              | _ => raises w TypeError
              end
          | SOne (Some m) => done (add_core_w pc ps w (mv_sdram m))
          | SOne None => raises w AssertionError
          | SOneApp =>
              match v_kind x with
              | OneApp m => done (add_core_w pc ps w (mv_sdram m))
              | _ => raises w TypeError
              end
          | SExt l o => make_known pc ps w v (l ++ opt_list o)
          end
      end
  end.

(** The loop of splitter_partitioner (splitter_partitioner.py 34-36) over the
    vertices of the graph; vertex.splitter raises if there is none
    (application_vertex.py 107-117). *)
Fixpoint partition_loop (pc ps : Z) (w : world) (vs : list nat) : outcome :=
  match vs with
  | [] => done w
  | v :: t =>
      match nth_error (w_verts w) v with
      | None => raises w IndexError
      | Some x =>
          match v_split x with
          | None => raises w ConfigurationException
          | Some s => and_then (create pc ps w s) (fun w' => partition_loop pc ps w' t)
          end
      end
  end.

(** splitter_partitioner (splitter_partitioner.py 20-38); the graph holds all
    vertices of the world in order.  The number of chips returned is
    [cc_chips (w_counter _)]. *)
Definition partition (pc ps : Z) (w : world) : outcome :=
  partition_loop pc ps
    (mkW (w_verts w) (w_splits w) new_counter)
    (seq 0 (length (w_verts w))).

(** reset_called: only SplitterFixedLegacy forgets something
    (splitter_fixed_legacy.py 100-102, splitter_one_to_one_legacy.py 96-98,
    splitter_one_app_one_machine.py 74-76, splitter_external_device.py 171-173). *)
Definition reset_called (y : splitter) : splitter :=
  match s_kind y with
  | SFixed _ => mkS (SFixed None) (s_gov y)
  | _ => y
  end.

(** ApplicationVertex.reset (application_vertex.py 293-300) and
    AbstractOneAppOneMachineVertex.reset (abstract_one_app_one_machine_vertex.py
    60-64). *)
Definition reset_vertex (w : world) (v : nat) : world :=
  match nth_error (w_verts w) v with
  | None => w
  | Some x =>
      let w1 := match v_kind x with
                | OneApp _ => w
                | _ => set_vert w v (mkV (v_av x) (v_kind x) [] (v_split x) (v_index x) (v_next x))
                end in
      match v_split x with
      | None => w1
      | Some s =>
          match nth_error (w_splits w1) s with
          | Some y => set_split w1 s (reset_called y)
          | None => w1
          end
      end
  end.

(** ApplicationGraph.reset (application_graph.py 245-250). *)
Definition reset (w : world) : world :=
  fold_left reset_vertex (seq 0 (length (w_verts w))) w.

(** set_max_atoms_per_dimension_per_core (application_vertex.py 275-291): the
    value is stored (250-273) and then checked; __check_atoms_per_core takes the
    length of the stored value, which None does not have (205-207).  An integer
    is a tuple of one (267-269). *)
Definition set_max (w : world) (v : nat) (m : option (list Z)) : outcome :=
  match nth_error (w_verts w) v with
  | None => raises w IndexError
  | Some x =>
      let a := mkAV (av_n (v_av x)) (av_shape (v_av x)) m in
      let w1 := set_vert w v (mkV a (v_kind x) (v_mvs x) (v_split x) (v_index x) (v_next x)) in
      match m with
      | None => raises w1 TypeError
      | Some mx =>
          match check_atoms_per_core a mx with
          | Ok _ => done w1
          | Err e => raises w1 e
          end
      end
  end.

(** get_out_going_vertices, get_in_coming_vertices, get_out_going_slices and
    get_in_coming_slices of the splitter of a vertex (splitter_fixed_legacy.py
    57-76, splitter_one_to_one_legacy.py 70-88, splitter_one_app_one_machine.py
    53-67, splitter_external_device.py 136-164). *)
Definition out_vertices (w : world) (s : nat) : res (list mvertex) :=
  match nth_error (w_splits w) s with
  | None => Err IndexError
  | Some y =>
      match s_kind y with
      | SExt l _ => match l with [] => Err NotExist | _ => Ok l end
      | SOne (Some m) => Ok [m]
      | SOne None => Err AssertionError
      | k =>
          match s_gov y with
          | None => Err ConfigurationException
          | Some v =>
              match nth_error (w_verts w) v with
              | None => Err IndexError
              | Some x =>
                  match k, v_kind x with
                  | SOneApp, OneApp m => Ok [m]
                  | SOneApp, _ => Err TypeError
                  | _, _ => Ok (v_mvs x)
                  end
              end
          end
      end
  end.
Definition in_vertices (w : world) (s : nat) : res (list mvertex) :=
  match nth_error (w_splits w) s with
  | Some (mkS (SExt _ o) _) => match o with None => Err NotExist | Some m => Ok [m] end
  | _ => out_vertices w s
  end.
Definition out_slices (w : world) (s : nat) : world * res (list slice) :=
  match nth_error (w_splits w) s with
  | Some (mkS (SFixed _) _) => fixed_slices w s
  | Some (mkS (SExt l _) _) => (w, Ok (map mv_slice l))
  | _ => (w, let* l := out_vertices w s in Ok (map mv_slice l))
  end.
Definition in_slices (w : world) (s : nat) : world * res (list slice) :=
  match nth_error (w_splits w) s with
  | Some (mkS (SFixed _) _) => fixed_slices w s
  | Some (mkS (SExt _ o) _) => (w, Ok (map mv_slice (opt_list o)))
  | _ => (w, let* l := out_vertices w s in Ok (map mv_slice l))
  end.

(** The splitter classes, for their constructors. *)
Inductive sclass := FixedLegacy | OneToOneLegacy | OneAppOneMachine | ExternalDevice.
Definition fresh_splitter (c : sclass) : splitter :=
  mkS (match c with
       | FixedLegacy => SFixed None
       | OneToOneLegacy => SOne None
       | OneAppOneMachine => SOneApp
       | ExternalDevice => SExt [] None
       end) None.

(** The vertex classes, for their constructors: what the user gives. *)
Inductive vclass :=
| CLegacy (sdram_of : slice -> Z)
| COneApp (s : slice) (sdram : Z)
| CFpga (incoming : list nat) (outgoing : option nat) (per_link : Z)
| CLink (incoming outgoing : bool) (n_machine : Z)
| CPlain.

(** The constructors: a vertex without a splitter added to the graph
    (application_vertex.py 62-88); AbstractOneAppOneMachineVertex remembers its
    machine vertex with the base class's method
    (abstract_one_app_one_machine_vertex.py 32-40). *)
Definition fresh_vertex (a : app_vertex) (c : vclass) : vertex :=
  match c with
  | COneApp s sdram =>
      let m := mkMV 0 s sdram Core in mkV a (OneApp m) [m] None [(0%nat, 0%nat)] 1
  | CLegacy f => mkV a (Legacy f) [] None [] 0
  | CFpga i o n => mkV a (Fpga i o n) [] None [] 0
  | CLink i o n => mkV a (Link i o n) [] None [] 0
  | CPlain => mkV a Plain [] None [] 0
  end.
Definition new_vertex (w : world) (a : app_vertex) (c : vclass) : world :=
  mkW (w_verts w ++ [fresh_vertex a c]) (w_splits w) (w_counter w).
Definition new_splitter (w : world) (c : sclass) : world :=
  mkW (w_verts w) (w_splits w ++ [fresh_splitter c]) (w_counter w).

(** The calls a user can make. *)
Inductive op :=
| NewVertex (a : app_vertex) (c : vclass)
| NewSplitter (c : sclass)
| SetSplitter (v s : nat)
| SetGoverned (s v : nat)
| SetMax (v : nat) (m : option (list Z))
| Slices (s : nat)
| Partition
| Reset.

Definition step (pc ps : Z) (w : world) (o : op) : outcome :=
  match o with
  | NewVertex a c => done (new_vertex w a c)
  | NewSplitter c => done (new_splitter w c)
  | SetSplitter v s => set_splitter w v s
  | SetGoverned s v => set_governed w s v
  | SetMax v m => set_max w v m
  | Slices s =>
      match out_slices w s with
      | (w', Ok _) => done w'
      | (w', Err e) => raises w' e
      end
  | Partition => partition pc ps w
  | Reset => done (reset w)
  end.

(** A sequence of calls, up to the first exception. *)
Fixpoint run (pc ps : Z) (w : world) (ops : list op) : outcome :=
  match ops with
  | [] => done w
  | o :: t => and_then (step pc ps w o) (fun w' => run pc ps w' t)
  end.

(** A sequence of calls whose exceptions are caught, giving the world at the end. *)
Definition run_on (pc ps : Z) (w : world) (ops : list op) : world :=
  fold_left (fun w o => fst (step pc ps w o)) ops w.
