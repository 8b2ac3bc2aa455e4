(** Property C173: key allocation, fixed routes, table generation, validation, the searches
    of the application router and the pair compressor end. In the models the loops of the
    code have a bound; the theorems say that no input makes a loop reach its bound. *)
From Coq Require Import List NArith ZArith Arith Bool Lia.
From Verif Require Import Base Ends Dict RouteSpec KeyMask TreeModel MachModel LdfModel PathModel PathProofs BfsModel BfsProofs.
From Verif Require AllocModel AllocEnds FixedModel FixedEnds TablesModel GenModel GenEnds PairModel PairEnds
  ValidModel ValidEnds SdramModel PlacerTotal OrderedModel OrderedEnds SplitterModel SplitterEnds ValidProps AllocProps RouterModel RouterEnds RouterProps.
Import ListNotations.
Local Open Scope nat_scope.

Theorem C173_allocate : forall flexible e parts, AllocModel.allocate flexible e parts <> Err OutOfFuel.
Proof. exact AllocEnds.allocate_ends. Qed.
Print Assumptions C173_allocate.

Theorem C173_fixed_routes : forall m gatherer boards,
  FixedModel.build_fixed_routes m gatherer boards <> Err OutOfFuel.
Proof. exact FixedEnds.build_fixed_ends. Qed.
Print Assumptions C173_fixed_routes.

Theorem C173_basic_tables : forall entry_eq infos routers,
  GenModel.generate (GenModel.basic_table entry_eq infos) routers <> Err OutOfFuel.
Proof. exact GenEnds.basic_ends. Qed.
Print Assumptions C173_basic_tables.

Theorem C173_merged_tables : forall entry_eq infos app_of routers,
  GenModel.generate (GenModel.merged_table entry_eq infos app_of) routers <> Err OutOfFuel.
Proof. exact GenEnds.merged_ends. Qed.
Print Assumptions C173_merged_tables.

(** Whatever the tables, also if packets go round for ever on the machine. *)
Theorem C173_validate : forall env link tables infos,
  (forall m, ValidModel.ve_place env m <> Err OutOfFuel) ->
  ValidModel.validate_routes env link tables infos <> Err OutOfFuel.
Proof. exact ValidEnds.validate_ends. Qed.
Print Assumptions C173_validate.

Theorem C173_searches : forall m source target allowed targets disallowed r,
  find_path m source target <> Err OutOfFuel /\
  route_to_xys m source allowed targets r <> Err OutOfFuel /\
  find_reachable m source allowed disallowed <> Err OutOfFuel.
Proof.
  intros m source target allowed targets disallowed r. split; [|split]; intro H.
  - pose proof (find_path_spec m source target) as X. rewrite H in X. destruct X. discriminate.
  - pose proof (route_to_xys_spec m source allowed targets r) as X. rewrite H in X. destruct X. discriminate.
  - destruct (find_reachable_spec m source allowed disallowed) as [vis [X _]]. congruence.
Qed.
Print Assumptions C173_searches.

(** The whole of route_application_graph; the trees of the routes dictionary have no
    cycles (C32_acyclic, C108_once), so that [tree_of] has all of each tree. *)
Theorem C173_router : forall i vertices partitions,
  RouterModel.route_application_graph i vertices partitions <> Err OutOfFuel.
Proof. exact RouterEnds.router_ends. Qed.
Print Assumptions C173_router.

Theorem C173_pair_compress : forall ordered c_sort n_routes table,
  PairModel.compress_table ordered c_sort n_routes table <> Err OutOfFuel.
Proof. exact PairEnds.pair_compress_ends. Qed.
Print Assumptions C173_pair_compress.

(** Adding SDRAM costs, the two operands swapped as often as their classes ask for it. *)
Theorem C173_sdram : forall a b t, SdramModel.add a b <> Err OutOfFuel /\ SdramModel.total t a <> Err OutOfFuel.
Proof. split; [apply PlacerTotal.add_ends | apply PlacerTotal.total_ends]. Qed.
Print Assumptions C173_sdram.

(** Ordered covering, of entries that may overlap and from any aliases: it never grows
    the table, and apart from that of an empty table without a target the only exception
    is that of a table that stays too big. *)
Theorem C173_covering : forall table target aliases no_raise, table <> [] \/ target <> None ->
  (exists out al, length out <= length table /\
    (OrderedModel.ordered_covering table target aliases no_raise = Ok (out, al) \/
     (no_raise = false /\ (exists n, target = Some n /\ n < length out) /\
      OrderedModel.ordered_covering table target aliases no_raise = Err MinimisationFailed))) /\
  ((exists out, OrderedModel.oc_compress_table table target = Ok out /\ length out <= length table) \/
   OrderedModel.oc_compress_table table target = Err MinimisationFailed).
Proof. intros table target aliases no_raise H. split; [apply OrderedEnds.covering_any | apply OrderedEnds.oc_compress_any]; exact H. Qed.
Print Assumptions C173_covering.

(** A vertex and its splitter call each other's setters, whatever was set before. *)
Theorem C173_splitters : forall w v s,
  snd (SplitterModel.set_splitter w v s) <> Some OutOfFuel /\ snd (SplitterModel.set_governed w s v) <> Some OutOfFuel.
Proof. intros w v s. split; [apply SplitterEnds.set_splitter_ends | apply SplitterEnds.set_governed_ends]. Qed.
Print Assumptions C173_splitters.

(** ** Examples *)
(** Four entries of which the last two overlap. *)
Example C173_covering_example : exists out,
  OrderedModel.oc_compress_table [mkEntry 8 15 1 false; mkEntry 9 15 1 false; mkEntry 0 12 2 false; mkEntry 0 8 3 false] None = Ok out /\ length out = 3.
Proof. eexists. split; vm_compute; reflexivity. Qed.
(** Two routers that send key 0 to each other: the second visit is reported. *)
Example C173_round_example :
  ValidModel.validate_routes ValidProps.good_env ValidProps.two_way
    [ TablesModel.mkTable 0 0 [mkEntry 0 4294967292 1 false] 0;
      TablesModel.mkTable 1 0 [mkEntry 0 4294967292 8 false] 0 ] ValidProps.env_infos = Err RoutingException /\
  (forall m, ValidModel.ve_place ValidProps.good_env m <> Err OutOfFuel).
Proof.
  split; [vm_compute; reflexivity|]. intros m.
  do 21 (destruct m as [|m]; [discriminate|]). discriminate.
Qed.
(** A search that does not reach its target, and a graph that is routed. *)
Example C173_router_example :
  (exists e, route_to_xys PathProps.dead_link (0, 0)%Z [(0, 0)%Z] [(2, 0)%Z] [] = Err e) /\
  exists t, RouterModel.route_application_graph RouterProps.rx [0; 10; 20] RouterProps.rx_parts = Ok t.
Proof. split; eexists; vm_compute; reflexivity. Qed.
(** A key of another vertex takes the first two numbers. *)
Example C173_skip_example : exists infos,
  AllocModel.allocate true (AllocProps.ex_env (AllocModel.mkKM 0 0xFFFFFE00)) AllocProps.ex_parts = Ok infos /\
  nth_error infos 0 =
    Some (AllocModel.mkInfo (AllocModel.Mac 0) 0 (AllocModel.mkKM 512 0xFFFFFF00) (AllocModel.IMac 0)).
Proof. eexists. vm_compute. split; reflexivity. Qed.
(** Unknown routes, one too many for the histogram. *)
Example C173_pair_example :
  PairModel.compress_table true true 1 [mkEntry 0 4294967295 1 false; mkEntry 1 4294967295 2 false] = Err IndexError /\
  exists t, PairModel.compress_table true true 2 [mkEntry 0 4294967295 1 false; mkEntry 1 4294967295 2 false] = Ok t.
Proof. split; [vm_compute; reflexivity|]. eexists. vm_compute. reflexivity. Qed.
Example C173_sdram_example :
  SdramModel.add (SdramModel.Const 1) (SdramModel.Multi (SdramModel.Shared [(7, SdramModel.Const 4%Z)] (SdramModel.Const 2))) =
  Ok (SdramModel.Shared [(7, SdramModel.Const 4%Z)] (SdramModel.Const 3)).
Proof. vm_compute. reflexivity. Qed.
