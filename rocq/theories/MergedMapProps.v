(** Properties of whole mappings whose merged tables are compressed with ordered
    covering: the placements that the placer itself makes can lose packets. *)
From Coq Require Import List Arith NArith ZArith QArith Bool Lia Permutation.
From Verif Require Import Base Dict PlacementsModel PlacementsProofs PlacerModel PlacerProofs PlacerFinal PlacerProps.
From Verif Require Import RouteSpec KeyMask AllocModel AllocProofs KeyOrder TablesModel TablesProofs GenModel GenProofs GenProps
  PairModel RangeModel OrderedModel
  TreeModel TreeProofs MachModel LdfModel LdfProofs PathModel PathProofs PathProps
  RPartModel RPartProofs BfsModel BfsProofs TargetsModel TargetsProofs ConvModel ConvProofs RouterModel RouterProofs RouterTables RouterPlan RouterFinal
  RouterSuccess RouterProps ChainModel ChainProofs ChainProps MapModel MapProofs MapProps FixProofs FixChain FixProps FixMap CoverMerged.
Import ListNotations.
Local Open Scope nat_scope.

(** C128 for whole mappings: true when on each chip the machine vertices of one
    application vertex whose packets take the same route all go straight through or
    all do not. *)
Theorem C128_mapped_partial : forall entry_eq flexible i l vs ps extra e p infos ts t target (as_needed accept_overflow : bool) out,
  map_ok i l vs ps -> map_keys i ps extra e -> map_graph true entry_eq flexible i vs ps extra e = Ok (p, infos, ts) ->
  route_application_graph (router_input i p) vs ps = Ok t ->
  (forall q m m' a k x x', mi_app i m = Some a -> mi_app i m' = Some a ->
     get_entry t (Mac m) k q = Some x -> get_entry t (Mac m') k q = Some x' ->
     RPartModel.re_route x = RPartModel.re_route x' -> re_default x = re_default x') ->
  compress_tables (fun t => oc_compress_table (t_entries t) (if as_needed then Some (target (t_x t) (t_y t)) else None))
    target as_needed true accept_overflow ts [] = Ok out ->
  all_delivered i ps p infos out.
Proof.
  intros entry_eq flexible i l vs ps extra e p infos ts t target as_needed accept_overflow out OK MK H R AG C.
  apply map_split in H. destruct H as [PL MT]. apply (exact_all i l vs); [exact OK | exact PL|].
  exact (C128_same_flags_partial _ _ _ _ _ _ _ _ _ t _ _ _ _ (mapped_graph i l vs ps p OK PL) (mapped_keys i l vs ps extra e p OK MK) MT R AG C).
Qed.
Print Assumptions C128_mapped_partial.
Theorem C128_mapped_fixed_keys_partial : forall entry_eq flexible i l vs ps extra e p infos ts t target (as_needed accept_overflow : bool) out,
  map_ok i l vs ps -> map_user_keys flexible i ps extra e -> mergeable flexible e (sends_in ps) ->
  map_graph true entry_eq flexible i vs ps extra e = Ok (p, infos, ts) ->
  route_application_graph (router_input i p) vs ps = Ok t ->
  (forall q m m' a k x x', mi_app i m = Some a -> mi_app i m' = Some a ->
     get_entry t (Mac m) k q = Some x -> get_entry t (Mac m') k q = Some x' ->
     RPartModel.re_route x = RPartModel.re_route x' -> re_default x = re_default x') ->
  compress_tables (fun t => oc_compress_table (t_entries t) (if as_needed then Some (target (t_x t) (t_y t)) else None))
    target as_needed true accept_overflow ts [] = Ok out ->
  all_delivered i ps p infos out.
Proof.
  intros entry_eq flexible i l vs ps extra e p infos ts t target as_needed accept_overflow out OK MU MG H R AG C.
  apply map_split in H. destruct H as [PL MT]. apply (exact_all i l vs); [exact OK | exact PL|].
  exact (C128_fixed_keys_partial _ _ _ _ _ _ _ _ _ t _ _ _ _ (mapped_graph i l vs ps p OK PL) (mapped_user _ _ _ _ _ _ _ p OK MU)
    (mapped_mergeable _ _ _ _ _ _ true (fun _ => MG) eq_refl) MT R AG C).
Qed.
Print Assumptions C128_mapped_fixed_keys_partial.

(** * What fails *)
(** Four chips in a row with one core each. *)
Definition rchip (x : nat) : chip :=
  mkChip (x, 0) [1] 100 (0, 0) (match x with 0 => [(1, 0)] | 3 => [(2, 0)] | _ => [(x + 1, 0); (x - 1, 0)] end).
Definition rmachine : PlacerModel.machine := PlacerModel.mkMachine 4 1 (fun c =>
  match c with (0, 0) => Some (rchip 0) | (1, 0) => Some (rchip 1) | (2, 0) => Some (rchip 2) | (3, 0) => Some (rchip 3) | _ => None end).
Definition renv : penv := mkPenv rmachine None 120 20 5 1 1 (fun _ => false) (fun _ => None) (fun _ => None)
  (fun v => xq (Z.of_nat v)) (fun l => l).
Definition row_av (a : nat) : appv :=
  match a with
  | 0 => PlacerModel.mkApp None [10; 11; 12] [([10], xq 10); ([11], xq 11); ([12], xq 12)]
  | 1 => PlacerModel.mkApp None [13] [([13], xq 13)]
  | _ => PlacerModel.mkApp None [] []
  end.
Definition row : mapin := mkMapIn renv empty_placements row_av
  (fun v => match v with 10 | 11 | 12 => Some 0 | 13 => Some 1 | _ => None end) (fun _ => None)
  (fun a => a_vertices (row_av a)) (fun a => a_vertices (row_av a)) four plain_vec (fun l => l).
Definition row_parts : list apart := [mkPart 0 7 [1]].
Definition row_keys : graph_env := mkEnv (fun _ _ => None) (fun a _ => mi_out row a) (fun _ _ _ => None) (fun _ _ => 16%N) N.of_nat N.of_nat
  (fun a => N.of_nat (length (a_vertices (row_av a)))).
Lemma four_chip : forall p, is_chip four p = true -> In p [(0, 0); (1, 0); (2, 0); (3, 0)]%Z.
Proof.
  intros p H. unfold is_chip in H. apply existsb_exists in H. destruct H as [q [I E]]. apply xy_eqb_eq in E. subst q. exact I.
Qed.
Lemma rlinked : forall a b, PlacerProofs.linked renv a b ->
  In (a, b) [((0, 0), (1, 0)); ((1, 0), (2, 0)); ((1, 0), (0, 0)); ((2, 0), (3, 0)); ((2, 0), (1, 0)); ((3, 0), (2, 0))].
Proof.
  intros a b (c & C & I). cbn in C. destruct a as [x y]. destruct x as [|[|[|[|x]]]], y as [|y]; try discriminate C; injection C as <-;
    cbn in I; repeat (destruct I as [<-|I]; [cbn; tauto|]); destruct I.
Qed.
Lemma row_machines : machines_ok row.
Proof.
  constructor.
  - intros c d C. cbn in C. destruct c as [x y]. destruct x as [|[|[|[|x]]]], y as [|y]; try discriminate C; reflexivity.
  - intros a b L _. apply rlinked in L. cbn [row mi_mach]. revert L. generalize a, b. clear. intros a b L.
    cbn [In] in L. decompose [or] L; clear L; try contradiction;
      match goal with H : _ = (a, b) |- _ => injection H as <- <- end;
      (exists 0; repeat split; cbn; lia) || (exists 3; repeat split; cbn; lia).
  - intros p n q P W. apply four_chip in P. destruct W as [W1 [W2 [W3 W4]]]. cbn [fst snd] in *.
    exists ((n + 3) mod 6). assert (N : In n [0; 1; 2; 3; 4; 5]) by (cbn; lia).
    rewrite W3. each P; each N; try discriminate W2; repeat split; cbn; lia.
  - reflexivity.
  - intros p P. apply four_chip in P. unfold inside. each P; cbn; lia.
  - intros p q P Q. apply four_chip in P, Q. each P; each Q; reflexivity.
  - intros p q l P Q. apply four_chip in P, Q. intros H. apply no_repeat_no_return, nodup_b_spec.
    each P; each Q; revert H; vm_compute; intros X; injection X as <-; reflexivity.
  - intros l. apply Permutation_refl.
Qed.
Lemma row_ok : map_ok row [] [0; 1] row_parts.
Proof.
  constructor.
  - split; [|split].
    + intros (x, y) c H. destruct x as [|[|[|[|x]]]], y as [|y]; cbn in H; try discriminate; injection H as <-;
        (split; [reflexivity|]); repeat constructor; cbn; lia.
    + intro l. apply Permutation_refl.
    + vm_compute. reflexivity.
  - intros pl [].
  - exact row_machines.
  - unfold separate, all_of. cbn. repeat constructor; cbn; lia.
  - intros a v. cbn [row mi_av mi_app]. split.
    + do 2 (destruct a as [|a]; [cbn; intuition (subst; reflexivity)|]). cbn. tauto.
    + do 14 (destruct v as [|v]; [cbn; intros H; try discriminate H; injection H as <-; cbn; tauto|]). cbn. discriminate.
  - intros v c n H. discriminate H.
  - intros a v H. exact H.
  - intros a A. left. split; [apply has_fixed_not; each A; reflexivity|].
    split; [intros v _ []|].
    split; [intros v; each A; cbn; tauto|].
    split; [|split; reflexivity].
    intros v V. split; reflexivity.
  - cbn. repeat constructor; cbn; intuition congruence.
  - intros pt P. each P. split; [cbn; tauto|]. split; [discriminate|]. split; [discriminate|]. intros a A. each A. split; [cbn; tauto | discriminate].
Qed.
Lemma row_keys_ok : map_keys row row_parts [] row_keys.
Proof.
  constructor; try reflexivity.
  - intros pt P. right. each P. eexists. split; [left; reflexivity | reflexivity].
  - intros a k [].
Qed.
(** C128: the placer puts the machine vertices 10, 11 and 12 of vertex 0 on the first
    three chips and vertex 13 on the last one. On the second chip the packets of 10 go
    straight on and those of 11 start; the merged entry has the flag of the first and
    is left out, so that no packet of 11 leaves that chip. *)
Theorem C128_mapped_refuted : exists entry_eq i vs ps e p infos ts out,
  map_ok i [] vs ps /\ map_keys i ps [] e /\ map_graph true entry_eq true i vs ps [] e = Ok (p, infos, ts) /\
  compress_tables (fun t => oc_compress_table (t_entries t) None) (fun _ _ => 1023) false true false ts [] = Ok out /\
  ~ all_delivered i ps p infos out.
Proof.
  exists eqe, row, [0; 1], row_parts, row_keys. eexists. eexists. eexists. eexists.
  split; [exact row_ok|]. split; [exact row_keys_ok|]. split; [vm_compute; reflexivity|]. split; [vm_compute; reflexivity|].
  intros D. destruct (D (mkPart 0 7 [1]) 11 (or_introl eq_refl) (or_intror (or_introl eq_refl))) as [home [from [j [S [J K]]]]]. clear D.
  assert (H : home = (1, 0)%Z /\ from = OnCore 1).
  { destruct S as [[n [S _]]|[_ [x [X1 [X2 [X3 X4]]]]]]; [discriminate S|]. vm_compute in X1.
    decompose [or] X1; clear X1; try contradiction; subst x; try discriminate X2. auto. }
  destruct H as [-> ->]. vm_compute in J. injection J as <-.
  destruct (K 16%N eq_refl eq_refl) as [A _]. clear K.
  specialize (A (3, 0)%Z (OnCore 1) I). destruct A as [_ A].
  destruct A as [inn [F _]].
  { exists 1, 13. split; [left; reflexivity|]. split; [left; reflexivity|]. right. split; [reflexivity|].
    exists (mkPl 13 3 0 1). split; [vm_compute; tauto|]. repeat split. }
  assert (C : In ((3, 0)%Z, inn) [((1, 0)%Z, None)]); [|each C; discriminate C].
  revert F. apply shut_spec; [vm_compute; reflexivity | left; reflexivity].
Qed.
Print Assumptions C128_mapped_refuted.

(** * An example *)
(** The mapping of C131: its flags agree, and the compressor leaves three entries out. *)
Definition qx_table : rtable := ok_or [] (route_application_graph (router_input qx (fst (fst (qx_made true)))) [0; 1; 2] qx_parts).
Example C128_mapped_example : exists t out,
  route_application_graph (router_input qx (fst (fst (qx_made true)))) [0; 1; 2] qx_parts = Ok t /\
  flags_agree (router_input qx (fst (fst (qx_made true)))) t /\
  compress_tables (fun t => oc_compress_table (t_entries t) None) (fun _ _ => 1023) false true false (snd (qx_made true)) [] = Ok out /\
  sizes (snd (qx_made true)) = [5; 3; 3; 4] /\ sizes out = [5; 2; 2; 3].
Proof.
  eexists. eexists. split; [vm_compute; reflexivity|]. split; [apply agree_spec; vm_compute; reflexivity|].
  split; [vm_compute; reflexivity|]. split; vm_compute; reflexivity.
Qed.
