(** Properties C10-C12: the compression checker. *)
From Coq Require Import List Arith NArith Bool Lia.
From Verif Require Import Base RouteSpec KeyMask CheckerModel CheckerProofs RepeatedProofs.
Import ListNotations.
Local Open Scope N_scope.

(** ** C10 *)

(** If [compare_tables] does not raise, each key of each original entry is sent
    to the same route by the compressed table read in order, or matches nothing
    while the original entry is defaultable.  [entry_eq] is the equality of
    routing entries of the external library; nothing is assumed of it. *)
Theorem C10_checker_sound :
  forall (entry_eq : entry -> entry -> bool) original compressed,
    Forall e32 original -> Forall e32 compressed ->
    NoDup (map (fun e => (e_key e, e_mask e)) compressed) ->
    compare_tables entry_eq original compressed = Ok tt ->
    forall o k, In o original -> entry_matches k o ->
      routes_to compressed k (e_route o) \/
      (first_match compressed k = None /\ e_def o = true).
Proof. exact checker_sound. Qed.
Print Assumptions C10_checker_sound.

Definition C10_orig : list entry :=
  [ mkEntry 4 4294967292 1 false; mkEntry 8 4294967288 1 false; mkEntry 16 4294967280 2 true ].
Definition C10_comp : list entry :=
  [ mkEntry 4 4294967294 1 false; mkEntry 0 4294967280 1 false ].
Example C10_example :
  Forall e32 C10_orig /\ Forall e32 C10_comp /\
  NoDup (map (fun e => (e_key e, e_mask e)) C10_comp) /\
  compare_tables (fun _ _ => false) C10_orig C10_comp = Ok tt /\
  compare_tables (fun _ _ => false) C10_orig [mkEntry 0 4294967280 3 false] = Err RoutingException.
Proof.
  split; [repeat constructor|]. split; [repeat constructor|].
  split; [repeat constructor; simpl; intuition discriminate|].
  split; vm_compute; reflexivity.
Qed.

(** Without the hypothesis on repeated key/mask pairs the checker accepts a wrong
    table: its dictionary keeps the last entry, the router uses the first.
    (Compressed tables do not reject repeated pairs.) *)
Theorem C94_repeated_key_mask_refuted :
  exists original compressed o k r,
    Forall e32 original /\ Forall e32 compressed /\
    (forall entry_eq, compare_tables entry_eq original compressed = Ok tt) /\
    In o original /\ entry_matches k o /\ routes_to compressed k r /\ r <> e_route o.
Proof.
  exists [mkEntry 5 4294967295 2 false],
    [mkEntry 5 4294967295 1 false; mkEntry 5 4294967295 2 false],
    (mkEntry 5 4294967295 2 false), 5, 1.
  split; [repeat constructor|]. split; [repeat constructor|].
  split; [intros eq; vm_compute; reflexivity|].
  split; [simpl; auto|]. split; [reflexivity|].
  split; [eexists; split; [vm_compute; reflexivity|reflexivity]|discriminate].
Qed.
Print Assumptions C94_repeated_key_mask_refuted.

(** C94, the part that holds: a compressed table with repeated pairs is judged as
    the table [t] that keeps the last entry of each pair at the place of the
    first, and the keys are routed as in the original by that table. *)
Theorem C94_last_partial : forall entry_eq original compressed,
  Forall e32 original -> Forall e32 compressed ->
  exists t,
    map km t = rev (nodup km_dec (rev (map km compressed))) /\
    (forall e, In e t <-> exists pre post, compressed = pre ++ e :: post /\ ~ In (km e) (map km post)) /\
    compare_tables entry_eq original compressed = compare_tables entry_eq original t /\
    (compare_tables entry_eq original compressed = Ok tt -> forall o k, In o original -> entry_matches k o ->
       routes_to t k (e_route o) \/ (first_match t k = None /\ e_def o = true)).
Proof. exact repeated_checked. Qed.
Print Assumptions C94_last_partial.

Example C94_last_example :
  let co := [mkEntry 5 4294967295 1 false; mkEntry 4 4294967294 2 false; mkEntry 5 4294967295 2 false] in
  rev (nodup km_dec (rev (map km co))) = [(5, 4294967295); (4, 4294967294)] /\
  compare_tables (fun _ _ => false) [mkEntry 4 4294967294 2 false] co = Ok tt /\
  compare_tables (fun _ _ => false) [mkEntry 4 4294967294 2 false] (rev co) = Err RoutingException.
Proof. vm_compute. repeat split. Qed.

(** ** C11 *)

(** A faithful compression is accepted, provided no key of a non-defaultable
    original entry meets a defaultable compressed entry first. *)
Theorem C11_checker_complete :
  forall (entry_eq : entry -> entry -> bool) original compressed,
    Forall e32 original -> Forall e32 compressed ->
    NoDup (map (fun e => (e_key e, e_mask e)) compressed) ->
    (forall o k, In o original -> k < 2 ^ 32 -> entry_matches k o ->
       (exists c, first_match compressed k = Some c /\ e_route c = e_route o /\
          (e_def c = true -> e_def o = true)) \/
       (first_match compressed k = None /\ e_def o = true)) ->
    compare_tables entry_eq original compressed = Ok tt.
Proof. exact checker_complete. Qed.
Print Assumptions C11_checker_complete.

(** The proviso is needed: here the route is right, yet the checker raises. *)
Theorem C11_defaultable_rejected_refuted :
  exists original compressed,
    Forall e32 original /\ Forall e32 compressed /\
    NoDup (map (fun e => (e_key e, e_mask e)) compressed) /\
    (forall o k, In o original -> entry_matches k o -> routes_to compressed k (e_route o)) /\
    (forall entry_eq, compare_tables entry_eq original compressed = Err RoutingException).
Proof.
  exists [mkEntry 4 4294967295 2 false], [mkEntry 4 4294967294 2 true].
  split; [repeat constructor|]. split; [repeat constructor|].
  split; [repeat constructor; simpl; tauto|]. split.
  - intros o k [<-|[]] M. exists (mkEntry 4 4294967294 2 true). split; [|reflexivity].
    cbn [first_match]. replace (entry_matchesb k (mkEntry 4 4294967294 2 true)) with true; [reflexivity|].
    symmetry. apply entry_matchesb_iff. unfold entry_matches, key_matches in *.
    cbn [e_key e_mask] in *.
    change 4294967294 with (N.land 4294967295 4294967294). rewrite N.land_assoc, M. reflexivity.
  - intros eq. unfold compare_tables. cbn [codify_table fold_left].
    destruct (eq (mkEntry 4 4294967295 2 false) (mkEntry 4 4294967294 2 true)) eqn:E;
      vm_compute; rewrite ?E; reflexivity.
Qed.
Print Assumptions C11_defaultable_rejected_refuted.

(** ** C12 *)

(** The remainders match exactly the keys of [o] that [c] does not match. *)
Theorem C12_remainders_exact_union :
  forall o c, length o = length c -> covers o c = true ->
    exists rs, calc_remainders o c = Ok rs /\
      Forall (fun r => length r = length o) rs /\
      (forall bs, (exists r, In r rs /\ code_has r bs) <-> code_has o bs /\ ~ code_has c bs).
Proof. exact calc_remainders_spec. Qed.
Print Assumptions C12_remainders_exact_union.

(** [covers] is exact: some bit string matches both codes. *)
Theorem C12_covers_exact :
  forall o c, length o = length c ->
    (covers o c = true <-> exists bs, code_has o bs /\ code_has c bs).
Proof. exact covers_iff. Qed.
Print Assumptions C12_covers_exact.

Example C12_example :
  covers [TS; T1; TS] [T0; T1; T1] = true /\
  calc_remainders [TS; T1; TS] [T0; T1; T1] = Ok [[TS; T1; T0]; [T1; T1; TS]].
Proof. vm_compute. auto. Qed.

(** They are not pairwise disjoint. *)
Theorem C95_remainders_disjoint_refuted :
  exists o c r1 r2 bs,
    length o = length c /\ covers o c = true /\
    calc_remainders o c = Ok [r1; r2] /\ r1 <> r2 /\ code_has r1 bs /\ code_has r2 bs.
Proof.
  exists [TS; TS], [T0; T0], [TS; T1], [T1; TS], [true; true].
  split; [reflexivity|]. split; [reflexivity|]. split; [vm_compute; reflexivity|].
  split; [discriminate|]. split; repeat constructor.
Qed.
Print Assumptions C95_remainders_disjoint_refuted.
