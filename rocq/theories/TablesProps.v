(** Properties C51, C52 and C55: the compression driver, the routing table
    containers, and the JSON form of routing tables. *)
From Coq Require Import String List Arith NArith ZArith Bool Lia.
From Verif Require Import Base RouteSpec KeyMask PairModel PairSort Json TablesModel TablesProofs DriverProofs.
Import ListNotations.

(** ** C51 *)

(** Whatever the compressor does, a successful run returns one table per input
    table, in order and for the same chip: either the very table given (it fitted
    and compression is only done as needed) or exactly the compressor's entries.
    An ordered compressor that does not accept overflow only succeeds if every
    table fits its router. *)
Theorem C51_driver_fits :
  forall compress target as_needed ordered accept_overflow ts,
    let keeps t := as_needed = true /\ length (t_entries t) <= target (t_x t) (t_y t) in
    match compress_tables compress target as_needed ordered accept_overflow ts [] with
    | Ok out =>
        Forall2 (fun t t' =>
           t_x t' = t_x t /\ t_y t' = t_y t /\ (keeps t -> t' = t) /\
           (~ keeps t -> compress t = Ok (t_entries t') /\
                         t_ndef t' = length (filter e_def (t_entries t')))) ts out /\
        NoDup (map (fun t => (t_x t, t_y t)) out) /\
        (ordered = true -> accept_overflow = false ->
         Forall (fun t => length (t_entries t) <= target (t_x t) (t_y t)) out)
    | Err e =>
        (exists t, In t ts /\ ~ keeps t /\ compress t = Err e) \/
        (e = AlreadyExists /\ ~ NoDup (map (fun t => (t_x t, t_y t)) ts)) \/
        (e = MinimisationFailed /\ ordered = true /\ accept_overflow = false /\
         exists t, In t ts /\ ~ keeps t /\
           exists es, compress t = Ok es /\ target (t_x t) (t_y t) < length es)
    end.
Proof. exact driver_exact. Qed.
Print Assumptions C51_driver_fits.

(** No spurious failures: if the compressor can make every table fit, the driver
    succeeds. *)
Theorem C51_driver_succeeds :
  forall compress target as_needed ordered accept_overflow ts,
    (forall t, In t ts ->
       exists es, compress t = Ok es /\ length es <= target (t_x t) (t_y t)) ->
    NoDup (map (fun t => (t_x t, t_y t)) ts) ->
    exists out, compress_tables compress target as_needed ordered accept_overflow ts [] = Ok out.
Proof. exact driver_error. Qed.
Print Assumptions C51_driver_succeeds.

(** End to end with the pair compressor: every chip keeps its routing. *)
Theorem C51_pair_driver_preserves_routing :
  forall target as_needed ordered c_sort n_routes ts out,
    Forall (fun t => Forall entry_ok (t_entries t) /\ orthogonal (t_entries t)) ts ->
    compress_tables (fun t => compress_table ordered c_sort n_routes (t_entries t))
      target as_needed ordered false ts [] = Ok out ->
    Forall2 (fun t t' => t_x t' = t_x t /\ t_y t' = t_y t /\
       (forall e k, In e (t_entries t) -> entry_matches k e ->
          routes_to (t_entries t') k (e_route e)) /\
       (ordered = true -> length (t_entries t') <= target (t_x t) (t_y t))) ts out.
Proof. exact pair_driver_preserves. Qed.
Print Assumptions C51_pair_driver_preserves_routing.

Definition C51_t1 : table :=
  mkTable 0 0 [mkEntry 0 15 1 false; mkEntry 1 15 1 false; mkEntry 2 15 2 false] 0.
Definition C51_t2 : table := mkTable 1 0 [mkEntry 0 15 1 false; mkEntry 1 15 2 false] 0.
Definition C51_run target :=
  compress_tables (fun t => compress_table true false 1023 (t_entries t))
    target true true false [C51_t1; C51_t2] [].
Example C51_example :
  C51_run (fun _ _ => 2) =
    Ok [mkTable 0 0 [mkEntry 2 15 2 false; mkEntry 0 14 1 false] 0; C51_t2] /\
  C51_run (fun _ _ => 1) = Err MinimisationFailed.
Proof. split; vm_compute; reflexivity. Qed.

(** The same compressor object used again keeps the recorded problems: it fails
    although every table fits. *)
Theorem C101_problems_kept_between_calls_refuted :
  exists compress target ts problems,
    (forall t, In t ts -> length (t_entries t) <= target (t_x t) (t_y t)) /\
    compress_tables compress target true true false ts problems = Err MinimisationFailed.
Proof.
  exists (fun t => Ok (t_entries t)), (fun _ _ => 3%nat), [C51_t1; C51_t2], [(0, 0, 5%nat)]%Z.
  split; [|vm_compute; reflexivity]. intros t [<-|[<-|[]]]; vm_compute; lia.
Qed.
Print Assumptions C101_problems_kept_between_calls_refuted.

(** ** C52 *)

(** After any history of additions (accepted or rejected) the table holds exactly
    the first entry given for each key/mask pair, in order of arrival, and the
    counter of defaultable entries is right. *)
Theorem C52_uncompressed_history :
  forall entry_eq x y es,
    let (t, rs) := unc_history entry_eq (empty_table x y) es in
    t_entries t = firsts [] es /\ NoDup (map (fun e => (e_key e, e_mask e)) (t_entries t)) /\
    t_x t = x /\ t_y t = y /\
    t_ndef t = length (filter e_def (t_entries t)).
Proof. exact uncompressed_history. Qed.
Print Assumptions C52_uncompressed_history.

(** The replies along the way: an addition is refused, always for that reason,
    exactly when the first entry given before for its key and mask differs. *)
Theorem C52_replies :
  forall entry_eq x y es i,
    nth_error (snd (unc_history entry_eq (empty_table x y) es)) i =
    match nth_error es i with
    | None => None
    | Some e => Some
        match find (fun old => (N.eqb (e_key e) (e_key old) && N.eqb (e_mask e) (e_mask old))%bool)
                (firstn i es) with
        | Some old => if entry_eq old e then Ok tt else Err AlreadyExists
        | None => Ok tt
        end
    end.
Proof. exact uncompressed_replies. Qed.
Print Assumptions C52_replies.

(** A compressed table keeps every entry given, in order, duplicates too. *)
Theorem C52_compressed_history :
  forall x y es,
    fold_left com_add es (empty_table x y) = mkTable x y es (length (filter e_def es)).
Proof. exact (fun x y es => compressed_history es (empty_table x y)). Qed.
Print Assumptions C52_compressed_history.

(** A single addition: accepted as a no-op for an equal entry, appended when the
    pair is new, rejected when the pair is there with a different entry. *)
Theorem C52_add_exact :
  forall entry_eq t e,
    match unc_add entry_eq t e with
    | Ok t' => (t' = t /\ exists old, In old (t_entries t) /\ km old = km e /\ entry_eq old e = true) \/
               (t_entries t' = t_entries t ++ [e] /\ ~ In (km e) (map km (t_entries t)))
    | Err x => x = AlreadyExists /\
               exists old, In old (t_entries t) /\ km old = km e /\ entry_eq old e = false
    end.
Proof. exact unc_add_spec. Qed.
Print Assumptions C52_add_exact.

(** Equality of two tables at the same position is equality of their contents. *)
Theorem C52_equality_same_position :
  forall entry_eq, (forall a b, entry_eq a b = true <-> a = b) ->
  forall a b, t_x a = t_x b -> t_y a = t_y b ->
    (com_eq entry_eq a b = true <-> t_entries a = t_entries b) /\
    (NoDup (map km (t_entries a)) -> NoDup (map km (t_entries b)) ->
     (unc_eq entry_eq a b = true <-> forall e, In e (t_entries a) <-> In e (t_entries b))).
Proof.
  exact (fun eq H a b X Y => conj (com_eq_same_pos eq H a b X Y) (unc_eq_same_pos eq H a b X Y)).
Qed.
Print Assumptions C52_equality_same_position.

(** Tables of two different chips in the same row compare equal. *)
Theorem C102_equality_ignores_position_refuted :
  exists a b, (t_x a, t_y a) <> (t_x b, t_y b) /\
    (forall entry_eq, (forall e, entry_eq e e = true) ->
       unc_eq entry_eq a b = true /\ com_eq entry_eq a b = true).
Proof.
  exists (mkTable 0 0 [mkEntry 1 15 1 false] 0), (mkTable 1 0 [mkEntry 1 15 1 false] 0).
  split; [discriminate|]. intros eq H. cbn. rewrite !H. auto.
Qed.
Print Assumptions C102_equality_ignores_position_refuted.

Definition eqe (a b : entry) : bool := (same_km a b && N.eqb (e_route a) (e_route b))%bool.

(** What equality of tables is: the same contents in the same row or column. *)
Theorem C102_equality_exact :
  forall entry_eq, (forall a b, entry_eq a b = true <-> a = b) ->
  forall a b,
    (com_eq entry_eq a b = true <->
     (t_x a = t_x b \/ t_y a = t_y b) /\ t_entries a = t_entries b) /\
    (NoDup (map (fun e => (e_key e, e_mask e)) (t_entries a)) ->
     NoDup (map (fun e => (e_key e, e_mask e)) (t_entries b)) ->
     (unc_eq entry_eq a b = true <->
      (t_x a = t_x b \/ t_y a = t_y b) /\ forall e, In e (t_entries a) <-> In e (t_entries b))).
Proof. exact (fun eq H a b => conj (com_eq_iff eq H a b) (unc_eq_iff eq H a b)). Qed.
Print Assumptions C102_equality_exact.

Example C102_example :
  let es := [mkEntry 1 15 1 false; mkEntry 2 15 2 true] in
  com_eq eqe (mkTable 0 0 es 1) (mkTable 0 3 es 1) = true /\
  com_eq eqe (mkTable 0 0 es 1) (mkTable 2 3 es 1) = false /\
  unc_eq eqe (mkTable 0 0 es 1) (mkTable 0 3 (rev es) 1) = true /\
  com_eq eqe (mkTable 0 0 es 1) (mkTable 0 0 (rev es) 1) = false.
Proof. vm_compute. auto. Qed.

Example C52_example :
  unc_history eqe (empty_table 0 0)
    [mkEntry 1 15 1 true; mkEntry 2 15 2 false; mkEntry 1 15 3 false; mkEntry 2 15 2 false] =
  (mkTable 0 0 [mkEntry 1 15 1 true; mkEntry 2 15 2 false] 1,
   [Ok tt; Ok tt; Err AlreadyExists; Ok tt]).
Proof. vm_compute. reflexivity. Qed.

(** ** C55 *)

(** Writing routing tables to JSON and reading them back gives the same tables:
    chips, order, keys, masks, routes, defaultable flags. *)
Theorem C55_tables_json_roundtrip :
  forall entry_eq ts,
    Forall table_ok ts -> NoDup (map (fun t => (t_x t, t_y t)) ts) ->
    tables_from_json entry_eq (tables_to_json ts) = Ok ts.
Proof. exact tables_json_roundtrip. Qed.
Print Assumptions C55_tables_json_roundtrip.

Example C55_example :
  Forall table_ok [C51_t1; C51_t2] /\
  tables_from_json eqe (tables_to_json [C51_t1; C51_t2]) = Ok [C51_t1; C51_t2].
Proof.
  split; [|vm_compute; reflexivity].
  repeat constructor; simpl; intuition discriminate.
Qed.

(** A compressed table with a repeated pair can be written but not read. *)
Theorem C103_repeated_pair_refuted :
  exists t, (forall entry_eq, (forall a b, entry_eq a b = true -> a = b) ->
    tables_from_json entry_eq (tables_to_json [t]) = Err AlreadyExists).
Proof.
  exists (mkTable 0 0 [mkEntry 1 15 1 false; mkEntry 1 15 2 false] 0).
  intros eq H. vm_compute.
  destruct (eq _ _) eqn:E; [|reflexivity]. apply H in E. discriminate.
Qed.
Print Assumptions C103_repeated_pair_refuted.

(** ** C73 *)

(** Building a collection succeeds exactly when no two tables are for one chip;
    it then holds the tables in order. *)
Theorem C73_one_table_per_chip : forall ts,
  match foldM add_table [] ts with
  | Ok r => r = ts /\ NoDup (map (fun t => (t_x t, t_y t)) ts)
  | Err x => x = AlreadyExists /\ ~ NoDup (map (fun t => (t_x t, t_y t)) ts)
  end.
Proof. exact collection_spec. Qed.
Print Assumptions C73_one_table_per_chip.

Theorem C73_table_for_chip : forall ts x y, NoDup (map (fun t => (t_x t, t_y t)) ts) ->
  forall t, get_table ts x y = Some t <-> In t ts /\ t_x t = x /\ t_y t = y.
Proof. exact get_table_spec. Qed.
Print Assumptions C73_table_for_chip.

Theorem C73_statistics : forall ts,
  ((forall t, In t ts -> (length (t_entries t) <= max_entries ts)%nat) /\
   (ts <> [] -> exists t, In t ts /\ length (t_entries t) = max_entries ts) /\
   (ts = [] -> max_entries ts = 0%nat)) /\
  total_entries ts = length (flat_map t_entries ts).
Proof. exact (fun ts => conj (max_entries_spec ts) (total_entries_spec ts)). Qed.
Print Assumptions C73_statistics.

Example C73_example :
  let t := mkTable 0 0 [mkEntry 1 15 1 false] 0 in
  let u := mkTable 0 1 [mkEntry 1 15 1 false; mkEntry 2 15 1 false] 0 in
  foldM add_table [] [t; u] = Ok [t; u] /\ get_table [t; u] 0 1 = Some u /\
  max_entries [t; u] = 2%nat /\ total_entries [t; u] = 3%nat /\
  foldM add_table [] [t; u; t] = Err AlreadyExists.
Proof. repeat split. Qed.
