(** Properties C168 to C171: equality and hashing of slices, locations, placements,
    keys, tag requests and routing tables. *)
From Coq Require Import List Arith NArith ZArith Bool.
From Verif Require Import Base RouteSpec SliceModel TablesModel TagsModel EqModel EqProofs.
Import ListNotations.

(** ** C168 *)

(** "==" never raises for these values and holds exactly between values with the
    same contents; so a Slice never equals an MDSlice, from whichever side. *)
Theorem C168_equal_iff : forall entry_eq a b,
  match a with VIPtag _ | VUncompressed _ | VCompressed _ => False | _ => True end ->
  py_eq entry_eq a b <> None /\ (py_eq entry_eq a b = Some true <-> a = b).
Proof. exact simple_eq. Qed.
Print Assumptions C168_equal_iff.

(** The same among requests for IP tags. *)
Theorem C168_iptags : forall entry_eq r r',
  py_eq entry_eq (VIPtag r) (VIPtag r') <> None /\
  (py_eq entry_eq (VIPtag r) (VIPtag r') = Some true <-> r = r').
Proof. exact iptag_eq. Qed.
Print Assumptions C168_iptags.

(** Equal objects have equal hashes, whatever the hashes of integers and tuples. *)
Theorem C168_hash : forall entry_eq hash_int hash_tuple hash_id o o',
  match o_value o with VUncompressed _ | VCompressed _ => False | _ => True end ->
  py_eq entry_eq (o_value o) (o_value o') = Some true ->
  hash hash_int hash_tuple hash_id o = hash hash_int hash_tuple hash_id o'.
Proof.
  intros eq hi ht hid o o' K E.
  assert (S : simple (o_value o) \/ exists r, o_value o = VIPtag r).
  { destruct (o_value o); try contradiction; try (left; exact I). right. now eexists. }
  apply equal_hash; [exact S|]. destruct S as [S|(r & S)].
  - now apply (simple_eq eq _ _ S).
  - rewrite S in *. destruct (o_value o'); try discriminate. f_equal. now apply (iptag_eq eq).
Qed.
Print Assumptions C168_hash.

(** A set made of such objects, in any order and with any collisions of hashes, has
    exactly one element for each contents, and an object is found in it exactly if
    one with its contents was put in. *)
Theorem C168_sets : forall entry_eq hash_int hash_tuple hash_id os,
  Forall (fun o => match o_value o with VIPtag _ | VUncompressed _ | VCompressed _ => False
                   | _ => True end) os ->
  (forall a b, In a os -> In b os -> o_id a = o_id b -> a = b) ->
  exists s, set_of entry_eq hash_int hash_tuple hash_id [] os = Some s /\
    NoDup (map o_value s) /\ incl s os /\
    forall o, (forall e, In e os -> o_id e = o_id o -> e = o) ->
      set_mem entry_eq hash_int hash_tuple hash_id s o =
        Some true <-> In (o_value o) (map o_value os).
Proof.
  intros eq hi ht hid os F U.
  destruct (build_spec eq hi ht hid os [] U F (NoDup_nil _)) as (s & E & N & Inc & V).
  exists s. split; [exact E|]. split; [exact N|]. split; [exact Inc|]. intros o O.
  destruct (mem_iff eq hi ht hid s o) as (b & M & B).
  - rewrite Forall_forall in *. intros e I. apply F, Inc, I.
  - intros e I. apply O, Inc, I.
  - rewrite M, <- (V (o_value o)). cbn [app]. rewrite <- B. split; [now intros [= ->] | now intros ->].
Qed.
Print Assumptions C168_sets.

(** Slice(4, 7) twice, the MDSlice of the same atoms, and one of a 4 x 2 grid; and
    a location with and without processor. All hashes collide. *)
Definition C168_md := VSlice (mkSlice 4 4 (Some ([4], [4], [8])))%Z.
Definition C168_objects : list object :=
  [mkObject 0 (VSlice (mkSlice 4 4 None)); mkObject 1 C168_md;
   mkObject 2 (VSlice (mkSlice 4 4 (Some ([2; 2], [0; 1], [2; 4]))));
   mkObject 3 (VSlice (mkSlice 4 4 None)); mkObject 4 (VChipCore 1 2 None);
   mkObject 5 (VChipCore 1 2 (Some 3)); mkObject 6 (VChipCore 1 2 None)]%Z.
Example C168_example :
  set_of (fun _ _ => false) (fun _ => 7%Z) (fun _ => 7%Z) Z.of_nat [] C168_objects =
    Some (firstn 3 C168_objects ++ firstn 2 (skipn 4 C168_objects)) /\
  py_eq (fun _ _ => false) (VSlice (mkSlice 4 4 None)) C168_md = Some false /\
  method_eq (fun _ _ => false) (VSlice (mkSlice 4 4 None)) C168_md = Some true /\
  py_eq (fun _ _ => false) C168_md (VSlice (mkSlice 4 4 None)) = Some false.
Proof. vm_compute. auto. Qed.

(** ** C169: false.  Equal tables have different hashes, so a table is not found in
    a set that holds an equal one. *)
Definition C169_table : table := mkTable 0 0 [mkEntry 1 15 1 false; mkEntry 2 15 2 true] 1.
Theorem C169_equal_tables_not_found_refuted :
  exists o o', forall entry_eq hash_int hash_tuple hash_id,
    (forall e, entry_eq e e = true) -> (forall i j, hash_id i = hash_id j -> i = j) ->
    py_eq entry_eq (o_value o) (o_value o') = Some true /\
    hash hash_int hash_tuple hash_id o <> hash hash_int hash_tuple hash_id o' /\
    set_mem entry_eq hash_int hash_tuple hash_id [o] o' = Some false.
Proof.
  exists (mkObject 0 (VUncompressed C169_table)), (mkObject 1 (VUncompressed C169_table)).
  intros eq hi ht hid R J.
  assert (H : hid 0 <> hid 1) by (intros C; apply J in C; discriminate).
  split; [|split].
  - cbn. now rewrite !R.
  - exact H.
  - cbn [set_mem hash o_value o_id]. apply Z.eqb_neq in H. now rewrite H.
Qed.
Print Assumptions C169_equal_tables_not_found_refuted.

(** ** C170: false.  Equality of tables is not transitive. *)
Theorem C170_transitive_refuted :
  exists a b c, forall entry_eq, (forall e, entry_eq e e = true) ->
    py_eq entry_eq a b = Some true /\ py_eq entry_eq b c = Some true /\
    py_eq entry_eq a c = Some false.
Proof.
  exists (VCompressed C169_table), (VCompressed (mkTable 0 3 (t_entries C169_table) 1)),
    (VCompressed (mkTable 5 3 (t_entries C169_table) 1)).
  intros eq R. cbn. now rewrite !R.
Qed.
Print Assumptions C170_transitive_refuted.

(** ** C171: false.  Comparing a request for an IP tag with anything else raises
    AttributeError, though not the other way around. *)
Theorem C171_comparison_raises_refuted :
  exists a b, forall entry_eq,
    py_eq entry_eq a b = None /\ py_eq entry_eq b a = Some false.
Proof.
  exists (VIPtag (mkIPReq 1 None true None 0)), (VReverse (mkRevReq None 1 None)).
  intros eq. split; reflexivity.
Qed.
Print Assumptions C171_comparison_raises_refuted.
