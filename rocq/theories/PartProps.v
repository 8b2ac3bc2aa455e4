(** Properties C42 and C61: SDRAM edge partitions. *)
From Coq Require Import List ZArith Bool.
From Verif Require Import Base Dict PartModel PartProofs.
Import ListNotations.
Local Open Scope Z_scope.

(** C42: whatever sequence of add_edge and base-address calls was made, once a
    source-segmented partition has a base address, the segments of its edges do
    not overlap and fill exactly [b, b + total); each source sees its own segment
    and every other vertex the whole. *)
Theorem C42_source_segments : forall pre s0 cs b, src_new pre = Ok s0 ->
  let s := fold_left src_call cs s0 in
  s_base s = Some b -> (forall e, In e (s_edges s) -> 0 <= e_size e) ->
  exists start : edge -> Z,
    ((forall x, b <= x < b + total_size (s_edges s) <->
        exists e, In e (s_edges s) /\ start e <= x < start e + e_size e) /\
     (forall e e', In e (s_edges s) -> In e' (s_edges s) -> e <> e' ->
        start e + e_size e <= start e' \/ start e' + e_size e' <= start e)) /\
    (forall e, In e (s_edges s) ->
       dget Nat.eqb (s_addr s) (e_id e) = Some (start e) /\
       src_base_for s (e_pre e) = Ok (start e) /\ src_size_for s (e_pre e) = Ok (e_size e)) /\
    (forall v, In v pre -> exists e, In e (s_edges s) /\ e_pre e = v) /\
    (forall v, ~ In v pre -> src_base_for s v = Ok b /\ src_size_for s v = Ok (total_size (s_edges s))).
Proof. exact source_segments. Qed.
Print Assumptions C42_source_segments.

(** C42 for the destination-segmented partition. *)
Theorem C42_destination_segments : forall pre cs b,
  let s := fold_left dst_call cs (dst_new pre) in
  d_base s = Some b -> (forall e, In e (d_edges s) -> 0 <= e_size e) ->
  exists start : edge -> Z,
    ((forall x, b <= x < b + total_size (d_edges s) <->
        exists e, In e (d_edges s) /\ start e <= x < start e + e_size e) /\
     (forall e e', In e (d_edges s) -> In e' (d_edges s) -> e <> e' ->
        start e + e_size e <= start e' \/ start e' + e_size e' <= start e)) /\
    (forall e, In e (d_edges s) -> dget Nat.eqb (d_addr s) (e_id e) = Some (start e)) /\
    (forall e, In e (d_edges s) -> e_post e <> pre ->
       (forall e', In e' (d_edges s) -> e_post e' = e_post e -> e' = e) ->
       dst_base_for s (e_post e) = Ok (start e) /\ dst_size_for s (e_post e) = Ok (e_size e)) /\
    dst_base_for s pre = Ok b /\ dst_size_for s pre = Ok (total_size (d_edges s)).
Proof. exact destination_segments. Qed.
Print Assumptions C42_destination_segments.

(** All edges of a constant-size partition have the size it reports and, once
    it is set, its base address. *)
Theorem C42_constant_shared : forall pre cs e,
  let s := fold_left con_call cs (con_new pre) in In e (c_edges s) ->
  con_total s = Ok (e_size e) /\
  (forall b, c_base s = Some b -> dget Nat.eqb (c_addr s) (e_id e) = Some b).
Proof. exact constant_shared. Qed.
Print Assumptions C42_constant_shared.

Definition ex_edges : list edge := [mkEdge 0 2 9 40; mkEdge 1 1 9 8; mkEdge 2 3 9 100].
Definition ex_src : src :=
  match src_new [1; 2; 3]%nat with
  | Ok s => fold_left src_call (map Add ex_edges ++ [SetBase 1000; Add (mkEdge 5 1 9 7)]) s
  | Err _ => mkSrc [] [] [] None [] end.
Example ex_source : s_base ex_src = Some 1000 /\ length (s_edges ex_src) = 3%nat /\
  map (src_base_for ex_src) [1; 2; 3; 9]%nat = [Ok 1000; Ok 1008; Ok 1048; Ok 1000] /\
  map (src_size_for ex_src) [1; 2; 3; 9]%nat = [Ok 8; Ok 40; Ok 100; Ok 148].
Proof. vm_compute. intuition reflexivity. Qed.

Definition ex_dst : dst :=
  fold_left dst_call [Add (mkEdge 0 7 1 40); Add (mkEdge 1 7 2 8); Add (mkEdge 2 8 3 1);
                      Add (mkEdge 3 7 3 100); SetBase 500] (dst_new 7).
Example ex_destination : d_base ex_dst = Some 500 /\ length (d_edges ex_dst) = 3%nat /\
  map (dst_base_for ex_dst) [7; 1; 2; 3]%nat = [Ok 500; Ok 500; Ok 540; Ok 548] /\
  map (dst_size_for ex_dst) [7; 1; 2; 3]%nat = [Ok 148; Ok 40; Ok 8; Ok 100].
Proof. vm_compute. intuition reflexivity. Qed.

Definition ex_con : con :=
  fold_left con_call [Add (mkEdge 0 7 1 40); Add (mkEdge 1 7 2 8); Add (mkEdge 2 7 3 40); SetBase 500] (con_new 7).
Example ex_constant : In (mkEdge 2 7 3 40) (c_edges ex_con) /\ c_base ex_con = Some 500 /\
  length (c_edges ex_con) = 2%nat /\ con_total ex_con = Ok 40.
Proof. vm_compute. intuition. Qed.

(** C61: an edge that is refused leaves the partition as it was.  True of the
    segmented partitions... *)
Theorem C61_source_rejected_partial : forall s e, snd (src_add s e) <> Ok tt -> fst (src_add s e) = s.
Proof. exact src_rejected. Qed.
Print Assumptions C61_source_rejected_partial.

Theorem C61_destination_rejected_partial : forall s e, snd (dst_add s e) <> Ok tt -> fst (dst_add s e) = s.
Proof. exact dst_rejected. Qed.
Print Assumptions C61_destination_rejected_partial.

Example ex_rejected : snd (src_add ex_src (mkEdge 5 1 9 7)) = Err ConfigurationException /\
  snd (dst_add ex_dst (mkEdge 5 1 9 7)) = Err ConfigurationException.
Proof. vm_compute. split; reflexivity. Qed.

(** ... but not of the constant-size one: an edge from another vertex is refused
    yet stays in the partition, where it later also gets an SDRAM address. *)
Theorem C61_constant_rejected_refuted : exists e,
  snd (con_add (con_new 7) e) = Err ConfigurationException /\
  c_edges (fst (con_add (con_new 7) e)) = [e] /\
  let s := fold_left con_call [Add e; SetBase 100] (con_new 7) in
  c_base s = Some 100 /\ dget Nat.eqb (c_addr s) (e_id e) = Some 100.
Proof. exists (mkEdge 0 6 1 40). vm_compute. intuition reflexivity. Qed.
Print Assumptions C61_constant_rejected_refuted.

(** C160.  After any calls, a source-segmented partition takes an edge exactly if
    its pre-vertex is one of the partition without an edge and its post-vertex is
    that of the other edges; the base address can be set exactly when every
    pre-vertex has its edge. *)
Theorem C160_source_accepts : forall pre s0 cs e, src_new pre = Ok s0 ->
  let s := fold_left src_call cs s0 in
  (snd (src_add s e) = Ok tt <->
     In (e_pre e) pre /\
     forall e', In e' (s_edges s) -> e_pre e' <> e_pre e /\ e_post e' = e_post e /\ e_id e' <> e_id e) /\
  (snd (src_add s e) = Ok tt -> s_edges (fst (src_add s e)) = s_edges s ++ [e]).
Proof. exact src_add_iff. Qed.
Print Assumptions C160_source_accepts.

Theorem C160_source_base : forall pre s0 cs a, src_new pre = Ok s0 ->
  let s := fold_left src_call cs s0 in
  (snd (src_set_base s a) = Ok tt <-> forall v, In v pre -> exists e, In e (s_edges s) /\ e_pre e = v) /\
  (snd (src_set_base s a) = Ok tt -> s_base (fst (src_set_base s a)) = Some a /\
     s_edges (fst (src_set_base s a)) = s_edges s) /\
  (snd (src_set_base s a) <> Ok tt -> fst (src_set_base s a) = s).
Proof. exact src_base_iff. Qed.
Print Assumptions C160_source_base.

(** C160.  The other two take an edge exactly if the base address has not been set,
    it starts at the pre-vertex and is new; the constant-size one also asks for
    the size that [total_sdram_requirements] reports, if any. *)
Theorem C160_destination_accepts : forall pre cs e, let s := fold_left dst_call cs (dst_new pre) in
  (snd (dst_add s e) = Ok tt <->
     d_base s = None /\ e_pre e = pre /\ forall e', In e' (d_edges s) -> e_id e' <> e_id e) /\
  (snd (dst_add s e) = Ok tt -> d_edges (fst (dst_add s e)) = d_edges s ++ [e]).
Proof. exact dst_add_iff. Qed.
Print Assumptions C160_destination_accepts.

Theorem C160_destination_base : forall s a,
  (snd (dst_set_base s a) = Ok tt <-> d_edges s <> []) /\
  (snd (dst_set_base s a) = Ok tt -> d_base (fst (dst_set_base s a)) = Some a /\
     d_edges (fst (dst_set_base s a)) = d_edges s) /\
  (snd (dst_set_base s a) <> Ok tt -> fst (dst_set_base s a) = s).
Proof. exact dst_base_iff. Qed.
Print Assumptions C160_destination_base.

Theorem C160_constant_accepts : forall pre cs e, let s := fold_left con_call cs (con_new pre) in
  (snd (con_add s e) = Ok tt <->
     c_base s = None /\ e_pre e = pre /\ (forall e', In e' (c_edges s) -> e_id e' <> e_id e) /\
     (forall z, con_total s = Ok z -> z = e_size e)) /\
  (snd (con_add s e) = Ok tt -> c_edges (fst (con_add s e)) = c_edges s ++ [e]).
Proof. exact con_add_iff. Qed.
Print Assumptions C160_constant_accepts.

Theorem C160_constant_base : forall s a,
  (snd (con_set_base s a) = Ok tt <-> c_edges s <> []) /\
  (snd (con_set_base s a) = Ok tt -> c_base (fst (con_set_base s a)) = Some a /\
     c_edges (fst (con_set_base s a)) = c_edges s) /\
  (snd (con_set_base s a) <> Ok tt -> fst (con_set_base s a) = s).
Proof. exact con_base_iff. Qed.
Print Assumptions C160_constant_base.

(** A partition from vertices 1, 2 and 3 that has the edges of 2 and 1. *)
Example C160_example :
  match src_new [1; 2; 3]%nat with
  | Ok s0 =>
      let s := fold_left src_call (map Add [mkEdge 0 2 9 40; mkEdge 1 1 9 8]) s0 in
      length (s_edges s) = 2%nat /\ snd (src_add s (mkEdge 2 3 9 4)) = Ok tt /\
      snd (src_add s (mkEdge 2 3 8 4)) = Err ConfigurationException /\
      snd (src_add s (mkEdge 2 4 9 4)) = Err ConfigurationException /\
      snd (src_add s (mkEdge 2 1 9 4)) = Err ConfigurationException /\
      snd (src_set_base s 100) = Err PartitionException /\
      snd (src_set_base (fst (src_add s (mkEdge 2 3 9 4))) 100) = Ok tt
  | Err _ => False
  end.
Proof. vm_compute. intuition reflexivity. Qed.
Example C160_constant_example :
  let s := fold_left con_call [Add (mkEdge 0 7 1 40)] (con_new 7) in
  snd (con_add s (mkEdge 1 7 2 40)) = Ok tt /\ snd (con_add s (mkEdge 1 7 2 41)) = Err InvalidParameter /\
  snd (con_add s (mkEdge 1 6 2 40)) = Err ConfigurationException /\
  snd (con_add (fst (con_set_base s 10)) (mkEdge 1 7 2 40)) = Err ConfigurationException.
Proof. vm_compute. intuition reflexivity. Qed.
