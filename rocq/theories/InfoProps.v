(** Properties of the routing information and of the keys of a vertex. *)
From Coq Require Import List Arith NArith Bool Permutation Sorted.
From Verif Require Import Base Dict UtilModel AllocModel AllocProofs AllocProps InfoModel InfoProofs.
Import ListNotations.
Local Open Scope nat_scope.

(** C132: an item is refused exactly when one with its vertex and partition has
    been accepted before; [given] is the list of those accepted. *)
Theorem C132_add : forall cs i,
  ((exists j, In j (given cs) /\ i_vertex j = i_vertex i /\ i_part j = i_part i) /\
   answer_after cs (AddRoutingInfo i) = RRaise AlreadyExists /\
   given (cs ++ [AddRoutingInfo i]) = given cs) \/
  ((forall j, In j (given cs) -> i_vertex j = i_vertex i -> i_part j <> i_part i) /\
   answer_after cs (AddRoutingInfo i) = RNone /\
   given (cs ++ [AddRoutingInfo i]) = given cs ++ [i]).
Proof. exact add_answer. Qed.
Print Assumptions C132_add.

Theorem C132_given_distinct : forall cs i j, In i (given cs) -> In j (given cs) ->
  i_vertex i = i_vertex j -> i_part i = i_part j -> i = j.
Proof. exact given_distinct. Qed.
Print Assumptions C132_given_distinct.

(** The first item added for a vertex and partition is the one kept. *)
Theorem C132_given_iff : forall cs i,
  (In i (given cs) -> In (AddRoutingInfo i) cs) /\
  (In (AddRoutingInfo i) cs ->
   exists j, In j (given cs) /\ i_vertex j = i_vertex i /\ i_part j = i_part i) /\
  given cs = given (filter is_add cs).
Proof.
  intros cs i. split; [apply given_In|]. split; [apply added_given|apply given_adds].
Qed.
Print Assumptions C132_given_iff.

(** C132: whatever was called before, the lookups of a vertex and partition give
    the item added for them, *)
Theorem C132_found : forall cs i v p, In i (given cs) -> i_vertex i = v -> i_part i = p ->
  answer_after cs (RoutingInfoFromPreVertex v p) = RInfo i /\
  answer_after cs (GetInfoFrom v p) = RInfo i /\
  answer_after cs (FirstKeyFromPreVertex v p) = RKey (km_key (i_km i)) /\
  answer_after cs (GetKeyFrom v p) = RKey (km_key (i_km i)) /\
  answer_after cs (HasInfoFrom v p) = RBool true.
Proof. exact lookup_found. Qed.
Print Assumptions C132_found.

(** and say so when there is none. *)
Theorem C132_missing : forall cs v p,
  (forall i, In i (given cs) -> ~ (i_vertex i = v /\ i_part i = p)) ->
  answer_after cs (RoutingInfoFromPreVertex v p) = RNone /\
  answer_after cs (GetInfoFrom v p) = RRaise KeyError /\
  answer_after cs (FirstKeyFromPreVertex v p) = RNone /\
  answer_after cs (GetKeyFrom v p) = RRaise KeyError /\
  answer_after cs (HasInfoFrom v p) = RBool false.
Proof. exact lookup_missing. Qed.
Print Assumptions C132_missing.

(** C132: the partitions of a vertex, in the order they were added. *)
Theorem C132_partitions : forall cs v,
  answer_after cs (GetPartitionsFrom v) =
  RParts (map i_part (filter (fun i => vertex_eqb (i_vertex i) v) (given cs))).
Proof. exact partitions_answer. Qed.
Print Assumptions C132_partitions.

(** C132: the check passes exactly when all partitions of the vertex are allowed. *)
Theorem C132_check : forall cs v allowed,
  (answer_after cs (CheckInfoFrom v allowed) = RNone <->
   forall i, In i (given cs) -> i_vertex i = v -> In (i_part i) allowed) /\
  (answer_after cs (CheckInfoFrom v allowed) = RRaise KeyError <->
   exists i, In i (given cs) /\ i_vertex i = v /\ ~ In (i_part i) allowed).
Proof. exact check_answer. Qed.
Print Assumptions C132_check.

(** C132: the only item of a vertex; KeyError when there are several; None when
    there is none and nothing was ever looked up in a way that makes an entry for
    the vertex, KeyError otherwise. *)
Theorem C132_single : forall cs v,
  let l := filter (fun i => vertex_eqb (i_vertex i) v) (given cs) in
  (forall i, l = [i] ->
     answer_after cs (GetSingleInfoFrom v) = RInfo i /\
     answer_after cs (GetSingleKeyFrom v) = RKey (km_key (i_km i))) /\
  (2 <= length l ->
     answer_after cs (GetSingleInfoFrom v) = RRaise KeyError /\
     answer_after cs (GetSingleKeyFrom v) = RRaise KeyError) /\
  (l = [] -> (forall c, In c cs -> ~ opens c v) ->
     answer_after cs (GetSingleInfoFrom v) = RNone /\
     answer_after cs (GetSingleKeyFrom v) = RNone) /\
  (l = [] -> (exists c, In c cs /\ opens c v) ->
     answer_after cs (GetSingleInfoFrom v) = RRaise KeyError /\
     answer_after cs (GetSingleKeyFrom v) = RRaise KeyError).
Proof. exact single_answer. Qed.
Print Assumptions C132_single.

(** C132: iterating gives every item once, those of one vertex in order. *)
Theorem C132_iter : forall cs, exists l,
  answer_after cs IterInfos = RInfos l /\ Permutation l (given cs) /\
  forall v, filter (fun i => vertex_eqb (i_vertex i) v) l =
            filter (fun i => vertex_eqb (i_vertex i) v) (given cs).
Proof. exact iter_answer. Qed.
Print Assumptions C132_iter.

(** C132: the length is the number of vertices when only vertices with items have
    been looked up. *)
Theorem C132_len : forall cs,
  (forall c v, In c cs -> opens c v -> exists i, In i (given cs) /\ i_vertex i = v) ->
  exists T, answer_after cs LenInfos = RNum (length T) /\ NoDup T /\
    forall v, In v T <-> exists i, In i (given cs) /\ i_vertex i = v.
Proof. exact len_vertices. Qed.
Print Assumptions C132_len.

(** C132: what the allocator hands over is all accepted. *)
Theorem C132_allocated : forall flexible e parts infos,
  allocate flexible e parts = Ok infos -> given (map AddRoutingInfo infos) = infos.
Proof. exact alloc_given. Qed.
Print Assumptions C132_allocated.

Definition ri (v : vertex) (p : nat) (k : N) : info := mkInfo v p (mkKM k 0xFFFFFFF0) (IMac 0).
Definition some_calls : list icall :=
  [AddRoutingInfo (ri (Mac 1) 0 0x10); GetPartitionsFrom (Mac 9); AddRoutingInfo (ri (App 1) 0 0x20);
   AddRoutingInfo (ri (Mac 1) 2 0x30); AddRoutingInfo (ri (Mac 1) 0 0x40); HasInfoFrom (Mac 7) 0].

Example C132_example :
  given some_calls = [ri (Mac 1) 0 0x10; ri (App 1) 0 0x20; ri (Mac 1) 2 0x30] /\
  snd (irun no_infos some_calls) =
    [RNone; RParts []; RNone; RNone; RRaise AlreadyExists; RBool false] /\
  answer_after some_calls (GetKeyFrom (Mac 1) 2) = RKey 0x30 /\
  answer_after some_calls (GetInfoFrom (App 1) 2) = RRaise KeyError /\
  answer_after some_calls (GetPartitionsFrom (Mac 1)) = RParts [0; 2] /\
  answer_after some_calls (CheckInfoFrom (Mac 1) [0; 1]) = RRaise KeyError /\
  answer_after some_calls (CheckInfoFrom (Mac 1) [2; 0]) = RNone /\
  answer_after some_calls (GetSingleKeyFrom (App 1)) = RKey 0x20 /\
  answer_after some_calls (GetSingleInfoFrom (Mac 1)) = RRaise KeyError /\
  answer_after some_calls (GetSingleInfoFrom (Mac 7)) = RNone /\
  answer_after some_calls (GetSingleInfoFrom (Mac 9)) = RRaise KeyError /\
  answer_after some_calls IterInfos =
    RInfos [ri (Mac 1) 0 0x10; ri (Mac 1) 2 0x30; ri (App 1) 0 0x20] /\
  answer_after some_calls LenInfos = RNum 3.
Proof. vm_compute. repeat split; reflexivity. Qed.

(** C133: the full claim, that a lookup changes no later answer, is false: three
    of the lookups of a vertex with no routing information make the vertex known. *)
Theorem C133_lookup_changes_refuted : exists cs v p,
  given cs = given (cs ++ [GetPartitionsFrom v]) /\
  (forall i, In i (given cs) -> i_vertex i <> v) /\
  answer_after cs (GetSingleInfoFrom v) = RNone /\
  answer_after cs LenInfos = RNum 1 /\
  (forall c, In c [GetPartitionsFrom v; GetInfoFrom v p; GetKeyFrom v p; RoutingInfoFromPreVertex v p] ->
   answer_after (cs ++ [c]) (GetSingleInfoFrom v) = RRaise KeyError /\
   answer_after (cs ++ [c]) LenInfos = RNum 2).
Proof.
  exists [AddRoutingInfo (ri (Mac 1) 0 0x10)], (Mac 2), 0.
  split; [vm_compute; reflexivity|]. split.
  - intros i Hi. vm_compute in Hi. destruct Hi as [<- |[]]. discriminate.
  - split; [vm_compute; reflexivity|]. split; [vm_compute; reflexivity|].
    intros c [<- |[<- |[<- |[<- |[]]]]]; vm_compute; auto.
Qed.
Print Assumptions C133_lookup_changes_refuted.

(** C133, the part that holds: a lookup changes no later answer other than the
    length and that of the single item of a vertex with none. *)
Theorem C133_lookups_partial : forall cs cs', filter is_add cs = filter is_add cs' ->
  forall c, c <> LenInfos -> c <> IterInfos ->
  (forall v, c = GetSingleInfoFrom v \/ c = GetSingleKeyFrom v ->
     exists i, In i (given cs) /\ i_vertex i = v) ->
  answer_after cs c = answer_after cs' c.
Proof.
  intros cs cs' E c NL NI S.
  assert (G : given cs = given cs') by (rewrite (given_adds cs), (given_adds cs'); now rewrite E).
  assert (LK : forall v p,
    answer_after cs (RoutingInfoFromPreVertex v p) = answer_after cs' (RoutingInfoFromPreVertex v p) /\
    answer_after cs (GetInfoFrom v p) = answer_after cs' (GetInfoFrom v p) /\
    answer_after cs (FirstKeyFromPreVertex v p) = answer_after cs' (FirstKeyFromPreVertex v p) /\
    answer_after cs (GetKeyFrom v p) = answer_after cs' (GetKeyFrom v p) /\
    answer_after cs (HasInfoFrom v p) = answer_after cs' (HasInfoFrom v p)).
  { intros v p. destruct (existsb (same_info v p) (given cs)) eqn:X.
    - apply same_info_In in X. destruct X as (i & Hi & E1 & E2).
      destruct (lookup_found cs i v p Hi E1 E2) as (-> & -> & -> & -> & ->).
      rewrite G in Hi. destruct (lookup_found cs' i v p Hi E1 E2) as (-> & -> & -> & -> & ->). auto.
    - assert (N : forall i, In i (given cs) -> ~ (i_vertex i = v /\ i_part i = p)).
      { intros i Hi C. enough (true = false) by discriminate. rewrite <- X. symmetry.
        apply same_info_In. exists i. tauto. }
      destruct (lookup_missing cs v p N) as (-> & -> & -> & -> & ->).
      rewrite G in N. destruct (lookup_missing cs' v p N) as (-> & -> & -> & -> & ->). auto. }
  assert (SG : forall v, (exists i, In i (given cs) /\ i_vertex i = v) ->
    answer_after cs (GetSingleInfoFrom v) = answer_after cs' (GetSingleInfoFrom v) /\
    answer_after cs (GetSingleKeyFrom v) = answer_after cs' (GetSingleKeyFrom v)).
  { intros v (i & Hi). apply from_In in Hi.
    destruct (single_answer cs v) as (A1 & A2 & _). destruct (single_answer cs' v) as (B1 & B2 & _).
    rewrite <- G in B1, B2. destruct (from v (given cs)) as [|x [|y l]]; [destruct Hi| |].
    - destruct (A1 x eq_refl) as [-> ->]. destruct (B1 x eq_refl) as [-> ->]. auto.
    - destruct A2 as [-> ->]; [cbn; auto with arith|]. destruct B2 as [-> ->]; [cbn; auto with arith|]. auto. }
  destruct c; try apply LK; try congruence.
  - destruct (add_answer cs i) as [((j & Hj & E1 & E2) & -> & _)|(N & -> & _)];
      destruct (add_answer cs' i) as [((j' & Hj' & E1' & E2') & -> & _)|(N' & -> & _)]; auto; exfalso.
    + rewrite <- G in N'. now apply (N' j).
    + rewrite <- G in Hj'. now apply (N j').
  - rewrite !partitions_answer. now rewrite G.
  - destruct (check_answer cs v allowed) as [A1 A2]. destruct (check_answer cs' v allowed) as [B1 B2].
    rewrite <- G in B1, B2. rewrite <- A1 in B1. rewrite <- A2 in B2.
    assert (X : answer_after cs (CheckInfoFrom v allowed) = RNone \/
                answer_after cs (CheckInfoFrom v allowed) = RRaise KeyError).
    { unfold answer_after. cbn. destruct (dget vertex_eqb _ v); [|auto]. destruct (forallb _ _); auto. }
    destruct X as [X|X]; rewrite X; symmetry; tauto.
  - apply SG. apply S. auto.
  - apply SG. apply S. auto.
Qed.
Print Assumptions C133_lookups_partial.

(** C134: the claim that the length is the number of items iterated is false: it
    is the number of vertices, and counts vertices only looked up. *)
Theorem C134_len_refuted : exists cs l,
  answer_after cs IterInfos = RInfos l /\ length l = 2 /\ answer_after cs LenInfos = RNum 1.
Proof.
  exists [AddRoutingInfo (ri (Mac 1) 0 0x10); AddRoutingInfo (ri (Mac 1) 2 0x30)],
         [ri (Mac 1) 0 0x10; ri (Mac 1) 2 0x30].
  vm_compute. auto.
Qed.
Print Assumptions C134_len_refuted.

Theorem C134_len_partial : forall cs, exists T,
  answer_after cs LenInfos = RNum (length T) /\ NoDup T /\
  (forall v, In v T <-> exists c, In c cs /\ opens c v).
Proof. exact len_answer. Qed.
Print Assumptions C134_len_partial.

Local Open Scope N_scope.

(** C135: the keys of a vertex are the least keys of its key and mask, in order,
    as many as asked for. *)
Theorem C135_keys : forall k n, km_key k < 2 ^ 32 -> km_mask k < 2 ^ 32 ->
  N.land (km_key k) (km_mask k) = km_key k -> n <= n_keys (km_mask k) ->
  (n <> 0 \/ n_keys (km_mask k) <> 1) ->
  exists ks, vertex_keys k (Some n) = Ok ks /\ N.of_nat (length ks) = n /\
    StronglySorted N.lt ks /\
    (forall x, In x ks -> x < 2 ^ 32 /\ N.land x (km_mask k) = km_key k) /\
    (forall x y, In x ks -> y < x -> N.land y (km_mask k) = km_key k -> In y ks) /\
    (n = n_keys (km_mask k) -> forall x, x < 2 ^ 32 -> N.land x (km_mask k) = km_key k -> In x ks).
Proof. exact vertex_keys_spec. Qed.
Print Assumptions C135_keys.

Theorem C135_all : forall k, vertex_keys k None = vertex_keys k (Some (n_keys (km_mask k))).
Proof. exact vertex_keys_none. Qed.
Print Assumptions C135_all.

Theorem C135_too_many : forall k n, vertex_keys k (Some n) = Err ConfigurationException <->
  n_keys (km_mask k) < n.
Proof. exact vertex_keys_many. Qed.
Print Assumptions C135_too_many.

(** C135: for a machine vertex whose keys the allocator chose, any number of keys
    up to the number its partition asked for (and beyond, to the size of its
    block) is available, and they are its key and those just after it. *)
Theorem C135_allocated : forall flexible e parts infos a p m,
  AllocProofs.env_ok e parts -> allocate flexible e parts = Ok infos ->
  free_part e parts a p -> AllocProofs.counted e a p -> In m (ae_outgoing e a p) ->
  exists i, AllocProofs.is_mac infos e a p m i /\ ae_n_keys e m p <= n_keys (km_mask (i_km i)) /\
    forall n, n <> 0 -> n <= n_keys (km_mask (i_km i)) ->
      vertex_keys (i_km i) (Some n) =
        Ok (map (fun j => km_key (i_km i) + N.of_nat j) (seq 0 (N.to_nat n))).
Proof. exact alloc_vertex_keys. Qed.
Print Assumptions C135_allocated.

Example C135_example :
  vertex_keys (mkKM 0x10 0xFFFFFFF5) (Some 3) = Ok [0x10; 0x12; 0x18] /\
  vertex_keys (mkKM 0x10 0xFFFFFFF5) None = Ok [0x10; 0x12; 0x18; 0x1A] /\
  vertex_keys (mkKM 0x10 0xFFFFFFF5) (Some 0) = Ok [] /\
  vertex_keys (mkKM 0x10 0xFFFFFFF5) (Some 5) = Err ConfigurationException /\
  vertex_keys (mkKM 0x13 0xFFFFFFFF) None = Ok [0x13] /\
  vertex_keys (mkKM 0x40 0xFFFFFFF8) (Some 5) = Ok [0x40; 0x41; 0x42; 0x43; 0x44].
Proof. vm_compute. repeat split; reflexivity. Qed.

Example C135_allocated_example : exists infos i,
  AllocProofs.env_ok (ex_env (mkKM 0x1000 0xFFFFF000)) ex_parts /\
  allocate true (ex_env (mkKM 0x1000 0xFFFFF000)) ex_parts = Ok infos /\
  free_part (ex_env (mkKM 0x1000 0xFFFFF000)) ex_parts 0 0 /\
  AllocProofs.counted (ex_env (mkKM 0x1000 0xFFFFF000)) 0 0 /\
  In 0%nat (ae_outgoing (ex_env (mkKM 0x1000 0xFFFFF000)) 0 0) /\
  In i infos /\ i_vertex i = Mac 0 /\ n_keys (km_mask (i_km i)) = 256 /\
  vertex_keys (i_km i) (Some 3) = Ok [0; 1; 2] /\
  answer_after (map AddRoutingInfo infos) (GetKeyFrom (Mac 16) 0) = RKey 271.
Proof.
  eexists. eexists. split; [apply ex_env_ok|]. split; [vm_compute; reflexivity|].
  split; [split; [simpl; auto|reflexivity]|].
  split; [right; exists 0%nat; split; [simpl; auto|reflexivity]|].
  split; [simpl; auto|]. split; [left; reflexivity|]. vm_compute. auto.
Qed.

(** C136: asking for no keys always gives none — false for a single key. *)
Theorem C136_no_keys_refuted : exists k, km_key k < 2 ^ 32 /\ km_mask k < 2 ^ 32 /\
  N.land (km_key k) (km_mask k) = km_key k /\ vertex_keys k (Some 0) = Err IndexError.
Proof. exists (mkKM 0x13 0xFFFFFFFF). vm_compute. auto. Qed.
Print Assumptions C136_no_keys_refuted.

Theorem C136_no_keys_partial : forall k, n_keys (km_mask k) <> 1 -> vertex_keys k (Some 0) = Ok [].
Proof.
  intros k H. unfold vertex_keys, get_keys, n_keys in *. destruct (zeros_of (km_mask k)) as [|z l].
  - now elim H.
  - replace (2 ^ N.of_nat (length (z :: l)) <? 0) with false by (symmetry; apply N.ltb_ge, N.le_0_l).
    reflexivity.
Qed.
Print Assumptions C136_no_keys_partial.
