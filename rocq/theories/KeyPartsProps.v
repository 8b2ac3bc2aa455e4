(** Which block of keys each partition gets. *)
From Coq Require Import List Arith NArith Bool Lia.
From Verif Require Import Base Dict RouteSpec KeyMask AllocModel AllocProofs KeyOrder FixAlloc KeyParts.
Import ListNotations.
Local Open Scope N_scope.

(** C187: the partitions whose keys the allocator chooses get aligned blocks of one
    size, increasing in the order in which the partitions come in the graph.  In
    flexible mode the blocks are no larger than needed: a size in which each partition
    with keys has room for its machine vertices' equal fields is not exceeded. *)
Theorem C187_blocks : forall flexible e parts infos,
  env_ok e parts -> allocate flexible e parts = Ok infos ->
  exists s, s <= 32 /\
    (forall a p j, free_part e parts a p -> is_app infos a p j ->
       exists n, n < 2 ^ (32 - s) /\ i_km j = mkKM (n * 2 ^ s) (2 ^ 32 - 2 ^ s)) /\
    (forall l1 a p l2 j a' p' j', parts = l1 ++ (a, p) :: l2 -> ~ In (a', p') l1 -> (a', p') <> (a, p) ->
       free_part e parts a p -> free_part e parts a' p' -> is_app infos a p j -> is_app infos a' p' j' ->
       km_key (i_km j) < km_key (i_km j')) /\
    (flexible = true -> forall t,
       (forall a p, free_part e parts a p -> (exists m, In m (ae_outgoing e a p) /\ 0 < ae_n_keys e m p) ->
          exists x y, x + y <= t /\ N.of_nat (length (ae_outgoing e a p)) <= 2 ^ y /\ enough_bits e a p x) ->
       s <= t).
Proof. exact alloc_blocks. Qed.
Print Assumptions C187_blocks.

(** C187: and there are no gaps: the blocks below the one of a partition are one for
    each sending partition before it (also for those with fixed keys), and those in
    which there are keys fixed by the user.  Here [ps] lists the sending partitions
    before it, [b] the blocks below it with fixed keys.  (In global mode this needs
    that one partition is largest on both counts, or that no keys are fixed, see C99.) *)
Theorem C187_numbered : forall flexible e parts infos l1 a p l2 j s ps b,
  env_ok e parts -> allocate flexible e parts = Ok infos ->
  flexible = true \/ one_largest e parts \/ no_fixed e parts ->
  (forall x, user_key e parts x -> km_ok x) ->
  parts = l1 ++ (a, p) :: l2 -> ~ In (a, p) l1 -> ae_app_fixed e a p = None -> is_app infos a p j ->
  s <= 32 -> km_mask (i_km j) = 2 ^ 32 - 2 ^ s ->
  senders e l1 ps ->
  NoDup b ->
  (forall n, In n b <-> n * 2 ^ s < km_key (i_km j) /\
     exists key x, key < 2 ^ 32 /\ user_key e parts x /\ km_matches key x /\ n = key / 2 ^ s) ->
  km_key (i_km j) = N.of_nat (length ps + length b) * 2 ^ s.
Proof. exact alloc_numbered. Qed.
Print Assumptions C187_numbered.

(** ** Examples *)

(** Application vertices 0 to 4.  Vertex 0 has two machine vertices with up to 100 keys, so
    blocks of 256 keys; vertex 2 sends nothing; vertex 1 has the second block fixed. *)
Definition kp_env : graph_env := mkEnv
  (fun a _ => if Nat.eqb a 1 then Some (mkKM 0x100 0xFFFFFF00) else None)
  (fun a _ => match a with 0%nat => [0; 1]%nat | 1%nat => [2]%nat | 3%nat => [3]%nat | 4%nat => [4]%nat | _ => [] end)
  (fun _ _ _ => None)
  (fun m _ => match m with 0%nat => 100 | _ => 7 end)
  N.of_nat N.of_nat (fun _ => 1).
Definition kp_parts : list (nat * nat) := [(0, 0); (1, 0); (2, 0); (0, 0); (3, 0); (4, 0)]%nat.
Definition kp_infos (flexible : bool) : list info := match allocate flexible kp_env kp_parts with Ok l => l | Err _ => [] end.
Ltac kp I := repeat (destruct I as [I|I]; [inversion I; subst; clear I|]); try destruct I.
Lemma kp_ok : env_ok kp_env kp_parts.
Proof.
  split.
  - intros a p I F. kp I; cbn in F |- *; try discriminate; now destruct F.
  - intros a a' p m I I' M M'. kp I; kp I'; auto; cbn in M, M'; exfalso; lia.
Qed.
Lemma kp_user : forall x, user_key kp_env kp_parts x -> x = mkKM 0x100 0xFFFFFF00.
Proof. intros x (a & k & I & [F|(m & _ & F)]); [|discriminate F]. kp I; cbn in F; congruence. Qed.

Example C187_made : allocate true kp_env kp_parts = Ok (kp_infos true) /\
  flat_map (fun i => match i_vertex i with App a => [(a, i_km i)] | _ => [] end) (kp_infos true) =
  [(0, mkKM 0 0xFFFFFF00); (1, mkKM 0x100 0xFFFFFF00); (3, mkKM 0x300 0xFFFFFF00); (4, mkKM 0x400 0xFFFFFF00)]%nat.
Proof. split; vm_compute; reflexivity. Qed.
(** The partition of vertex 3: two sending partitions are before it, and one block is fixed. *)
Example C187_numbered_example : exists j, is_app (kp_infos true) 3 0 j /\
  senders kp_env [(0, 0); (1, 0); (2, 0); (0, 0)]%nat [(0, 0); (1, 0)]%nat /\
  (forall n, In n [1] <-> n * 2 ^ 8 < km_key (i_km j) /\
     exists key x, key < 2 ^ 32 /\ user_key kp_env kp_parts x /\ km_matches key x /\ n = key / 2 ^ 8) /\
  km_key (i_km j) = 3 * 2 ^ 8.
Proof.
  assert (SD : senders kp_env [(0, 0); (1, 0); (2, 0); (0, 0)]%nat [(0, 0); (1, 0)]%nat).
  { split; [repeat constructor; cbn; intuition congruence|]. intros a p. split.
    - intros I. kp I; (split; [cbn; auto|discriminate]).
    - intros [I N]. kp I; cbn; auto. }
  exists (mkInfo (App 3) 0 (mkKM 0x300 0xFFFFFF00) (IApp 0xFFFFFFF8 3 0)).
  assert (A : is_app (kp_infos true) 3 0 (mkInfo (App 3) 0 (mkKM 0x300 0xFFFFFF00) (IApp 0xFFFFFFF8 3 0))).
  { split; [|split; reflexivity]. vm_compute. tauto. }
  assert (B : forall n, In n [1] <-> n * 2 ^ 8 < 0x300 /\
     exists key x, key < 2 ^ 32 /\ user_key kp_env kp_parts x /\ km_matches key x /\ n = key / 2 ^ 8).
  { intro n. split.
    - intros [<-|[]]. split; [reflexivity|]. exists 0x100, (mkKM 0x100 0xFFFFFF00). split; [reflexivity|].
      split; [|split; reflexivity]. exists 1%nat, 0%nat. split; [cbn; auto|left; reflexivity].
    - intros [_ (key & x & K & U & M & ->)]. apply kp_user in U. subst x. left. symmetry.
      rewrite <- N.shiftr_div_pow2. apply (proj1 (block_match 8 1 key (ltac:(lia)) K)). exact M. }
  split; [exact A|]. split; [exact SD|]. split; [exact B|].
  exact (C187_numbered true kp_env kp_parts (kp_infos true) [(0, 0); (1, 0); (2, 0); (0, 0)]%nat 3 0 [(4, 0)]%nat _ 8 _ [1]
    kp_ok (proj1 C187_made) (or_introl eq_refl) (fun x U => ltac:(rewrite (kp_user x U); split; [reflexivity|split; reflexivity]))
    eq_refl ltac:(cbn; intuition congruence) eq_refl A ltac:(lia) eq_refl SD ltac:(repeat constructor; cbn; tauto) B).
Qed.
(** The same blocks in global mode, where vertex 0's is largest on both counts. *)
Example C187_global_example : one_largest kp_env kp_parts /\
  flat_map (fun i => match i_vertex i with App a => [(a, i_km i)] | _ => [] end) (kp_infos false) =
  [(0, mkKM 0 0xFFFFFF00); (1, mkKM 0x100 0xFFFFFF00); (3, mkKM 0x300 0xFFFFFF00); (4, mkKM 0x400 0xFFFFFF00)]%nat.
Proof.
  split; [|vm_compute; reflexivity]. exists 0%nat, 0%nat. split; [split; [cbn; auto|reflexivity]|].
  intros a p m [I F] M K. split.
  - exists 0%nat. split; [cbn; auto|]. unfold kp_env. cbn. destruct m; lia.
  - kp I; cbn; lia.
Qed.
