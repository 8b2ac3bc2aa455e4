(** Properties C16, C17 and C163: the zoned routing key allocator. *)
From Coq Require Import List Arith NArith Bool Lia.
From Verif Require Import Base Dict UtilModel AllocModel AllocProofs KeyOrder.
Import ListNotations.
Local Open Scope N_scope.

(** [env_ok]: a partition with a fixed key has a machine vertex, and no machine
    vertex is listed by two application vertices. *)

(** C16: every machine vertex of a partition without fixed keys gets an aligned
    block of consecutive 32-bit keys, large enough, inside the block of its
    application vertex. *)
Theorem C16_machine_block : forall flexible e parts infos a p m,
  env_ok e parts -> allocate flexible e parts = Ok infos ->
  free_part e parts a p -> counted e a p -> In m (ae_outgoing e a p) ->
  exists i j b, is_mac infos e a p m i /\ is_app infos a p j /\ b <= 32 /\
    ae_n_keys e m p <= 2 ^ b /\
    N.modulo (km_key (i_km i)) (2 ^ b) = 0 /\ km_key (i_km i) + 2 ^ b <= 2 ^ 32 /\
    (forall k, k < 2 ^ 32 ->
       (km_matches k (i_km i) <-> km_key (i_km i) <= k < km_key (i_km i) + 2 ^ b)) /\
    (forall k, k < 2 ^ 32 -> km_matches k (i_km i) -> km_matches k (i_km j)).
Proof. exact alloc_machine_block. Qed.
Print Assumptions C16_machine_block.

(** C16: no key belongs to two machine vertices (or to two partitions of one). *)
Theorem C16_no_clash : forall flexible e parts infos a p m i a' p' m' i',
  env_ok e parts -> allocate flexible e parts = Ok infos ->
  free_part e parts a p -> counted e a p -> is_mac infos e a p m i ->
  free_part e parts a' p' -> counted e a' p' -> is_mac infos e a' p' m' i' ->
  (m, p) <> (m', p') -> km_disjoint (i_km i) (i_km i').
Proof. exact alloc_machines_disjoint. Qed.
Print Assumptions C16_no_clash.

(** C16: nor to two application vertices. *)
Theorem C16_no_app_clash : forall flexible e parts infos a p i a' p' i',
  env_ok e parts -> allocate flexible e parts = Ok infos ->
  free_part e parts a p -> is_app infos a p i ->
  free_part e parts a' p' -> is_app infos a' p' i' ->
  (a, p) <> (a', p') -> km_disjoint (i_km i) (i_km i').
Proof. exact alloc_apps_disjoint. Qed.
Print Assumptions C16_no_app_clash.

(** C16: a (vertex, partition) pair has one entry only. *)
Theorem C16_one_entry : forall flexible e parts infos i j,
  allocate flexible e parts = Ok infos -> In i infos -> In j infos ->
  i_vertex i = i_vertex j -> i_part i = i_part j -> i = j.
Proof. exact alloc_unique. Qed.
Print Assumptions C16_one_entry.

(** C16: with no fixed keys the allocator succeeds exactly when some split of
    the 32 bits gives every partition enough room; otherwise it raises
    PacmanRouteInfoAllocationException. *)
Theorem C16_succeeds_iff_fits : forall flexible e parts,
  env_ok e parts -> no_fixed e parts ->
  (forall a p, In (a, p) parts -> NoDup (ae_outgoing e a p)) ->
  (forall a p, In (a, p) parts -> ae_outgoing e a p <> [] -> counted e a p) ->
  (fields_fit e parts <-> exists infos, allocate flexible e parts = Ok infos) /\
  (~ fields_fit e parts <-> allocate flexible e parts = Err RouteInfoAllocation).
Proof. exact alloc_succeeds_iff. Qed.
Print Assumptions C16_succeeds_iff_fits.

(** C17: in flexible mode, and in global mode when one partition is largest
    both in keys per machine vertex and in machine vertices, no key chosen by
    the allocator is one of the user's. *)
Theorem C17_machine_keys_avoid_fixed : forall flexible e parts infos a p m i x,
  env_ok e parts -> allocate flexible e parts = Ok infos ->
  flexible = true \/ one_largest e parts ->
  free_part e parts a p -> counted e a p -> is_mac infos e a p m i ->
  user_key e parts x -> km_ok x -> km_disjoint (i_km i) x.
Proof. exact alloc_avoids_fixed_mac. Qed.
Print Assumptions C17_machine_keys_avoid_fixed.

Theorem C17_app_keys_avoid_fixed : forall flexible e parts infos a p i x,
  env_ok e parts -> allocate flexible e parts = Ok infos ->
  flexible = true \/ one_largest e parts ->
  free_part e parts a p -> is_app infos a p i ->
  user_key e parts x -> km_ok x -> km_disjoint (i_km i) x.
Proof. exact alloc_avoids_fixed_app. Qed.
Print Assumptions C17_app_keys_avoid_fixed.

(** C17: the user's keys themselves are used unchanged. *)
Theorem C17_fixed_keys_used : forall flexible e parts infos a p x,
  env_ok e parts -> allocate flexible e parts = Ok infos ->
  In (a, p) parts -> ae_app_fixed e a p = Some x ->
  (exists i, is_app infos a p i /\ i_km i = x) /\
  (forall m, In m (ae_outgoing e a p) -> exists i, is_mac infos e a p m i /\
     i_km i = match ae_mac_fixed e a m p with Some y => y | None => x end).
Proof. exact alloc_respects_fixed. Qed.
Print Assumptions C17_fixed_keys_used.

(** C163: in a partition whose keys the allocator chooses, the blocks of the machine
    vertices all have the size noted for the application vertex and follow each other
    in the order of the vertices' first atoms, from the application vertex's key on;
    each vertex's place in this order is noted with its key.  In flexible mode the
    blocks are as small as they can be. *)
Theorem C163_in_order : forall flexible e parts infos a p j,
  env_ok e parts -> allocate flexible e parts = Ok infos ->
  free_part e parts a p -> counted e a p -> is_app infos a p j ->
  exists b, enough_bits e a p b /\ (flexible = true -> just_enough e a p b) /\
    i_extra j = IApp (2 ^ 32 - 2 ^ b) b (N.of_nat (length (ae_outgoing e a p)) - 1) /\
    forall m i, is_mac infos e a p m i ->
      exists n, comes_nth e (ae_outgoing e a p) m n /\ i_extra i = IMac (N.of_nat n) /\
        i_km i = mkKM (km_key (i_km j) + N.of_nat n * 2 ^ b) (2 ^ 32 - 2 ^ b).
Proof. exact alloc_in_order. Qed.
Print Assumptions C163_in_order.

(** C163: in global mode all partitions have blocks of one size, but for those that
    need larger ones; these get the smallest that will do. *)
Theorem C163_global : forall e parts infos,
  env_ok e parts -> allocate false e parts = Ok infos ->
  exists c, forall a p j mask b mx, free_part e parts a p -> is_app infos a p j -> i_extra j = IApp mask b mx ->
    b = c \/ c < b /\ just_enough e a p b.
Proof. exact alloc_global. Qed.
Print Assumptions C163_global.

(** ** Examples *)

(** Three application vertices: 0 has one machine vertex with 256 keys, 1 has
    sixteen with one key, 2 has one machine vertex and the given fixed key. *)
Definition ex_env (fixed : km) : graph_env := mkEnv
  (fun a p => if Nat.eqb a 2 then Some fixed else None)
  (fun a p => match a with
              | 0%nat => [0%nat] | 1%nat => seq 1 16 | 2%nat => [17%nat] | _ => [] end)
  (fun _ _ _ => None)
  (fun m p => match m with 0%nat => 256 | _ => 1 end)
  N.of_nat N.of_nat (fun _ => 1).
Definition ex_parts : list (nat * nat) := [(0, 0); (1, 0); (2, 0)]%nat.
Definition ex_keys (r : res (list info)) : list (vertex * N * N) :=
  match r with
  | Ok l => map (fun i => (i_vertex i, km_key (i_km i), km_mask (i_km i))) l
  | Err _ => []
  end.

Lemma ex_env_ok : forall x, env_ok (ex_env x) ex_parts.
Proof.
  intro x. split.
  - intros a p H. repeat (destruct H as [H|H]; [inversion H; subst; discriminate|]). destruct H.
  - intros a a' p m H H' Hm Hm'.
    simpl in H, H'.
    destruct H as [H|[H|[H|[]]]], H' as [H'|[H'|[H'|[]]]]; inversion H; inversion H'; subst;
      auto; exfalso; simpl in Hm, Hm'; lia.
Qed.

Example C16_example : exists infos,
  allocate true (ex_env (mkKM 0x1000 0xFFFFF000)) ex_parts = Ok infos /\
  free_part (ex_env (mkKM 0x1000 0xFFFFF000)) ex_parts 1 0 /\
  counted (ex_env (mkKM 0x1000 0xFFFFF000)) 1 0 /\
  In (mkInfo (Mac 16) 0 (mkKM 271 0xFFFFFFFF) (IMac 15)) infos.
Proof.
  eexists. split; [vm_compute; reflexivity|]. split; [split; [simpl; auto|reflexivity]|].
  split; [right; exists 1%nat; split; [simpl; auto|reflexivity]|].
  simpl. tauto.
Qed.

Example C16_fits_example :
  let e := mkEnv (fun _ _ => None) (fun a _ => match a with 0%nat => [0; 1]%nat | _ => [2]%nat end)
             (fun _ _ _ => None) (fun _ _ => 100) N.of_nat N.of_nat (fun _ => 1) in
  env_ok e [(0, 0); (1, 0)]%nat /\ no_fixed e [(0, 0); (1, 0)]%nat /\
  fields_fit e [(0, 0); (1, 0)]%nat /\
  ex_keys (allocate false e [(0, 0); (1, 0)]%nat) =
    [(Mac 0, 0, 0xFFFFFF80); (Mac 1, 0x80, 0xFFFFFF80); (App 0, 0, 0xFFFFFF00);
     (Mac 2, 0x100, 0xFFFFFF80); (App 1, 0x100, 0xFFFFFF00)].
Proof.
  intro e. split; [|split; [|split]].
  - split; [intros a p H C; exfalso; now apply C|].
    intros a a' p m H H' Hm Hm'. simpl in H, H'.
    destruct H as [H|[H|[]]], H' as [H'|[H'|[]]]; inversion H; inversion H'; subst;
      auto; exfalso; simpl in Hm, Hm'; lia.
  - intros a p H. split; reflexivity.
  - exists 8, (filter (nonempty e) [(0, 0); (1, 0)]%nat). split; [lia|]. split; [apply (senders_set e [(0, 0); (1, 0)]%nat)|].
    split; [vm_compute; discriminate|].
    intros a p H Hne. exists 7, 1. split; [lia|]. split.
    + simpl in H. destruct H as [H|[H|[]]]; inversion H; subst; vm_compute; discriminate.
    + intros m Hm. vm_compute. discriminate.
  - vm_compute. reflexivity.
Qed.

Example C17_example : exists infos i,
  allocate true (ex_env (mkKM 0x100 0xFFFFFF00)) ex_parts = Ok infos /\
  is_app infos 1 0 i /\ i_km i = mkKM 0x200 0xFFFFFF00 /\
  user_key (ex_env (mkKM 0x100 0xFFFFFF00)) ex_parts (mkKM 0x100 0xFFFFFF00) /\
  km_ok (mkKM 0x100 0xFFFFFF00).
Proof.
  eexists. eexists. split; [vm_compute; reflexivity|].
  split; [split; [simpl; do 18 right; left; reflexivity|split; reflexivity]|].
  split; [reflexivity|]. split.
  - exists 2%nat, 0%nat. split; [simpl; auto|]. left. reflexivity.
  - split; [|split]; vm_compute; reflexivity.
Qed.

(** Global mode with the condition of the theorem met. *)
Example C17_global_example :
  let e := mkEnv (fun a _ => if Nat.eqb a 1 then Some (mkKM 0 0xFFFFFF00) else None)
             (fun a _ => match a with 0%nat => [0; 1]%nat | _ => [2]%nat end)
             (fun _ _ _ => None) (fun _ _ => 100) N.of_nat N.of_nat (fun _ => 1) in
  one_largest e [(0, 0); (1, 0)]%nat /\
  ex_keys (allocate false e [(0, 0); (1, 0)]%nat) =
    [(Mac 0, 0x100, 0xFFFFFF80); (Mac 1, 0x180, 0xFFFFFF80); (App 0, 0x100, 0xFFFFFF00);
     (Mac 2, 0, 0xFFFFFF00); (App 1, 0, 0xFFFFFF00)].
Proof.
  intro e. split.
  - exists 0%nat, 0%nat. split; [split; [simpl; auto|reflexivity]|].
    intros a p m [H F] Hm Hk. simpl in H. destruct H as [H|[H|[]]]; inversion H; subst a p.
    + split; [exists m; split; [exact Hm|apply N.le_refl]|apply Nat.le_refl].
    + discriminate F.
  - vm_compute. reflexivity.
Qed.

(** The machine vertices 5, 6 and 7 have their first atoms in the order 7, 5, 6. *)
Definition ord_env : graph_env := mkEnv (fun _ _ => None)
  (fun a _ => match a with 0%nat => [5; 6; 7]%nat | _ => [9]%nat end) (fun _ _ _ => None)
  (fun m _ => if Nat.eqb m 9 then 100 else 10)
  (fun m => match m with 5%nat => 10 | 6%nat => 20 | _ => 0 end) N.of_nat (fun _ => 3).
Definition all_of (r : res (list info)) : list info := match r with Ok l => l | Err _ => [] end.
Example C163_example :
  all_of (allocate true ord_env [(0, 0); (1, 0)]%nat) =
    [mkInfo (Mac 7) 0 (mkKM 0 0xFFFFFFF0) (IMac 0); mkInfo (Mac 5) 0 (mkKM 0x10 0xFFFFFFF0) (IMac 1);
     mkInfo (Mac 6) 0 (mkKM 0x20 0xFFFFFFF0) (IMac 2); mkInfo (App 0) 0 (mkKM 0 0xFFFFFF80) (IApp 0xFFFFFFF0 4 2);
     mkInfo (Mac 9) 0 (mkKM 0x80 0xFFFFFF80) (IMac 0); mkInfo (App 1) 0 (mkKM 0x80 0xFFFFFF80) (IApp 0xFFFFFF80 7 0)] /\
  map i_extra (all_of (allocate false ord_env [(0, 0); (1, 0)]%nat)) =
    [IMac 0; IMac 1; IMac 2; IApp 0xFFFFFF80 7 2; IMac 0; IApp 0xFFFFFF80 7 0] /\
  comes_nth ord_env [5; 6; 7]%nat 6 2 /\ just_enough ord_env 0 0 4.
Proof.
  split; [vm_compute; reflexivity|]. split; [vm_compute; reflexivity|]. split.
  - exists [5]%nat, [7]%nat. split; reflexivity.
  - split; [intros m Hm; repeat (destruct Hm as [<-|Hm]; [vm_compute; discriminate|]); destruct Hm|].
    intros c H. specialize (H 5%nat (or_introl eq_refl)). cbn in H.
    destruct (N.le_gt_cases 4 c) as [|C]; [assumption|exfalso].
    assert (L : 2 ^ c <= 2 ^ 3) by (apply N.pow_le_mono_r; lia). change (2 ^ 3) with 8 in L. lia.
Qed.

(** ** Findings *)

(** Global mode: the AP indexes blocked by fixed keys are computed with the
    zone width before it is widened (zoned_routing_info_allocator.py 263 and
    277-279), so an allocated key can be one of the user's. *)
Theorem C99_global_mode_clash_refuted : exists e parts infos a p i x k,
  env_ok e parts /\ allocate false e parts = Ok infos /\
  free_part e parts a p /\ counted e a p /\ is_mac infos e a p 1 i /\
  user_key e parts x /\ km_ok x /\ k < 2 ^ 32 /\ km_matches k (i_km i) /\ km_matches k x.
Proof.
  exists (ex_env (mkKM 0x1000 0xFFFFF000)), ex_parts.
  eexists. exists 1%nat, 0%nat. eexists. exists (mkKM 0x1000 0xFFFFF000), 0x1000.
  split; [apply ex_env_ok|]. split; [vm_compute; reflexivity|].
  split; [split; [simpl; auto|reflexivity]|].
  split; [right; exists 1%nat; split; [simpl; auto|reflexivity]|].
  split.
  { split; [simpl; do 2 right; left; reflexivity|].
    split; [reflexivity|split; [reflexivity|simpl; auto]]. }
  split; [exists 2%nat, 0%nat; split; [simpl; auto|]; left; reflexivity|].
  split; [split; [|split]; vm_compute; reflexivity|].
  split; [vm_compute; reflexivity|]. split; vm_compute; reflexivity.
Qed.
Print Assumptions C99_global_mode_clash_refuted.

(** A partition whose machine vertices all ask for no keys is left out of the
    zone sizes (lines 229-242); two of its machine vertices can share a key. *)
Theorem C98_no_keys_clash_refuted : exists e parts infos i j,
  env_ok e parts /\ no_fixed e parts /\ allocate true e parts = Ok infos /\
  is_mac infos e 0 0 0 i /\ is_mac infos e 0 0 2 j /\ i_km i = i_km j.
Proof.
  exists (mkEnv (fun _ _ => None) (fun a _ => match a with 0%nat => seq 0 3 | _ => seq (10 * a) 2 end)
             (fun _ _ _ => None) (fun m _ => if Nat.ltb m 3 then 0 else 1)
             N.of_nat N.of_nat (fun _ => 1)), [(1, 0); (2, 0); (3, 0); (0, 0)]%nat.
  eexists. eexists. eexists. split.
  { split; [intros a p H C; exfalso; now apply C|].
    intros a a' p m H H' Hm Hm'. simpl in H, H'.
    destruct H as [H|[H|[H|[H|[]]]]], H' as [H'|[H'|[H'|[H'|[]]]]]; inversion H; inversion H'; subst;
      auto; exfalso; simpl in Hm, Hm'; lia. }
  split; [intros a p H; split; reflexivity|].
  split; [vm_compute; reflexivity|].
  split; [split; [simpl; do 9 right; left; reflexivity|split; [reflexivity|split; [reflexivity|simpl; auto]]]|].
  split; [split; [simpl; do 11 right; left; reflexivity|split; [reflexivity|split; [reflexivity|simpl; auto]]]|].
  vm_compute. reflexivity.
Qed.
Print Assumptions C98_no_keys_clash_refuted.

(** A fixed partition without machine vertices gives its key to the last
    machine vertex of the partition before it (the stale loop variable on lines
    202-203): an unfixed machine vertex then has another vertex's key, outside
    its own application vertex's block. *)
Theorem C98_stale_vertex_refuted : exists e parts infos i j,
  allocate true e parts = Ok infos /\ free_part e parts 0 0 /\
  is_mac infos e 0 0 0 i /\ is_app infos 0 0 j /\
  ae_app_fixed e 1 0 = Some (i_km i) /\ km_disjoint (i_km i) (i_km j).
Proof.
  exists (mkEnv (fun a _ => if Nat.eqb a 1 then Some (mkKM 0x5000 0xFFFFF000) else None)
             (fun a _ => match a with 0%nat => [0]%nat | _ => [] end)
             (fun _ _ _ => None) (fun _ _ => 16) N.of_nat N.of_nat (fun _ => 1)),
         [(0, 0); (1, 0)]%nat.
  eexists. eexists. eexists.
  split; [vm_compute; reflexivity|]. split; [split; [simpl; auto|reflexivity]|].
  split; [split; [simpl; left; reflexivity|split; [reflexivity|split; [reflexivity|simpl; auto]]]|].
  split; [split; [simpl; right; left; reflexivity|split; reflexivity]|].
  split; [vm_compute; reflexivity|].
  intros k Hk [A B]. unfold km_matches in A, B. cbn in A, B.
  assert (C : N.testbit (N.land k 4294963200) 12 = N.testbit (N.land k 4294967280) 12).
  { rewrite !N.land_spec. reflexivity. }
  rewrite A, B in C. discriminate.
Qed.
Print Assumptions C98_stale_vertex_refuted.
