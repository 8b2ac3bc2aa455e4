(** Property C159: what the merging table generator merges. *)
From Coq Require Import List Arith NArith ZArith Bool Lia.
From Verif Require Import Base Dict RouteSpec AllocModel AllocProofs TablesModel GenModel GenProofs MergingProofs.
Import ListNotations.
Local Open Scope N_scope.

(** C159.  The items of a router are given as blocks [(a, p, r), c]: the application
    vertex [a] itself, or all its machine vertices for partition [p], in the order
    of their machine indexes, with the one route [r].  Then the table has exactly
    one entry for each block, with the key of the application vertex and the route;
    its mask is that of the application vertex, or leaves free the bits of the atoms
    and just enough bits to number the machine vertices. *)
Theorem C159_one_entry_each : forall entry_eq flexible e parts infos app_of x y
    (blocks : list ((nat * nat * N) * list ((vertex * nat) * rent))),
  env_ok e parts -> allocate flexible e parts = Ok infos ->
  table_sources e parts app_of (concat (map snd blocks)) ->
  (forall a p r c, In ((a, p, r), c) blocks ->
     c <> [] /\ run_items infos app_of a p r 0 c /\ length c = length (ae_outgoing e a p) \/
     exists d, c = [((App a, p), mkRent r d)]) ->
  exists tm, merged_table entry_eq infos app_of x y (concat (map snd blocks)) = Ok tm /\
    Forall2 (fun bk e => exists j, get_info infos (App (fst (fst (fst bk)))) (snd (fst (fst bk))) = Ok j /\
      e_key e = km_key (i_km j) /\ e_route e = snd (fst bk) /\
      match snd bk with
      | ((App _, _), _) :: _ => e_mask e = km_mask (i_km j)
      | _ => exists b mx, i_extra j = IApp (0xFFFFFFFF - (2 ^ b - 1)) b mx /\
          e_mask e = 0xFFFFFFFF - (2 ^ (b + N.log2_up (N.of_nat (length (snd bk)))) - 1)
      end) blocks (t_entries tm).
Proof. exact alloc_whole. Qed.
Print Assumptions C159_one_entry_each.

(** C159.  Blocks of consecutive machine vertices with one route make no more than
    [2 * (log2 n + 1)] entries for [n] vertices. *)
Theorem C159_few_entries : forall entry_eq flexible e parts infos app_of x y blocks,
  env_ok e parts -> allocate flexible e parts = Ok infos -> table_sources e parts app_of (concat blocks) ->
  (forall c, In c blocks -> (exists s, c = [s]) \/ c <> [] /\ exists a p r i0, run_items infos app_of a p r i0 c) ->
  exists tm, merged_table entry_eq infos app_of x y (concat blocks) = Ok tm /\
    N.of_nat (length (t_entries tm)) <=
      fold_right (fun b s => 2 * (N.log2 (N.of_nat (length b)) + 1) + s) 0 blocks.
Proof. exact alloc_few. Qed.
Print Assumptions C159_few_entries.

(** ** Examples *)

Definition mx_env : graph_env := mkEnv
  (fun _ _ => None)
  (fun a _ => match a with 0%nat => [0; 1; 2; 3; 4]%nat | 1%nat => [5; 6]%nat | _ => [7]%nat end)
  (fun _ _ _ => None) (fun _ _ => 16) N.of_nat N.of_nat (fun _ => 1).
Definition mx_parts : list (nat * nat) := [(0, 0); (1, 0); (2, 0)]%nat.
Definition mx_app (m : nat) : option nat :=
  Some (if Nat.ltb m 5 then 0 else if Nat.ltb m 7 then 1 else 2)%nat.
Definition mx_mac (r : N) (m : nat) : (vertex * nat) * rent := ((Mac m, 0%nat), mkRent r false).
Definition mx_eqe (a b : entry) : bool :=
  (N.eqb (e_key a) (e_key b) && N.eqb (e_mask a) (e_mask b) && N.eqb (e_route a) (e_route b))%bool.
Definition mx_out (r : res table) : list (N * N * N) :=
  match r with Ok t => map (fun e => (e_key e, e_mask e, e_route e)) (t_entries t) | Err _ => [] end.
Definition mx_blocks : list ((nat * nat * N) * list ((vertex * nat) * rent)) :=
  [((0%nat, 0%nat, 1), map (mx_mac 1) [0; 1; 2; 3; 4]%nat); ((1%nat, 0%nat, 1), [((App 1, 0%nat), mkRent 1 false)]);
   ((2%nat, 0%nat, 1), [mx_mac 1 7])].

Example mx_env_ok : env_ok mx_env mx_parts.
Proof.
  split; [intros a p H C; exfalso; now apply C|].
  intros a a' p m H H' Hm Hm'. cbn [mx_parts In] in H, H'.
  destruct H as [H|[H|[H|[]]]], H' as [H'|[H'|[H'|[]]]]; inversion H; inversion H'; subst;
    auto; exfalso; cbn [ae_outgoing mx_env In] in Hm, Hm'; lia.
Qed.

Example mx_sources : table_sources mx_env mx_parts mx_app (concat (map snd mx_blocks)).
Proof.
  split; [|split; [|split]].
  - cbn. repeat constructor; cbn [In]; intuition discriminate.
  - intros m p en H. cbn in H.
    assert (X : ((m < 5)%nat \/ m = 7%nat) /\ p = 0%nat).
    { destruct H as [H|[H|[H|[H|[H|[H|[H|[]]]]]]]]; inversion H; subst; split; auto; lia. }
    destruct X as [[X| ->] ->].
    + exists 0%nat. unfold mx_app. destruct (Nat.ltb_spec m 5); [|lia].
      split; [auto|]. split; [split; [left; auto|reflexivity]|].
      split; [right; exists 0%nat; split; [left; auto|reflexivity]|]. cbn [ae_outgoing mx_env In]. lia.
    + exists 2%nat. split; [reflexivity|]. split; [split; [right; right; left; auto|reflexivity]|].
      split; [left; reflexivity|]. cbn [ae_outgoing mx_env In]. lia.
  - intros a p en H. cbn in H.
    destruct H as [H|[H|[H|[H|[H|[H|[H|[]]]]]]]]; inversion H; subst.
    split; [split; [right; left; auto|reflexivity]|discriminate].
  - intros a p en m en' H H'. cbn in H, H'.
    destruct H as [H|[H|[H|[H|[H|[H|[H|[]]]]]]]]; inversion H; subst.
    destruct H' as [H'|[H'|[H'|[H'|[H'|[H'|[H'|[]]]]]]]]; inversion H'; subst; discriminate.
Qed.

(** Seven sources of three application vertices make three entries. *)
Example C159_example : exists infos, allocate true mx_env mx_parts = Ok infos /\
  run_items infos mx_app 0 0 1 0 (map (mx_mac 1) [0; 1; 2; 3; 4]%nat) /\
  mx_out (merged_table mx_eqe infos mx_app 0 0 (concat (map snd mx_blocks))) =
    [(0x0, 0xFFFFFF80, 1); (0x80, 0xFFFFFF80, 1); (0x100, 0xFFFFFFF0, 1)].
Proof.
  eexists. split; [vm_compute; reflexivity|]. split; [|vm_compute; reflexivity].
  intros n x H. do 5 (destruct n as [|n]; [injection H as <-; eexists _, false, _;
    split; [reflexivity|]; split; [reflexivity|]; split; [vm_compute; reflexivity|reflexivity]|]).
  destruct n; discriminate.
Qed.
(** The run of 1 to 4 ends with the last index: the blocks 1, 2-3 and 4-7. *)
Example C159_run_example : exists infos, allocate true mx_env mx_parts = Ok infos /\
  mx_out (merged_table mx_eqe infos mx_app 0 0 (map (mx_mac 1) [1; 2; 3; 4]%nat)) =
    [(0x10, 0xFFFFFFF0, 1); (0x20, 0xFFFFFFE0, 1); (0x40, 0xFFFFFFC0, 1)].
Proof. eexists. split; [vm_compute; reflexivity|vm_compute; reflexivity]. Qed.
