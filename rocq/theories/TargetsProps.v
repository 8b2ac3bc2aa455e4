(** Properties C34 and C67: the targets collected on a chip. *)
From Coq Require Import List Arith Bool.
From Verif Require Import Base Dict RPartModel RPartProofs TargetsModel TargetsProofs.
Import ListNotations.

(** C34: whatever the calls, each core ([b] true) or link ([b] false) added for a
    machine vertex, or for an application vertex of which it is an outgoing vertex,
    is among the targets that hold for the machine vertex in the end. *)
Theorem C34_targets_kept : forall env calls c src m b,
  (forall a v, In v (te_out env a) -> te_app env v = Some a) ->
  In c calls -> In src (tc_srcs c) -> concerns env src m ->
  exists p, effective env (run_calls env calls) m = Some p /\
    forall x, pick_opt b (tc_core c) (tc_link c) = Some x -> In x (pick b p).
Proof. exact targets_kept. Qed.
Print Assumptions C34_targets_kept.

(** C34: if no machine vertex is added after its application vertex (unless one of
    its machine vertices came before that), the targets that hold for a machine
    vertex were all added for it or for its application vertex. *)
Theorem C34_targets_only : forall env calls m p b x,
  (forall a v, In v (te_out env a) -> te_app env v = Some a) ->
  in_order env (flat_map atoms_of calls) ->
  (forall a, te_app env m = Some a -> In m (te_out env a)) ->
  effective env (run_calls env calls) m = Some p -> In x (pick b p) ->
  exists c src, In c calls /\ In src (tc_srcs c) /\ concerns env src m /\ pick_opt b (tc_core c) (tc_link c) = Some x.
Proof. exact targets_only. Qed.
Print Assumptions C34_targets_only.

(** C34: so it is on chips with sources, where all calls are of
    add_machine_sources_for_target. *)
Theorem C34_machine_calls : forall env calls m p b x,
  (forall a v, In v (te_out env a) -> te_app env v = Some a) ->
  (forall c, In c calls -> tc_machine c = true) ->
  (forall a, te_app env m = Some a -> In m (te_out env a)) ->
  effective env (run_calls env calls) m = Some p -> In x (pick b p) ->
  exists c src, In c calls /\ In src (tc_srcs c) /\ concerns env src m /\ pick_opt b (tc_core c) (tc_link c) = Some x.
Proof.
  intros env calls m p b x EO H. exact (targets_only env calls m p b x EO (in_order_machine env calls H)).
Qed.
Print Assumptions C34_machine_calls.

(** C34: and on other chips when no application vertex is added together with
    machine vertices of it. *)
Theorem C34_separate_calls : forall env calls m p b x,
  (forall a v, In v (te_out env a) -> te_app env v = Some a) ->
  (forall c, In c calls -> tc_machine c = false) ->
  (forall c src a c' v, In c calls -> In src (tc_srcs c) -> src = App a -> In c' calls -> In (Mac v) (tc_srcs c') -> te_app env v <> Some a) ->
  (forall a, te_app env m = Some a -> In m (te_out env a)) ->
  effective env (run_calls env calls) m = Some p -> In x (pick b p) ->
  exists c src, In c calls /\ In src (tc_srcs c) /\ concerns env src m /\ pick_opt b (tc_core c) (tc_link c) = Some x.
Proof.
  intros env calls m p b x EO H S. exact (targets_only env calls m p b x EO (in_order_separate env calls H S)).
Qed.
Print Assumptions C34_separate_calls.

(** Application vertex 0 has the outgoing vertices 1 and 2; 3 is one of
    application vertex 9. *)
Definition ex_env : tenv := mkTEnv (fun a => match a with 0 => [1; 2] | 9 => [3] | _ => [] end)
                                   (fun v => match v with 1 | 2 => Some 0 | 3 => Some 9 | _ => None end).
Example ex_env_ok : forall a v, In v (te_out ex_env a) -> te_app ex_env v = Some a.
Proof.
  intros a v. destruct a as [|[|[|[|[|[|[|[|[|[|a]]]]]]]]]]; cbn; try tauto;
  intros H; repeat (destruct H as [<-|H]; [reflexivity|]); destruct H.
Qed.

(** A machine vertex first, then its application vertex. *)
Definition ex_tcalls : list tcall :=
  [mkTCall false (Some 4) None [Mac 1; App 9]; mkTCall false (Some 5) None [App 0]; mkTCall false None (Some 2) [Mac 2]].
Example ex_targets :
  effective ex_env (run_calls ex_env ex_tcalls) 1 = Some ([4; 5], []) /\
  effective ex_env (run_calls ex_env ex_tcalls) 2 = Some ([5], [2]) /\
  effective ex_env (run_calls ex_env ex_tcalls) 3 = Some ([4], []).
Proof. vm_compute. repeat split. Qed.
Example ex_in_order : in_order ex_env (flat_map atoms_of ex_tcalls).
Proof.
  intros pre o mid o' post a E M S T.
  destruct pre as [|x1 pre]; cbn in E.
  { injection E as <- E. cbn in S. discriminate. }
  injection E as <- E. exists (mkAtom false (Some 4) None (Mac 1)). split; [left; reflexivity|].
  destruct pre as [|x2 pre]; cbn in E.
  - injection E as <- E. cbn in S. injection S as <-. exfalso.
    destruct mid as [|y1 mid]; cbn in E; injection E as <- E; [cbn in T; destruct T; discriminate|].
    destruct mid as [|y2 mid]; cbn in E; [injection E as <- E; cbn in T; discriminate|].
    injection E as <- E. destruct mid; discriminate.
  - injection E as <- E. destruct pre as [|x3 pre]; cbn in E.
    + injection E as <- E. cbn in S. injection S as <-. cbn. auto.
    + injection E as <- E. destruct pre as [|x4 pre]; cbn in E; [|destruct pre; discriminate].
      injection E as <- E. destruct mid; discriminate.
Qed.

(** C67: in general targets leak from one machine vertex to another: core 4 is a
    target of the application vertex 0, core 5 only of its machine vertex 1, but
    afterwards vertex 2 has core 5 as well, because both share one list. *)
Theorem C67_targets_leak_refuted : exists env calls m p x,
  (forall a v, In v (te_out env a) -> te_app env v = Some a) /\
  targets_of (run_calls env calls) (Mac m) = Some p /\ In x (fst p) /\
  forall c src, In c calls -> In src (tc_srcs c) -> tc_core c = Some x -> ~ concerns env src m.
Proof.
  exists ex_env, [mkTCall false (Some 4) None [App 0]; mkTCall false (Some 5) None [Mac 1]], 2, ([4; 5], []), 5.
  split; [exact ex_env_ok|]. split; [reflexivity|]. split; [cbn; auto|].
  intros c src [<-|[<-|[]]]; cbn; intros [<-|[]] E; [discriminate|]. cbn. discriminate.
Qed.
Print Assumptions C67_targets_leak_refuted.
