(** The application router ends (C173). *)
From Coq Require Import List ZArith NArith Arith Bool Lia.
From Verif Require Import Base Ends Dict TreeModel TreeProofs MachModel LdfModel LdfProofs PathModel PathProofs
  RPartModel RPartProofs BfsModel BfsProofs TargetsModel TargetsProofs ConvModel ConvProofs RouterModel.
Import ListNotations.
Local Open Scope nat_scope.

Lemma searches_end : forall m source target allowed targets disallowed r,
  ends (find_path m source target) /\
  ends (route_to_xys m source allowed targets r) /\
  ends (find_reachable m source allowed disallowed).
Proof.
  intros m source target allowed targets disallowed r. split; [|split]; intro H.
  - pose proof (find_path_spec m source target) as X. rewrite H in X. destruct X. discriminate.
  - pose proof (route_to_xys_spec m source allowed targets r) as X. rewrite H in X. destruct X. discriminate.
  - destruct (find_reachable_spec m source allowed disallowed) as [vis [X _]]. congruence.
Qed.
Lemma route_to_xys_ends : forall m source allowed targets r, ends (route_to_xys m source allowed targets r).
Proof. intros. apply (searches_end m source source allowed targets [] r). Qed.
Lemma find_reachable_ends : forall m source allowed disallowed, ends (find_reachable m source allowed disallowed).
Proof. intros. apply (searches_end m source source allowed [] disallowed []). Qed.

Lemma direct_ends : forall m v s, ends (direct_path m v s).
Proof.
  intros m v s. pose proof (direct_spec m v s) as D.
  destruct (repaired m s (longest_dimension_first m v s)) as [l0|e] eqn:E; [|rewrite D; discriminate].
  unfold direct_path, path_without_errors. rewrite E. discriminate.
Qed.

(** ** A route is converted *)
Lemma scan_ends : forall l links next push, ends (scan_hops l links next push).
Proof.
  induction l as [|[d c] l IH]; intros links next push; cbn [scan_hops]; [discriminate|].
  destruct c as [s|v]; [apply IH | discriminate].
Qed.
Lemma scan_size : forall l links next push hops push', scan_hops l links next push = Ok (hops, push') ->
  list_sum (map (fun n => tree_len (snd n)) push') =
  list_sum (map (fun n => tree_len (snd n)) push) +
  list_sum (map (fun dc => match snd dc with Sub s => tree_len s | Vertex _ => 1 end) l).
Proof.
  induction l as [|[d c] l IH]; intros links next push hops push' H; cbn [scan_hops] in H.
  - injection H as _ <-. cbn. lia.
  - destruct c as [s|v]; [|discriminate]. apply IH in H. rewrite H.
    unfold list_sum. cbn [map fold_right snd]. lia.
Qed.
Lemma convert_loop_ends : forall fuel c t stack,
  list_sum (map (fun v => tree_len (snd v)) stack) <= fuel -> ends (convert_loop fuel c t stack).
Proof.
  induction fuel as [|fuel IH]; intros c t stack F; destruct stack as [|[[ip il] u] stack]; cbn [convert_loop]; try discriminate.
  - unfold list_sum in F. cbn [map fold_right snd] in F. rewrite tree_len_sum in F. lia.
  - apply ends_bind; [apply scan_ends|]. intros [hops push] H.
    apply ends_bind; [apply served_fuel|]. intros l _.
    apply ends_bind; [apply add_served_fuel|]. intros t' _.
    apply IH. rewrite map_app, list_sum_app, map_map. cbn [snd].
    pose proof (scan_size _ _ _ _ _ _ H) as SZ.
    unfold list_sum in *. cbn [map fold_right snd] in *. rewrite tree_len_sum in F.
    unfold list_sum in F. lia.
Qed.
Lemma convert_ends : forall c t ip il first, ends (convert_a_route c t ip il first).
Proof.
  intros c t ip il first. apply convert_loop_ends. unfold list_sum. cbn [map fold_right snd]. lia.
Qed.

(** ** The router *)
Lemma add_nodes_ends : forall nodes source r cur, ends (add_nodes source r cur nodes).
Proof.
  induction nodes as [|[d q] nodes IH]; intros source r cur; cbn [add_nodes]; [discriminate|].
  destruct (dmem xy_eqb r q); [|apply IH]. destruct (dmem xy_eqb r source); discriminate.
Qed.
Lemma pre_to_post_ends : forall i source dest r all targets, ends (route_pre_to_post i source dest r all targets).
Proof.
  intros i source dest r all targets. unfold route_pre_to_post. apply ends_bind; [apply direct_ends|]. intros fixed _.
  destruct (match after_last _ fixed with Some x => x | None => _ end) as [pre nodes].
  destruct (match up_to_first _ nodes with Some x => x | None => _ end) as [post nodes'].
  apply ends_bind; [apply add_nodes_ends|]. intros r2 _. discriminate.
Qed.
Lemma find_target_ends : forall i targets r mp, ends (find_target_xy i targets r mp).
Proof.
  intros i targets r mp. unfold find_target_xy. cbv zeta.
  destruct (ri_order i (filter _ targets)) as [|p [|q l]]; try discriminate.
  destruct (find _ (ri_order i targets)); [discriminate|]. destruct (rev (ri_order i targets)); discriminate.
Qed.
Lemma overlaps_ends : forall i overlaps reached txys real edges r,
  ends (route_overlaps i overlaps reached txys real edges r).
Proof.
  intros i. induction overlaps as [|o overlaps IH]; intros reached txys real edges r; cbn [route_overlaps]; [discriminate|].
  apply ends_bind; [apply find_reachable_ends|]. intros found _. cbv zeta.
  apply ends_bind; [apply route_to_xys_ends|]. intros r' _. apply IH.
Qed.
Lemma source_to_target_ends : forall i a k source all mp s target,
  ends (route_source_to_target i a k source all mp s target).
Proof.
  intros i a k source all mp s target. unfold route_source_to_target. cbv zeta. apply ends_bind.
  - destruct (set_of _) as [|p [|q l]]; [apply find_target_ends | discriminate | apply find_target_ends].
  - intros [dest overlaps] _. apply ends_bind; [apply pre_to_post_ends|]. intros [[pre post] r1] _.
    destruct overlaps as [|o overlaps].
    + apply ends_bind; [apply route_to_xys_ends|]. intros r2 _. discriminate.
    + apply ends_bind; [apply overlaps_ends|]. intros [[[txys' real] edges] r2] _.
      apply ends_bind; [apply route_to_xys_ends|]. intros r3 _. discriminate.
Qed.
Lemma route_partition_ends : forall i t pt, ends (route_partition i t pt).
Proof.
  intros i t pt. unfold route_partition. cbv zeta.
  destruct (outgoing_mapping i (ap_pre pt) (ap_id pt)) as [|[source vs] mp]; [discriminate|].
  apply ends_bind.
  - apply ends_foldM. intros s target _. unfold route_edge. apply ends_match; [discriminate | apply source_to_target_ends].
  - intros s _. apply ends_bind.
    + apply ends_foldM. intros [ts t1] e _. unfold target_routes_step. cbv zeta. apply ends_match; [|discriminate].
      apply ends_bind; [apply convert_ends | discriminate].
    + intros [ts t1] _. apply ends_foldM. intros t2 [p l] _. unfold source_routes_step.
      apply ends_bind; [apply route_to_xys_ends|]. intros r _. apply ends_match; [|discriminate].
      apply ends_foldM. intros t3 x _. apply convert_ends.
Qed.
Lemma router_ends : forall i vs ps, ends (route_application_graph i vs ps).
Proof. intros i vs ps. apply ends_foldM. intros t pt _. apply route_partition_ends. Qed.
