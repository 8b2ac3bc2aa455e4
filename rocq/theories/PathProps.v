(** Properties C30, C31, C65 and C66: repairing paths around faults. *)
From Coq Require Import List ZArith Arith Bool Lia.
From Verif Require Import Base Dict TreeModel MachModel LdfModel LdfProofs PathModel PathProofs ReachProofs.
Import ListNotations.
Local Open Scope nat_scope.

(** C30: [R p n] says that the step [n] may follow the chip [p]. If no chip inside
    a loop of the path is visited again after that loop, removing loops gives a
    path of steps of the original, from the same start to the same end, that
    visits no chip twice. *)
Theorem C30_loops_removed : forall (R : xy -> node -> Prop) start nodes,
  chain R start nodes ->
  (forall a b c d p q, a < b < c -> c < d ->
    nth_error (start :: map snd nodes) a = Some p -> nth_error (start :: map snd nodes) c = Some p ->
    nth_error (start :: map snd nodes) b = Some q -> nth_error (start :: map snd nodes) d <> Some q) ->
  let l := path_without_loops start nodes in
  chain R start l /\ last_xy start l = last_xy start nodes /\ NoDup (start :: map snd l) /\ incl l nodes.
Proof. exact path_without_loops_spec. Qed.
Print Assumptions C30_loops_removed.

(** C30: a path without repeated chips is returned as it is. *)
Theorem C30_no_loops_kept : forall start nodes,
  NoDup (start :: map snd nodes) -> path_without_loops start nodes = nodes.
Proof. exact loops_id. Qed.
Print Assumptions C30_no_loops_kept.

Definition A : xy := (1, 0)%Z.
Definition B : xy := (2, 0)%Z.
Definition C : xy := (3, 0)%Z.
Definition D : xy := (4, 0)%Z.
Definition E : xy := (5, 0)%Z.
Definition O : xy := (0, 0)%Z.

(** Two loops, at A and at D, of which the first holds B and the second C. *)
Definition two_loops : list node := [(0, A); (0, B); (3, A); (0, D); (0, C); (3, D); (0, E)].
Example ex_two_loops : path_without_loops O two_loops = [(0, A); (0, D); (0, E)] /\ no_return O two_loops.
Proof.
  split; [reflexivity|]. intros a b c d p q H1 H2 HA HC HB HD.
  assert (HL : d < 8) by (apply (proj1 (nth_error_Some (chips_of O two_loops) d)); congruence).
  destruct d as [|[|[|[|[|[|[|[|d]]]]]]]]; try lia;
  destruct c as [|[|[|[|[|[|[|c]]]]]]]; try lia;
  destruct b as [|[|[|[|[|[|b]]]]]]; try lia;
  destruct a as [|[|[|[|[|a]]]]]; try lia;
  vm_compute in HA, HB, HC, HD; congruence.
Qed.

Lemma works_spelled : forall m c d q, works m c (d, q) <->
  In c (m_chips m) /\ In (c, d) (m_links m) /\ In q (m_chips m) /\
  exists dx dy, nth_error [(1, 0); (1, 1); (0, 1); (-1, 0); (-1, -1); (0, -1)]%Z d = Some (dx, dy) /\
    fst q = (if m_wrap_x m then (fst c + dx) mod m_width m else fst c + dx)%Z /\
    snd q = (if m_wrap_y m then (snd c + dy) mod m_height m else snd c + dy)%Z.
Proof.
  intros m c d [x y]. unfold works, is_link, is_chip, over_link, wrap. cbn [fst snd].
  rewrite andb_true_iff, !xy_in_spec, existsb_exists.
  assert (L : (exists pl, In pl (m_links m) /\ xy_eqb c (fst pl) && Nat.eqb d (snd pl) = true) <-> In (c, d) (m_links m)).
  { split.
    - intros [[p l] [I T]]. cbn [fst snd] in T. apply andb_true_iff in T. destruct T as [T1 T2].
      apply xy_eqb_eq in T1. apply Nat.eqb_eq in T2. subst. exact I.
    - intros I. exists (c, d). split; [exact I|]. cbn [fst snd]. apply andb_true_iff. split; [now apply xy_eqb_eq | apply Nat.eqb_refl]. }
  rewrite L. clear L. split.
  - intros [D [[H1 H2] [Q H3]]]. split; [exact H1|]. split; [exact H2|]. split; [exact H3|].
    exists (fst (link_vector d)), (snd (link_vector d)).
    injection Q as -> ->. split; [|split; reflexivity].
    destruct d as [|[|[|[|[|[|d]]]]]]; try reflexivity. lia.
  - intros [H1 [H2 [H3 [dx [dy [N [-> ->]]]]]]]. destruct d as [|[|[|[|[|[|d]]]]]];
      try (cbn in N; injection N as <- <-; split; [lia|]; split; [split; assumption|]; split; [reflexivity|exact H3]).
    destruct d; discriminate N.
Qed.
Lemma walk_spelled : forall m s path, walk m s path <->
  forall a d q b, path = a ++ (d, q) :: b ->
    let c := last_xy s a in
    In c (m_chips m) /\ In (c, d) (m_links m) /\ In q (m_chips m) /\
    exists dx dy, nth_error [(1, 0); (1, 1); (0, 1); (-1, 0); (-1, -1); (0, -1)]%Z d = Some (dx, dy) /\
      fst q = (if m_wrap_x m then (fst c + dx) mod m_width m else fst c + dx)%Z /\
      snd q = (if m_wrap_y m then (snd c + dy) mod m_height m else snd c + dy)%Z.
Proof.
  intros m s path. split.
  - intros W a d q b ->. apply walk_app in W. destruct W as [_ [W _]]. cbv zeta. apply works_spelled. exact W.
  - revert s. induction path as [|[d q] path IH]; intros s H; [exact I|]. cbn [walk snd]. split.
    + apply works_spelled. exact (H [] d q path eq_refl).
    + apply IH. intros a d' q' b E. specialize (H ((d, q) :: a) d' q' b). cbv zeta in H. rewrite last_cons in H.
      apply H. rewrite E. reflexivity.
Qed.

(** C31: what a path over working links to existing chips is: each step takes one
    of the six links of an existing chip, to the existing chip one step further in
    the direction of the link, counted round the machine in a dimension with wraps. *)
Theorem C31_walk : forall m s path, walk m s path <->
  forall a d q b, path = a ++ (d, q) :: b ->
    let c := last_xy s a in
    In c (m_chips m) /\ In (c, d) (m_links m) /\ In q (m_chips m) /\
    exists dx dy, nth_error [(1, 0); (1, 1); (0, 1); (-1, 0); (-1, -1); (0, -1)]%Z d = Some (dx, dy) /\
      fst q = (if m_wrap_x m then (fst c + dx) mod m_width m else fst c + dx)%Z /\
      snd q = (if m_wrap_y m then (snd c + dy) mod m_height m else snd c + dy)%Z.
Proof. exact walk_spelled. Qed.
Print Assumptions C31_walk.

(** C31: the search for a detour finds a path over working links to existing
    chips if there is one, and raises if there is none. *)
Theorem C31_detour : forall m s t,
  match find_path m s t with
  | Ok path => walk m s path /\ last_xy s path = t
  | Err e => e = RoutingException /\ forall path, walk m s path -> last_xy s path <> t
  end.
Proof. exact find_path_spec. Qed.
Print Assumptions C31_detour.

(** C31: with the detours put in, the path goes only over working links to
    existing chips and ends where the direct path ends. If no chip inside one of
    its loops is visited again after the loop, the same is true of the path used,
    and it visits no chip twice. The only exception raised is that of the search,
    and then a stretch [b] of the direct path has no detour. *)
Theorem C31_repaired : forall m v s,
  match repaired m s (longest_dimension_first m v s) with
  | Ok l0 => walk m s l0 /\ last_xy s l0 = last_xy s (longest_dimension_first m v s) /\
      (no_return s l0 -> exists l, direct_path m v s = Ok l /\ walk m s l /\
         last_xy s l = last_xy s (longest_dimension_first m v s) /\ NoDup (s :: map snd l))
  | Err e => direct_path m v s = Err RoutingException /\
      exists a b d, longest_dimension_first m v s = a ++ b ++ d /\ b <> [] /\
        (forall x n y, b = x ++ n :: y -> ~ works m (last_xy s (a ++ x)) n) /\
        forall path, walk m (last_xy s a) path -> last_xy (last_xy s a) path <> last_xy s (a ++ b)
  end.
Proof. exact direct_exact. Qed.
Print Assumptions C31_repaired.

(** C31: on a machine in which each chip can be reached from each other chip, a
    path is found for all pairs of existing chips. *)
Theorem C31_connected : forall m v s, connected m -> is_chip m s = true ->
  is_chip m (last_xy s (longest_dimension_first m v s)) = true ->
  exists l0, repaired m s (longest_dimension_first m v s) = Ok l0 /\
    direct_path m v s = Ok (path_without_loops s l0).
Proof. exact direct_connected. Qed.
Print Assumptions C31_connected.

(** C31: a direct path without faults is used as it is. *)
Theorem C31_faultless : forall m v s, walk m s (longest_dimension_first m v s) ->
  NoDup (s :: map snd (longest_dimension_first m v s)) ->
  direct_path m v s = Ok (longest_dimension_first m v s).
Proof. exact direct_faultless. Qed.
Print Assumptions C31_faultless.

(** 3 by 2 chips without wraps; the link between (1, 0) and (2, 0) is dead. *)
Definition dead_link : machine := mkMachine 3 2 false false
  [(0, 0); (1, 0); (2, 0); (0, 1); (1, 1); (2, 1)]%Z
  [((0, 0)%Z, 0); ((0, 0)%Z, 1); ((0, 0)%Z, 2);
   ((1, 0)%Z, 1); ((1, 0)%Z, 2); ((1, 0)%Z, 3);
   ((2, 0)%Z, 2);
   ((0, 1)%Z, 0); ((0, 1)%Z, 5);
   ((1, 1)%Z, 0); ((1, 1)%Z, 3); ((1, 1)%Z, 4); ((1, 1)%Z, 5);
   ((2, 1)%Z, 3); ((2, 1)%Z, 4); ((2, 1)%Z, 5)].
Example ex_dead_link :
  direct_path dead_link (2, 0, 0)%Z (0, 0)%Z = Ok [(0, (1, 0)%Z); (1, (2, 1)%Z); (5, (2, 0)%Z)] /\
  walk dead_link (0, 0)%Z [(0, (1, 0)%Z); (1, (2, 1)%Z); (5, (2, 0)%Z)].
Proof. split; [reflexivity|]. cbn [walk]. unfold works. cbn [fst snd]. repeat split; try lia; reflexivity. Qed.
(** From (2, 1) each chip can be reached, and back, so the machine is connected. *)
Example ex_connected : connected dead_link.
Proof.
  intros p q Hp Hq.
  assert (T : exists l, walk dead_link p l /\ last_xy p l = q).
  { apply xy_in_spec in Hp, Hq. cbn [m_chips dead_link In] in Hp, Hq.
    pose proof (find_path_spec dead_link p q) as F.
    assert (G : exists l, find_path dead_link p q = Ok l).
    { intuition (subst; cbv; eauto). }
    destruct G as [l G]. rewrite G in F. eauto. }
  exact T.
Qed.

(** C65: loop removal is not right for all connected paths: the path O A B A C D B
    E has the loop A B A; after its removal B still counts as seen, at a place that
    is now that of another chip. *)
Definition bad_loops : list node := [(0, A); (1, B); (4, A); (2, C); (0, D); (4, B); (0, E)].
Theorem C65_loop_removal_refuted : exists (R : xy -> node -> Prop) start nodes,
  chain R start nodes /\ ~ chain R start (path_without_loops start nodes).
Proof.
  exists (fun p n => In (p, n) [(O, (0, A)); (A, (1, B)); (B, (4, A)); (A, (2, C)); (C, (0, D)); (D, (4, B)); (B, (0, E))]),
    O, bad_loops. split.
  - cbn. tauto.
  - vm_compute. intros [_ [_ [H _]]]. repeat (destruct H as [H|H]; [discriminate H|]). exact H.
Qed.
Print Assumptions C65_loop_removal_refuted.

(** C65: this happens on a machine whose links all work both ways and whose
    chips are all connected: the path from (4, 0) to (2, 3) is routed over the
    link 4 of the chip (3, 3) although that link is dead, and the chip (2, 1) that is
    given as the next chip is not where the link would lead. *)
Definition faulty : machine := mkMachine 7 4 false false
  [(2,1);(2,2);(2,3);(3,2);(3,3);(4,0);(4,1);(4,2);(4,3);(5,1);(5,2);(5,3)]%Z
  [((2,1)%Z,1);((2,1)%Z,2);((2,2)%Z,2);((2,2)%Z,5);((2,3)%Z,5);((3,2)%Z,0);((3,2)%Z,1);((3,2)%Z,2);((3,2)%Z,4);
   ((3,3)%Z,0);((3,3)%Z,5);((4,0)%Z,1);((4,1)%Z,2);((4,2)%Z,3);((4,2)%Z,5);((4,3)%Z,0);((4,3)%Z,3);((4,3)%Z,4);
   ((5,1)%Z,2);((5,1)%Z,4);((5,2)%Z,2);((5,2)%Z,5);((5,3)%Z,3);((5,3)%Z,5)].
Theorem C65_route_refuted : exists m v s l,
  (forall p d, In (p, d) (m_links m) -> is_link m (over_link m p d) ((d + 3) mod 6) = true) /\
  (forall p, is_chip m p = true -> exists path, find_path m s p = Ok path) /\
  is_chip m (last_xy s (longest_dimension_first m v s)) = true /\
  direct_path m v s = Ok l /\ ~ walk m s l.
Proof.
  exists faulty, (-2, 3, 0)%Z, (4, 0)%Z.
  eexists. split; [|split; [|split; [|split; [vm_compute; reflexivity|]]]].
  - intros p d H. cbn [m_links faulty In] in H.
    repeat (destruct H as [H|H]; [injection H as <- <-; reflexivity|]). destruct H.
  - intros p H. apply xy_in_spec in H. cbn [m_chips faulty In] in H.
    repeat (destruct H as [<-|H]; [vm_compute; eauto|]). destruct H.
  - reflexivity.
  - cbn [walk]. intros [_ [_ [_ [_ [_ [H _]]]]]]. destruct H as [_ [H _]]. vm_compute in H. discriminate H.
Qed.
Print Assumptions C65_route_refuted.

(** C66: a route can be refused although the end chip can be reached: the direct
    path leads over a pair of chips that is cut off from the rest. *)
Definition island : machine := mkMachine 6 2 false false
  [(0,0);(1,0);(2,0);(3,0);(4,0);(0,1);(1,1);(2,1);(3,1);(4,1)]%Z
  [((1,0)%Z,0);((2,0)%Z,3);
   ((0,0)%Z,2);((0,1)%Z,5);((0,1)%Z,0);((1,1)%Z,3);((1,1)%Z,0);((2,1)%Z,3);((2,1)%Z,0);((3,1)%Z,3);((3,1)%Z,5);((3,0)%Z,2);
   ((3,1)%Z,0);((4,1)%Z,3);((4,1)%Z,5);((4,0)%Z,2)].
Theorem C66_reachable_refused_refuted : exists m v s path,
  walk m s path /\ last_xy s path = last_xy s (longest_dimension_first m v s) /\
  direct_path m v s = Err RoutingException.
Proof.
  exists island, (4, 0, 0)%Z, (0, 0)%Z,
    [(2, (0, 1)%Z); (0, (1, 1)%Z); (0, (2, 1)%Z); (0, (3, 1)%Z); (0, (4, 1)%Z); (5, (4, 0)%Z)].
  split; [|split; reflexivity].
  cbn [walk]. unfold works. cbn [fst snd]. repeat split; try lia; reflexivity.
Qed.
Print Assumptions C66_reachable_refused_refuted.

(** C66, exactly when it holds: if links work both ways, a path is found if and only
    if the end can be reached and also each chip from which the direct path has a
    working step. *)
Theorem C66_exact_partial : forall m v s, (forall p n, works m p n -> exists d, works m (snd n) (d, p)) ->
  (exists l, direct_path m v s = Ok l) <->
  ((exists l, walk m s l /\ last_xy s l = last_xy s (longest_dimension_first m v s)) /\
   (forall a n b, longest_dimension_first m v s = a ++ n :: b -> works m (last_xy s a) n ->
      exists l, walk m s l /\ last_xy s l = last_xy s a)).
Proof. exact route_iff. Qed.
Print Assumptions C66_exact_partial.

(** The machine above is one of these, and has chips that cannot be reached. *)
Example C66_exact_example :
  (forall p n, works island p n -> exists d, works island (snd n) (d, p)) /\
  (exists l, direct_path island (4, 0, 0)%Z (0, 1)%Z = Ok l /\ length l = 4) /\
  (exists l, direct_path island (1, 0, -1)%Z (0, 0)%Z = Ok l /\ length l = 3) /\
  find_path island (0, 0)%Z (1, 0)%Z = Err RoutingException.
Proof.
  split; [|split; [eexists; vm_compute; split; reflexivity|]; split; [eexists; vm_compute; split; reflexivity | reflexivity]].
  intros p [d q] [_ [L [Q _]]]. cbn [fst snd] in *. unfold is_link in L. apply andb_true_iff in L. destruct L as [_ L].
  apply existsb_exists in L. destruct L as [[p' d'] [I L]]. apply andb_true_iff in L. destruct L as [L1 L2].
  cbn [fst snd] in *.
  apply xy_eqb_eq in L1. apply Nat.eqb_eq in L2. subst p' d' q.
  exists (Nat.modulo (d + 3) 6). cbn [m_links island In] in I.
  repeat (destruct I as [I|I]; [injection I as <- <-; vm_compute; repeat split; lia|]). destruct I.
Qed.
