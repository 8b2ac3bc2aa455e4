(** Properties C33, C68 and C69: routing trees become table entries. *)
From Coq Require Import List ZArith NArith Arith Bool Lia.
From Verif Require Import Base Dict TreeModel TreeProofs MachModel LdfModel LdfProofs PathModel PathProofs PathProps
  RPartModel RPartProofs RPartProps BfsModel BfsProofs BfsProps ConvModel ConvProofs.
Import ListNotations.
Local Open Scope nat_scope.

(** C33: a conversion adds, on each chip of the tree and for each source served
    there, the links to the next nodes and the cores and links wanted for the
    source, and adds and takes away nothing else. *)
Theorem C33_entries : forall c t ip il first t', plain first -> convert_a_route c t ip il first = Ok t' ->
  forall w k q,
    (get_entry t' w k q <> None <-> get_entry t w k q <> None \/
       (k = cv_part c /\ exists u cores links, node_at first q u /\ gives c q w cores links)) /\
    (forall b, has_bit t' w k q b <-> has_bit t w k q b \/
       (k = cv_part c /\ exists u cores links, node_at first q u /\ gives c q w cores links /\
          (In b (hops u) \/ In b links \/ exists p, In p cores /\ b = 6 + p))).
Proof. exact convert_entries. Qed.
Print Assumptions C33_entries.

(** C33: a conversion comes to an end. *)
Theorem C33_ends : forall c t ip il first, plain first -> convert_a_route c t ip il first <> Err OutOfFuel.
Proof. exact convert_fuel. Qed.
Print Assumptions C33_ends.

(** C33: the tree below chip [p] of the routes is converted for an application
    vertex, all outgoing machine vertices of which are to be covered. A packet of
    any of them, sent from [p], comes to exactly the chips of the tree, and
    there goes on over the links of the tree and to the cores and links that are
    wanted for the machine vertex or the application vertex. *)
Theorem C33_application : forall m root r p c t ip il t' a v,
  is_tree m root r -> known r p ->
  ve_ok (cv_env c) -> exclusive (cv_env c) t -> targets_ok m c ->
  cv_source c = App a -> cv_use_source c = false -> cv_ensure c = true ->
  ve_app (cv_env c) v = Some a -> In v (cv_out c a) ->
  (forall q b cores links, aims c q (App b) cores links -> b = a) ->
  (forall q, descends r p q -> get_entry t (App a) (cv_part c) q = None /\ get_entry t (Mac v) (cv_part c) q = None) ->
  convert_a_route c t ip il (tree_of r p) = Ok t' ->
  (forall q, travels m t' (cv_part c) (Some a) v p q <-> descends r p q) /\
  (forall q, descends r p q -> exists e, route_for t' (cv_part c) (Some a) v q = Some e /\
     (forall l, l < 6 -> (has_link (re_route e) l = true <->
        (exists x, BfsProofs.child r q l x) \/ exists w cores links, (w = App a \/ w = Mac v) /\ aims c q w cores links /\ In l links)) /\
     (forall n, has_proc (re_route e) n = true <->
        exists w cores links, (w = App a \/ w = Mac v) /\ aims c q w cores links /\ In n cores)).
Proof.
  intros m root r p c t ip il t' a v T K V X TK SO US EN VA OUT AB FR H.
  destruct (tree_of_ok m root r p T K) as [P [TO [CO [CH [NO HO]]]]].
  destruct (app_follow m c t ip il (tree_of r p) t' a v V X P TO CO TK SO US EN VA OUT AB) as [A B].
  - intros q u N. apply FR. apply NO. eauto.
  - exact H.
  - rewrite CH in A. split; [intros q; rewrite A; apply NO|]. intros q D. apply NO in D. destruct D as [u N].
    destruct (B q u N) as [e [R [L Q]]]. exists e. split; [exact R|]. split; [|exact Q].
    intros l Hl. rewrite (L l Hl), (HO q u N l). tauto.
Qed.
Print Assumptions C33_application.

(** C33: the same for the tree of one machine vertex. *)
Theorem C33_machine : forall m root r p c t ip il t' app v,
  is_tree m root r -> known r p -> targets_ok m c ->
  cv_source c = Mac v -> cv_use_source c = true \/ cv_targets c = [] ->
  (forall q, descends r p q -> get_entry t (Mac v) (cv_part c) q = None) ->
  convert_a_route c t ip il (tree_of r p) = Ok t' ->
  (forall q, travels m t' (cv_part c) app v p q <-> descends r p q) /\
  (forall q, descends r p q -> exists e, route_for t' (cv_part c) app v q = Some e /\
     (forall l, l < 6 -> (has_link (re_route e) l = true <->
        (exists x, BfsProofs.child r q l x) \/ exists cores links, aims c q (Mac v) cores links /\ In l links)) /\
     (forall n, has_proc (re_route e) n = true <-> exists cores links, aims c q (Mac v) cores links /\ In n cores)).
Proof.
  intros m root r p c t ip il t' app v T K TK SO US FR H.
  destruct (tree_of_ok m root r p T K) as [P [TO [CO [CH [NO HO]]]]].
  destruct (mac_follow m c t ip il (tree_of r p) t' app v P TO CO TK SO US) as [A [B _]].
  - intros q u N. apply FR. apply NO. eauto.
  - exact H.
  - rewrite CH in A. split; [intros q; rewrite A; apply NO|]. intros q D. apply NO in D. destruct D as [u N].
    destruct (B q u N) as [e [R [L Q]]]. exists e. split; [exact R|]. split; [|exact Q].
    intros l Hl. rewrite (L l Hl), (HO q u N l). tauto.
Qed.
Print Assumptions C33_machine.

(** C68: an entry that is marked as defaultable has no processor and one link, the
    one opposite to the link over which the packet comes to the chip. *)
Theorem C68_default_straight : forall c t ip il first t', plain first -> convert_a_route c t ip il first = Ok t' ->
  forall w k q e, get_entry t' w k q = Some e -> re_default e = true ->
    get_entry t w k q = Some e \/
    exists u ip' i, visits (ip, il, first) (ip', Some i, u) /\ tchip u = q /\ re_route e = route_of [(i + 3) mod 6] [].
Proof. exact convert_default. Qed.
Print Assumptions C68_default_straight.

(** Application vertex 0 has the machine vertices 1 and 2. The tree of ex_routes
    goes (0, 0) (1, 0) (2, 1) (2, 0). On (2, 1) all of vertex 0 is wanted on core
    4 and on link 0, where a device is; on (2, 0) only vertex 1, on core 3. *)
Definition ex_conv : conv := mkConv ex_ve (fun a => match a with 0 => [1; 2] | _ => [] end) (App 0) 7
  [((2, 1)%Z, [(App 0, ([4], [0]))]); ((2, 0)%Z, [(Mac 1, ([3], []))])] false true.
Definition ex_table : rtable :=
  match convert_a_route ex_conv [] None None (tree_of ex_routes (0, 0)%Z) with Ok t => t | Err _ => [] end.
Example ex_convert : convert_a_route ex_conv [] None None (tree_of ex_routes (0, 0)%Z) = Ok ex_table /\
  get_entry ex_table (App 0) 7 (0, 0)%Z = Some (mkRE (route_of [0] []) false) /\
  get_entry ex_table (App 0) 7 (1, 0)%Z = Some (mkRE (route_of [1] []) false) /\
  get_entry ex_table (App 0) 7 (2, 1)%Z = Some (mkRE (route_of [5; 0] [4]) false) /\
  get_entry ex_table (Mac 1) 7 (2, 0)%Z = Some (mkRE (route_of [] [3]) false) /\
  get_entry ex_table (Mac 2) 7 (2, 0)%Z = Some (mkRE (route_of [] []) false) /\
  get_entry ex_table (App 0) 7 (2, 0)%Z = None.
Proof. vm_compute. repeat split. Qed.
Lemma ex_aims : forall q w cores links, aims ex_conv q w cores links ->
  (q = (2, 1)%Z /\ w = App 0 /\ cores = [4] /\ links = [0]) \/ (q = (2, 0)%Z /\ w = Mac 1 /\ cores = [3] /\ links = []).
Proof.
  intros q w cores links [items [A B]]. unfold ex_conv in A. cbn [cv_targets dget] in A.
  destruct (xy_eqb (2, 1)%Z q) eqn:E1; [|destruct (xy_eqb (2, 0)%Z q) eqn:E2; [|discriminate]].
  - apply xy_eqb_eq in E1. injection A as <-. cbn [dget] in B. destruct (vtx_eqb (App 0) w) eqn:E; [|discriminate].
    apply vtx_eqb_eq in E. injection B as <- <-. left. auto.
  - apply xy_eqb_eq in E2. injection A as <-. cbn [dget] in B. destruct (vtx_eqb (Mac 1) w) eqn:E; [|discriminate].
    apply vtx_eqb_eq in E. injection B as <- <-. right. auto.
Qed.
Example ex_targets_ok : targets_ok dead_link ex_conv /\ (forall q b cores links, aims ex_conv q (App b) cores links -> b = 0) /\
  exclusive (cv_env ex_conv) [] /\ known ex_routes (0, 0)%Z.
Proof.
  split; [|split; [|split; [apply empty_exclusive | discriminate]]].
  - constructor.
    + intros q items A. unfold ex_conv in A. cbn [cv_targets dget] in A.
      destruct (xy_eqb (2, 1)%Z q); [|destruct (xy_eqb (2, 0)%Z q); [|discriminate]]; injection A as <-;
      (constructor; [intros [] | constructor]).
    + intros q w cores links l A I. destruct (ex_aims _ _ _ _ A) as [[-> [_ [_ ->]]]|[_ [_ [_ ->]]]]; [|destruct I].
      destruct I as [<-|[]]. split; [lia | reflexivity].
  - intros q b cores links A. destruct (ex_aims _ _ _ _ A) as [[_ [E _]]|[_ [E _]]]; [injection E as ->; reflexivity | discriminate].
Qed.
(** A packet of vertex 2 comes to (2, 0) but to no core there. *)
Example ex_travels : travels dead_link ex_table 7 (Some 0) 2 (0, 0)%Z (2, 0)%Z.
Proof.
  destruct ex_targets_ok as [T1 [T2 [T3 T4]]].
  apply (proj1 (C33_application dead_link (0, 0)%Z ex_routes (0, 0)%Z ex_conv [] None None ex_table 0 2
    ex_is_tree T4 ex_ve_ok T3 T1 eq_refl eq_refl eq_refl eq_refl (or_intror (or_introl eq_refl)) T2
    (fun q _ => conj eq_refl eq_refl) (proj1 ex_convert))).
  apply (desc_step _ _ (2, 1)%Z 5); [|eexists; split; [reflexivity | left; reflexivity]].
  apply (desc_step _ _ (1, 0)%Z 1); [|eexists; split; [reflexivity | left; reflexivity]].
  apply (desc_step _ _ (0, 0)%Z 0); [constructor | eexists; split; [reflexivity | left; reflexivity]].
Qed.
(** Along a straight line the entries in between are defaultable. *)
Definition ex_line : routes := [((0, 0)%Z, [(2, (0, 1)%Z)]); ((0, 1)%Z, [(2, (0, 2)%Z)]); ((0, 2)%Z, [])].
Example ex_default :
  match convert_a_route (mkConv ex_ve (fun _ => []) (Mac 1) 7 [] false false) [] (Some 3) None (tree_of ex_line (0, 0)%Z) with
  | Ok t => get_entry t (Mac 1) 7 (0, 0)%Z = Some (mkRE (route_of [2] []) false) /\
            get_entry t (Mac 1) 7 (0, 1)%Z = Some (mkRE (route_of [2] []) true)
  | Err _ => False
  end.
Proof. vm_compute. split; reflexivity. Qed.

(** C69: the search can give a chip the same child more than once: each target
    found adds its whole path, also the part that is there already. The child is
    then converted once for each, and so are its own children: here 8 chips
    with two targets at the end of a line make a tree of 127 nodes. *)
Definition long_line : machine := mkMachine 7 2 false false
  [(0, 0); (1, 0); (2, 0); (3, 0); (4, 0); (5, 0); (6, 0); (6, 1)]%Z
  [((0, 0)%Z, 0); ((1, 0)%Z, 0); ((2, 0)%Z, 0); ((3, 0)%Z, 0); ((4, 0)%Z, 0); ((5, 0)%Z, 0); ((5, 0)%Z, 1)].
Theorem C69_child_twice_refuted : exists m first allowed targets r p c,
  route_to_xys m first allowed targets [] = Ok r /\ dget xy_eqb r p = Some [c; c] /\
  length r = 8 /\ tree_len (tree_of r first) = 127.
Proof.
  exists long_line, (0, 0)%Z, (m_chips long_line), [(6, 0)%Z; (6, 1)%Z].
  eexists. exists (0, 0)%Z. eexists. split; [vm_compute; reflexivity|]. split; [vm_compute; reflexivity|]. split; vm_compute; reflexivity.
Qed.
Print Assumptions C69_child_twice_refuted.
