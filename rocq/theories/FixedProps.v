(** Property C36: fixed routes. *)
From Coq Require Import List ZArith NArith Arith Bool Lia.
From Verif Require Import Base Dict TreeModel MachModel LdfModel PathModel PathProofs PathProps RPartModel RPartProofs BfsProofs FixedModel FixedProofs.
Import ListNotations.
Local Open Scope nat_scope.

(** C36: when fixed routes are made, each chip of each board has one entry and no
    other chip has any; from each chip of a board the fixed routes lead, over
    working links and chips of the board, to the Ethernet chip, in as few hops as
    any way on the board has; the entry of the Ethernet chip is for the
    destination processor only. *)
Theorem C36_routes : forall m g boards t,
  (forall b, In b boards -> NoDup (snd b) /\ forall p, In p (snd b) -> is_chip m p = true) ->
  build_fixed_routes m g boards = Ok t ->
  NoDup (map fst t) /\
  (forall p, dget xy_eqb t p <> None <-> exists b, In b boards /\ In p (snd b)) /\
  (forall b, In b boards -> In (fst b) (snd b) /\
     (forall p, In p (snd b) -> exists n, fhops m (snd b) t (fst b) n p /\
        forall l, walk m p l /\ Forall (fun h => In (snd h) (snd b)) l -> last_xy p l = fst b -> n <= length l) /\
     (exists n, g (fst b) = Some n /\ dget xy_eqb t (fst b) = Some (mkRE (route_of [] [n]) false))).
Proof.
  intros m g boards t H B. unfold build_fixed_routes in B. pose proof (build_spec m g boards [] H) as SP. rewrite B in SP.
  destruct SP as [_ [A1 [A2 A3]]]. split; [apply A1; constructor|]. split.
  - intros p. rewrite A2. cbn. split; [intros [X|X]; [congruence | exact X] | auto].
  - intros b Hb. destruct (A3 b Hb) as [B1 [B2 B3]]. split; [exact B1|]. split; [|exact B3].
    intros p Hp. destruct (B2 p Hp) as [n [X Y]]. exists n. split; [exact X|]. intros l W L. apply Y. split; assumption.
Qed.
Print Assumptions C36_routes.

(** C36: each kind of failure and when it happens: the Ethernet chip is missing on
    its board, a chip has no way to the Ethernet chip, there is no destination on
    the Ethernet chip, or a chip is on two boards. *)
Theorem C36_raises : forall m g boards x,
  (forall b, In b boards -> NoDup (snd b) /\ forall p, In p (snd b) -> is_chip m p = true) ->
  build_fixed_routes m g boards = Err x ->
  (x = KeyError /\ exists b, In b boards /\ ~ In (fst b) (snd b)) \/
  (x = RoutingException /\ exists b p, In b boards /\ In p (snd b) /\
     forall l, walk m p l /\ Forall (fun h => In (snd h) (snd b)) l -> last_xy p l <> fst b) \/
  (x = ConfigurationException /\ exists b, In b boards /\ g (fst b) = None) \/
  (x = AlreadyExists /\ exists pre b post p b', boards = pre ++ b :: post /\ In p (snd b) /\ In b' pre /\ In p (snd b')).
Proof.
  intros m g boards x H B. unfold build_fixed_routes in B. pose proof (build_spec m g boards [] H) as SP. rewrite B in SP.
  destruct SP as [SP|[[-> [b [p [A1 [A2 A3]]]]]|[SP|[-> [pre [b [post [p [A1 [A2 A3]]]]]]]]]].
  - left. exact SP.
  - right; left. split; [reflexivity|]. exists b, p. split; [exact A1|]. split; [exact A2|]. intros l W L. apply (A3 l). split; assumption.
  - right; right; left. exact SP.
  - right; right; right. split; [reflexivity|]. destruct A3 as [A3|[b' [A3 A4]]]; [cbn in A3; congruence|].
    exists pre, b, post, p, b'. auto.
Qed.
Print Assumptions C36_raises.

(** C36: if every chip of a board has a way to the Ethernet chip, boards are
    apart and have a destination, routes are made. *)
Theorem C36_made : forall m g boards,
  (forall b, In b boards -> NoDup (snd b) /\ forall p, In p (snd b) -> is_chip m p = true) ->
  (forall b, In b boards -> In (fst b) (snd b) /\ g (fst b) <> None) ->
  (forall b p, In b boards -> In p (snd b) ->
     exists l, walk m p l /\ Forall (fun h => In (snd h) (snd b)) l /\ last_xy p l = fst b) ->
  (forall pre b post p b', boards = pre ++ b :: post -> In p (snd b) -> In b' pre -> ~ In p (snd b')) ->
  exists t, build_fixed_routes m g boards = Ok t.
Proof.
  intros m g boards H E W D. destruct (build_fixed_routes m g boards) as [t|x] eqn:B; [eauto|]. exfalso.
  destruct (C36_raises m g boards x H B) as [[_ [b [A1 A2]]]|[[_ [b [p [A1 [A2 A3]]]]]|[[_ [b [A1 A2]]]|[_ [pre [b [post [p [b' [A1 [A2 [A3 A4]]]]]]]]]]]].
  - exact (A2 (proj1 (E b A1))).
  - destruct (W b p A1 A2) as [l [X [Y Z]]]. exact (A3 l (conj X Y) Z).
  - exact (proj2 (E b A1) A2).
  - exact (D pre b post p b' A1 A2 A3 A4).
Qed.
Print Assumptions C36_made.

(** Two boards of the machine with a dead link; the link back from (2, 1) is used
    to get to (2, 0). *)
Definition ex_boards : list ((Z * Z) * list (Z * Z)) :=
  [((0, 0)%Z, [(0, 0); (1, 0); (0, 1); (1, 1)]%Z); ((2, 0)%Z, [(2, 0); (2, 1)]%Z)].
Example ex_fixed :
  (forall b, In b ex_boards -> NoDup (snd b) /\ forall p, In p (snd b) -> is_chip dead_link p = true) /\
  build_fixed_routes dead_link (fun p => if xy_eqb p (0, 0)%Z then Some 3 else Some 5) ex_boards =
  Ok [((1, 0)%Z, mkRE (route_of [3] []) false); ((0, 1)%Z, mkRE (route_of [5] []) false);
      ((1, 1)%Z, mkRE (route_of [4] []) false); ((0, 0)%Z, mkRE (route_of [] [3]) false);
      ((2, 1)%Z, mkRE (route_of [5] []) false); ((2, 0)%Z, mkRE (route_of [] [5]) false)].
Proof.
  split; [|vm_compute; reflexivity].
  intros b [<-|[<-|[]]]; (split; [repeat constructor; cbn; intuition discriminate|]);
  intros p Hp; cbn [snd In] in Hp; intuition (subst; reflexivity).
Qed.
(** One board of all chips: (2, 0) has no way out but over (2, 1). *)
Example ex_fixed_far : build_fixed_routes dead_link (fun _ => Some 3) [((0, 0)%Z, m_chips dead_link)] =
  Ok [((1, 0)%Z, mkRE (route_of [3] []) false); ((0, 1)%Z, mkRE (route_of [5] []) false);
      ((1, 1)%Z, mkRE (route_of [4] []) false); ((2, 1)%Z, mkRE (route_of [4] []) false);
      ((2, 0)%Z, mkRE (route_of [2] []) false); ((0, 0)%Z, mkRE (route_of [] [3]) false)].
Proof. vm_compute. reflexivity. Qed.
