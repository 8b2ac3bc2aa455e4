(** Property C35: the routing table by partition. *)
From Coq Require Import List ZArith NArith Arith Bool.
From Verif Require Import Base Dict TreeModel MachModel PathProofs RPartModel RPartProofs.
Import ListNotations.
Local Open Scope nat_scope.

(** C35: after any sequence of calls there is an entry for a router, source and
    partition exactly if one was added by a call that did not raise, and it has
    exactly the links and processors of all of those. *)
Theorem C35_union : forall ve calls t oks, add_all ve [] calls = (t, oks) ->
  length oks = length calls /\
  forall s k q,
    let made c := exists i, nth_error calls i = Some c /\ nth_error oks i = Some true /\
                    ac_xy c = q /\ ac_src c = s /\ ac_part c = k in
    (get_entry t s k q <> None <-> exists c, made c) /\
    forall e, get_entry t s k q = Some e ->
      forall b, N.testbit (re_route e) b = true <-> exists c, made c /\ N.testbit (re_route (ac_entry c)) b = true.
Proof. exact add_all_spec. Qed.
Print Assumptions C35_union.

(** C35: if the machine vertices of an application vertex are those that name it
    as theirs, then after any sequence of calls no router has both an entry for
    an application vertex and one for one of its machine vertices. *)
Theorem C35_exclusive : forall ve calls t oks,
  (forall a v, In v (ve_macs ve a) <-> ve_app ve v = Some a) ->
  add_all ve [] calls = (t, oks) ->
  forall p k a v, ve_app ve v = Some a ->
    get_entry t (App a) k p <> None -> get_entry t (Mac v) k p = None.
Proof.
  intros ve calls t oks V H p k a v A. apply (add_all_exclusive ve calls [] t oks V (empty_exclusive ve) H).
  apply V. exact A.
Qed.
Print Assumptions C35_exclusive.

(** C35: a call raises exactly if there is an entry for a machine vertex of the
    application vertex, or for the application vertex of the machine vertex. *)
Theorem C35_raises_iff : forall ve t e p src part,
  add_path_entry ve t e p src part = Err InvalidParameter <->
  match src with
  | App a => exists v, In v (ve_macs ve a) /\ get_entry t (Mac v) part p <> None
  | Mac v => exists a, ve_app ve v = Some a /\ get_entry t (App a) part p <> None
  end.
Proof.
  intros. pose proof (add_path_entry_spec ve t e p src part) as SP.
  destruct (add_path_entry ve t e p src part) as [t'|x].
  - split; [discriminate|]. intros C. exfalso. exact (proj1 SP C).
  - destruct SP as [-> C]. split; auto.
Qed.
Print Assumptions C35_raises_iff.

(** Application vertex 0 has machine vertices 1 and 2. *)
Definition ex_ve : venv := mkVEnv (fun a => match a with 0 => [1; 2] | _ => [] end)
                                  (fun v => match v with 1 | 2 => Some 0 | _ => None end).
Definition ex_calls : list addcall :=
  [mkAdd (mkRE (route_of [2] []) true) (0, 0)%Z (Mac 1) 7;
   mkAdd (mkRE (route_of [3] []) true) (0, 0)%Z (App 0) 7;
   mkAdd (mkRE (route_of [] [5]) false) (0, 0)%Z (Mac 1) 7;
   mkAdd (mkRE (route_of [3] []) true) (0, 0)%Z (App 0) 8;
   mkAdd (mkRE (route_of [4] []) true) (1, 0)%Z (App 0) 7].
Example ex_rpart :
  let '(t, oks) := add_all ex_ve [] ex_calls in
  oks = [true; false; true; true; true] /\
  get_entry t (Mac 1) 7 (0, 0)%Z = Some (mkRE (route_of [2] [5]) false) /\
  get_entry t (App 0) 7 (0, 0)%Z = None /\
  get_routers t = [(0, 0); (1, 0)]%Z.
Proof. vm_compute. repeat split. Qed.
Example ex_ve_ok : forall a v, In v (ve_macs ex_ve a) <-> ve_app ex_ve v = Some a.
Proof.
  intros a v. cbn. destruct a as [|a]; destruct v as [|[|[|v]]]; cbn; split; intros H;
  try tauto; try congruence; repeat (destruct H as [H|H]; try congruence; try tauto).
Qed.
