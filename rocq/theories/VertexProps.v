(** Properties of fixed locations (C156, C157) and of the rounding of sizes
    (C158).  [first_for v cs] (VertexProofs) is the place in the first call for
    [v], if there is one. *)
From Coq Require Import List Arith ZArith QArith Qabs Bool.
From Verif Require Import Base Dict VertexModel VertexProofs.
Import ListNotations.
Local Open Scope Z_scope.

(** * C156 *)

(** Whatever calls are made, the place of the first call for a vertex stays; a
    call is accepted exactly if it names that place again. *)
Theorem C156_first_place_stays :
  forall cs, let (s, rs) := run_calls [] cs in
    length rs = length cs /\
    (forall owner v, owner v = None -> get_fixed_location owner s v = first_for v cs) /\
    forall i c, nth_error cs i = Some c ->
      exists l, first_for (c_vertex c) cs = Some l /\
        (c_place c = l -> nth_error rs i = Some (Ok tt)) /\
        (c_place c <> l -> nth_error rs i = Some (Err ConfigurationException)).
Proof.
  intro cs. pose proof (run_spec cs []) as H. destruct (run_calls [] cs) as [s rs].
  destruct H as (A & B & C). split; [exact B|]. split.
  - intros owner v O. unfold get_fixed_location. rewrite A, O. cbn. now destruct (first_for v cs).
  - intros i c H. pose proof (C i c H) as R. cbn in R.
    assert (F : exists l, first_for (c_vertex c) cs = Some l).
    { clear - H. revert i H. induction cs as [|d cs IH]; intros i H; [destruct i; discriminate|].
      cbn [first_for]. destruct (Nat.eqb (c_vertex d) (c_vertex c)) eqn:E; [eauto|].
      destruct i as [|i]; [injection H as ->; now rewrite Nat.eqb_refl in E|]. now apply (IH i). }
    destruct F as (l & F). exists l. split; [exact F|]. rewrite F in R. split; intro Q.
    + rewrite Q, (proj2 (place_eqb_eq _ _) eq_refl) in R. exact R.
    + destruct (place_eqb (c_place c) l) eqn:E; [apply place_eqb_eq in E; contradiction|exact R].
Qed.
Print Assumptions C156_first_place_stays.

(** A machine vertex is fixed to its own first place, else to the first place of
    its application vertex. *)
Theorem C156_machine_vertex :
  forall cs owner m a, owner m = Some a ->
    get_fixed_location owner (fst (run_calls [] cs)) m =
      match first_for m cs with Some l => Some l | None => first_for a cs end.
Proof.
  intros cs owner m a O. pose proof (run_spec cs []) as H. destruct (run_calls [] cs) as [s rs].
  destruct H as (A & _). cbn [fst]. unfold get_fixed_location. rewrite (A m), O, (A a). cbn.
  now destruct (first_for m cs).
Qed.
Print Assumptions C156_machine_vertex.

(** Vertex 0 owns vertices 1 and 2. *)
Definition owner (v : nat) : option nat := match v with 1%nat | 2%nat => Some 0%nat | _ => None end.
Definition calls : list call :=
  [mkCall 1 (mkPlace 3 4 (Some 5)); mkCall 0 (mkPlace 1 2 None); mkCall 0 (mkPlace 1 2 (Some 1));
   mkCall 1 (mkPlace 3 4 (Some 5))].
Example ex_places :
  let (s, rs) := run_calls [] calls in
  rs = [Ok tt; Ok tt; Err ConfigurationException; Ok tt] /\
  get_fixed_location owner s 0 = Some (mkPlace 1 2 None) /\
  get_fixed_location owner s 1 = Some (mkPlace 3 4 (Some 5)) /\
  get_fixed_location owner s 2 = Some (mkPlace 1 2 None) /\
  get_fixed_location owner s 3 = None.
Proof. vm_compute. repeat split. Qed.

(** * C157 *)

(** The place a machine vertex reports can change: a place of its own may still
    be set after one was taken from its application vertex. *)
Theorem C157_place_changes_refuted :
  exists owner s m l x y p s' l',
    get_fixed_location owner s m = Some l /\
    set_fixed_location s m x y p = Ok s' /\
    get_fixed_location owner s' m = Some l' /\ l' <> l.
Proof.
  exists owner, [(0%nat, mkPlace 1 2 None)], 1%nat, (mkPlace 1 2 None), 3, 4, None.
  eexists _, (mkPlace 3 4 None). repeat (split; [vm_compute; reflexivity|]). discriminate.
Qed.
Print Assumptions C157_place_changes_refuted.

(** * C158 *)

(** An integer is taken as it is; a float gives the integer that is less than
    a thousandth away (up to the rounding of the constant), and only that. *)
Theorem C158_rounded_iff :
  forall q z, round_n_atoms (PyFloat q) = Ok z <->
    (Qabs (inject_Z z - q) < 1152921504606847 # 1152921504606846976)%Q.
Proof. exact round_float_iff. Qed.
Print Assumptions C158_rounded_iff.

Theorem C158_rejected :
  forall n e, round_n_atoms n = Err e ->
    e = InvalidParameter /\
    exists q, n = PyFloat q /\
      forall z, ~ (Qabs (inject_Z z - q) < 1152921504606847 # 1152921504606846976)%Q.
Proof.
  intros [z|q] e E; [discriminate|]. destruct (round_float_fails q e E) as (A & B).
  split; [exact A|]. exists q. auto.
Qed.
Print Assumptions C158_rejected.

Theorem C158_integers : forall z,
  round_n_atoms (PyInt z) = Ok z /\ round_n_atoms (PyFloat (inject_Z z)) = Ok z.
Proof.
  intro z. split; [reflexivity|]. apply C158_rounded_iff.
  setoid_replace (inject_Z z - inject_Z z)%Q with 0%Q by ring. reflexivity.
Qed.
Print Assumptions C158_integers.

Example ex_rounded :
  round_n_atoms (PyFloat (99999 # 10000)) = Ok 10 /\
  round_n_atoms (PyFloat (-9 # 10000)) = Ok 0 /\
  round_n_atoms (PyFloat (9998 # 1000)) = Err InvalidParameter /\
  round_n_atoms (PyFloat (5 # 2)) = Err InvalidParameter.
Proof. vm_compute. repeat split. Qed.
