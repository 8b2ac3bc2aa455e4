(** Property C174: what the verify flag of pair_compressor does. *)
From Coq Require Import List Arith NArith ZArith Bool Lia.
From Verif Require Import Base RouteSpec TablesModel TablesProofs DriverProofs PairModel VerifyModel TablesProps.
Import ListNotations.
Local Open Scope nat_scope.

Lemma verify_spec : forall target ts,
  (verify_lengths target ts = Ok tt /\ Forall (fun t => length (t_entries t) <= target (t_x t) (t_y t)) ts) \/
  (verify_lengths target ts = Err ElementAllocation /\ Exists (fun t => target (t_x t) (t_y t) < length (t_entries t)) ts).
Proof.
  intros target ts. unfold verify_lengths. destruct (existsb _ ts) eqn:E.
  - right. split; [reflexivity|]. apply existsb_exists in E. destruct E as [t [I L]]. apply Exists_exists.
    exists t. split; [exact I|]. apply Nat.ltb_lt. exact L.
  - left. split; [reflexivity|]. apply Forall_forall. intros t I. apply Nat.nlt_ge. intros L. apply Nat.ltb_lt in L.
    rewrite <- Bool.not_true_iff_false in E. apply E. apply existsb_exists. exists t. split; [exact I | exact L].
Qed.

(** With the flag the tables are those that the call gives without it, if all of them
    fit the routers of their chips, and otherwise there is an error; an error without
    the flag is the same with it. *)
Theorem C174_verified : forall n_routes target as_needed ordered accept_overflow c_sort ts,
  let call verify := pair_compressor n_routes target as_needed ordered accept_overflow verify c_sort ts in
  match call false with
  | Ok out =>
      (Forall (fun t => length (t_entries t) <= target (t_x t) (t_y t)) out -> call true = Ok out) /\
      (Exists (fun t => target (t_x t) (t_y t) < length (t_entries t)) out -> call true = Err ElementAllocation)
  | Err e => call true = Err e
  end.
Proof.
  intros n_routes target as_needed ordered accept_overflow c_sort ts call. unfold call, pair_compressor.
  destruct (compress_tables _ target as_needed ordered accept_overflow ts []) as [out|e]; cbn [bind]; [|reflexivity].
  destruct (verify_spec target out) as [[-> F]|[-> F]]; cbn [bind]; split; intros X; try reflexivity; exfalso.
  - apply Exists_exists in X. destruct X as [t [I L]]. rewrite Forall_forall in F. specialize (F t I). lia.
  - apply Exists_exists in F. destruct F as [t [I L]]. rewrite Forall_forall in X. specialize (X t I). lia.
Qed.
Print Assumptions C174_verified.

(** Whatever the other flags: what is returned fits. *)
Theorem C174_fits : forall n_routes target as_needed ordered accept_overflow c_sort ts out,
  pair_compressor n_routes target as_needed ordered accept_overflow true c_sort ts = Ok out ->
  Forall (fun t => length (t_entries t) <= target (t_x t) (t_y t)) out.
Proof.
  intros n_routes target as_needed ordered accept_overflow c_sort ts out H. unfold pair_compressor in H.
  apply bind_Ok_inv in H. destruct H as [out' [_ H]].
  destruct (verify_spec target out') as [[E F]|[E F]]; rewrite E in H; cbn [bind] in H; [|discriminate].
  injection H as <-. exact F.
Qed.
Print Assumptions C174_fits.

(** In the default mode the flag changes nothing. *)
Theorem C174_default : forall n_routes target as_needed c_sort ts,
  pair_compressor n_routes target as_needed true false true c_sort ts =
  pair_compressor n_routes target as_needed true false false c_sort ts.
Proof.
  intros n_routes target as_needed c_sort ts. unfold pair_compressor.
  pose proof (driver_exact (fun t => compress_table true c_sort n_routes (t_entries t)) target as_needed true false ts) as D.
  destruct (compress_tables _ target as_needed true false ts []) as [out|e]; cbn [bind]; [|reflexivity].
  destruct D as [_ [_ D]]. specialize (D eq_refl eq_refl).
  destruct (verify_spec target out) as [[-> _]|[_ F]]; cbn [bind]; [reflexivity|]. exfalso.
  apply Exists_exists in F. destruct F as [t [I L]]. rewrite Forall_forall in D. specialize (D t I). lia.
Qed.
Print Assumptions C174_default.

(** Two tables of three and two entries, for routers of two entries and of one. *)
Example C174_example :
  let call size ordered accept verify :=
    pair_compressor 1023 (fun _ _ => size) true ordered accept verify false [C51_t1; C51_t2] in
  (exists out, call 2 true false true = Ok out /\ out <> [C51_t1; C51_t2]) /\
  call 1 true false true = Err MinimisationFailed /\
  call 1 true true true = Err ElementAllocation /\
  call 1 false false true = Err ElementAllocation /\
  exists out, call 1 false false false = Ok out.
Proof.
  cbv zeta. split; [eexists; split; [vm_compute; reflexivity | discriminate]|].
  split; [vm_compute; reflexivity|]. split; [vm_compute; reflexivity|]. split; [vm_compute; reflexivity|].
  eexists. vm_compute. reflexivity.
Qed.
