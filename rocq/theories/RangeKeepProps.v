(** Property C199: the range compressor and tables that fit. *)
From Coq Require Import List Arith NArith ZArith Bool Lia.
From Verif Require Import Base Dict RouteSpec TablesModel RangeModel ChainModel ChainProofs.
Import ListNotations.
Local Open Scope nat_scope.

(** Unless all tables are to be compressed as far as possible, those with fewer entries
    than their router has place for keep them. *)
Theorem C199_smaller_partial : forall target accept_overflow ts out,
  range_compressor false target accept_overflow ts = Ok out ->
  Forall2 (fun t t' => t_x t' = t_x t /\ t_y t' = t_y t /\
    (length (t_entries t) < target (t_x t) (t_y t) -> t_entries t' = t_entries t)) ts out.
Proof.
  intros target ao ts out H. unfold range_compressor in H.
  assert (G : forall ts done out,
    foldM (fun done t =>
      let* new := range_compress (length (t_entries t)) false (target (t_x t) (t_y t)) (t_entries t) in
      if Nat.ltb (target (t_x t) (t_y t)) (length new) && negb ao then Err MinimisationFailed
      else add_table done (mkTable (t_x t) (t_y t) new (length (filter e_def new)))) done ts = Ok out ->
    exists tl, out = done ++ tl /\ Forall2 (fun t t' => t_x t' = t_x t /\ t_y t' = t_y t /\
      (length (t_entries t) < target (t_x t) (t_y t) -> t_entries t' = t_entries t)) ts tl).
  { clear. induction ts as [|t ts IH]; intros done out H; cbn [foldM] in H.
    - injection H as <-. exists []. rewrite app_nil_r. auto.
    - destruct (range_compress (length (t_entries t)) false (target (t_x t) (t_y t)) (t_entries t)) as [new|x] eqn:R; cbn [bind] in H; [|discriminate].
      destruct (Nat.ltb (target (t_x t) (t_y t)) (length new) && negb ao); cbn [bind] in H; [discriminate|].
      unfold add_table in H. cbn [t_x t_y] in H.
      destruct (existsb _ done); cbn [bind] in H; [discriminate|].
      destruct (IH _ _ H) as (tl & -> & F). eexists (_ :: tl). rewrite <- app_assoc. split; [reflexivity|]. constructor; [|exact F].
      cbn [t_x t_y t_entries]. split; [reflexivity|]. split; [reflexivity|]. intro L. unfold range_compress in R.
      apply Nat.ltb_lt in L. rewrite L in R. cbn in R. congruence. }
  destruct (G ts [] out H) as (tl & -> & F). exact F.
Qed.
Print Assumptions C199_smaller_partial.

(** Four entries in a router with place for four become one. *)
Definition c199_table : table :=
  mkTable 0 0 [mkEntry 0 4294967295 1 false; mkEntry 1 4294967295 1 false; mkEntry 2 4294967295 1 false; mkEntry 3 4294967295 1 false]%N 0.
Theorem C199_exact_size_refuted : exists target t out,
  length (t_entries t) <= target (t_x t) (t_y t) /\
  range_compressor false target true [t] = Ok [out] /\ t_entries out <> t_entries t.
Proof.
  exists (fun _ _ => 4), c199_table, (mkTable 0 0 [mkEntry 0 4294967292 1 false]%N 0). split; [cbn; lia|].
  split; [vm_compute; reflexivity|discriminate].
Qed.
Print Assumptions C199_exact_size_refuted.
Example C199_ex : range_compressor false (fun _ _ => 5) true [c199_table] = Ok [c199_table].
Proof. vm_compute. reflexivity. Qed.
