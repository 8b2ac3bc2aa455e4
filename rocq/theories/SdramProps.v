(** Properties C39, C40 and C43: SDRAM sums, shared SDRAM and the chip counter. *)
From Coq Require Import List ZArith QArith Qround Bool Permutation.
From Verif Require Import Base Dict SdramModel SdramProofs.
Import ListNotations.
Local Open Scope Z_scope.

(** C39: constant, variable and multi-region SDRAM can always be added; fixed and
    per-timestep costs add exactly, and the total is that of the added costs. *)
Theorem C39_parts_add : forall a b, plain a -> plain b ->
  exists c, add a b = Ok c /\ fixed c = fixed a + fixed b /\
            (per_timestep c == per_timestep a + per_timestep b)%Q /\
            forall t, total t c = cost t (fixed a + fixed b) (per_timestep a + per_timestep b).
Proof. exact sum_parts. Qed.

(** C39: when the per-timestep costs are whole numbers, totals add exactly, for
    every number of timesteps (and for running forever). *)
Theorem C39_totals_add : forall a b c t x y i j, plain a -> plain b -> add a b = Ok c ->
  (per_timestep a == inject_Z i)%Q -> (per_timestep b == inject_Z j)%Q ->
  total t a = Ok x -> total t b = Ok y -> total t c = Ok (x + y).
Proof. exact total_integral. Qed.

(** C39: for fractional costs the total of the sum is never more than the sum of
    the totals, and at most one byte less. *)
Theorem C39_totals_within_one : forall a b c t x y, plain a -> plain b -> add a b = Ok c ->
  total t a = Ok x -> total t b = Ok y -> exists z, total t c = Ok z /\ z <= x + y <= z + 1.
Proof. exact total_bounds. Qed.

Theorem C39_commutative : forall a b c d t, plain a -> plain b ->
  add a b = Ok c -> add b a = Ok d -> total t c = total t d.
Proof. exact add_comm_total. Qed.

Theorem C39_associative : forall a b c ab bc l r t, plain a -> plain b -> plain c ->
  add a b = Ok ab -> add ab c = Ok l -> add b c = Ok bc -> add a bc = Ok r ->
  total t l = total t r.
Proof. exact add_assoc_total. Qed.

(** C39: values that compare equal have equal costs and totals, shared SDRAM
    included. *)
Theorem C39_equal_means_equal_totals : forall a b, wf a -> wf b -> eq a b = true ->
  (fixed a = fixed b /\ (per_timestep a == per_timestep b)%Q) /\ forall t, total t a = total t b.
Proof. exact eq_total. Qed.

(** C58 is false: C39 needs whole per-timestep costs: half a byte per timestep each. *)
Theorem C58_fractional_totals_refuted : exists a b c x y z,
  plain a /\ plain b /\ add a b = Ok c /\
  total (Some 1) a = Ok x /\ total (Some 1) b = Ok y /\ total (Some 1) c = Ok z /\ z <> x + y.
Proof.
  exists (Var 0 (1#2)), (Var 0 (1#2)), (Var 0 ((1#2) + (1#2))), 1, 1, 1.
  repeat (split; [vm_compute; exact I || reflexivity|]). vm_compute. discriminate.
Qed.

Example C39_ex :
  add (Multi (Var 10 3)) (Var 5 2) = Ok (Var 15 5) /\ total (Some 4) (Var 15 5) = Ok 35 /\
  total (Some 4) (Multi (Var 10 3)) = Ok 22 /\ total (Some 4) (Var 5 2) = Ok 13 /\
  eq (Var 5 0) (Const 5) = true /\ eq (Const 5) (Var 5 0) = false /\
  eq (Shared [(1%nat, Var 5 0); (2%nat, Const 7)] (Const 1))
     (Shared [(2%nat, Const 7); (1%nat, Const 5)] (Const 1)) = true /\
  total None (Var 5 1) = Err ConfigurationException.
Proof. vm_compute. repeat (split; [reflexivity|]). reflexivity. Qed.

(** C40: if the SDRAM of the vertices of a chip can be summed, the result is the
    cost of all the per-core parts plus the cost of every label exactly once. *)
Theorem C40_counted_once : forall l r, Forall wf l -> sum l = Ok r ->
  exists once, once_of l once /\
    fixed r = core_fixed l + fixed_sum once /\
    forall t, total t r = let* x := cost t (core_fixed l) (core_per l) in totals t once x.
Proof. intros l r W E. pose proof (sum_spec l W) as S. rewrite E in S. exact S. Qed.

(** C40: the order does not matter for the result. *)
Theorem C40_order_irrelevant : forall l l' r r' t, Forall wf l -> Permutation l l' ->
  sum l = Ok r -> sum l' = Ok r' -> total t r = total t r' /\ fixed r = fixed r'.
Proof. exact sum_order. Qed.

(** C40: a sum that succeeds had only consistent costs for each label; the only
    exception is the one for a conflict, and then two items conflict. *)
Theorem C40_consistent : forall l r s s' k v w, Forall wf l -> sum l = Ok r ->
  In s l -> In s' l -> In (k, v) (shared_of s) -> In (k, w) (shared_of s') ->
  fixed v = fixed w /\ (per_timestep v == per_timestep w)%Q.
Proof. exact sum_same_cost. Qed.

Theorem C40_rejected_only_for_conflict : forall l e, Forall wf l -> sum l = Err e ->
  e = ConfigurationException /\
  exists k v w s s', In s l /\ In s' l /\
    In (k, v) (shared_of s) /\ In (k, w) (shared_of s') /\ eq v w = false.
Proof. intros l e W E. pose proof (sum_spec l W) as S. rewrite E in S. exact S. Qed.

(** C59 is false: whether the sum is rejected can depend on the order, since
    equality between SDRAM values is not symmetric. *)
Theorem C59_rejection_order_refuted : exists a b,
  wf a /\ wf b /\ (exists r, sum [a; b] = Ok r) /\ sum [b; a] = Err ConfigurationException.
Proof.
  exists (Shared [(1%nat, Const 5)] (Const 2)), (Shared [(1%nat, Var 5 0)] (Const 3)).
  assert (W : forall v c, plain v -> plain c -> wf (Shared [(1%nat, v)] c)).
  { intros v c Pv Pc. split; [exact Pc|]. split.
    - constructor; [intros [] | constructor].
    - intros k w [E|[]]. injection E as _ <-. exact Pv. }
  split; [apply W; exact I|]. split; [apply W; exact I|].
  split; [eexists; vm_compute; reflexivity | vm_compute; reflexivity].
Qed.

Theorem C59_same_kind_succeeds_partial : forall l l', Forall wf l -> Permutation l l' ->
  (forall s s' k v w, In s l -> In s' l -> In (k, v) (shared_of s) -> In (k, w) (shared_of s') ->
     eq v w = true) ->
  exists r, sum l' = Ok r.
Proof.
  intros l l' W Q C.
  assert (I' : forall s, In s l' -> In s l)
    by (intros s; apply Permutation_in; apply Permutation_sym; exact Q).
  apply sum_succeeds.
  - rewrite Forall_forall in *. auto.
  - intros s s' k v w H1 H2. apply C; auto.
Qed.

Example C40_ex : exists r,
  sum [Shared [(1%nat, Const 100)] (Var 10 2); Const 7;
       Multi (Shared [(1%nat, Const 100); (2%nat, Var 20 1)] (Const 3))] = Ok r /\
  total (Some 5) r = Ok (10 + 2 * 5 + 7 + 3 + 100 + 25).
Proof. eexists. split; vm_compute; reflexivity. Qed.

Example C40_conflict_ex :
  sum [Shared [(1%nat, Const 100)] (Const 0); Shared [(1%nat, Const 101)] (Const 0)]
  = Err ConfigurationException.
Proof. vm_compute. reflexivity. Qed.

(** C43: the count is the number of chips of a packing of the requests, in order,
    into chips within the core and SDRAM limits; each chip but the first was
    started only because its first request did not fit on the chip before. *)
Theorem C43_feasible_and_greedy : forall pc ps l, 1 <= pc -> Forall (fun x => x <= ps) l ->
  exists chips, Z.of_nat (length chips) = cc_chips (count pc ps l) /\ concat chips = l /\
    Forall (fits_chip pc ps) chips /\ Forall (fun ch => ch <> []) chips /\
    forall before c x next after, chips = before ++ c :: (x :: next) :: after ->
      ~ fits_chip pc ps (c ++ [x]).
Proof. exact count_greedy. Qed.

(** No packing of the requests into chips, in the order given, uses fewer chips. *)
Theorem C43_least : forall pc ps l chips, Forall (fun x => 0 <= x) l ->
  concat chips = l ->
  Forall (fun ch => Z.of_nat (length ch) <= pc /\ fold_right Z.add 0 ch <= ps) chips ->
  cc_chips (count pc ps l) <= Z.of_nat (length chips).
Proof. exact count_least. Qed.

Theorem C43_monotone : forall pc ps l x,
  cc_chips (count pc ps l) <= cc_chips (count pc ps (l ++ [x])) <= cc_chips (count pc ps l) + 1.
Proof. exact count_monotone. Qed.

Example C43_ex : map (fun n => cc_chips (count 3 100 (firstn n [40; 50; 20; 90; 5; 5; 100; 1])))
  (seq 0 9) = [0; 1; 1; 2; 3; 3; 3; 4; 5].
Proof. vm_compute. reflexivity. Qed.

Print Assumptions C39_parts_add.
Print Assumptions C39_totals_add.
Print Assumptions C39_totals_within_one.
Print Assumptions C39_commutative.
Print Assumptions C39_associative.
Print Assumptions C39_equal_means_equal_totals.
Print Assumptions C58_fractional_totals_refuted.
Print Assumptions C40_counted_once.
Print Assumptions C40_order_irrelevant.
Print Assumptions C40_consistent.
Print Assumptions C40_rejected_only_for_conflict.
Print Assumptions C59_rejection_order_refuted.
Print Assumptions C59_same_kind_succeeds_partial.
Print Assumptions C43_feasible_and_greedy.
Print Assumptions C43_least.
Print Assumptions C43_monotone.
