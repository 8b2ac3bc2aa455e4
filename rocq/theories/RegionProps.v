(** Properties C41 and C60: region costs and totals of MultiRegionSDRAM. *)
From Coq Require Import List Arith ZArith QArith Qround Bool Lia.
From Verif Require Import Base Dict SdramModel SdramProofs RegionModel RegionProofs.
Import ListNotations.
Local Open Scope nat_scope.

(** C41 for every history in which an object that was nested or merged into
    another is left alone afterwards: nothing raises, the regions of an object add
    up to its total, the total is everything it was charged, and each region is
    everything charged to that region. *)
Theorem C41_regions_sum : forall ops, linear 0 [] ops ->
  exists h, run ops = Ok h /\ length h = made ops /\
    forall i, i < made ops -> ~ In i (given ops) ->
      fixed (tot (ob h i)) = fixed_sum (regions_of h i) /\
      (per_timestep (tot (ob h i)) == per_sum (regions_of h i))%Q /\
      fixed (tot (ob h i)) = fixed_sum (charged ops i) /\
      (per_timestep (tot (ob h i)) == per_sum (charged ops i))%Q /\
      (forall t, total t (Multi (tot (ob h i))) = cost t (fixed_sum (charged ops i)) (per_sum (charged ops i))) /\
      (forall k s, dget Nat.eqb (regions_of h i) k = Some s ->
         fixed s = fixed_sum (in_region k (charged ops i)) /\
         (per_timestep s == per_sum (in_region k (charged ops i)))%Q) /\
      (forall k, dget Nat.eqb (regions_of h i) k = None ->
         fixed_sum (in_region k (charged ops i)) = 0%Z /\ (per_sum (in_region k (charged ops i)) == 0)%Q).
Proof. exact region_costs. Qed.

(** C41: a cost added to a region is charged rounded up to whole bytes, the fixed
    part and the part per timestep each by less than one, so that it is covered
    for any number of timesteps. *)
Theorem C41_cost_rounded : forall k f p, exists h (s : sdram),
  run [New; AddCost 0 k f p] = Ok h /\ regions_of h 0 = [(k, s)] /\
  (f <= inject_Z (fixed s) < f + 1)%Q /\
  (exists z, (per_timestep s == inject_Z z)%Q) /\ (p <= per_timestep s < p + 1)%Q /\
  fixed (tot (ob h 0)) = fixed s /\ (per_timestep (tot (ob h 0)) == per_timestep s)%Q /\
  forall n, (0 <= n)%Z -> exists b, total (Some n) s = Ok b /\ (f + p * inject_Z n <= inject_Z b)%Q.
Proof.
  intros k f p. assert (C : forall q, (q <= inject_Z (Qceiling q) < q + 1)%Q).
  { intros q. split; [apply Qle_ceiling|]. pose proof (Qceiling_lt q) as L.
    apply (Qplus_lt_l _ _ (-1)). setoid_replace (q + 1 + -1)%Q with q by ring. unfold Z.sub in L. rewrite inject_Z_plus in L. exact L. }
  unfold run. cbn [foldM step bind]. unfold add_cost, cost_of.
  destruct (Qeq_bool p 0) eqn:P; do 2 eexists; (split; [reflexivity|]); (split; [reflexivity|]); cbn [fixed per_timestep].
  - apply Qeq_bool_iff in P. split; [exact (C f)|]. split; [exists 0%Z; reflexivity|]. split; [rewrite P; split; [apply Qle_refl | reflexivity]|].
    split; [reflexivity|]. split; [reflexivity|]. intros n N. exists (Qceiling f). split; [reflexivity|]. rewrite P.
    setoid_replace (f + 0 * inject_Z n)%Q with f by ring. apply C.
  - split; [exact (C f)|]. split; [exists (Qceiling p); reflexivity|]. split; [exact (C p)|].
    split; [cbn [fixed tot ob nth upd Datatypes.app]; apply Z.add_0_r|]. split; [reflexivity|]. intros n N. eexists. split; [reflexivity|].
    eapply Qle_trans; [|apply Qle_ceiling]. apply Qplus_le_compat; [apply C|]. apply Qmult_le_compat_r; [apply C|].
    unfold Qle. cbn. lia.
Qed.
Example ex_cost : exists h, run [New; AddCost 0 3 (7 # 2) (1 # 3)] = Ok h /\ regions_of h 0 = [(3, Var 4 1)].
Proof. eexists. split; reflexivity. Qed.

(** C60 is false.  Object 2 is nested in both 0 and 1 under region 7; then
    nesting object 3 in region 7 of object 0 merges it into object 2 itself, so the
    region costs of object 1 grow while its total does not. *)
Definition shared_nesting : list op :=
  [New; New; New; New; AddCost 2 1 100 0; AddCost 3 1 5 0;
   NestR 0 7 2; NestR 1 7 2; NestR 0 7 3].
Theorem C60_shared_nesting_refuted : exists h,
  run shared_nesting = Ok h /\
  fixed (tot (ob h 1)) = 100%Z /\ fixed_sum (regions_of h 1) = 105%Z /\
  fixed (tot (ob h 0)) = 105%Z /\ fixed_sum (regions_of h 0) = 105%Z.
Proof. eexists. vm_compute. repeat (split; [reflexivity|]). reflexivity. Qed.

(** The same happens when a cost is added to an object after it was nested. *)
Theorem C60_late_cost_refuted : exists h,
  run [New; New; AddCost 1 1 100 0; NestR 0 7 1; AddCost 1 1 5 0] = Ok h /\
  fixed (tot (ob h 0)) = 100%Z /\ fixed_sum (regions_of h 0) = 105%Z.
Proof. eexists. vm_compute. repeat (split; [reflexivity|]). reflexivity. Qed.

Definition linear_ops : list op :=
  [New; New; New; New;
   AddCost 0 1 10 2; AddCost 0 1 5 0; AddCost 0 2 (7 # 2) (1 # 2);
   AddCost 1 1 100 0; NestR 0 2 1; AddCost 2 2 20 1; AddCost 2 4 30 0; NestR 0 2 2;
   NestV 3 2 (Var 1 (1 # 3)); Merge 3 0; AddCost 3 5 1000 0].
Example C41_ex : linear 0 [] linear_ops /\ given linear_ops = [1; 2; 0] /\
  exists h, run linear_ops = Ok h /\
    map (fun ks => (fst ks, fixed (snd ks))) (regions_of h 3) = [(2, 155%Z); (1, 15%Z); (5, 1000%Z)] /\
    fixed (tot (ob h 3)) = 1170%Z.
Proof.
  split; [cbn; intuition lia|]. split; [reflexivity|].
  eexists. vm_compute. repeat (split; [reflexivity|]). reflexivity.
Qed.

Print Assumptions C41_regions_sum.
Print Assumptions C41_cost_rounded.
Print Assumptions C60_shared_nesting_refuted.
Print Assumptions C60_late_cost_refuted.
