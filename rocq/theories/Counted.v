(** How many vertices the placer is certain to place when each is an application
    vertex of its own that needs little SDRAM. *)
From Coq Require Import List Arith ZArith QArith Bool Lia Permutation Sorted.
From Verif Require Import Base Dict SdramModel SdramProofs SdramBelow PlacementsModel PlacementsProofs PlacerModel PlacerProofs PlacerFinal PlacerFixed PlacerTotal PlacerProps.
Import ListNotations.
Local Open Scope nat_scope.

(** An application vertex whose splitter made one machine vertex; the group's cost is
    that of the vertex (abstract_splitter_common.py, get_same_chip_groups). *)
Definition alone (e : penv) (v : nat) : appv := mkApp None [v] [([v], pe_sdram e v)].

(** A cost without shared parts, of at most so much for the planned timesteps. *)
Definition light (e : penv) (s : Z) (q : sdram) : Prop :=
  plain q /\ exists z, total (pe_steps e) q = Ok z /\ (z <= s)%Z.

(** On this chip the placements made beforehand leave [k] cores, need at most [m] bytes,
    and with [k] vertices of [s] bytes more the chip still has enough. *)
Definition free_chip (e : penv) (l : list placement) (k : nat) (m s : Z) (c : chip) : Prop :=
  length (used_on l c) + k <= length (c_procs c) /\ at_most e (costs_on e l c) m /\
  (m + Z.of_nat k * s <= c_sdram c)%Z.

Lemma fold_light : forall e s l a x, plain a -> total (pe_steps e) a = Ok x -> Forall (light e s) l ->
  exists r y, foldM add a l = Ok r /\ plain r /\ total (pe_steps e) r = Ok y /\
    (y <= x + Z.of_nat (length l) * s)%Z.
Proof.
  intros e s. induction l as [|q l IH]; intros a x P T F; cbn [foldM length].
  - exists a, x. repeat (split; [assumption||reflexivity|]). lia.
  - inversion F as [|? ? (PQ & z & TZ & LZ) F2]; subst.
    destruct (add_plain a q P PQ) as (c & E & PC & _).
    destruct (total_bounds a q c (pe_steps e) x z P PQ E T TZ) as (w & TW & B & _).
    rewrite E. cbn [bind]. destruct (IH c w PC TW F2) as (r & y & R1 & R2 & R3 & R4).
    exists r, y. repeat (split; [assumption|]). rewrite Nat2Z.inj_succ. lia.
Qed.

Lemma sum_plain : forall l r, Forall plain l -> sum l = Ok r -> plain r.
Proof.
  unfold sum. intros l r F. assert (P : plain (Const 0)) by exact I. revert F P. generalize (Const 0).
  induction l as [|q l IH]; intros a F P E; cbn [foldM] in E; [injection E as <-; exact P|].
  inversion F as [|? ? PQ F2]; subst. destruct (add_plain a q P PQ) as (c & EC & PC & _).
  rewrite EC in E. cbn [bind] in E. exact (IH c F2 PC E).
Qed.

(** If each of the chips has at least [k] of the placements, there are [k] for each. *)
Lemma spread : forall (cs : list xy) (m : list placement) k, NoDup cs ->
  (forall c, In c cs -> k <= length (filter (on c) m)) -> k * length cs <= length m.
Proof.
  induction cs as [|c cs IH]; intros m k ND H; cbn [length]; [lia|].
  inversion ND as [|? ? NI ND2]; subst.
  specialize (IH (filter (fun pl => negb (on c pl)) m) k ND2).
  assert (L : length (filter (on c) m) + length (filter (fun pl => negb (on c pl)) m) = length m).
  { clear. induction m as [|a m IH]; cbn [filter length]; [reflexivity|]. destruct (on c a); cbn [negb length]; lia. }
  assert (X : k * length cs <= length (filter (fun pl => negb (on c pl)) m)).
  { apply IH. intros d D. specialize (H d (or_intror D)).
    replace (filter (on d) (filter (fun pl => negb (on c pl)) m)) with (filter (on d) m); [exact H|].
    assert (CD : c <> d) by (intros ->; contradiction). clear - CD.
    induction m as [|a m IH]; cbn [filter]; [reflexivity|]. destruct (on d a) eqn:A.
    - destruct (on c a) eqn:B; cbn [negb filter].
      + unfold on in A, B. apply xy_eqb_spec in A, B. congruence.
      + rewrite A, IH. reflexivity.
    - destruct (negb (on c a)); cbn [filter]; rewrite ?A; exact IH. }
  specialize (H c (or_introl eq_refl)). lia.
Qed.

Section Light.
Variable e : penv.
Variable sys : placements.
Variable l : list placement.
Hypothesis W : wf_machine e.
Hypothesis SO : set_ok e.
Hypothesis MADE : made l sys.
Hypothesis LO : links_ok e.
Hypothesis PA : placable e l.
Variables (k : nat) (m s : Z).
Hypothesis K : chip_cores e = Z.of_nat k.
Hypothesis K1 : 1 <= k.
Hypothesis S0 : (0 <= s)%Z.
Hypothesis LI : forall v, light e s (pe_sdram e v) /\ parts_nonneg (pe_steps e) (pe_sdram e v).
Hypothesis CAP : (m + (Z.of_nat k - 1) * s <= given_up e)%Z.
Hypothesis BIG : (s <= chip_sdram e)%Z.
Variable cs : list xy.
Hypothesis ND : NoDup cs.
Hypothesis CS : forall x y, In (x, y) cs -> exists c, chip_at e x y c /\ free_chip e l k m s c.

Lemma light_coh : coh e.
Proof.
  apply fit_coh. split.
  - intro v. destruct (LI v) as ((P & z & T & _) & _). split; [now apply plain_wf|eauto].
  - intros v v' a x y I1. destruct (LI v) as ((P & _) & _). rewrite (plain_shared _ P) in I1. destruct I1.
Qed.

Lemma light_placed : forall vs, NoDup vs ->
  (forall v, In v vs -> pe_virtual e v = false /\ pe_own_loc e v = None /\ pe_app_loc e v = None /\ ~ In v (map pl_v l)) ->
  length vs <= k * length cs -> exists p, place_graph e sys (map (alone e) vs) = Ok p.
Proof.
  induction vs as [|v vs IH] using rev_ind; intros NV HV LE.
  - cbn [map]. unfold place_graph, init_placer. unfold chip_cores in K.
    destruct (Z.eqb_spec (max_cores e) 0) as [E|E]; [unfold max_cores in E; lia|]. eexists. reflexivity.
  - rewrite app_length in LE. cbn [length] in LE. apply NoDup_remove in NV. rewrite app_nil_r in NV. destruct NV as (NV & NI).
    destruct IH as (p & H); [exact NV| |lia|].
    { intros w I. apply HV. rewrite in_app_iff. auto. }
    rewrite map_app. cbn [map]. unfold alone at 2.
    destruct (graph_result e sys l W SO MADE False _ _ H ltac:(intros [])) as (O & F & (F1 & F2 & F3) & R).
    assert (FN : F = []).
    { destruct F as [|pl F]; [reflexivity|]. destruct (F2 pl (or_introl eq_refl)) as (a & A & B & _).
      apply in_map_iff in A. destruct A as (w & <- & I).
      assert (Y : has_fixed e (alone e w) = false); [|congruence]. apply has_fixed_not. split; [reflexivity|].
      intros u [<-|[]]. destruct (HV w) as (_ & X1 & X2 & _); [rewrite in_app_iff; auto|]. auto. }
    subst F. rewrite app_nil_r in R. apply run_ext in R. destruct R as (m0 & E & M0).
    assert (LM : length m0 <= length vs).
    { rewrite <- (map_length pl_v m0). apply NoDup_incl_length.
      - pose proof (ok_vertices _ O) as N. rewrite E, map_app in N. apply NoDup_app_inv in N. apply N.
      - intros w I. apply in_map_iff in I. destruct I as (pl & <- & I). destruct (M0 pl I) as (X & _).
        unfold all_of in X. apply in_flat_map in X. destruct X as (a & A & B). apply in_map_iff in A.
        destruct A as (w & <- & A). cbn in B. destruct B as [<-|[]]. exact A. }
    assert (FC : exists c, In c cs /\ length (filter (on c) m0) < k).
    { destruct (existsb (fun c => length (filter (on c) m0) <? k) cs) eqn:X.
      - apply existsb_exists in X. destruct X as (c & C1 & C2). apply Nat.ltb_lt in C2. eauto.
      - exfalso. assert (Y : k * length cs <= length m0); [|lia]. apply spread; [exact ND|].
        intros c C. destruct (le_lt_dec k (length (filter (on c) m0))) as [?|Y]; [assumption|].
        exfalso. apply not_true_iff_false in X. apply X. apply existsb_exists. exists c. split; [exact C|]. now apply Nat.ltb_lt. }
    destruct FC as ((x, y) & C & LT). destruct (CS x y C) as (c & CA & FR & (r & xr & A1 & A2 & A3) & FS).
    pose proof CA as (_ & _ & MC). destruct (W _ _ MC) as (XY & _).
    destruct (HV v) as (V1 & V2 & V3 & V4); [rewrite in_app_iff; cbn; auto|].
    assert (CO := light_coh). destruct (LI v) as ((PV & zv & TV & LV) & _).
    apply (place_fits e sys l W SO MADE _ p [v] (pe_sdram e v) None [v] c H LO PA).
    + split; [exact CO|]. intro u. apply LI.
    + apply U_from; [exact CO|]. exists v. reflexivity.
    + apply has_fixed_not. split; [reflexivity|]. intros u [<-|[]]. auto.
    + discriminate.
    + constructor; [intros []|constructor].
    + intros u [<-|[]]. split; [exact V1|]. rewrite E, map_app, in_app_iff. intros [X|X]; [now apply V4|].
      apply in_map_iff in X. destruct X as (pl & PV1 & PI). destruct (M0 pl PI) as (X & _).
      unfold all_of in X. apply in_flat_map in X. destruct X as (a & A & B). apply in_map_iff in A.
      destruct A as (w & <- & A). cbn in B. destruct B as [B|[]]. apply NI. congruence.
    + split; [exists zv; split; [exact TV|]; unfold chip_sdram in BIG; unfold max_sdram; lia|].
      cbn [length]. unfold chip_cores in K. unfold max_cores. lia.
    + exact (chip_at_order e x y c CA).
    + assert (US : used_on (abs p) c = used_on l c ++ used_on m0 c).
      { unfold used_on. now rewrite E, filter_app, map_app. }
      assert (LU : length (used_on m0 c) = length (filter (on (x, y)) m0)).
      { unfold used_on. now rewrite map_length, XY. }
      assert (CE : costs_on e (abs p) c = costs_on e l c ++ costs_on e m0 c).
      { unfold costs_on. now rewrite E, filter_app, map_app. }
      assert (LC : length (costs_on e m0 c) = length (filter (on (x, y)) m0)).
      { unfold costs_on. now rewrite map_length, XY. }
      assert (LL : Forall (light e s) (costs_on e m0 c)).
      { apply Forall_forall. intros q Q. apply in_map_iff in Q. destruct Q as (pl & <- & _). apply LI. }
      assert (PR : plain r).
      { apply (sum_plain (costs_on e l c)); [|exact A1]. apply Forall_forall. intros q Q.
        apply in_map_iff in Q. destruct Q as (pl & <- & _). apply (LI (pl_v pl)). }
      change (has_room e (abs p) c 1 (pe_sdram e v)). split; [|split].
      * rewrite US, app_length, LU. lia.
      * destruct (fold_light e s (costs_on e m0 c) r xr PR A2 LL) as (r2 & y2 & B1 & B2 & B3 & B4).
        exists r2, y2. rewrite CE, sum_app, A1. cbn [bind]. split; [exact B1|]. split; [exact B3|].
        rewrite LC in B4. nia.
      * destruct (fold_light e s (costs_on e m0 c ++ [pe_sdram e v]) r xr PR A2) as (r2 & y2 & B1 & B2 & B3 & B4).
        { apply Forall_app. split; [exact LL|]. constructor; [apply LI|constructor]. }
        exists r2, y2. rewrite CE, <- app_assoc, sum_app, A1. cbn [bind]. split; [exact B1|]. split; [exact B3|].
        rewrite app_length, LC in B4. cbn [length] in B4. nia.
Qed.
End Light.
