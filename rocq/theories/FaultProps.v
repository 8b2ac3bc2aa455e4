(** Property C165: machines with faults in one place. *)
From Coq Require Import List Arith NArith ZArith QArith Bool Lia Permutation.
From Verif Require Import Base Dict PlacementsModel PlacementsProofs PlacerModel PlacerProofs PlacerFinal PlacerProps.
From Verif Require Import RouteSpec KeyMask AllocModel AllocProofs TablesModel TablesProofs GenModel GenProofs
  PairModel RangeModel OrderedModel
  TreeModel TreeProofs MachModel LdfModel LdfProofs PathModel PathProofs PathProps
  RPartModel RPartProofs BfsModel BfsProofs TargetsModel TargetsProofs ConvModel ConvProofs RouterModel RouterProofs RouterTables RouterPlan RouterFinal
  RouterSuccess RouterProps ChainModel ChainProofs MapModel MapProofs MapProps WholeProofs WholeMap WholeProps DetourProofs FaultProofs FaultMap.
Import ListNotations.
Local Open Scope Z_scope.

(** C165: the detours that are searched for are shortest ones. *)
Theorem C165_detour : forall m s t path, find_path m s t = Ok path ->
  walk m s path /\ last_xy s path = t /\
  forall w, walk m s w -> last_xy s w = t -> (length path <= length w)%nat.
Proof.
  intros m s t path E. pose proof (find_path_spec m s t) as F. rewrite E in F. destruct F as [F1 F2].
  split; [exact F1|]. split; [exact F2|]. exact (find_path_least m s t path E).
Qed.
Print Assumptions C165_detour.

(** C165: where links work both ways, a path along a vector with the fewest steps of
    which one stretch is broken is repaired whenever the end can be reached at all; the
    result goes over working links only, to the end, and to no chip twice. *)
Theorem C165_gap : forall m v s,
  (forall p l q, is_chip m p = true -> works m p (l, q) -> exists l', works m q (l', p)) ->
  is_chip m s = true ->
  let l := longest_dimension_first m v s in
  is_chip m (last_xy s l) = true ->
  (exists before stretch after, l = before ++ stretch ++ after /\ walk m s before /\
     broken m (last_xy s before) stretch /\ walk m (last_xy s (before ++ stretch)) after) ->
  (forall w, PathProofs.named m s w -> last_xy s w = last_xy s l -> (length l <= length w)%nat) ->
  (exists w, walk m s w /\ last_xy s w = last_xy s l) ->
  exists r, direct_path m v s = Ok r /\ walk m s r /\ last_xy s r = last_xy s l /\ NoDup (s :: map snd r).
Proof. intros m v s BW CS l CE OG SH RE. now apply gap_path. Qed.
Print Assumptions C165_gap.

(** C165: so it is on a machine on which one chip, or links of one chip, are missing. *)
Theorem C165_fault : forall m f a b c s t, fault_at m f ->
  (forall p l q, is_chip m p = true -> works m p (l, q) -> exists l', works m q (l', p)) ->
  is_chip m s = true -> is_chip m t = true ->
  straight m (a, b, c) -> LdfProofs.place m (fst s + a - c, snd s + b - c) = t ->
  (forall a' b' c', LdfProofs.place m (fst s + a' - c', snd s + b' - c') = t ->
     Z.abs a + Z.abs b + Z.abs c <= Z.abs a' + Z.abs b' + Z.abs c') ->
  (exists w, walk m s w /\ last_xy s w = t) ->
  exists l, direct_path m (a, b, c) s = Ok l /\ walk m s l /\ last_xy s l = t /\ NoDup (s :: map snd l).
Proof.
  intros m f a b c s t F BW CS CT ST E FE R. apply (fault_path m f (a, b, c) s t); auto.
  intros a' b' c' E'. apply FE. congruence.
Qed.
Print Assumptions C165_fault.

(** C165: so what the theorems about mapped graphs assume of paths holds on such
    machines. *)
Theorem C165_mapping : forall i f, fault_at (mi_mach i) f ->
  (forall p l q, is_chip (mi_mach i) p = true -> works (mi_mach i) p (l, q) -> exists l', works (mi_mach i) q (l', p)) ->
  is_chip (mi_mach i) (0, 0) = true ->
  (forall c d, PlacerModel.m_chip (pe_machine (mi_env i)) c = Some d -> is_chip (mi_mach i) (zxy c) = true) ->
  (forall a b, PlacerProofs.linked (mi_env i) a b -> PlacerModel.m_chip (pe_machine (mi_env i)) b <> None ->
     exists l, works (mi_mach i) (zxy a) (l, zxy b)) ->
  (forall p q, is_chip (mi_mach i) p = true -> is_chip (mi_mach i) q = true ->
     straight (mi_mach i) (mi_vec i p q) /\ fewest (mi_mach i) p (mi_vec i p q) /\
     let '(x, y, z) := mi_vec i p q in LdfProofs.place (mi_mach i) (fst p + x - z, snd p + y - z) = q) ->
  (forall l, Permutation (mi_order i l) l) ->
  machines_ok i.
Proof. exact fault_machines. Qed.
Print Assumptions C165_mapping.

(** * Examples *)
(** Without wraps a vector without opposing steps has the fewest. *)
Lemma small_fewest : forall m p q, m_wrap_x m = false -> m_wrap_y m = false -> inside m p -> inside m q ->
  straight m (small_vec p q) /\ fewest m p (small_vec p q) /\
  let '(x, y, z) := small_vec p q in LdfProofs.place m (fst p + x - z, snd p + y - z) = q.
Proof.
  intros m p q WX WY [P1 P2] [Q1 Q2].
  assert (PL : forall u, LdfProofs.place m u = u) by (intros [u v]; unfold LdfProofs.place, wrap; rewrite WX, WY; reflexivity).
  split; [apply minimal_straight; lia|]. unfold small_vec. split.
  - intros x y z E. rewrite !PL in E. injection E as E1 E2.
    apply (C164_minimal (MachModel.mkMachine (m_width m) (m_height m) false false [] []) (fst q - fst p) (snd q - snd p)); cbn; unfold med in *; lia.
  - rewrite PL. destruct q. cbn [fst snd]. f_equal; lia.
Qed.

(** A machine of any size without one of its chips. *)
Definition holed (w h : nat) (f : xy) : MachModel.machine :=
  let cs := filter (fun p => negb (xy_eqb p f)) (square w h) in
  let bare := MachModel.mkMachine (Z.of_nat w) (Z.of_nat h) false false cs [] in
  MachModel.mkMachine (Z.of_nat w) (Z.of_nat h) false false cs
    (filter (fun pl => is_chip bare (over_link bare (fst pl) (snd pl))) (list_prod cs (seq 0 6))).

Lemma holed_chip : forall w h f p, is_chip (holed w h f) p = true <-> inside (holed w h f) p /\ p <> f.
Proof.
  intros w h f p. unfold is_chip. rewrite xy_in_spec. cbn [holed m_chips]. rewrite filter_In, square_In.
  rewrite negb_true_iff. split; intros [A B]; (split; [exact A|]).
  - intros E. apply xy_eqb_eq in E. congruence.
  - destruct (xy_eqb p f) eqn:E; [|reflexivity]. apply xy_eqb_eq in E. contradiction.
Qed.
Lemma holed_link : forall w h f p l, (l < 6)%nat -> is_chip (holed w h f) p = true -> is_chip (holed w h f) (over_link (holed w h f) p l) = true ->
  is_link (holed w h f) p l = true.
Proof.
  intros w h f p l L P Q. unfold is_link. rewrite P. cbn [andb]. apply existsb_exists. exists (p, l). cbn [fst snd].
  split; [|rewrite (proj2 (xy_eqb_eq p p) eq_refl), Nat.eqb_refl; reflexivity].
  cbn [holed m_links]. apply filter_In. split; [|exact Q]. apply in_prod_iff. split; [|apply in_seq; lia].
  unfold is_chip in P. now apply xy_in_spec in P.
Qed.

Example holed_fault : forall w h f, fault_at (holed w h f) f /\ both_ways (holed w h f).
Proof.
  intros w h f. split; [constructor|].
  - intros p P. now apply holed_chip in P.
  - intros p I N. now apply holed_chip.
  - intros p l L I1 I2 N1 N2. apply holed_link; [exact L| |]; now apply holed_chip.
  - intros p l q P (L & _ & E & Q). cbn [fst snd] in *. exists (opposite l).
    assert (B : over_link (holed w h f) q (opposite l) = p) by (rewrite E; apply over_back; [now apply holed_chip in P|exact L]).
    assert (L' : (opposite l < 6)%nat) by (do 6 (destruct l as [|l]; [cbn; lia|]); cbn; lia).
    split; [exact L'|]. cbn [fst snd]. split; [apply holed_link; [exact L'|exact Q|now rewrite B]|]. split; [now rewrite B|exact P].
Qed.

(** Along a row with a dead chip in the middle, around that chip. *)
Example C165_around : direct_path (holed 5 5 (2, 2)) (4, 0, 0) (0, 2) =
    Ok [(0%nat, (1, 2)); (1%nat, (2, 3)); (0%nat, (3, 3)); (5%nat, (3, 2)); (0%nat, (4, 2))] /\
  exists l, direct_path (holed 5 5 (2, 2)) (4, 0, 0) (0, 2) = Ok l /\ walk (holed 5 5 (2, 2)) (0, 2) l /\
    last_xy (0, 2) l = (4, 2) /\ NoDup ((0, 2) :: map snd l).
Proof.
  split; [vm_compute; reflexivity|].
  destruct (holed_fault 5 5 (2, 2)) as [F B].
  destruct (small_fewest (holed 5 5 (2, 2)) (0, 2) (4, 2) eq_refl eq_refl) as (S1 & S2 & S3); [unfold inside; cbn; lia | unfold inside; cbn; lia|].
  apply (C165_fault _ (2, 2) 4 0 0 (0, 2) (4, 2) F B); try reflexivity; auto.
  exists [(0%nat, (1, 2)); (1%nat, (2, 3)); (0%nat, (3, 3)); (5%nat, (3, 2)); (0%nat, (4, 2))].
  split; [|reflexivity]. vm_compute. repeat split; lia.
Qed.

(** The detour goes back along the path that came to it, and the loop is taken out:
    behind the chip (2, 0) there is no way on but from (1, 0). *)
Definition dead_end : MachModel.machine := MachModel.mkMachine 5 2 false false
  [(0,0);(1,0);(2,0);(1,1);(2,1);(3,1);(4,1);(3,0);(4,0)]
  [((0,0),0%nat);((1,0),3%nat);((1,0),0%nat);((2,0),3%nat);((1,0),2%nat);((1,1),5%nat);((1,1),0%nat);((2,1),3%nat);
   ((2,1),0%nat);((3,1),3%nat);((3,1),5%nat);((3,0),2%nat);((3,0),0%nat);((4,0),3%nat)].
Example C165_dead_end :
  repaired dead_end (0, 0) (longest_dimension_first dead_end (4, 0, 0) (0, 0)) =
    Ok [(0%nat, (1,0)); (0%nat, (2,0)); (3%nat, (1,0)); (2%nat, (1,1)); (0%nat, (2,1)); (0%nat, (3,1)); (5%nat, (3,0)); (0%nat, (4,0))] /\
  exists l, direct_path dead_end (4, 0, 0) (0, 0) = Ok l /\ walk dead_end (0, 0) l /\ last_xy (0, 0) l = (4, 0) /\ NoDup ((0, 0) :: map snd l).
Proof.
  split; [vm_compute; reflexivity|].
  apply (C165_gap dead_end (4, 0, 0) (0, 0)).
  - intros p l q _ (L & K & E & Q). cbn [fst snd] in *. subst q. unfold is_link in K. apply andb_true_iff in K. destruct K as [_ K].
    apply existsb_exists in K. destruct K as ([p' l'] & I & K). cbn [fst snd] in K. apply andb_true_iff in K. destruct K as [K1 K2].
    apply xy_eqb_eq in K1. apply Nat.eqb_eq in K2. subst p' l'. cbn [dead_end m_links In] in I.
    repeat (destruct I as [I|I]; [injection I as <- <-;
      ((exists 0%nat; vm_compute; repeat split; lia) || (exists 2%nat; vm_compute; repeat split; lia) ||
       (exists 3%nat; vm_compute; repeat split; lia) || (exists 5%nat; vm_compute; repeat split; lia))|]). destruct I.
  - reflexivity.
  - reflexivity.
  - exists [(0%nat, (1,0)); (0%nat, (2,0))], [(0%nat, (3,0))], [(0%nat, (4,0))]. split; [reflexivity|]. split; [vm_compute; repeat split; lia|].
    split; [split; [|exact I]|vm_compute; repeat split; lia]. intros (_ & K & _). vm_compute in K. discriminate K.
  - intros w N E. apply fewest_steps; auto; [unfold inside; cbn; lia|].
    destruct (small_fewest dead_end (0, 0) (4, 0) eq_refl eq_refl) as (_ & S & _); [unfold inside; cbn; lia | unfold inside; cbn; lia|]. exact S.
  - exists [(0%nat, (1,0)); (2%nat, (1,1)); (0%nat, (2,1)); (0%nat, (3,1)); (5%nat, (3,0)); (0%nat, (4,0))].
    split; [|reflexivity]. vm_compute. repeat split; lia.
Qed.

(** The mapping of MapProps on four chips, the link between two of which is dead. *)
Definition lame : MachModel.machine := MachModel.mkMachine 2 2 false false (square 2 2)
  [((0,0),0%nat);((1,0),3%nat);((0,0),2%nat);((0,1),5%nat);((1,0),2%nat);((1,1),5%nat);((0,1),0%nat);((1,1),3%nat)].
Definition lqx : mapin := mkMapIn xenv xsys qx_av qx_app (mi_dev qx) (mi_out qx) (mi_in qx) lame small_vec (fun l => l).
Example C165_machines : machines_ok lqx.
Proof.
  assert (CH : forall p, is_chip lame p = true <-> inside lame p).
  { intros p. unfold is_chip. rewrite xy_in_spec. exact (square_In 2 2 p). }
  assert (ALL : forall p, inside lame p -> p = (0,0) \/ p = (0,1) \/ p = (1,0) \/ p = (1,1)).
  { intros [x y] [X Y]. cbn in X, Y. assert (x = 0 \/ x = 1) by lia. assert (y = 0 \/ y = 1) by lia.
    destruct H, H0; subst; tauto. }
  apply (C165_mapping lqx (0, 0)).
  - constructor; [intros p; apply CH | intros p I _; now apply CH|].
    intros p l L I1 I2 N1 N2. apply ALL in I1. apply ALL in I2.
    destruct I1 as [->|[->|[->| ->]]]; [contradiction|..]; do 6 (destruct l as [|l]; [try reflexivity; exfalso; vm_compute in I2, N2; intuition discriminate|]); lia.
  - intros p l q _ (L & K & E & Q). cbn [fst snd] in *. subst q. unfold is_link in K. apply andb_true_iff in K. destruct K as [_ K].
    apply existsb_exists in K. destruct K as ([p' l'] & I & K). cbn [fst snd] in K. apply andb_true_iff in K. destruct K as [K1 K2].
    apply xy_eqb_eq in K1. apply Nat.eqb_eq in K2. subst p' l'. cbn [lqx mi_mach lame m_links In] in I.
    repeat (destruct I as [I|I]; [injection I as <- <-;
      ((exists 0%nat; vm_compute; repeat split; lia) || (exists 2%nat; vm_compute; repeat split; lia) ||
       (exists 3%nat; vm_compute; repeat split; lia) || (exists 5%nat; vm_compute; repeat split; lia))|]). destruct I.
  - reflexivity.
  - intros c d C. apply CH. cbn in C. destruct c as [x y]. destruct x as [|[|x]], y as [|[|y]]; try discriminate C; unfold inside; cbn; lia.
  - intros a b L _. apply xlinked in L. cbn [In] in L.
    decompose [or] L; clear L; try contradiction; match goal with H : _ = (a, b) |- _ => injection H as <- <- end;
      ((exists 0%nat; vm_compute; repeat split; lia) || (exists 2%nat; vm_compute; repeat split; lia) ||
       (exists 3%nat; vm_compute; repeat split; lia) || (exists 5%nat; vm_compute; repeat split; lia)).
  - intros p q P Q. apply CH in P. apply CH in Q. now apply small_fewest.
  - intros l. apply Permutation_refl.
Qed.
