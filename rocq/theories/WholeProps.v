(** Property C164: machines without faults. *)
From Coq Require Import List Arith NArith ZArith QArith Bool Lia Permutation.
From Verif Require Import Base Dict PlacementsModel PlacementsProofs PlacerModel PlacerProofs PlacerFinal PlacerProps.
From Verif Require Import RouteSpec KeyMask AllocModel AllocProofs TablesModel TablesProofs GenModel GenProofs
  PairModel RangeModel OrderedModel
  TreeModel TreeProofs MachModel LdfModel LdfProofs PathModel PathProofs PathProps
  RPartModel RPartProofs BfsModel BfsProofs TargetsModel TargetsProofs ConvModel ConvProofs RouterModel RouterProofs RouterTables RouterPlan RouterFinal
  RouterSuccess RouterProps ChainModel ChainProofs MapModel MapProofs MapProps WholeProofs WholeMap.
Import ListNotations.
Local Open Scope Z_scope.

(** C164: on a machine whose chips are all there and whose links all work, with or
    without wraps, the path from one chip to another is the one along the vector as it
    is; it goes over working links only, comes to no chip twice and has as many steps
    as the vector. *)
Theorem C164_path : forall m x y z s t, whole m -> inside m s -> inside m t -> straight m (x, y, z) ->
  LdfProofs.place m (fst s + x - z, snd s + y - z) = t ->
  let l := longest_dimension_first m (x, y, z) s in
  direct_path m (x, y, z) s = Ok l /\ walk m s l /\ NoDup (s :: map snd l) /\ last_xy s l = t /\
  Z.of_nat (length l) = Z.abs x + Z.abs y + Z.abs z.
Proof. exact whole_path. Qed.
Print Assumptions C164_path.

(** C164: the vectors with the fewest steps over differences smaller than the machine
    are such vectors: those from which the median of the two differences and 0 is taken
    off. *)
Theorem C164_minimal : forall m a b, Z.abs a < m_width m -> Z.abs b < m_height m ->
  let c := Z.max (Z.min a b) (Z.min 0 (Z.max a b)) in
  straight m (a - c, b - c, - c) /\
  forall x y z, x - z = a -> y - z = b -> Z.abs (a - c) + Z.abs (b - c) + Z.abs (- c) <= Z.abs x + Z.abs y + Z.abs z.
Proof.
  intros m a b A B c. split; [now apply minimal_straight|]. intros x y z X Y. lia.
Qed.
Print Assumptions C164_minimal.

Theorem C164_connected : forall m, whole m -> connected m.
Proof. exact whole_connected. Qed.
Print Assumptions C164_connected.

(** C164: so what the theorems about mapped graphs assume of paths ([machines_ok])
    holds on such machines. *)
Theorem C164_mapping : forall i, whole (mi_mach i) -> 0 < m_width (mi_mach i) -> 0 < m_height (mi_mach i) ->
  (forall c d, PlacerModel.m_chip (pe_machine (mi_env i)) c = Some d -> inside (mi_mach i) (zxy c)) ->
  (forall a b, PlacerProofs.linked (mi_env i) a b -> PlacerModel.m_chip (pe_machine (mi_env i)) b <> None ->
     exists l, (l < 6)%nat /\ over_link (mi_mach i) (zxy a) l = zxy b) ->
  (forall p q, inside (mi_mach i) p -> inside (mi_mach i) q ->
     straight (mi_mach i) (mi_vec i p q) /\
     let '(x, y, z) := mi_vec i p q in LdfProofs.place (mi_mach i) (fst p + x - z, snd p + y - z) = q) ->
  (forall l, Permutation (mi_order i l) l) ->
  machines_ok i.
Proof. exact whole_machines. Qed.
Print Assumptions C164_mapping.

(** * Examples *)
(** A machine of any size, with or without wraps. *)
Definition square (w h : nat) : list xy := list_prod (map Z.of_nat (seq 0 w)) (map Z.of_nat (seq 0 h)).
Definition full (w h : nat) (wx wy : bool) : MachModel.machine :=
  let bare := MachModel.mkMachine (Z.of_nat w) (Z.of_nat h) wx wy (square w h) [] in
  MachModel.mkMachine (Z.of_nat w) (Z.of_nat h) wx wy (square w h)
    (filter (fun pl => is_chip bare (over_link bare (fst pl) (snd pl))) (list_prod (square w h) (seq 0 6))).

Lemma square_In : forall w h p, In p (square w h) <-> 0 <= fst p < Z.of_nat w /\ 0 <= snd p < Z.of_nat h.
Proof.
  intros w h [x y]. unfold square. rewrite in_prod_iff, !in_map_iff. cbn [fst snd]. split.
  - intros [(a & <- & A) (b & <- & B)]. apply in_seq in A. apply in_seq in B. lia.
  - intros [A B]. split; [exists (Z.to_nat x) | exists (Z.to_nat y)]; (split; [lia|]); apply in_seq; lia.
Qed.

Example full_whole : forall w h wx wy, whole (full w h wx wy).
Proof.
  intros w h wx wy.
  assert (C : forall p, is_chip (full w h wx wy) p = true <-> inside (full w h wx wy) p).
  { intros p. unfold is_chip. rewrite xy_in_spec. apply square_In. }
  split; [exact C|]. intros p l L P Q. unfold is_link. rewrite (proj2 (C p) P). cbn [andb].
  apply existsb_exists. exists (p, l). cbn [fst snd]. split; [|rewrite (proj2 (xy_eqb_eq p p) eq_refl), Nat.eqb_refl; reflexivity].
  cbn [full m_links]. apply filter_In. split.
  - apply in_prod_iff. split; [now apply square_In|]. apply in_seq. lia.
  - cbn [fst snd]. apply C in Q. exact Q.
Qed.

(** From (10, 11) to (1, 2) on a torus of 12 by 12: along the diagonal over the corner,
    and not back. *)
Example C164_torus : straight (full 12 12 true true) (0, 0, -3) /\
  direct_path (full 12 12 true true) (0, 0, -3) (10, 11) = Ok [(1%nat, (11, 0)); (1%nat, (0, 1)); (1%nat, (1, 2))].
Proof.
  split; [unfold straight; cbn; lia|].
  destruct (C164_path (full 12 12 true true) 0 0 (-3) (10, 11) (1, 2) (full_whole _ _ _ _)) as (E & _);
    [unfold inside; cbn; lia | unfold inside; cbn; lia | unfold straight; cbn; lia | reflexivity|].
  rewrite E. vm_compute. reflexivity.
Qed.

(** The mapping of MapProps on four chips with diagonal links. *)
Definition small_vec (p q : xy) : Z * Z * Z :=
  let a := fst q - fst p in let b := snd q - snd p in (a - med a b, b - med a b, - med a b).
Definition wqx : mapin := mkMapIn xenv xsys qx_av qx_app (mi_dev qx) (mi_out qx) (mi_in qx) (full 2 2 false false) small_vec (fun l => l).
Example C164_machines : machines_ok wqx.
Proof.
  apply C164_mapping; [apply full_whole | reflexivity | reflexivity | | | |].
  - intros c d C. cbn in C. destruct c as [x y]. destruct x as [|[|x]], y as [|[|y]]; try discriminate C; unfold inside; cbn; lia.
  - intros a b L _. apply xlinked in L. cbn [In] in L.
    decompose [or] L; clear L; try contradiction; match goal with H : _ = (a, b) |- _ => injection H as <- <- end;
      (exists 0%nat; split; [lia|reflexivity]) || (exists 2%nat; split; [lia|reflexivity]) ||
      (exists 3%nat; split; [lia|reflexivity]) || (exists 5%nat; split; [lia|reflexivity]).
  - intros p q [P1 P2] [Q1 Q2]. unfold wqx, small_vec. cbn [mi_vec mi_mach] in *. split.
    + apply minimal_straight; cbn in *; lia.
    + unfold LdfProofs.place, wrap, full. cbn [m_wrap_x m_wrap_y fst snd]. destruct q. cbn [fst snd]. f_equal; lia.
  - intros l. apply Permutation_refl.
Qed.
