(** Property C182: boards bounded along the diagonals. *)
From Coq Require Import List Arith NArith ZArith QArith Bool Lia Permutation.
From Verif Require Import Base Dict PlacementsModel PlacementsProofs PlacerModel PlacerProofs PlacerFinal PlacerProps.
From Verif Require Import RouteSpec KeyMask AllocModel AllocProofs TablesModel TablesProofs GenModel GenProofs
  PairModel RangeModel OrderedModel
  TreeModel TreeProofs MachModel LdfModel LdfProofs PathModel PathProofs PathProps
  RPartModel RPartProofs BfsModel BfsProofs TargetsModel TargetsProofs ConvModel ConvProofs RouterModel RouterProofs RouterTables RouterPlan RouterFinal
  RouterSuccess RouterProps ChainModel ChainProofs MapModel MapProofs MapProps WholeProofs WholeMap WholeProps DetourProofs FaultProofs HexProofs.
Import ListNotations.
Local Open Scope Z_scope.

(** C182: on a board without wraps whose chips are those of the rectangle between two
    diagonals ([f] is none of them, so nothing is missing), the path along a vector of
    which no two steps can be replaced by fewer does not leave the board: it is used as
    it is, goes over working links only, comes to no chip twice and has as many steps as
    the vector. *)
Theorem C182_path : forall m lo hi f x y z s t, board m lo hi f -> ~ on_board m lo hi f ->
  on_board m lo hi s -> on_board m lo hi t ->
  x * y <= 0 -> x * z <= 0 -> y * z <= 0 -> (fst s + x - z, snd s + y - z) = t ->
  let l := longest_dimension_first m (x, y, z) s in
  direct_path m (x, y, z) s = Ok l /\ walk m s l /\ NoDup (s :: map snd l) /\ last_xy s l = t /\
  Z.of_nat (length l) = Z.abs x + Z.abs y + Z.abs z.
Proof. intros m lo hi f x y z s t B N S0 T0 A C D E. apply (board_path m lo hi f x y z s t B N S0 T0); [split; auto|exact E]. Qed.
Print Assumptions C182_path.

(** C182: with the chip [f] missing, or links from or to it, all chips that can be
    reached are, over working links only and to no chip twice. *)
Theorem C182_fault : forall m lo hi f x y z s t, board m lo hi f ->
  (forall p l q, is_chip m p = true -> works m p (l, q) -> exists l', works m q (l', p)) ->
  is_chip m s = true -> is_chip m t = true ->
  x * y <= 0 -> x * z <= 0 -> y * z <= 0 -> (fst s + x - z, snd s + y - z) = t ->
  (exists w, walk m s w /\ last_xy s w = t) ->
  exists l, direct_path m (x, y, z) s = Ok l /\ walk m s l /\ last_xy s l = t /\ NoDup (s :: map snd l).
Proof. intros m lo hi f x y z s t B BW CS CT A C D E R. apply (board_fault_path m lo hi f x y z s t); auto. split; auto. Qed.
Print Assumptions C182_fault.

(** C182: without a fault any chip can be reached from any other. *)
Theorem C182_connected : forall m lo hi f, board m lo hi f -> ~ on_board m lo hi f -> connected m.
Proof.
  intros m lo hi f B N p q P Q. apply (bo_on _ _ _ _ B) in P, Q.
  set (a := fst q - fst p). set (b := snd q - snd p).
  assert (M : minimal (a - med a b, b - med a b, - med a b)).
  { unfold minimal. assert (C : 0 <= a /\ 0 <= b /\ med a b = Z.min a b \/ a <= 0 /\ b <= 0 /\ med a b = Z.max a b \/
              (a <= 0 <= b \/ b <= 0 <= a) /\ med a b = 0) by (unfold med; lia).
    remember (med a b) as c eqn:E. clear E. destruct C as [(M1 & M2 & ->)|[(M1 & M2 & ->)|(M1 & ->)]]; [| |nia].
    - destruct (Z.min_spec a b) as [[L ->]|[L ->]]; (split; [nia|]); split; nia.
    - destruct (Z.max_spec a b) as [[L ->]|[L ->]]; (split; [nia|]); split; nia. }
  destruct (board_path m lo hi f _ _ _ p q B N P Q M) as (_ & W & _ & L & _); [|eauto].
  unfold a, b. destruct q. cbn [fst snd]. f_equal; lia.
Qed.
Print Assumptions C182_connected.

(** C182: so what the theorems about mapped graphs assume of paths holds on such
    boards. *)
Theorem C182_mapping : forall i lo hi f, board (mi_mach i) lo hi f ->
  (forall p l q, is_chip (mi_mach i) p = true -> works (mi_mach i) p (l, q) -> exists l', works (mi_mach i) q (l', p)) ->
  is_chip (mi_mach i) (0, 0) = true ->
  (forall c d, PlacerModel.m_chip (pe_machine (mi_env i)) c = Some d -> is_chip (mi_mach i) (zxy c) = true) ->
  (forall a b, PlacerProofs.linked (mi_env i) a b -> PlacerModel.m_chip (pe_machine (mi_env i)) b <> None ->
     exists l, works (mi_mach i) (zxy a) (l, zxy b)) ->
  (forall p q, is_chip (mi_mach i) p = true -> is_chip (mi_mach i) q = true ->
     let '(x, y, z) := mi_vec i p q in
     x * y <= 0 /\ x * z <= 0 /\ y * z <= 0 /\ (fst p + x - z, snd p + y - z) = q) ->
  (forall l, Permutation (mi_order i l) l) ->
  machines_ok i.
Proof.
  intros i lo hi f B BW C0 CH LK VE OR. constructor; auto.
  - intros p P. now apply (bo_on _ _ _ _ B).
  - intros p q P Q. specialize (VE p q P Q). destruct (mi_vec i p q) as [[x y] z]. destruct VE as (_ & _ & _ & E).
    rewrite place_flat; [exact E|apply (bo_x _ _ _ _ B)|apply (bo_y _ _ _ _ B)].
  - intros p q l P Q R. specialize (VE p q P Q). apply (board_no_return (mi_mach i) lo hi f (mi_vec i p q) p q l B BW P Q); [| |exact R];
      destruct (mi_vec i p q) as [[x y] z]; destruct VE as (V1 & V2 & V3 & V4); [split; auto|exact V4].
Qed.
Print Assumptions C182_mapping.

(** * Examples *)
(** The chips of a rectangle between two diagonals, without some of them, and the links
    between those that are there. *)
Definition hex (w h : nat) (lo hi : Z) (dead : list xy) : MachModel.machine :=
  let cs := filter (fun p => (lo <=? fst p - snd p) && (fst p - snd p <=? hi) && negb (xy_in p dead)) (square w h) in
  let bare := MachModel.mkMachine (Z.of_nat w) (Z.of_nat h) false false cs [] in
  MachModel.mkMachine (Z.of_nat w) (Z.of_nat h) false false cs
    (filter (fun pl => is_chip bare (over_link bare (fst pl) (snd pl))) (list_prod cs (seq 0 6))).

(** The board of 48 chips, whole and with a dead chip in the middle. *)
Definition spin5 : MachModel.machine := hex 8 8 (-3) 4 [].
Definition spin5_holed : MachModel.machine := hex 8 8 (-3) 4 [(4, 4)].

Lemma hex_chip : forall w h lo hi dead p, is_chip (hex w h lo hi dead) p = true <->
  on_board (hex w h lo hi dead) lo hi p /\ ~ In p dead.
Proof.
  intros w h lo hi dead p. unfold is_chip. rewrite xy_in_spec. cbn [hex m_chips]. rewrite filter_In, square_In.
  rewrite !andb_true_iff, negb_true_iff, !Z.leb_le. unfold on_board, inside. cbn [m_width m_height hex]. split.
  - intros (A & B & C). split; [split; [exact A|exact B]|]. intros X. apply xy_in_spec in X. congruence.
  - intros ((A & B) & C). split; [exact A|]. split; [exact B|]. destruct (xy_in p dead) eqn:E; [|reflexivity]. apply xy_in_spec in E. contradiction.
Qed.
Lemma hex_link : forall w h lo hi dead p l, (l < 6)%nat -> is_chip (hex w h lo hi dead) p = true ->
  is_chip (hex w h lo hi dead) (over_link (hex w h lo hi dead) p l) = true -> is_link (hex w h lo hi dead) p l = true.
Proof.
  intros w h lo hi dead p l L P Q. unfold is_link. rewrite P. cbn [andb]. apply existsb_exists. exists (p, l). cbn [fst snd].
  split; [|rewrite (proj2 (xy_eqb_eq p p) eq_refl), Nat.eqb_refl; reflexivity].
  cbn [hex m_links]. apply filter_In. split; [|exact Q]. apply in_prod_iff. split; [|apply in_seq; lia].
  unfold is_chip in P. now apply xy_in_spec in P.
Qed.
Example hex_board : forall w h lo hi f, board (hex w h lo hi [f]) lo hi f /\ both_ways (hex w h lo hi [f]).
Proof.
  intros w h lo hi f. split; [constructor; try reflexivity|].
  - intros p P. apply hex_chip in P. apply P.
  - intros p O N. apply hex_chip. split; [exact O|]. intros [X|[]]. congruence.
  - intros p l L O1 O2 N1 N2. apply hex_link; [exact L| |]; apply hex_chip; (split; [assumption|]); intros [X|[]]; congruence.
  - intros p l q P (L & _ & E & Q). cbn [fst snd] in *. exists (opposite l).
    assert (B : over_link (hex w h lo hi [f]) q (opposite l) = p) by (rewrite E; apply over_back; [apply hex_chip in P; apply P|exact L]).
    assert (L' : (opposite l < 6)%nat) by (do 6 (destruct l as [|l]; [cbn; lia|]); cbn; lia).
    split; [exact L'|]. cbn [fst snd]. split; [apply hex_link; [exact L'|exact Q|now rewrite B]|]. split; [now rewrite B|exact P].
Qed.
(** A board of which no chip is missing. *)
Example hex_whole : forall w h lo hi, board (hex w h lo hi []) lo hi (-1, -1) /\ ~ on_board (hex w h lo hi []) lo hi (-1, -1).
Proof.
  intros w h lo hi. split.
  - constructor; try reflexivity.
    + intros p P. apply hex_chip in P. apply P.
    + intros p O N. apply hex_chip. split; [exact O|]. intros [].
    + intros p l L O1 O2 N1 N2. apply hex_link; [exact L| |]; apply hex_chip; (split; [assumption|]); intros [].
  - intros [[A _] _]. cbn in A. lia.
Qed.

(** The board has 48 chips. From the corner (0, 3) to the corner (7, 7) the longer part,
    along the diagonal, comes first; three steps to the east first would also stay on
    the board, but the way along the sides of the rectangle would not: (0, 4) is not
    there. With (4, 4) dead the path goes around it. *)
Example C182_example :
  length (m_chips spin5) = 48%nat /\ is_chip spin5 (0, 4) = false /\
  direct_path spin5 (3, 0, -4) (0, 3) =
    Ok [(1%nat, (1, 4)); (1%nat, (2, 5)); (1%nat, (3, 6)); (1%nat, (4, 7)); (0%nat, (5, 7)); (0%nat, (6, 7)); (0%nat, (7, 7))] /\
  direct_path spin5_holed (0, 0, -7) (0, 0) =
    Ok [(1%nat, (1, 1)); (1%nat, (2, 2)); (1%nat, (3, 3)); (0%nat, (4, 3)); (1%nat, (5, 4)); (2%nat, (5, 5)); (1%nat, (6, 6)); (1%nat, (7, 7))].
Proof. vm_compute. intuition reflexivity. Qed.

(** The mapping of MapProps in the corner of the board of 48 chips. *)
Definition hqx : mapin := mkMapIn xenv xsys qx_av qx_app (mi_dev qx) (mi_out qx) (mi_in qx) spin5_holed small_vec (fun l => l).
Example C182_machines : machines_ok hqx.
Proof.
  destruct (hex_board 8 8 (-3) 4 (4, 4)) as [B BW]. apply (C182_mapping hqx (-3) 4 (4, 4)); [exact B|exact BW|reflexivity| | | |].
  - intros c d C. cbn in C. destruct c as [x y]. destruct x as [|[|x]], y as [|[|y]]; try discriminate C; reflexivity.
  - intros a b L _. apply xlinked in L. cbn [In] in L.
    decompose [or] L; clear L; try contradiction; match goal with H : _ = (a, b) |- _ => injection H as <- <- end;
      (exists 0%nat; split; [cbn; lia|]; split; [reflexivity|split; reflexivity]) || (exists 2%nat; split; [cbn; lia|]; split; [reflexivity|split; reflexivity]) ||
      (exists 3%nat; split; [cbn; lia|]; split; [reflexivity|split; reflexivity]) || (exists 5%nat; split; [cbn; lia|]; split; [reflexivity|split; reflexivity]).
  - intros p q _ _. cbn [mi_vec hqx]. unfold small_vec.
    set (a := fst q - fst p). set (b := snd q - snd p).
    assert (C : 0 <= a /\ 0 <= b /\ med a b = Z.min a b \/ a <= 0 /\ b <= 0 /\ med a b = Z.max a b \/
              (a <= 0 <= b \/ b <= 0 <= a) /\ med a b = 0) by (unfold med; lia).
    assert (E : (fst p + (a - med a b) - - med a b, snd p + (b - med a b) - - med a b) = q)
      by (unfold a, b; destruct q; cbn [fst snd]; f_equal; lia).
    remember (med a b) as c eqn:EC. clear EC. destruct C as [(M1 & M2 & ->)|[(M1 & M2 & ->)|(M1 & ->)]].
    + destruct (Z.min_spec a b) as [[L R]|[L R]]; rewrite R in *; (split; [nia|]); (split; [nia|]); (split; [nia|exact E]).
    + destruct (Z.max_spec a b) as [[L R]|[L R]]; rewrite R in *; (split; [nia|]); (split; [nia|]); (split; [nia|exact E]).
    + (split; [nia|]); (split; [nia|]); (split; [nia|exact E]).
  - intros l. apply Permutation_refl.
Qed.
