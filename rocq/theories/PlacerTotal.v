(** The searches of the placer end: the loops of the model never run out of fuel,
    whatever the machine and the graph. *)
From Coq Require Import List Arith ZArith QArith Bool Lia.
From Verif Require Import Base Ends Dict PlacementsModel SdramModel PlacerModel.
Import ListNotations.
Local Open Scope nat_scope.

(** ** SDRAM *)
Lemma total_ends : forall t s, ends (total t s).
Proof.
  intros t. fix IH 1. intros [z|f p|sh core|u]; cbn [total].
  - discriminate.
  - clear IH. destruct t; [discriminate|]. destruct (Qeq_bool p 0); discriminate.
  - apply ends_bind; [apply IH|]. intros r _.
    revert sh r. fix IL 1. intros [|[k x] sh] r; [discriminate|].
    apply ends_bind; [apply IH|]. intros y _. apply IL.
  - apply IH.
Qed.

Lemma merge_shared_ends : forall b a, ends (merge_shared a b).
Proof.
  induction b as [|[k v] b IH]; intros a; cbn [merge_shared]; [discriminate|].
  destruct (dget Nat.eqb a k); [|apply IH]. destruct (eq v s); [apply IH|discriminate].
Qed.

Definition swaps (a b : sdram) : nat :=
  match a, b with
  | Const _, Const _ => 0
  | Const _, _ => 1
  | Var _ _, Const _ | Var _ _, Var _ _ => 0
  | Var _ _, _ => 1
  | Shared _ _, Multi _ => 1
  | _, _ => 0
  end.
Lemma swaps_le : forall a b, swaps a b <= 1.
Proof. intros [| | |] [| | |]; cbn; lia. Qed.
Lemma weight_pos : forall a, 1 <= weight a.
Proof. destruct a; cbn; lia. Qed.

Lemma add_fuel_ends : forall fuel a b,
  2 * (weight a + weight b) + swaps a b < fuel + 4 -> ends (add_fuel fuel a b).
Proof.
  induction fuel as [|n IH]; intros a b H.
  - pose proof (weight_pos a). pose proof (weight_pos b). lia.
  - destruct a as [x|f p|sh c|u]; destruct b as [y|g q|sh' c'|u']; cbn [add_fuel weight swaps] in *;
      try discriminate.
    all: try (apply IH; cbn [weight swaps]; lia).
    + apply ends_bind; [|discriminate]. apply IH. cbn [weight]. pose proof (swaps_le c (Const y)). lia.
    + apply ends_bind; [|discriminate]. apply IH. cbn [weight]. pose proof (swaps_le c (Var g q)). lia.
    + apply ends_bind; [apply merge_shared_ends|]. intros m _.
      apply ends_bind; [|discriminate]. apply IH. pose proof (swaps_le c c'). lia.
    + apply IH. cbn [weight]. pose proof (swaps_le u (Const y)). lia.
    + apply IH. cbn [weight]. pose proof (swaps_le u (Var g q)). lia.
    + apply IH. cbn [weight]. pose proof (swaps_le u (Shared sh' c')). cbn [weight]. lia.
    + apply IH. cbn [weight]. pose proof (swaps_le u (Multi u')). cbn [weight]. lia.
Qed.

Lemma add_ends : forall a b, ends (add a b).
Proof. intros a b. unfold add. apply add_fuel_ends. pose proof (swaps_le a b). lia. Qed.

(** ** Steps without loops *)
Lemma add_placement_ends : forall p pl, ends (lift_add (add_placement p pl)).
Proof.
  intros p pl. unfold add_placement.
  destruct (match dget xy_eqb (ps_chips p) (pl_x pl, pl_y pl) with
            | Some d => dmem Nat.eqb d (pl_p pl) | None => false end); [discriminate|].
  destruct (dmem Nat.eqb (ps_verts p) (pl_v pl)); [discriminate|].
  destruct (touch (pl_x pl, pl_y pl) p). discriminate.
Qed.
Lemma add_placements_ends : forall l p, ends (lift_add (add_placements p l)).
Proof.
  induction l as [|pl l IH]; intros p; cbn [add_placements]; [discriminate|].
  pose proof (add_placement_ends p pl) as H. destruct (add_placement p pl) as [p' [u|x]]; [apply IH|exact H].
Qed.

Lemma remove_core_ends : forall p l, ends (remove_core p l).
Proof.
  intros p l. induction l as [|q r IH]; cbn [remove_core]; [discriminate|].
  destruct (Nat.eqb q p); [discriminate|]. apply ends_bind; [auto|discriminate].
Qed.

Lemma filter_vertices_ends : forall e p vs, ends (filter_vertices e p vs).
Proof. intros. unfold filter_vertices. apply ends_match; discriminate. Qed.

Lemma add_neighbours_ends : forall e s c, ends (add_neighbours e s c).
Proof.
  intros e s c. apply ends_foldM. intros s' d _. unfold add_neighbour.
  destruct (m_chip (pe_machine e) d); [|discriminate]. repeat apply ends_match; discriminate.
Qed.

Lemma space_on_chip_ends : forall e s c n q, ends (space_on_chip e s c n q).
Proof.
  intros e s c n q. unfold space_on_chip. destruct (on_chip (s_pls s) (c_xy c)) as [p' pls].
  apply ends_match; [discriminate|]. apply ends_bind.
  { apply ends_foldM. intros [f u] pl _. unfold take_core. apply ends_bind; [apply remove_core_ends|].
    intros f' _. apply ends_bind; [apply add_ends|]. discriminate. }
  intros [free used] _. apply ends_bind; [apply total_ends|]. intros plan _.
  apply ends_match; [discriminate|]. apply ends_bind; [apply add_ends|]. intros both _.
  apply ends_bind; [apply total_ends|]. intros plan2 _. apply ends_match.
  - apply ends_bind; [|discriminate]. unfold check_could_fit. apply ends_bind; [apply total_ends|].
    intros. apply ends_match; discriminate.
  - apply ends_bind; [apply add_neighbours_ends|discriminate].
Qed.

(** ** What the steps do to the starts and the neighbours *)
Lemma add_neighbours_starts : forall e ds s s',
  foldM (add_neighbour e) s ds = Ok s' -> s_rest s' = s_rest s /\ s_chips s' = s_chips s.
Proof.
  intros e ds. induction ds as [|d ds IH]; intros s s' H; cbn [foldM] in H; [injection H as <-; auto|].
  apply bind_Ok_inv in H. destruct H as [s1 [H1 H2]]. apply IH in H2. destruct H2 as [-> ->].
  unfold add_neighbour in H1. destruct (m_chip (pe_machine e) d); [|discriminate].
  destruct (chip_mem c (s_full s) || chip_mem c (s_prep s))%bool; [injection H1 as <-; auto|].
  destruct (xy_eqb (c_eth c) (s_eth s)); injection H1 as <-; auto.
Qed.

Lemma space_on_chip_starts : forall e s c n q s' ok, space_on_chip e s c n q = Ok (s', ok) ->
  s_rest s' = s_rest s /\ s_chips s' = s_chips s /\
  (ok = false -> s_same s' = s_same s /\ s_other s' = s_other s).
Proof.
  intros e s c n q s' ok H. unfold space_on_chip in H.
  destruct (on_chip (s_pls s) (c_xy c)) as [p' pls].
  destruct (Nat.eqb (length pls) (length (c_procs c))).
  { injection H as <- <-. auto. }
  apply bind_Ok_inv in H. destruct H as [[free used] [_ H]].
  apply bind_Ok_inv in H. destruct H as [plan [_ H]].
  destruct (Z.ltb (cap_sdram e) plan). { injection H as <- <-. auto. }
  apply bind_Ok_inv in H. destruct H as [both [_ H]].
  apply bind_Ok_inv in H. destruct H as [plan2 [_ H]].
  destruct (Nat.ltb (length free) n || Z.ltb (c_sdram c) plan2)%bool.
  - apply bind_Ok_inv in H. destruct H as [u [_ H]]. injection H as <- <-. auto.
  - apply bind_Ok_inv in H. destruct H as [s1 [H1 H]]. injection H as <- <-.
    apply add_neighbours_starts in H1. destruct H1 as [-> ->]. split; auto. split; auto. discriminate.
Qed.

Lemma pop_until_length : forall full l c r, pop_until full l = Some (c, r) -> length r < length l.
Proof.
  intros full l. induction l as [|d l IH]; intros c r H; cbn [pop_until] in H; [discriminate|].
  destruct (chip_mem d full); [apply IH in H; cbn [length]; lia|]. injection H as <- <-. cbn [length]. lia.
Qed.

Definition starts (s : st) : nat := length (s_rest s) + length (s_chips s).

Lemma pop_start_starts : forall s s' c, pop_start s = Ok (s', c) -> starts s' < starts s.
Proof.
  intros s s' c H. unfold pop_start in H. unfold starts.
  destruct (pop_until (s_full s) (s_rest s)) as [[d r]|] eqn:E.
  - injection H as <- <-. cbn. apply pop_until_length in E. lia.
  - destruct (pop_until (s_full s) (s_chips s)) as [[d r]|] eqn:E2; [|discriminate].
    injection H as <- <-. cbn. apply pop_until_length in E2. lia.
Qed.
Lemma pop_start_ends : forall s, ends (pop_start s).
Proof.
  intros s. unfold pop_start. destruct (pop_until (s_full s) (s_rest s)) as [[d r]|]; [discriminate|].
  destruct (pop_until (s_full s) (s_chips s)) as [[d r]|]; discriminate.
Qed.

(** ** The loops *)
Lemma start_loop_ends : forall fuel e s n q, starts s < fuel -> ends (start_loop fuel e s n q).
Proof.
  induction fuel as [|k IH]; intros e s n q L; [lia|]. cbn [start_loop].
  apply ends_bind; [apply pop_start_ends|]. intros [s1 c] H1. apply pop_start_starts in H1.
  apply ends_bind; [apply space_on_chip_ends|]. intros [s2 ok] H2.
  destruct ok; [discriminate|]. apply IH.
  apply space_on_chip_starts in H2. destruct H2 as [R [C _]]. unfold starts in *. rewrite R, C. cbn. lia.
Qed.
Lemma start_loop_starts : forall fuel e s n q s' c, start_loop fuel e s n q = Ok (s', c) ->
  starts s' < starts s.
Proof.
  induction fuel as [|k IH]; intros e s n q s' c H; cbn [start_loop] in H; [discriminate|].
  apply bind_Ok_inv in H. destruct H as [[s1 d] [H1 H]]. apply pop_start_starts in H1.
  apply bind_Ok_inv in H. destruct H as [[s2 ok] [H2 H]].
  apply space_on_chip_starts in H2. destruct H2 as [R [C _]].
  assert (L : starts s2 < starts s) by (unfold starts in *; rewrite R, C; cbn; lia).
  destruct ok; [injection H as <- <-; auto|]. apply IH in H. lia.
Qed.
Lemma get_next_start_ends : forall e s n q, ends (get_next_start e s n q).
Proof. intros. unfold get_next_start. apply start_loop_ends. unfold starts. cbn. lia. Qed.

Definition around (s : st) : nat := length (s_same s) + length (s_other s).
Lemma pop_neighbour_around : forall s s' c, pop_neighbour s = (s', Some c) ->
  around s' < around s /\ starts s' = starts s.
Proof.
  intros s s' c H. unfold pop_neighbour in H. unfold around, starts. destruct (s_same s) as [|d r] eqn:E1.
  - destruct (s_other s) as [|d r] eqn:E2; [discriminate|]. injection H as <- <-. cbn. split; auto.
    clear. induction r as [|x r IH]; cbn [filter length]; [lia|].
    destruct (xy_eqb (c_eth x) (c_eth d)); cbn [negb length]; lia.
  - injection H as <- <-. cbn. split; [lia|auto].
Qed.
Lemma neighbour_loop_ends : forall fuel e s n q, around s < fuel -> ends (neighbour_loop fuel e s n q).
Proof.
  induction fuel as [|k IH]; intros e s n q L; [lia|]. cbn [neighbour_loop].
  destruct (pop_neighbour s) as [s1 [c|]] eqn:E; [|discriminate].
  apply pop_neighbour_around in E. destruct E as [E _].
  apply ends_bind; [apply space_on_chip_ends|]. intros [s2 ok] H2. destruct ok; [discriminate|].
  apply space_on_chip_starts in H2. destruct H2 as [_ [_ H2]]. destruct (H2 eq_refl) as [E1 E2].
  apply IH. unfold around in *. rewrite E1, E2. lia.
Qed.
Lemma neighbour_loop_starts : forall fuel e s n q s' c, neighbour_loop fuel e s n q = Ok (s', c) ->
  starts s' = starts s.
Proof.
  induction fuel as [|k IH]; intros e s n q s' c H; cbn [neighbour_loop] in H; [discriminate|].
  destruct (pop_neighbour s) as [s1 [d|]] eqn:E.
  - apply pop_neighbour_around in E. destruct E as [_ E].
    apply bind_Ok_inv in H. destruct H as [[s2 ok] [H2 H]].
    apply space_on_chip_starts in H2. destruct H2 as [R [C _]].
    assert (L : starts s2 = starts s) by (unfold starts in *; rewrite R, C; auto).
    destruct ok; [injection H as <- <-; auto|]. apply IH in H. lia.
  - injection H as <- <-. unfold pop_neighbour in E.
    destruct (s_same s); [|discriminate]. destruct (s_other s); [|discriminate]. injection E as <-. auto.
Qed.

Lemma next_chip_ends : forall e s n q, ends (next_chip e s n q).
Proof.
  intros e s n q. unfold next_chip. destruct (s_cur s) as [c|].
  - apply ends_bind; [apply add_ends|]. intros both _. apply ends_bind; [apply total_ends|]. intros plan _.
    apply ends_match; [discriminate|]. apply neighbour_loop_ends. unfold around. lia.
  - apply ends_bind; [apply get_next_start_ends|]. intros [s' c] _. discriminate.
Qed.
Lemma next_chip_starts : forall e s n q s' c, next_chip e s n q = Ok (s', c) ->
  starts s' <= starts s /\ (s_cur s = None -> starts s' < starts s /\ c <> None).
Proof.
  intros e s n q s' c H. unfold next_chip in H. destruct (s_cur s) as [d|] eqn:E.
  - apply bind_Ok_inv in H. destruct H as [both [_ H]].
    apply bind_Ok_inv in H. destruct H as [plan [_ H]].
    destruct (Nat.leb n (length (s_free s)) && Z.leb plan (c_sdram d))%bool.
    + injection H as <- <-. split; [unfold starts; cbn; lia|discriminate].
    + apply neighbour_loop_starts in H. split; [lia|discriminate].
  - apply bind_Ok_inv in H. destruct H as [[s1 d] [H1 H]]. injection H as <- <-.
    unfold get_next_start in H1. apply start_loop_starts in H1. unfold starts in *. cbn in H1.
    split; [lia|]. intros _. split; [lia|discriminate].
Qed.

Lemma take_cores_ends : forall c vs free, ends (take_cores c free vs).
Proof.
  intros c vs. induction vs as [|v vs IH]; intros [|p free]; cbn [take_cores]; try discriminate.
  apply ends_bind; [apply IH|]. intros [f l] _. discriminate.
Qed.

Lemma prepare_loop_ends : forall e gs s made, ends (prepare_loop e s made gs).
Proof.
  intros e gs. induction gs as [|[vs q] gs IH]; intros s made; cbn [prepare_loop]; [discriminate|].
  apply ends_bind; [apply filter_vertices_ends|]. intros [|v todo] _; [apply IH|].
  apply ends_bind; [apply next_chip_ends|]. intros [s1 [c|]] _; [|discriminate].
  apply ends_bind; [apply take_cores_ends|]. intros [free l] _. apply IH.
Qed.
(** A try that fails has used up a start. *)
Lemma prepare_loop_starts : forall e gs s made s' r, prepare_loop e s made gs = Ok (s', r) ->
  starts s' <= starts s /\ (s_cur s = None -> r = None -> starts s' < starts s).
Proof.
  intros e gs. induction gs as [|[vs q] gs IH]; intros s made s' r H; cbn [prepare_loop] in H.
  - injection H as <- <-. split; [lia|discriminate].
  - apply bind_Ok_inv in H. destruct H as [todo [_ H]].
    destruct todo as [|v todo]; [apply IH in H; exact H|].
    apply bind_Ok_inv in H. destruct H as [[s1 c] [H1 H]]. apply next_chip_starts in H1.
    destruct H1 as [L1 L2]. destruct c as [c|].
    + apply bind_Ok_inv in H. destruct H as [[free l] [_ H]]. apply IH in H. destruct H as [H _].
      unfold starts in *. cbn in H. split; [lia|]. intros E _. apply L2 in E. lia.
    + injection H as <- <-. split; [lia|]. intros E. apply L2 in E. tauto.
Qed.

Lemma place_loop_ends : forall fuel e s gs, starts s < fuel -> ends (place_loop fuel e s gs).
Proof.
  induction fuel as [|k IH]; intros e s gs L; [lia|]. cbn [place_loop].
  unfold prepare. apply ends_bind; [apply prepare_loop_ends|]. intros [s' r] H.
  destruct r as [l|]; [discriminate|]. apply prepare_loop_starts in H. destruct H as [_ H].
  apply IH. specialize (H eq_refl eq_refl). unfold starts in *. cbn in H. lia.
Qed.

Lemma place_vertex_ends : forall e s a, ends (place_vertex e s a).
Proof.
  intros e s a. unfold place_vertex. destruct (a_groups a) as [|g gs]; [discriminate|].
  apply ends_bind; [apply place_loop_ends; unfold starts; lia|]. intros [s' l] _.
  apply ends_bind; [apply add_placements_ends|discriminate].
Qed.

Lemma do_fixed_ends : forall e p vs, ends (do_fixed e p vs).
Proof.
  intros e p vs. unfold do_fixed. destruct (first_fixed e vs) as [[[x y] o]|]; [|discriminate].
  destruct (m_chip (pe_machine e) (x, y)) as [c|]; [|discriminate].
  destruct (on_chip p (x, y)) as [p' pls]. apply ends_bind.
  - apply ends_foldM. intros [p1 it] v _. unfold fixed_core.
    destruct (get_fixed e v) as [[[x1 y1] [r|]]|]; try discriminate.
    destruct (it_find r it); [|discriminate]. apply ends_bind; [apply add_placement_ends|discriminate].
  - intros [p1 it] _. apply ends_bind; [|intros [p2 it2] _; discriminate].
    apply ends_foldM. intros [p2 it2] v _. unfold free_core.
    destruct (get_fixed e v) as [[[x1 y1] [r|]]|]; try discriminate;
      (destruct it2; [discriminate|]; apply ends_bind; [apply add_placement_ends|discriminate]).
Qed.

Lemma place_graph_ends : forall e sys apps, place_graph e sys apps <> Err OutOfFuel.
Proof.
  intros e sys apps. change (ends (place_graph e sys apps)). unfold place_graph.
  apply ends_bind; [unfold init_placer; apply ends_match; discriminate|]. intros s _.
  apply ends_bind.
  - apply ends_foldM. intros s' a _. unfold fixed_step. apply ends_match; [|discriminate].
    unfold place_fixed. destruct (a_groups a); [discriminate|].
    apply ends_bind; [|discriminate]. apply ends_foldM. intros p' g _. unfold fixed_group.
    apply ends_bind; [apply filter_vertices_ends|]. intros. apply do_fixed_ends.
  - intros s' _. apply ends_bind; [|discriminate]. apply ends_foldM. intros. apply place_vertex_ends.
Qed.
