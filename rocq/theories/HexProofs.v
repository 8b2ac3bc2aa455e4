(** Boards that are not rectangles: bounded also along the diagonals, as the board of
    48 chips is. *)
From Coq Require Import List ZArith Arith Bool Lia Permutation.
From Verif Require Import Base Dict TreeModel MachModel LdfModel LdfProofs PathModel PathProofs WholeProofs DetourProofs FaultProofs.
Import ListNotations.
Local Open Scope Z_scope.

(** * What is meant *)
(** Between the two diagonals. *)
Definition on_board (m : machine) (lo hi : Z) (p : xy) : Prop :=
  inside m p /\ lo <= fst p - snd p <= hi.

(** There are no wraps; the chips are those between the diagonals, but perhaps for the
    chip [f], and the links between them work, but perhaps for those of [f]. *)
Record board (m : machine) (lo hi : Z) (f : xy) : Prop := mkBoard {
  bo_x : m_wrap_x m = false;
  bo_y : m_wrap_y m = false;
  bo_on : forall p, is_chip m p = true -> on_board m lo hi p;
  bo_chips : forall p, on_board m lo hi p -> p <> f -> is_chip m p = true;
  bo_links : forall p l, (l < 6)%nat -> on_board m lo hi p -> on_board m lo hi (over_link m p l) ->
    p <> f -> over_link m p l <> f -> is_link m p l = true }.

(** A vector of which no two steps can be replaced by one or by none. *)
Definition minimal (v : Z * Z * Z) : Prop :=
  let '(x, y, z) := v in x * y <= 0 /\ x * z <= 0 /\ y * z <= 0.

Lemma opposed : forall a b, a * b <= 0 -> a <= 0 <= b \/ b <= 0 <= a.
Proof. intros a b H. destruct (Z.le_gt_cases a 0), (Z.le_gt_cases b 0); try lia; nia. Qed.

Lemma minimal_zero : forall x y z, minimal (x, y, z) -> x = 0 \/ y = 0 \/ z = 0.
Proof.
  intros x y z (A & B & C). apply opposed in A. apply opposed in B. apply opposed in C. lia.
Qed.

Lemma place_flat : forall m u, m_wrap_x m = false -> m_wrap_y m = false -> place m u = u.
Proof. intros m [a b] X Y. unfold place, wrap. rewrite X, Y. reflexivity. Qed.

Lemma minimal_fewest : forall m s v, m_wrap_x m = false -> m_wrap_y m = false -> minimal v -> fewest m s v.
Proof.
  intros m s [[x y] z] X Y (A & B & C) x' y' z' E. rewrite !place_flat in E by assumption. injection E as E1 E2.
  apply opposed in A. apply opposed in B. apply opposed in C. lia.
Qed.

(** From one chip of the machine to another. *)
Lemma minimal_straight_to : forall m s t x y z, m_wrap_x m = false -> m_wrap_y m = false -> inside m s -> inside m t -> minimal (x, y, z) ->
  (fst s + x - z, snd s + y - z) = t -> straight m (x, y, z).
Proof.
  intros m s t x y z X Y [I1 I2] [J1 J2] M <-. pose proof (minimal_zero x y z M) as Z0. destruct M as (A & B & C). cbn [fst snd] in *.
  unfold straight. split; [exact Z0|]. split; [exact B|]. split; [exact C|].
  apply opposed in A. apply opposed in B. apply opposed in C. lia.
Qed.

(** * The diagonals met by a path *)
Definition diff (p : xy) : Z := fst p - snd p.
Definition climbs (sg : Z) (p : xy) (n : node) : Prop := sg * diff p <= sg * diff (snd n).

Lemma climbs_ends : forall sg l s, chain (climbs sg) s l -> sg * diff s <= sg * diff (last_xy s l).
Proof.
  intros sg l. induction l as [|n l IH]; intros s C; [unfold last_xy; cbn; lia|]. destruct C as [C1 C2].
  rewrite last_cons. specialize (IH _ C2). unfold climbs in C1. lia.
Qed.

Lemma steps_climb : forall m sg n link p, m_wrap_x m = false -> m_wrap_y m = false ->
  0 <= sg * diff (link_vector link) -> chain (climbs sg) p (steps m n link p).
Proof.
  intros m sg n link p X Y H. revert p. induction n as [|n IH]; intros p; [exact I|]. cbn [steps]. split; [|apply IH].
  unfold climbs, over_link, wrap, diff in *. rewrite X, Y. cbn [fst snd]. lia.
Qed.

Lemma vtn_climb : forall m sg dm p, m_wrap_x m = false -> m_wrap_y m = false ->
  (forall d a, In (d, a) dm -> a <> 0 -> 0 <= sg * diff (link_vector (dim_link d a))) ->
  chain (climbs sg) p (vector_to_nodes m dm p).
Proof.
  intros m sg dm p X Y. revert p. induction dm as [|[d a] dm IH]; intros p H; [exact I|]. cbn [vector_to_nodes].
  destruct (Z.eqb_spec a 0) as [E|N]; [apply IH; intros e b I; apply H; now right|].
  apply chain_app. split; [apply steps_climb; auto; apply H; [now left|exact N]|]. apply IH. intros e b I. apply H. now right.
Qed.

Lemma ldf_climb : forall m v p, m_wrap_x m = false -> m_wrap_y m = false -> minimal v ->
  exists sg, (sg = 1 \/ sg = -1) /\ chain (climbs sg) p (longest_dimension_first m v p).
Proof.
  intros m [[x y] z] p X Y (A & _). unfold longest_dimension_first.
  apply opposed in A.
  assert (P : forall d a, In (d, a) (sort_dims [(0%nat, x); (1%nat, y); (2%nat, z)]) -> (d, a) = (0%nat, x) \/ (d, a) = (1%nat, y) \/ (d, a) = (2%nat, z)).
  { intros d a I. apply (Permutation_in _ (sort_perm _)) in I. cbn [In] in I. destruct I as [<-|[<-|[<-|[]]]]; auto. }
  destruct A as [A|A]; [exists (-1) | exists 1]; (split; [lia|]); apply vtn_climb; auto; intros d a I N;
    destruct (P d a I) as [E|[E|E]]; injection E as -> ->; unfold dim_link, diff;
    destruct (Z.ltb_spec 0 x), (Z.ltb_spec 0 y), (Z.ltb_spec 0 z); cbn [link_vector fst snd]; lia.
Qed.

(** So each chip of the path is between the diagonals of its ends. *)
Lemma ldf_between : forall m v s a b, m_wrap_x m = false -> m_wrap_y m = false -> minimal v ->
  longest_dimension_first m v s = a ++ b ->
  between (diff s) (diff (last_xy s (a ++ b))) (diff (last_xy s a)).
Proof.
  intros m v s a b X Y M E. destruct (ldf_climb m v s X Y M) as (sg & G & C). rewrite E in C. apply chain_app in C. destruct C as [C1 C2].
  apply climbs_ends in C1. apply climbs_ends in C2. rewrite last_xy_app. unfold between.
  remember (diff s) as u. remember (diff (last_xy s a)) as w. remember (diff (last_xy (last_xy s a) b)) as k.
  destruct G as [-> | ->]; lia.
Qed.

(** * Paths on such boards *)
Lemma board_steps : forall m lo hi f x y z s t, board m lo hi f -> on_board m lo hi s -> on_board m lo hi t -> minimal (x, y, z) ->
  (fst s + x - z, snd s + y - z) = t ->
  let l := longest_dimension_first m (x, y, z) s in
  last_xy s l = t /\ NoDup (s :: map snd l) /\ Z.of_nat (length l) = Z.abs x + Z.abs y + Z.abs z /\
  forall a n b, l = a ++ n :: b -> last_xy s a <> f -> snd n <> f -> works m (last_xy s a) n.
Proof.
  intros m lo hi f x y z s t B [IS DS] [IT DT] M E l.
  pose proof (bo_x _ _ _ _ B) as X. pose proof (bo_y _ _ _ _ B) as Y.
  pose proof (minimal_straight_to m s t x y z X Y IS IT M E) as ST.
  assert (EP : place m (fst s + x - z, snd s + y - z) = t) by (rewrite place_flat by assumption; exact E).
  destruct (whole_path (healed m) x y z s t (healed_whole m) IS IT ST EP) as (_ & W & ND & L & LN).
  rewrite ldf_healed in W, ND, L, LN. fold l in W, ND, L, LN.
  split; [exact L|]. split; [exact ND|]. split; [exact LN|]. intros p n q EL NP NN.
  assert (D1 : between (diff s) (diff t) (diff (last_xy s p))).
  { rewrite <- L, EL. apply (ldf_between m (x, y, z)); auto. }
  assert (D2 : between (diff s) (diff t) (diff (snd n))).
  { assert (EL' : l = (p ++ [n]) ++ q) by (rewrite EL, <- app_assoc; reflexivity).
    pose proof (ldf_between m (x, y, z) s (p ++ [n]) q X Y M EL') as D.
    assert (EQ : last_xy s (p ++ [n]) = snd n) by (rewrite last_xy_app, last_cons; reflexivity).
    rewrite EQ, <- EL', L in D. exact D. }
  rewrite EL in W. apply walk_app in W. destruct W as [WP [WN _]]. destruct WN as (N1 & _ & N3 & N4).
  assert (IP : inside m (last_xy s p)).
  { apply (wh_chips _ (healed_whole m)). apply walk_chip; [now apply (wh_chips _ (healed_whole m))|exact WP]. }
  assert (IN : inside m (snd n)) by (now apply (wh_chips _ (healed_whole m)) in N4).
  change (over_link (healed m) (last_xy s p) (fst n)) with (over_link m (last_xy s p) (fst n)) in N3.
  assert (OP : on_board m lo hi (last_xy s p)) by (split; [exact IP|]; unfold between, diff in *; lia).
  assert (ON : on_board m lo hi (snd n)) by (split; [exact IN|]; unfold between, diff in *; lia).
  split; [exact N1|]. split; [apply (bo_links m lo hi f B); auto; rewrite <- N3; auto|]. split; [exact N3|].
  now apply (bo_chips m lo hi f B).
Qed.

(** Without a fault the path is used as it is. *)
Lemma board_path : forall m lo hi f x y z s t, board m lo hi f -> ~ on_board m lo hi f ->
  on_board m lo hi s -> on_board m lo hi t -> minimal (x, y, z) -> (fst s + x - z, snd s + y - z) = t ->
  let l := longest_dimension_first m (x, y, z) s in
  direct_path m (x, y, z) s = Ok l /\ walk m s l /\ NoDup (s :: map snd l) /\ last_xy s l = t /\
  Z.of_nat (length l) = Z.abs x + Z.abs y + Z.abs z.
Proof.
  intros m lo hi f x y z s t B NF OS OT M E l.
  destruct (board_steps m lo hi f x y z s t B OS OT M E) as (L & ND & LN & H). fold l in L, ND, LN, H.
  assert (W : walk m s l).
  { assert (G : forall a b, l = a ++ b -> walk m s a).
    { induction a as [|n a IH] using rev_ind; intros b EL; [exact I|].
      rewrite <- app_assoc in EL. specialize (IH _ EL). apply walk_app. split; [exact IH|]. split; [|exact I].
      assert (OA : on_board m lo hi (last_xy s a)).
      { apply (bo_on _ _ _ _ B). apply walk_chip; [apply (bo_chips _ _ _ _ B); [exact OS|]; intros ->; contradiction|exact IH]. }
      assert (EL' : l = (a ++ [n]) ++ b) by (rewrite EL, <- app_assoc; reflexivity).
      apply (H a n b EL); intros Q; apply NF; rewrite <- Q; [exact OA|].
      (* the chip reached is on the board too *)
      pose proof (ldf_between m (x, y, z) s (a ++ [n]) b (bo_x _ _ _ _ B) (bo_y _ _ _ _ B) M EL') as D.
      rewrite <- EL', L in D. rewrite last_xy_app, last_cons in D. change (last_xy (snd n) []) with (snd n) in D.
      split; [|destruct OS, OT; unfold between, diff in *; lia].
      destruct OS as [IS _], OT as [IT _].
      assert (EP : place m (fst s + x - z, snd s + y - z) = t) by (rewrite place_flat; [exact E|apply (bo_x _ _ _ _ B)|apply (bo_y _ _ _ _ B)]).
      pose proof (minimal_straight_to m s t x y z (bo_x _ _ _ _ B) (bo_y _ _ _ _ B) IS IT M E) as ST.
      destruct (whole_path (healed m) x y z s t (healed_whole m) IS IT ST EP) as (_ & W & _).
      rewrite ldf_healed in W. fold l in W. rewrite EL in W. apply walk_app in W. destruct W as [_ [(_ & _ & _ & W) _]].
      now apply (wh_chips _ (healed_whole m)) in W. }
    apply (G l []). now rewrite app_nil_r. }
  split; [now apply direct_faultless|]. auto.
Qed.

Lemma board_gap : forall m lo hi f x y z s t, board m lo hi f -> on_board m lo hi s -> on_board m lo hi t -> minimal (x, y, z) ->
  (fst s + x - z, snd s + y - z) = t ->
  let l := longest_dimension_first m (x, y, z) s in last_xy s l = t /\ one_gap m s l.
Proof.
  intros m lo hi f x y z s t B OS OT M E l. destruct (board_steps m lo hi f x y z s t B OS OT M E) as (L & ND & _ & H).
  split; [exact L|]. now apply (touch_gap m f).
Qed.

Lemma board_fault_path : forall m lo hi f x y z s t, board m lo hi f -> both_ways m -> is_chip m s = true -> is_chip m t = true ->
  minimal (x, y, z) -> (fst s + x - z, snd s + y - z) = t ->
  (exists w, walk m s w /\ last_xy s w = t) ->
  exists l, direct_path m (x, y, z) s = Ok l /\ walk m s l /\ last_xy s l = t /\ NoDup (s :: map snd l).
Proof.
  intros m lo hi f x y z s t B BW CS CT M E R. pose proof (bo_on _ _ _ _ B s CS) as OS. pose proof (bo_on _ _ _ _ B t CT) as OT.
  destruct (board_gap m lo hi f x y z s t B OS OT M E) as [L G].
  rewrite <- L. rewrite <- L in CT, R. apply gap_path; auto. apply fewest_steps; [apply OS|].
  apply minimal_fewest; [apply (bo_x _ _ _ _ B)|apply (bo_y _ _ _ _ B)|exact M].
Qed.

Lemma board_no_return : forall m lo hi f v s t l, board m lo hi f -> both_ways m -> is_chip m s = true -> is_chip m t = true ->
  minimal v -> (let '(x, y, z) := v in (fst s + x - z, snd s + y - z) = t) ->
  repaired m s (longest_dimension_first m v s) = Ok l -> no_return s l.
Proof.
  intros m lo hi f [[x y] z] s t l B BW CS CT M E R. pose proof (bo_on _ _ _ _ B s CS) as OS. pose proof (bo_on _ _ _ _ B t CT) as OT.
  destruct (board_gap m lo hi f x y z s t B OS OT M E) as [L G].
  apply (gap_no_return m s (longest_dimension_first m (x, y, z) s) l); auto; [apply ldf_named|].
  intros w C EW. apply fewest_steps; auto; [apply OS| |now apply named_chain].
  apply minimal_fewest; [apply (bo_x _ _ _ _ B)|apply (bo_y _ _ _ _ B)|exact M].
Qed.
