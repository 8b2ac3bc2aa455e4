(** Graphs with two dimensional devices that send with the keys of their rectangles. *)
From Coq Require Import List Arith NArith ZArith QArith Bool Lia Permutation.
From Verif Require Import Base Dict PlacementsModel PlacementsProofs PlacerModel PlacerProofs PlacerFinal.
From Verif Require Import RouteSpec KeyMask AllocModel AllocProofs TablesModel TablesProofs GenModel GenProofs
  PairModel RangeModel OrderedModel
  TreeModel TreeProofs MachModel LdfModel LdfProofs PathModel PathProofs
  RPartModel RPartProofs BfsModel BfsProofs TargetsModel TargetsProofs ConvModel ConvProofs RouterModel RouterProofs RouterTables RouterPlan RouterFinal
  RouterSuccess ChainModel ChainProofs MapModel MapProofs FixProofs FixChain FixMap.
From Verif Require Import UtilModel SliceModel DeviceModel DeviceProofs.
Import ListNotations.
Local Open Scope N_scope.

(** * The keys of a device lie in its block *)
Lemma block_mask : forall s, s <= 32 -> 2 ^ 32 - 2 ^ s = N.shiftl (N.shiftl 1 (32 - s) - 1) s.
Proof.
  intros s H. rewrite N.shiftl_1_l, N.shiftl_mul_pow2, N.mul_sub_distr_r, <- N.pow_add_r, N.mul_1_l. do 2 f_equal. lia.
Qed.
Lemma block_matches : forall s b k, s <= 32 -> k < 2 ^ 32 ->
  (N.land k (2 ^ 32 - 2 ^ s) = b * 2 ^ s <-> k / 2 ^ s = b).
Proof.
  intros s b k H K. rewrite block_mask, land_field by assumption.
  pose proof (pow2_nz s) as P. rewrite (N.mod_small (k / 2 ^ s)).
  - split; [|intros ->; reflexivity]. intros E. apply N.mul_cancel_r in E; assumption.
  - apply N.div_lt_upper_bound; [assumption|]. rewrite <- N.pow_add_r. replace (s + (32 - s)) with 32 by lia. assumption.
Qed.
Lemma block_ok : forall s b, s <= 32 -> b < 2 ^ (32 - s) -> km_ok (mkKM (b * 2 ^ s) (2 ^ 32 - 2 ^ s)).
Proof.
  intros s b H B. assert (K : b * 2 ^ s < 2 ^ 32).
  { replace (2 ^ 32) with (2 ^ (32 - s) * 2 ^ s) by (rewrite <- N.pow_add_r; f_equal; lia).
    apply N.mul_lt_mono_pos_r; [|assumption]. apply N.neq_0_lt_0, pow2_nz. }
  split; [exact K|]. cbn [km_key km_mask]. split.
  - pose proof (pow2_nz s). apply N.sub_lt; [apply N.pow_le_mono_r; lia|]. now apply N.neq_0_lt_0.
  - apply block_matches; [assumption..|]. apply N.div_mul, pow2_nz.
Qed.

Lemma from_fields_lt : forall d b y x, valid d -> y < 2 ^ sub_y_bits d -> x < 2 ^ sub_x_bits d ->
  from_fields d (b, y, x) < (b + 1) * 2 ^ key_shift d.
Proof.
  intros d b y x V Y X. unfold from_fields. cbn [fst snd]. destruct (shifts d V) as (S1 & S2 & S3).
  assert (P1 : 2 ^ key_shift d = 2 ^ sub_y_bits d * 2 ^ y_index_shift d) by (rewrite <- S2, N.pow_add_r; lia).
  assert (P2 : 2 ^ x_bits d = 2 ^ sub_x_bits d * 2 ^ x_index_shift d) by (rewrite <- S1, N.pow_add_r; lia).
  assert (P3 : 2 ^ x_bits d <= 2 ^ y_index_shift d) by (apply N.pow_le_mono_r; lia).
  pose proof (pow2_nz (x_index_shift d)) as N1.
  assert (Q1 : x * 2 ^ x_index_shift d < 2 ^ y_index_shift d).
  { eapply N.lt_le_trans; [|exact P3]. rewrite P2. apply N.mul_lt_mono_pos_r; [lia|assumption]. }
  assert (Q2 : (y + 1) * 2 ^ y_index_shift d <= 2 ^ key_shift d) by (rewrite P1; apply N.mul_le_mono_r; lia).
  rewrite N.mul_add_distr_r in Q2 |- *. lia.
Qed.
Lemma from_fields_word : forall d b y x, valid d -> y < 2 ^ sub_y_bits d -> x < 2 ^ sub_x_bits d ->
  key_shift d <= 32 -> b < 2 ^ (32 - key_shift d) -> from_fields d (b, y, x) < 2 ^ 32.
Proof.
  intros d b y x V Y X K B. eapply N.lt_le_trans; [apply from_fields_lt; assumption|].
  replace (2 ^ 32) with (2 ^ (32 - key_shift d) * 2 ^ key_shift d) by (rewrite <- N.pow_add_r; f_equal; lia).
  apply N.mul_le_mono_r. lia.
Qed.
Lemma ones_lt : forall n, N.shiftl 1 n - 1 < 2 ^ n.
Proof. intros n. rewrite N.shiftl_1_l. pose proof (pow2_nz n). lia. Qed.

Lemma rect_ok : forall d base i r, verify_sub_size d = Ok tt -> i < n_sub_rectangles d -> key_shift d <= 32 ->
  base < 2 ^ (32 - key_shift d) -> get_key_and_mask d base i = Ok r -> km_ok r.
Proof.
  intros d base i r V I K B H. apply verify_valid in V. destruct (sub_square d i) as [x y] eqn:S.
  destruct (key_mask_Ok d base i r x y V I S H) as (E & M & Y & X). cbn [fst snd] in Y, X. split; [|split].
  - rewrite E. apply from_fields_word; assumption.
  - unfold device_mask in M. destruct (N.ltb_spec 32 (key_shift d)); [lia|].
    assert (M' : km_mask r = from_fields d (N.shiftl 1 (32 - key_shift d) - 1, N.shiftl 1 (sub_y_bits d) - 1, N.shiftl 1 (sub_x_bits d) - 1)).
    { unfold from_fields. cbn [fst snd]. rewrite <- !N.shiftl_mul_pow2. congruence. }
    rewrite M'. apply from_fields_word; auto using ones_lt.
  - unfold get_key_and_mask in H. rewrite S in H. apply bind_Ok_inv in H. destruct H as (m & _ & H).
    apply make_km_Ok in H. destruct H as (H & ->). exact H.
Qed.
Lemma rect_within : forall d base i r k, verify_sub_size d = Ok tt -> i < n_sub_rectangles d -> key_shift d <= 32 ->
  get_key_and_mask d base i = Ok r -> k < 2 ^ 32 -> km_matches k r ->
  km_matches k (mkKM (base * 2 ^ key_shift d) (2 ^ 32 - 2 ^ key_shift d)).
Proof.
  intros d base i r k V I K H L M. apply verify_valid in V. destruct (sub_square d i) as [x y] eqn:S.
  assert (F : fields d k = (base, y, x)) by (apply (key_mask_matches d base i r k x y V I S H); exact M).
  unfold km_matches. cbn [km_key km_mask]. rewrite block_mask, land_field by assumption.
  assert (F' : fst (fst (fields d k)) = base) by now rewrite F. unfold fields in F'. cbn [fst] in F'. now rewrite F'.
Qed.
Lemma pixel_word : forall d base x y, valid d -> x < d_w d -> y < d_h d -> key_shift d <= 32 ->
  base < 2 ^ (32 - key_shift d) -> pixel_key d base x y < 2 ^ 32.
Proof.
  intros d base x y V X Y K B. unfold pixel_key. rewrite !N.shiftl_mul_pow2.
  pose proof (get_n_bits_lt _ _ X) as X'. pose proof (get_n_bits_lt _ _ Y) as Y'. fold (x_bits d) in X'. fold (y_bits d) in Y'.
  assert (P : 2 ^ key_shift d = 2 ^ y_bits d * 2 ^ x_bits d) by (unfold key_shift; apply N.pow_add_r).
  assert (Q1 : (y + 1) * 2 ^ x_bits d <= 2 ^ key_shift d) by (rewrite P; apply N.mul_le_mono_r; lia).
  assert (Q2 : (base + 1) * 2 ^ key_shift d <= 2 ^ 32).
  { replace (2 ^ 32) with (2 ^ (32 - key_shift d) * 2 ^ key_shift d) by (rewrite <- N.pow_add_r; f_equal; lia).
    apply N.mul_le_mono_r. lia. }
  rewrite N.mul_add_distr_r in Q1, Q2. lia.
Qed.

(** * Graphs with devices *)
(** [dev a k]: the sizes and the base key of the device that application vertex [a]
    is, for its partition [k]; [rect m]: the rectangle of machine vertex [m].  The
    partition's fixed key is the block of all keys with the base key, that of a
    machine vertex is the key of its rectangle; blocks of different partitions do
    not overlap, and other partitions have no fixed keys. *)
Record devices_ok (flexible : bool) (i : mapin) (ps : list apart) (extra : list (nat * nat)) (e : graph_env)
    (dev : nat -> nat -> option (device * N)) (rect : nat -> N) : Prop := mkDevicesOk {
  dv_mode : flexible = true \/ one_largest e (all_parts ps extra);
  dv_out : forall a k, ae_outgoing e a k = mi_out i a;
  dv_counted : forall pt, In pt ps -> dev (ap_pre pt) (ap_id pt) = None -> counted e (ap_pre pt) (ap_id pt);
  dv_some : forall a k, In (a, k) (all_parts ps extra) -> dev a k <> None -> mi_out i a <> [];
  dv_none : forall a k, dev a k = None -> ae_app_fixed e a k = None;
  dv_sizes : forall a k d base, dev a k = Some (d, base) ->
    verify_sub_size d = Ok tt /\ key_shift d <= 32 /\ base < 2 ^ (32 - key_shift d);
  dv_app : forall a k d base, dev a k = Some (d, base) ->
    ae_app_fixed e a k = Some (mkKM (base * 2 ^ key_shift d) (2 ^ 32 - 2 ^ key_shift d));
  dv_mac : forall a k d base m, dev a k = Some (d, base) -> In m (mi_out i a) ->
    rect m < n_sub_rectangles d /\ exists r, get_key_and_mask d base (rect m) = Ok r /\ ae_mac_fixed e a m k = Some r;
  dv_each : forall a k m n, dev a k <> None -> In m (mi_out i a) -> In n (mi_out i a) -> rect m = rect n -> m = n;
  dv_apart : forall a k d base a' k' d' base', dev a k = Some (d, base) -> dev a' k' = Some (d', base') -> (a, k) <> (a', k') ->
    (base + 1) * 2 ^ key_shift d <= base' * 2 ^ key_shift d' \/ (base' + 1) * 2 ^ key_shift d' <= base * 2 ^ key_shift d }.

Lemma div_block : forall k s b, k / 2 ^ s = b -> b * 2 ^ s <= k < (b + 1) * 2 ^ s.
Proof.
  intros k s b <-. pose proof (N.mul_div_le k (2 ^ s) (pow2_nz s)). pose proof (N.mul_succ_div_gt k (2 ^ s) (pow2_nz s)). lia.
Qed.

Lemma devices_user : forall flexible i ps extra e dev rect, devices_ok flexible i ps extra e dev rect -> map_user_keys flexible i ps extra e.
Proof.
  intros flexible i ps extra e dev rect DO.
  assert (F : forall a k x, ae_app_fixed e a k = Some x -> exists d base, dev a k = Some (d, base) /\
    x = mkKM (base * 2 ^ key_shift d) (2 ^ 32 - 2 ^ key_shift d)).
  { intros a k x E. destruct (dev a k) as [[d base]|] eqn:D.
    - exists d, base. split; [reflexivity|]. rewrite (dv_app _ _ _ _ _ _ _ DO _ _ _ _ D) in E. congruence.
    - rewrite (dv_none _ _ _ _ _ _ _ DO _ _ D) in E. discriminate. }
  assert (M : forall a k m y, In m (ae_outgoing e a k) -> mac_key e a k m = Some y ->
    exists d base, dev a k = Some (d, base) /\ rect m < n_sub_rectangles d /\ get_key_and_mask d base (rect m) = Ok y).
  { intros a k m y I E. unfold mac_key in E. destruct (ae_app_fixed e a k) as [x|] eqn:X; [|discriminate].
    destruct (F a k x X) as (d & base & D & _). rewrite (dv_out _ _ _ _ _ _ _ DO) in I.
    destruct (dv_mac _ _ _ _ _ _ _ DO a k d base m D I) as (L & r & G & Q). exists d, base. split; [exact D|]. split; [exact L|].
    rewrite Q in E. congruence. }
  constructor.
  - exact (dv_out _ _ _ _ _ _ _ DO).
  - intros pt P E. apply (dv_counted _ _ _ _ _ _ _ DO pt P). destruct (dev (ap_pre pt) (ap_id pt)) as [[d base]|] eqn:D; [|reflexivity].
    rewrite (dv_app _ _ _ _ _ _ _ DO _ _ _ _ D) in E. discriminate.
  - intros a k I E. apply (dv_some _ _ _ _ _ _ _ DO a k I). intros D. apply E, (dv_none _ _ _ _ _ _ _ DO), D.
  - constructor.
    + intros a p x _ _. destruct (dv_mode _ _ _ _ _ _ _ DO); auto.
    + intros a p x _ E. destruct (F a p x E) as (d & base & D & ->). destruct (dv_sizes _ _ _ _ _ _ _ DO _ _ _ _ D) as (V & K & B).
      apply block_ok; assumption.
    + intros a p m y _ I E. destruct (M a p m y I E) as (d & base & D & L & G). destruct (dv_sizes _ _ _ _ _ _ _ DO _ _ _ _ D) as (V & K & B).
      exact (rect_ok d base (rect m) y V L K B G).
    + intros a p x m y k _ E I Y K W. destruct (F a p x E) as (d & base & D & ->). destruct (M a p m y I Y) as (d' & base' & D' & L & G).
      rewrite D in D'. injection D' as <- <-. destruct (dv_sizes _ _ _ _ _ _ _ DO _ _ _ _ D) as (V & S & B).
      exact (rect_within d base (rect m) y k V L S G K W).
    + intros a p x b q y _ _ E E' NE k K [W W']. destruct (F a p x E) as (d & base & D & ->). destruct (F b q y E') as (d' & base' & D' & ->).
      destruct (dv_sizes _ _ _ _ _ _ _ DO _ _ _ _ D) as (_ & S & _). destruct (dv_sizes _ _ _ _ _ _ _ DO _ _ _ _ D') as (_ & S' & _).
      unfold km_matches in W, W'. cbn [km_key km_mask] in W, W'.
      apply (proj1 (block_matches _ _ _ S K)), div_block in W. apply (proj1 (block_matches _ _ _ S' K)), div_block in W'.
      destruct (dv_apart _ _ _ _ _ _ _ DO _ _ _ _ _ _ _ _ D D' NE); lia.
    + intros a p m n y z _ I J NE E E' k K [W W']. destruct (M a p m y I E) as (d & base & D & L & G).
      destruct (M a p n z J E') as (d' & base' & D' & L' & G'). rewrite D in D'. injection D' as <- <-.
      destruct (dv_sizes _ _ _ _ _ _ _ DO _ _ _ _ D) as (V & _ & _). apply verify_valid in V.
      destruct (keys_disjoint d base base (rect m) (rect n) y z k V L L' G G' W W') as (_ & R).
      apply NE. rewrite (dv_out _ _ _ _ _ _ _ DO) in I, J. apply (dv_each _ _ _ _ _ _ _ DO a p m n); auto. rewrite D. discriminate.
Qed.

(** A packet with the key of a pixel, coming over the link of the machine vertex for
    the pixel's rectangle, reaches the places of the partition's targets and no
    other core or device. *)
Definition pixels_arrive (i : mapin) (ps : list apart) (p : placements) (ts : list table)
    (dev : nat -> nat -> option (device * N)) (rect : nat -> N) : Prop :=
  forall pt d base m x y, In pt ps -> dev (ap_pre pt) (ap_id pt) = Some (d, base) -> In m (mi_out i (ap_pre pt)) ->
    (d_w d = 1 \/ d_sw d < d_w d) -> (d_h d = 1 \/ d_sh d < d_h d) -> x < d_w d -> y < d_h d ->
    rect m = y / d_sh d * ((d_w d + d_sw d - 1) / d_sw d) + x / d_sw d ->
    exists home from, sits i p m home from /\
      forall q pl, off_chip (mi_mach i) q pl ->
        (arrives (mi_mach i) ts (pixel_key d base x y) home (link_of from) q pl <->
         exists a w, In a (ap_posts pt) /\ In w (mi_in i a) /\ sits i p w q pl).

Lemma delivered_pixels : forall flexible i l vs ps extra e dev rect merged entry_eq p infos ts ts', map_ok i l vs ps ->
  devices_ok flexible i ps extra e dev rect -> map_graph merged entry_eq flexible i vs ps extra e = Ok (p, infos, ts) ->
  all_delivered i ps p infos ts' -> pixels_arrive i ps p ts' dev rect.
Proof.
  intros flexible i l vs ps extra e dev rect merged entry_eq p infos ts ts' OK DO H AD pt d base m x y P D M SW SH X Y R.
  destruct (AD pt m P M) as (home & from & j & S & J & A). exists home, from. split; [exact S|].
  destruct (dv_sizes _ _ _ _ _ _ _ DO _ _ _ _ D) as (V & K & B). destruct (dv_mac _ _ _ _ _ _ _ DO _ _ _ _ m D M) as (L & r & G & Q).
  assert (E : i_km j = r).
  { destruct (fix_map_key _ _ _ _ _ _ _ _ _ _ _ _ OK (devices_user _ _ _ _ _ _ _ DO) H pt m r P M) as (j' & J' & <-); [|congruence].
    unfold mac_key. rewrite (dv_app _ _ _ _ _ _ _ DO _ _ _ _ D), Q. reflexivity. }
  apply verify_valid in V.
  refine (proj1 (A (pixel_key d base x y) (pixel_word d base x y V X Y K B) _)). rewrite E.
  apply (rect_pixel_matches d base base (rect m) r x y V); auto.
Qed.
