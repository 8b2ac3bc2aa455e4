(** Proofs about two dimensional devices. *)
From Coq Require Import List NArith ZArith Bool Lia.
From Verif Require Import Base RouteSpec AllocModel AllocProofs UtilModel UtilProofs SliceModel DeviceModel.
Import ListNotations.
Local Open Scope N_scope.

(** * Fields of keys *)
Lemma pow2_nz : forall n, 2 ^ n <> 0.
Proof. intro n. apply N.pow_nonzero. discriminate. Qed.

Lemma land_field : forall k n s,
  N.land k (N.shiftl (N.shiftl 1 n - 1) s) = ((k / 2 ^ s) mod 2 ^ n) * 2 ^ s.
Proof.
  intros k n s.
  assert (E : N.shiftl 1 n - 1 = N.ones n).
  { rewrite N.shiftl_1_l, N.ones_equiv. lia. }
  rewrite E. rewrite <- N.land_ones, <- N.shiftr_div_pow2, <- N.shiftl_mul_pow2.
  apply N.bits_inj. intro i. rewrite N.land_spec.
  destruct (N.lt_ge_cases i s) as [L|L].
  - rewrite !N.shiftl_spec_low by assumption. apply andb_false_r.
  - rewrite !N.shiftl_spec_high' by assumption. rewrite N.land_spec, N.shiftr_spec'.
    f_equal. f_equal. lia.
Qed.

Lemma land_add_disjoint : forall a b, N.land a b = 0 -> a + b = N.lor a b.
Proof. intros a b H. rewrite N.add_nocarry_lxor by assumption. now apply N.lxor_lor. Qed.

Lemma land_sum : forall k a b, N.land a b = 0 -> N.land k (a + b) = N.land k a + N.land k b.
Proof.
  intros k a b H. rewrite (land_add_disjoint a b H), N.land_lor_distr_r.
  symmetry. apply land_add_disjoint.
  apply N.bits_inj. intro i. pose proof (f_equal (fun x => N.testbit x i) H) as E. cbn beta in E.
  rewrite N.land_spec, N.bits_0 in *. rewrite !N.land_spec.
  destruct (N.testbit k i), (N.testbit a i), (N.testbit b i); auto.
Qed.

Lemma disjoint_fields : forall n s n' s', s + n <= s' ->
  N.land (N.shiftl (N.shiftl 1 n' - 1) s') (N.shiftl (N.shiftl 1 n - 1) s) = 0.
Proof.
  intros n s n' s' H. rewrite land_field.
  assert (E : (N.shiftl (N.shiftl 1 n' - 1) s' / 2 ^ s) mod 2 ^ n = 0); [|rewrite E; lia].
  rewrite N.shiftl_mul_pow2. replace s' with ((s' - s - n) + n + s) by lia.
  rewrite !N.pow_add_r.
  replace ((N.shiftl 1 n' - 1) * (2 ^ (s' - s - n) * 2 ^ n * 2 ^ s))
    with (((N.shiftl 1 n' - 1) * 2 ^ (s' - s - n) * 2 ^ n) * 2 ^ s) by lia.
  rewrite N.div_mul by apply pow2_nz. apply N.mod_mul. apply pow2_nz.
Qed.

Lemma field_lt : forall k n s t, s + n <= t -> ((k / 2 ^ s) mod 2 ^ n) * 2 ^ s < 2 ^ t.
Proof.
  intros k n s t H. assert ((k / 2 ^ s) mod 2 ^ n < 2 ^ n) by (apply N.mod_lt, pow2_nz).
  assert (2 ^ (n + s) <= 2 ^ t) by (apply N.pow_le_mono_r; lia).
  rewrite N.pow_add_r in *. pose proof (pow2_nz s). nia.
Qed.

Lemma radix_inj : forall a b a' b' p, b < p -> b' < p -> a * p + b = a' * p + b' -> a = a' /\ b = b'.
Proof. intros. assert (a = a') by nia. subst. split; [reflexivity|lia]. Qed.

(** * The mask of a device *)
Lemma get_n_bits_pos : forall n, n <> 0 -> n <= 2 ^ get_n_bits n.
Proof.
  intros n H. unfold get_n_bits. destruct (N.eqb_spec n 0); [contradiction|].
  destruct (N.eqb_spec n 1); [subst; cbn; lia|]. apply N.log2_up_spec. lia.
Qed.

Lemma get_n_bits_mono : forall a b, a <= b -> get_n_bits a <= get_n_bits b.
Proof.
  intros a b H. unfold get_n_bits.
  destruct (N.eqb_spec a 0); [lia|]. destruct (N.eqb_spec b 0); [lia|].
  destruct (N.eqb_spec a 1), (N.eqb_spec b 1); try lia.
  - assert (N.log2_up 2 <= N.log2_up b) by (apply N.log2_up_le_mono; lia). cbn in H0. lia.
  - apply N.log2_up_le_mono. assumption.
Qed.

Lemma verify_Ok : forall d, verify_sub_size d = Ok tt <->
  (exists k, d_sw d = 2 ^ k) /\ (exists k, d_sh d = 2 ^ k) /\ d_sw d <= d_w d /\ d_sh d <= d_h d.
Proof.
  intro d. unfold verify_sub_size. rewrite <- !power_of_2_iff.
  destruct (is_power_of_2 (d_sw d)); cbn [negb]; [|split; [discriminate|intros (X & _); discriminate]].
  destruct (is_power_of_2 (d_sh d)); cbn [negb]; [|split; [discriminate|intros (_ & X & _); discriminate]].
  destruct (N.ltb_spec (d_w d) (d_sw d)); [split; [discriminate|lia]|].
  destruct (N.ltb_spec (d_h d) (d_sh d)); [split; [discriminate|lia]|]. tauto.
Qed.

Lemma ceil_quot_le : forall a b, 0 < b -> ceil_quot a b <= a.
Proof.
  intros a b H. unfold ceil_quot. destruct (N.eq_dec a 0) as [->|].
  - rewrite N.div_small by lia. lia.
  - apply N.div_le_upper_bound; [lia|]. nia.
Qed.

Lemma ceil_quot_pos : forall a b, 0 < b -> 0 < a -> 0 < ceil_quot a b.
Proof. intros a b Hb Ha. unfold ceil_quot. apply N.div_str_pos. lia. Qed.

Lemma ceil_quot_lt : forall a b x, 0 < b -> (x / b < ceil_quot a b <-> x / b * b < a).
Proof.
  intros a b x H. unfold ceil_quot.
  pose proof (N.div_mod (a + b - 1) b ltac:(lia)). pose proof (N.mod_lt (a + b - 1) b ltac:(lia)).
  remember ((a + b - 1) / b) as q. remember ((a + b - 1) mod b) as r. remember (x / b) as p.
  clear - H H0 H1. split; intro L; nia.
Qed.

Lemma pixel_index_lt : forall a b x, 0 < b -> x < a -> x / b < ceil_quot a b.
Proof.
  intros a b x H L. apply ceil_quot_lt; [assumption|].
  pose proof (N.mul_div_le x b ltac:(lia)). lia.
Qed.

Record valid (d : device) : Prop := mkValid {
  v_sw : exists k, d_sw d = 2 ^ k;
  v_sh : exists k, d_sh d = 2 ^ k;
  v_w : d_sw d <= d_w d;
  v_h : d_sh d <= d_h d }.

Lemma verify_valid : forall d, verify_sub_size d = Ok tt <-> valid d.
Proof. intro d. rewrite verify_Ok. split; [intros (A & B & C & D); constructor; auto|intros []; auto]. Qed.

Lemma valid_pos : forall d, valid d -> 0 < d_sw d /\ 0 < d_sh d /\ 0 < d_w d /\ 0 < d_h d.
Proof.
  intros d [(k & A) (k' & B) C D]. pose proof (pow2_nz k). pose proof (pow2_nz k'). lia.
Qed.

Lemma sub_bits_le : forall d, valid d -> sub_x_bits d <= x_bits d /\ sub_y_bits d <= y_bits d.
Proof.
  intros d V. destruct (valid_pos d V) as (A & B & _). split; apply get_n_bits_mono, ceil_quot_le; assumption.
Qed.

Lemma per_row_bits : forall d, valid d -> n_per_row d <= 2 ^ sub_x_bits d /\ n_per_col d <= 2 ^ sub_y_bits d.
Proof.
  intros d V. destruct (valid_pos d V) as (A & B & C & D). unfold n_per_row, n_per_col.
  split; apply get_n_bits_pos; apply N.neq_0_lt_0, ceil_quot_pos; assumption.
Qed.

(** What the mask keeps of a key. *)
Definition fields (d : device) (k : N) : N * N * N :=
  ((k / 2 ^ key_shift d) mod 2 ^ (32 - key_shift d),
   (k / 2 ^ y_index_shift d) mod 2 ^ sub_y_bits d,
   (k / 2 ^ x_index_shift d) mod 2 ^ sub_x_bits d).

Definition from_fields (d : device) (f : N * N * N) : N :=
  fst (fst f) * 2 ^ key_shift d + snd (fst f) * 2 ^ y_index_shift d + snd f * 2 ^ x_index_shift d.

Lemma shifts : forall d, valid d ->
  x_index_shift d + sub_x_bits d = x_bits d /\ y_index_shift d + sub_y_bits d = key_shift d /\
  x_bits d <= y_index_shift d.
Proof.
  intros d V. destruct (sub_bits_le d V). unfold x_index_shift, y_index_shift, key_shift. lia.
Qed.

Lemma land_device_mask : forall d m k, valid d -> device_mask d = Ok m ->
  N.land k m = from_fields d (fields d k) /\ key_shift d <= 32.
Proof.
  intros d m k V H. unfold device_mask in H.
  destruct (N.ltb_spec 32 (key_shift d)); [discriminate|].
  assert (E : m = N.shiftl (N.shiftl 1 (32 - key_shift d) - 1) (key_shift d) +
           N.shiftl (N.shiftl 1 (sub_y_bits d) - 1) (y_index_shift d) +
           N.shiftl (N.shiftl 1 (sub_x_bits d) - 1) (x_index_shift d)) by congruence.
  destruct (shifts d V) as (S1 & S2 & S3). split; [|lia].
  rewrite E. unfold from_fields, fields. cbn [fst snd].
  rewrite land_sum, land_sum, !land_field; [reflexivity| |].
  - apply disjoint_fields. lia.
  - rewrite N.land_comm, land_sum.
    + rewrite (N.land_comm _ (N.shiftl (N.shiftl 1 (32 - _) - 1) _)), disjoint_fields by lia.
      rewrite N.land_comm, disjoint_fields by lia. reflexivity.
    + apply disjoint_fields. lia.
Qed.

Definition fields_ok (d : device) (f : N * N * N) : Prop :=
  snd (fst f) < 2 ^ sub_y_bits d /\ snd f < 2 ^ sub_x_bits d.

Lemma fields_fields_ok : forall d k, fields_ok d (fields d k).
Proof. intros d k. split; apply N.mod_lt, pow2_nz. Qed.

Lemma from_fields_inj : forall d f f', valid d -> fields_ok d f -> fields_ok d f' ->
  from_fields d f = from_fields d f' -> f = f'.
Proof.
  intros d ((b & y) & x) ((b' & y') & x') V (Y & X) (Y' & X') H. cbn [fst snd] in *.
  unfold from_fields in H. cbn [fst snd] in H.
  destruct (shifts d V) as (S1 & S2 & S3).
  assert (P1 : 2 ^ key_shift d = 2 ^ sub_y_bits d * 2 ^ y_index_shift d).
  { rewrite <- S2, N.pow_add_r. lia. }
  assert (P2 : 2 ^ x_bits d = 2 ^ sub_x_bits d * 2 ^ x_index_shift d).
  { rewrite <- S1, N.pow_add_r. lia. }
  assert (P3 : 2 ^ x_bits d <= 2 ^ y_index_shift d) by (apply N.pow_le_mono_r; lia).
  pose proof (pow2_nz (x_index_shift d)) as N1. pose proof (pow2_nz (y_index_shift d)) as N2.
  rewrite P1 in H. rewrite P2 in P3. clear P1 P2 S1 S2 S3 V.
  remember (2 ^ sub_y_bits d) as Py. remember (2 ^ y_index_shift d) as Qy.
  remember (2 ^ sub_x_bits d) as Px. remember (2 ^ x_index_shift d) as Qx. clear HeqPy HeqQy HeqPx HeqQx.
  assert (Hx : x * Qx < Qy) by nia. assert (Hx' : x' * Qx < Qy) by nia.
  destruct (radix_inj (b * Py + y) (x * Qx) (b' * Py + y') (x' * Qx) Qy Hx Hx') as (E1 & E2); [lia|].
  destruct (radix_inj b y b' y' Py Y Y' E1) as (-> & ->).
  assert (x = x') by nia. subst. reflexivity.
Qed.

(** The rectangle of a pixel. *)
Definition rect_of (d : device) (x y : N) : N := (y / d_sh d) * n_per_row d + x / d_sw d.

Lemma sub_square_inj : forall d i x y, 0 < n_per_row d -> x < n_per_row d ->
  (sub_square d i = (x, y) <-> i = y * n_per_row d + x).
Proof.
  intros d i x y P L. unfold sub_square. split.
  - intros [= <- <-]. pose proof (N.div_mod i (n_per_row d) ltac:(lia)). lia.
  - intros ->. f_equal.
    + rewrite N.add_comm, N.mod_add by lia. now apply N.mod_small.
    + rewrite N.div_add_l by lia. rewrite N.div_small by assumption. lia.
Qed.

Lemma sub_square_bounds : forall d i x y, valid d -> i < n_sub_rectangles d ->
  sub_square d i = (x, y) -> x < n_per_row d /\ y < n_per_col d.
Proof.
  intros d i x y V L H. destruct (valid_pos d V) as (A & B & C & D).
  assert (P : 0 < n_per_row d) by (apply ceil_quot_pos; assumption).
  unfold sub_square in H. injection H as <- <-. split; [apply N.mod_lt; lia|].
  unfold n_sub_rectangles in L. apply N.div_lt_upper_bound; lia.
Qed.

(** The key of a rectangle. *)
Lemma key_mask_Ok : forall d base i km x y, valid d -> i < n_sub_rectangles d ->
  sub_square d i = (x, y) ->
  get_key_and_mask d base i = Ok km ->
  km_key km = from_fields d (base, y, x) /\ device_mask d = Ok (km_mask km) /\ fields_ok d (base, y, x).
Proof.
  intros d base i r x y V L S H. destruct (sub_square_bounds d i x y V L S) as (X & Y).
  destruct (per_row_bits d V) as (PX & PY).
  unfold get_key_and_mask in H. rewrite S in H. apply bind_Ok_inv in H. destruct H as (m & HM & H).
  apply make_km_Ok in H. destruct H as (_ & ->). cbn [km_key km_mask].
  split; [|split; [assumption|]].
  - unfold from_fields. cbn [fst snd]. now rewrite !N.shiftl_mul_pow2.
  - split; cbn [fst snd]; lia.
Qed.

Lemma key_mask_matches : forall d base i km k x y, valid d -> i < n_sub_rectangles d ->
  sub_square d i = (x, y) ->
  get_key_and_mask d base i = Ok km ->
  (key_matches k (km_key km) (km_mask km) <-> fields d k = (base, y, x)).
Proof.
  intros d base i r k x y V L S H.
  destruct (key_mask_Ok d base i r x y V L S H) as (EK & EM & FO).
  destruct (land_device_mask d (km_mask r) k V EM) as (E & _).
  unfold key_matches. rewrite E, EK. split; [|now intros ->].
  apply from_fields_inj; auto. apply fields_fields_ok.
Qed.

Lemma key_mask_exists : forall d base i, valid d -> i < n_sub_rectangles d -> key_shift d <= 32 ->
  base < 2 ^ (32 - key_shift d) -> exists km, get_key_and_mask d base i = Ok km.
Proof.
  intros d base i V L K B. unfold get_key_and_mask. destruct (sub_square d i) as (x, y) eqn:S.
  destruct (sub_square_bounds d i x y V L S) as (X & Y). destruct (per_row_bits d V) as (PX & PY).
  destruct (device_mask d) as [m|ex] eqn:HM.
  2:{ unfold device_mask in HM. destruct (N.ltb_spec 32 (key_shift d)); [lia|discriminate]. }
  cbn [bind]. exists (mkKM (N.shiftl base (key_shift d) + N.shiftl y (y_index_shift d) + N.shiftl x (x_index_shift d)) m).
  apply make_km_Ok. split; [|reflexivity].
  rewrite (proj1 (land_device_mask d m _ V HM)). rewrite !N.shiftl_mul_pow2.
  destruct (shifts d V) as (S1 & S2 & S3).
  assert (P1 : 2 ^ key_shift d = 2 ^ sub_y_bits d * 2 ^ y_index_shift d).
  { rewrite <- S2, N.pow_add_r. lia. }
  assert (P2 : 2 ^ x_bits d = 2 ^ sub_x_bits d * 2 ^ x_index_shift d).
  { rewrite <- S1, N.pow_add_r. lia. }
  assert (P3 : exists e, 2 ^ y_index_shift d = 2 ^ e * 2 ^ x_bits d).
  { exists (y_index_shift d - x_bits d). rewrite <- N.pow_add_r. f_equal. lia. }
  destruct P3 as (e & P3).
  pose proof (pow2_nz (x_index_shift d)) as N1. pose proof (pow2_nz (y_index_shift d)) as N2.
  pose proof (pow2_nz (sub_x_bits d)) as N3. pose proof (pow2_nz (sub_y_bits d)) as N4.
  pose proof (pow2_nz e) as N5.
  unfold from_fields, fields. cbn [fst snd]. rewrite P1 in *.
  remember (2 ^ sub_y_bits d) as Py. remember (2 ^ y_index_shift d) as Qy.
  remember (2 ^ sub_x_bits d) as Px. remember (2 ^ x_index_shift d) as Qx.
  remember (2 ^ x_bits d) as Pb. remember (2 ^ e) as Pe. remember (2 ^ (32 - key_shift d)) as PB.
  assert (X' : x < Px) by lia. assert (Y' : y < Py) by lia.
  clear HeqPy HeqQy HeqPx HeqQx HeqPb HeqPe HeqPB S1 S2 S3 HM.
  assert (Hx : x * Qx < Qy).
  { assert (x * Qx < Px * Qx) by (apply N.mul_lt_mono_pos_r; lia).
    assert (1 * (Px * Qx) <= Pe * (Px * Qx)) by (apply N.mul_le_mono_r; lia). rewrite P3, P2. lia. }
  assert (Hy : y * Qy + x * Qx < Py * Qy).
  { assert ((y + 1) * Qy <= Py * Qy) by (apply N.mul_le_mono_r; lia). lia. }
  assert (HPQ : Py * Qy <> 0) by (apply N.neq_mul_0; auto).
  f_equal; [f_equal|].
  - f_equal. replace (base * (Py * Qy) + y * Qy + x * Qx) with (base * (Py * Qy) + (y * Qy + x * Qx)) by lia.
    rewrite N.div_add_l by assumption. rewrite N.div_small by assumption. rewrite N.add_0_r. apply N.mod_small. assumption.
  - f_equal. replace (base * (Py * Qy) + y * Qy + x * Qx) with ((base * Py + y) * Qy + x * Qx) by lia.
    rewrite N.div_add_l by assumption. rewrite N.div_small by assumption. rewrite N.add_0_r.
    rewrite N.add_comm, N.mod_add by assumption. apply N.mod_small. assumption.
  - f_equal. replace (base * (Py * Qy) + y * Qy + x * Qx) with (((base * Py + y) * Pe * Px + x) * Qx) by (subst; lia).
    rewrite N.div_mul by assumption. rewrite N.add_comm, N.mod_add by assumption. apply N.mod_small. assumption.
Qed.

(** The bits below a rectangle's index are those of a rectangle if there is more
    than one in the row. *)
Lemma index_bits : forall w s k, s = 2 ^ k -> s < w ->
  get_n_bits w - get_n_bits (ceil_quot w s) = k.
Proof.
  intros w s k E L. assert (P : 0 < s) by (pose proof (pow2_nz k); lia).
  assert (Q2 : 2 <= ceil_quot w s).
  { unfold ceil_quot. apply N.div_le_lower_bound; lia. }
  assert (W2 : 2 <= w) by lia.
  unfold get_n_bits. destruct (N.eqb_spec w 0); [lia|]. destruct (N.eqb_spec w 1); [lia|].
  destruct (N.eqb_spec (ceil_quot w s) 0); [lia|]. destruct (N.eqb_spec (ceil_quot w s) 1); [lia|].
  assert (A : N.log2_up w = N.log2_up (ceil_quot w s) + k); [|lia].
  assert (D : forall b, w <= 2 ^ (b + k) <-> ceil_quot w s <= 2 ^ b).
  { intro b. rewrite N.pow_add_r, <- E. unfold ceil_quot. remember (2 ^ b) as B.
    pose proof (N.div_mod (w + s - 1) s ltac:(lia)). pose proof (N.mod_lt (w + s - 1) s ltac:(lia)).
    remember ((w + s - 1) / s) as q. remember ((w + s - 1) mod s) as r.
    clear - P H H0. split; intro; nia. }
  apply N.le_antisymm.
  - apply N.log2_up_le_pow2; [lia|]. apply D. apply N.log2_up_spec. lia.
  - assert (K : k <= N.log2_up w).
    { assert (2 ^ k < w) by lia.
      pose proof (N.log2_up_spec w ltac:(lia)) as (_ & U).
      destruct (N.le_gt_cases k (N.log2_up w)) as [|G]; [assumption|].
      assert (2 ^ N.log2_up w <= 2 ^ k) by (apply N.pow_le_mono_r; lia). lia. }
    assert (N.log2_up (ceil_quot w s) <= N.log2_up w - k); [|lia].
    apply N.log2_up_le_pow2; [lia|]. apply D. replace (N.log2_up w - k + k) with (N.log2_up w) by lia.
    apply N.log2_up_spec. lia.
Qed.

(** * Pixels *)
Lemma get_n_bits_lt : forall n x, x < n -> x < 2 ^ get_n_bits n.
Proof. intros n x H. pose proof (get_n_bits_pos n ltac:(lia)). lia. Qed.

Lemma fields_pixel : forall d base x y, valid d -> x < d_w d -> y < d_h d ->
  base < 2 ^ (32 - key_shift d) ->
  fields d (pixel_key d base x y) =
    (base, y / 2 ^ (y_bits d - sub_y_bits d), x / 2 ^ (x_bits d - sub_x_bits d)).
Proof.
  intros d base x y V X Y B. destruct (sub_bits_le d V) as (SX & SY).
  apply get_n_bits_lt in X, Y. fold (x_bits d) in X. fold (y_bits d) in Y.
  unfold fields, pixel_key, y_index_shift, x_index_shift, key_shift in *.
  rewrite !N.shiftl_mul_pow2.
  assert (EX : 2 ^ x_bits d = 2 ^ sub_x_bits d * 2 ^ (x_bits d - sub_x_bits d)).
  { rewrite <- N.pow_add_r. f_equal. lia. }
  assert (EY : 2 ^ y_bits d = 2 ^ sub_y_bits d * 2 ^ (y_bits d - sub_y_bits d)).
  { rewrite <- N.pow_add_r. f_equal. lia. }
  pose proof (pow2_nz (x_bits d)) as N1. pose proof (pow2_nz (y_bits d)) as N2.
  pose proof (pow2_nz (sub_x_bits d)) as N3. pose proof (pow2_nz (sub_y_bits d)) as N4.
  pose proof (pow2_nz (x_bits d - sub_x_bits d)) as N5. pose proof (pow2_nz (y_bits d - sub_y_bits d)) as N6.
  rewrite (N.pow_add_r 2 (y_bits d)), (N.pow_add_r 2 (x_bits d)).
  remember (2 ^ (32 - (y_bits d + x_bits d))) as PB.
  remember (2 ^ (x_bits d - sub_x_bits d)) as Rx. remember (2 ^ (y_bits d - sub_y_bits d)) as Ry.
  remember (2 ^ sub_x_bits d) as Px. remember (2 ^ sub_y_bits d) as Py.
  remember (2 ^ x_bits d) as Bx. remember (2 ^ y_bits d) as By.
  clear HeqPB HeqRx HeqRy HeqPx HeqPy HeqBx HeqBy SX SY.
  assert (D : (base * (By * Bx) + y * Bx + x) / Bx = base * By + y).
  { replace (base * (By * Bx) + y * Bx + x) with ((base * By + y) * Bx + x) by lia.
    rewrite N.div_add_l, (N.div_small x) by assumption. lia. }
  f_equal; [f_equal|].
  - rewrite (N.mul_comm By Bx), <- N.div_div, (N.mul_comm Bx By), D by assumption.
    rewrite N.div_add_l, (N.div_small y) by assumption. rewrite N.add_0_r. now apply N.mod_small.
  - rewrite <- N.div_div, D, EY by assumption.
    replace (base * (Py * Ry) + y) with (base * Py * Ry + y) by lia. rewrite N.div_add_l by assumption.
    rewrite N.add_comm, N.mod_add by assumption. apply N.mod_small.
    apply N.div_lt_upper_bound; [assumption|]. lia.
  - rewrite EX. replace (base * (By * (Px * Rx)) + y * (Px * Rx) + x)
      with ((base * By + y) * Px * Rx + x) by lia.
    rewrite N.div_add_l by assumption. rewrite N.add_comm, N.mod_add by assumption. apply N.mod_small.
    apply N.div_lt_upper_bound; [assumption|]. lia.
Qed.

(** Which pixels' keys match the key of a rectangle. *)
Lemma pixel_matches : forall d base base' i r x y, valid d ->
  x < d_w d -> y < d_h d -> i < n_sub_rectangles d -> base' < 2 ^ (32 - key_shift d) ->
  get_key_and_mask d base i = Ok r ->
  (key_matches (pixel_key d base' x y) (km_key r) (km_mask r) <->
   base' = base /\ sub_square d i = (x / 2 ^ (x_bits d - sub_x_bits d), y / 2 ^ (y_bits d - sub_y_bits d))).
Proof.
  intros d base base' i r x y V X Y L B H.
  destruct (sub_square d i) as (a, b) eqn:S.
  rewrite (key_mask_matches d base i r _ a b V L S H), fields_pixel by assumption.
  split; [intros [= -> -> ->]; auto|intros (-> & [= -> ->]); auto].
Qed.

(** More than one rectangle in each direction, or only one pixel. *)
Definition several (size sub : N) : Prop := size = 1 \/ sub < size.

Lemma several_bits : forall w s, (exists k, s = 2 ^ k) -> s <= w -> several w s ->
  2 ^ (get_n_bits w - get_n_bits (ceil_quot w s)) = s.
Proof.
  intros w s (k & E) L [W|W].
  - pose proof (pow2_nz k). assert (s = 1) by lia. subst w. rewrite H0. reflexivity.
  - now rewrite (index_bits w s k E W).
Qed.

Lemma rect_pixel_matches : forall d base base' i r x y, valid d ->
  several (d_w d) (d_sw d) -> several (d_h d) (d_sh d) ->
  x < d_w d -> y < d_h d -> i < n_sub_rectangles d -> base' < 2 ^ (32 - key_shift d) ->
  get_key_and_mask d base i = Ok r ->
  (key_matches (pixel_key d base' x y) (km_key r) (km_mask r) <-> base' = base /\ i = rect_of d x y).
Proof.
  intros d base base' i r x y V SW SH X Y L B H.
  rewrite (pixel_matches d base base' i r x y) by assumption.
  destruct (valid_pos d V) as (A1 & A2 & A3 & A4).
  unfold x_bits, y_bits, sub_x_bits, sub_y_bits, n_per_row, n_per_col.
  rewrite !several_bits; try assumption; try apply V.
  unfold rect_of. rewrite sub_square_inj; [reflexivity| |].
  - apply ceil_quot_pos; assumption.
  - apply pixel_index_lt; assumption.
Qed.

Lemma rect_of_lt : forall d x y, valid d -> x < d_w d -> y < d_h d -> rect_of d x y < n_sub_rectangles d.
Proof.
  intros d x y V X Y. destruct (valid_pos d V) as (A1 & A2 & A3 & A4).
  pose proof (pixel_index_lt (d_w d) (d_sw d) x A1 X) as H1.
  pose proof (pixel_index_lt (d_h d) (d_sh d) y A2 Y) as H2.
  unfold rect_of, n_sub_rectangles. fold (n_per_row d) in H1. fold (n_per_col d) in H2. nia.
Qed.

(** Rectangles' keys never share a key. *)
Lemma keys_disjoint : forall d base base' i j r s k, valid d ->
  i < n_sub_rectangles d -> j < n_sub_rectangles d ->
  get_key_and_mask d base i = Ok r -> get_key_and_mask d base' j = Ok s ->
  key_matches k (km_key r) (km_mask r) -> key_matches k (km_key s) (km_mask s) -> base = base' /\ i = j.
Proof.
  intros d base base' i j r s k V I J R S MR MS.
  destruct (sub_square d i) as (a, b) eqn:E. destruct (sub_square d j) as (a', b') eqn:E'.
  apply (key_mask_matches d base i r k a b V I E R) in MR.
  apply (key_mask_matches d base' j s k a' b' V J E' S) in MS.
  assert (Q : (base, b, a) = (base', b', a')) by congruence. injection Q as -> -> ->.
  split; [reflexivity|].
  destruct (sub_square_bounds d i a' b' V I E) as (A & _).
  apply sub_square_inj in E; [|lia|assumption]. apply sub_square_inj in E'; [|lia|assumption]. congruence.
Qed.

(** A device in one piece loses the upper half of its columns. *)
Lemma one_piece_lost : forall d base base' i r x y, valid d -> d_w d = d_sw d -> 2 <= d_w d ->
  x < d_w d -> d_w d <= 2 * x -> y < d_h d -> i < n_sub_rectangles d -> base' < 2 ^ (32 - key_shift d) ->
  get_key_and_mask d base i = Ok r ->
  ~ key_matches (pixel_key d base' x y) (km_key r) (km_mask r).
Proof.
  intros d base base' i r x y V E W X X2 Y L B H M.
  apply (pixel_matches d base base' i r x y V X Y L B H) in M. destruct M as (_ & S).
  destruct (sub_square_bounds d i _ _ V L S) as (Q & _).
  destruct (v_sw d V) as (k & K).
  assert (R : n_per_row d = 1).
  { unfold n_per_row, ceil_quot. rewrite E. pose proof (pow2_nz k). symmetry. apply N.div_unique with (r := d_sw d - 1); lia. }
  assert (S1 : sub_x_bits d = 1) by (unfold sub_x_bits; now rewrite R).
  assert (XB : x_bits d = k).
  { unfold x_bits, get_n_bits. destruct (N.eqb_spec (d_w d) 0); [lia|]. destruct (N.eqb_spec (d_w d) 1); [lia|].
    rewrite E, K. apply N.log2_up_pow2. lia. }
  assert (KP : k <> 0) by (intros ->; cbn in K; lia).
  rewrite R, S1, XB in Q.
  assert (2 ^ k = 2 * 2 ^ (k - 1)) by (rewrite <- N.pow_succ_r'; f_equal; lia).
  assert (1 <= x / 2 ^ (k - 1)); [|lia].
  apply N.div_le_lower_bound; [apply pow2_nz|]. lia.
Qed.

(** * Slices *)
Lemma in_zrange : forall a b r, In r (zrange a b) <-> (a <= r < b)%Z.
Proof.
  intros a b r. unfold zrange. rewrite in_map_iff. split.
  - intros (i & <- & H). apply in_seq in H. lia.
  - intro H. exists (Z.to_nat (r - a)). split; [lia|]. apply in_seq. lia.
Qed.

Lemma get_slice_Ok : forall d i x y, valid d -> sub_square d i = (x, y) ->
  get_slice d i = Ok (mkSlice (Z.of_N (i * (d_sw d * d_sh d))) (Z.of_N (d_sw d * d_sh d))
    (Some ([Z.of_N (d_sw d); Z.of_N (d_sh d)], [Z.of_N (x * d_sw d); Z.of_N (y * d_sh d)],
           [Z.of_N (d_w d); Z.of_N (d_h d)]))).
Proof.
  intros d i x y V S. unfold get_slice. rewrite S. destruct (valid_pos d V) as (A & B & _).
  assert (P : 0 < d_sw d * d_sh d) by nia.
  unfold make_mdslice, make_slice.
  destruct (Z.ltb_spec (Z.of_N (i * (d_sw d * d_sh d))) 0); [lia|].
  destruct (Z.ltb_spec (Z.of_N (i * (d_sw d * d_sh d)) + Z.of_N (d_sw d * d_sh d) - 1)
      (Z.of_N (i * (d_sw d * d_sh d)))); [lia|].
  cbn [bind sl_lo sl_n length Nat.eqb]. f_equal. f_equal. lia.
Qed.

Lemma slice_pixels : forall d i s r, valid d -> i < n_sub_rectangles d -> get_slice d i = Ok s ->
  (In r (raster_ids s) <->
   exists x y, x < d_w d /\ y < d_h d /\ r = (Z.of_N x + Z.of_N (d_w d) * Z.of_N y)%Z /\ i = rect_of d x y).
Proof.
  intros d i s r V L H. destruct (sub_square d i) as (a, b) eqn:S.
  rewrite (get_slice_Ok d i a b V S) in H. assert (s = _) as -> by (injection H; intro E; symmetry; exact E).
  clear H. destruct (valid_pos d V) as (P1 & P2 & P3 & P4).
  destruct (sub_square_bounds d i a b V L S) as (A & B).
  apply sub_square_inj in S; [|lia|assumption].
  unfold raster_ids. cbn [sl_md]. unfold zip3. cbn [combine raster_grid flat_map].
  rewrite app_nil_r, in_flat_map. split.
  - intros (c & HC & HR). apply in_map_iff in HC, HR. destruct HC as (y & <- & HY).
    destruct HR as (x & <- & HX). apply in_zrange in HX, HY.
    exists (Z.to_N x), (Z.to_N y). split; [lia|]. split; [lia|]. split; [nia|].
    rewrite S. unfold rect_of. f_equal; [f_equal|].
    + apply N.div_unique with (r := Z.to_N y - b * d_sh d); nia.
    + apply N.div_unique with (r := Z.to_N x - a * d_sw d); nia.
  - intros (x & y & X & Y & -> & E). rewrite S in E. unfold rect_of in E.
    pose proof (pixel_index_lt (d_w d) (d_sw d) x P1 X) as QX. fold (n_per_row d) in QX.
    destruct (radix_inj b a _ _ _ A QX E) as (EB & EA).
    pose proof (N.div_mod x (d_sw d) ltac:(lia)) as DX. pose proof (N.mod_lt x (d_sw d) ltac:(lia)) as MX.
    pose proof (N.div_mod y (d_sh d) ltac:(lia)) as DY. pose proof (N.mod_lt y (d_sh d) ltac:(lia)) as MY.
    rewrite <- EA in DX. rewrite <- EB in DY. clear EA EB E QX.
    remember (x mod d_sw d) as mx. remember (y mod d_sh d) as my. clear Heqmx Heqmy.
    assert (RX : a * d_sw d <= x < a * d_sw d + d_sw d) by lia.
    assert (RY : b * d_sh d <= y < b * d_sh d + d_sh d) by lia.
    clear - X Y RX RY.
    exists (Z.of_N y). split.
    + apply in_map_iff. exists (Z.of_N y). split; [lia|]. apply in_zrange. lia.
    + apply in_map_iff. exists (Z.of_N x). split; [reflexivity|]. apply in_zrange. lia.
Qed.

(** With sizes that divide, every atom of a slice is one of its pixels. *)
Lemma zrange_length : forall a b, length (zrange a b) = Z.to_nat (b - a).
Proof. intros. unfold zrange. now rewrite map_length, seq_length. Qed.

Lemma flat_map_const : forall (A B : Type) (f : A -> list B) n l,
  (forall a, length (f a) = n) -> length (flat_map f l) = (length l * n)%nat.
Proof.
  intros A B f n l H. induction l as [|a l IH]; [reflexivity|].
  cbn [flat_map]. rewrite app_length, IH, H. reflexivity.
Qed.

Lemma slice_pixel_count : forall d i s x y, valid d -> i < n_sub_rectangles d -> get_slice d i = Ok s ->
  sub_square d i = (x, y) ->
  length (raster_ids s) = N.to_nat (N.min (d_sw d) (d_w d - x * d_sw d) * N.min (d_sh d) (d_h d - y * d_sh d)).
Proof.
  intros d i s x y V L H S. destruct (valid_pos d V) as (P1 & P2 & P3 & P4).
  destruct (sub_square_bounds d i x y V L S) as (A & B).
  rewrite (get_slice_Ok d i x y V S) in H. assert (s = _) as -> by (injection H; intro E; symmetry; exact E).
  unfold raster_ids. cbn [sl_md]. unfold zip3. cbn [combine raster_grid flat_map].
  rewrite app_nil_r. erewrite flat_map_const.
  2:{ intro. rewrite map_length, zrange_length. reflexivity. }
  rewrite map_length, zrange_length. rewrite N2Nat.inj_mul, Nat.mul_comm. f_equal; lia.
Qed.

Lemma dividing_full : forall a b q x, 0 < b -> a = q * b -> x < ceil_quot a b -> x * b + b <= a.
Proof.
  intros a b q x P -> H. unfold ceil_quot in H.
  assert ((q * b + b - 1) / b = q) by (symmetry; apply N.div_unique with (r := b - 1); lia).
  nia.
Qed.

Lemma slice_full : forall d i s, valid d -> i < n_sub_rectangles d -> get_slice d i = Ok s ->
  (exists q, d_w d = q * d_sw d) -> (exists q, d_h d = q * d_sh d) ->
  Z.of_nat (length (raster_ids s)) = sl_n s.
Proof.
  intros d i s V L H (q & Q) (q' & Q'). destruct (sub_square d i) as (x, y) eqn:S.
  rewrite (slice_pixel_count d i s x y V L H S).
  destruct (valid_pos d V) as (P1 & P2 & P3 & P4).
  destruct (sub_square_bounds d i x y V L S) as (A & B).
  pose proof (dividing_full _ _ _ _ P1 Q A). pose proof (dividing_full _ _ _ _ P2 Q' B).
  rewrite (get_slice_Ok d i x y V S) in H. assert (s = _) as -> by (injection H; intro E; symmetry; exact E).
  cbn [sl_n]. rewrite !N.min_l by lia. lia.
Qed.

(** The slices follow one another. *)
Lemma slice_lo : forall d i s, valid d -> get_slice d i = Ok s ->
  sl_lo s = (Z.of_N i * sl_n s)%Z /\ sl_n s = Z.of_N (d_sw d * d_sh d).
Proof.
  intros d i s V H. destruct (sub_square d i) as (x, y) eqn:S.
  rewrite (get_slice_Ok d i x y V S) in H. assert (s = _) as -> by (injection H; intro E; symmetry; exact E).
  cbn [sl_lo sl_n]. lia.
Qed.
