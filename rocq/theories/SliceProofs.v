(** Proofs about slicing and index orders. *)
From Coq Require Import List ZArith Bool Lia Arith FinFun.
From Verif Require Import Base SliceModel.
Import ListNotations.
Local Open Scope Z_scope.

(** ** Specification vocabulary *)

(** Consecutive non-empty blocks from [lo] (inclusive) to [hi] (exclusive). *)
Fixpoint tiles (lo : Z) (l : list slice) (hi : Z) : Prop :=
  match l with
  | [] => lo = hi
  | s :: t => sl_lo s = lo /\ 0 < sl_n s /\ tiles (lo + sl_n s) t hi
  end.

(** A point of the grid. *)
Definition in_grid (shape g : list Z) : Prop := Forall2 (fun x a => 0 <= x < a) g shape.

(** A point of the hyper-rectangle of a slice. *)
Fixpoint in_box (g start shape : list Z) : Prop :=
  match g, start, shape with
  | [], [], [] => True
  | x :: g', s :: st', n :: sh' => s <= x < s + n /\ in_box g' st' sh'
  | _, _, _ => False
  end.
Definition in_slice (g : list Z) (s : slice) : Prop := in_box g (sl_start s) (sl_shape s).

(** The raster (row by row, dimension 0 fastest) number of a grid point. *)
Fixpoint raster_of (shape g : list Z) : Z :=
  match shape, g with
  | a :: shape', x :: g' => x + a * raster_of shape' g'
  | _, _ => 0
  end.

(** The limits in force. *)
Definition limits (v : app_vertex) : list Z :=
  match av_max v with None => av_shape v | Some mx => mx end.

(** A vertex whose n_atoms agrees with its shape, with at least one atom and
    positive limits. *)
Definition sized (v : app_vertex) : Prop :=
  av_n v = prod (av_shape v) /\ Forall (fun a => 0 < a) (av_shape v) /\
  Forall (fun m => 0 < m) (limits v).

(** What __check_atoms_per_core demands. *)
Definition splittable (v : app_vertex) : Prop :=
  length (limits v) = length (av_shape v) /\
  (length (av_shape v) <> 1%nat -> Forall2 (fun m d => (m | d)) (limits v) (av_shape v)).

(** ** Mixed radix numbers *)

Lemma prod_pos : forall l, Forall (fun a => 0 < a) l -> 0 < prod l.
Proof. induction l; intro H; cbn; [lia|]. inversion H; subst. specialize (IHl H3). fold (prod l). nia. Qed.

Fixpoint digits (shape : list Z) (r : Z) : list Z :=
  match shape with
  | [] => []
  | a :: t => r mod a :: digits t (r / a)
  end.

Lemma digits_grid : forall shape r, Forall (fun a => 0 < a) shape -> in_grid shape (digits shape r).
Proof.
  induction shape as [|a t IH]; intros r H; cbn; [constructor|].
  inversion H; subst. constructor; [apply Z.mod_pos_bound; lia|]. now apply IH.
Qed.

Lemma raster_digits : forall shape r, Forall (fun a => 0 < a) shape ->
  0 <= r < prod shape -> raster_of shape (digits shape r) = r.
Proof.
  induction shape as [|a t IH]; intros r H Hr.
  - cbn in *. lia.
  - inversion H; subst. cbn [digits raster_of].
    change (prod (a :: t)) with (a * prod t) in Hr.
    rewrite IH; [|assumption|].
    + pose proof (Z.div_mod r a). lia.
    + split; [apply Z.div_pos; lia|]. apply Z.div_lt_upper_bound; lia.
Qed.

Lemma digits_raster : forall shape g, in_grid shape g -> digits shape (raster_of shape g) = g.
Proof.
  intros shape g H. induction H as [|x a g t Hx H IH]; [reflexivity|].
  cbn [digits raster_of].
  replace (x + a * raster_of t g) with (raster_of t g * a + x) by lia.
  rewrite Z.add_comm, Z_mod_plus_full, Z.mod_small by lia.
  rewrite Z.div_add, Z.div_small by lia. now rewrite Z.add_0_l, IH.
Qed.

Lemma raster_bound : forall shape g, in_grid shape g -> 0 <= raster_of shape g < prod shape.
Proof.
  intros shape g H. induction H as [|x a g t Hx H IH]; [cbn; lia|].
  cbn [raster_of]. change (prod (a :: t)) with (a * prod t). nia.
Qed.

Lemma divmod_step : forall a x q, 0 <= x < a -> (x + a * q) mod a = x /\ (x + a * q) / a = q.
Proof.
  intros a x q H. split.
  - rewrite Z.mul_comm, Z_mod_plus_full. now apply Z.mod_small.
  - rewrite Z.mul_comm, Z.div_add, Z.div_small by lia. lia.
Qed.

(** ** Key order and raster order *)

Definition dim_ok (d : Z * Z) : Prop := 0 < fst d /\ 0 < snd d /\ (snd d | fst d).

Fixpoint core_of (dims : list (Z * Z)) (r : Z) : Z :=
  match dims with
  | [] => 0
  | (a, p) :: t => (r mod a) / p + (a / p) * core_of t (r / a)
  end.
Fixpoint atom_of (dims : list (Z * Z)) (r : Z) : Z :=
  match dims with
  | [] => 0
  | (a, p) :: t => (r mod a) mod p + p * atom_of t (r / a)
  end.
Fixpoint join (dims : list (Z * Z)) (c t : Z) : Z :=
  match dims with
  | [] => 0
  | (a, p) :: rest => ((c mod (a / p)) * p + t mod p) + a * join rest (c / (a / p)) (t / p)
  end.

Lemma key_loop_spec : forall dims rem cp cc core atom,
  key_loop dims rem cp cc core atom = (core + cc * core_of dims rem, atom + cp * atom_of dims rem).
Proof.
  induction dims as [|[a p] t IH]; intros; cbn [key_loop core_of atom_of].
  - f_equal; lia.
  - rewrite IH. f_equal; [ring|].
    replace ((rem mod a) mod p) with (rem mod a - p * (rem mod a / p)); [ring|].
    destruct (Z.eq_dec p 0) as [->|Hp].
    + rewrite Zmod_0_r, Zdiv_0_r. lia.
    + pose proof (Z.div_mod (rem mod a) p Hp). lia.
Qed.

Lemma raster_loop_spec : forall dims c t cum g,
  raster_loop dims c t cum g = g + cum * join dims c t.
Proof.
  induction dims as [|[a p] t0 IH]; intros; cbn [raster_loop join]; [lia|].
  rewrite IH. ring.
Qed.

Definition cores (dims : list (Z * Z)) : list Z := map (fun d => fst d / snd d) dims.
Definition pers (dims : list (Z * Z)) : list Z := map snd dims.
Definition sizes (dims : list (Z * Z)) : list Z := map fst dims.

Lemma dim_ok_quot : forall a p, dim_ok (a, p) -> exists c, 0 < c /\ a = p * c /\ a / p = c.
Proof.
  intros a p (Ha & Hp & [c Hc]). cbn in *. subst a. exists c.
  split; [nia|]. split; [ring|]. apply Z.div_mul. lia.
Qed.

Lemma prod_split : forall dims, Forall dim_ok dims ->
  prod (sizes dims) = prod (cores dims) * prod (pers dims) /\
  0 < prod (cores dims) /\ 0 < prod (pers dims).
Proof.
  induction dims as [|[a p] t IH]; intro H; [cbn; lia|].
  inversion H; subst. destruct (dim_ok_quot a p H2) as (c & Hc & E & Eq).
  destruct (IH H3) as (E1 & H4 & H5).
  unfold sizes, cores, pers in *. cbn [map fst snd].
  change (prod (a :: map fst t)) with (a * prod (map fst t)).
  rewrite Eq.
  change (prod (c :: ?l)) with (c * prod l).
  change (prod (p :: ?l)) with (p * prod l).
  assert (0 < p) by (destruct H2 as (_ & ? & _); assumption).
  rewrite E1, E. split; [ring|]. split; apply Z.mul_pos_pos; assumption.
Qed.

Lemma core_atom_bound : forall dims r, Forall dim_ok dims ->
  0 <= r < prod (sizes dims) ->
  0 <= core_of dims r < prod (cores dims) /\ 0 <= atom_of dims r < prod (pers dims).
Proof.
  induction dims as [|[a p] t IH]; intros r H Hr; [cbn; lia|].
  inversion H; subst. destruct (dim_ok_quot a p H2) as (c & Hc & E & Eq).
  assert (Hp : 0 < p) by (destruct H2 as (_ & ? & _); assumption).
  unfold sizes, cores, pers in *. cbn [map fst snd core_of atom_of] in *.
  change (prod (a :: map fst t)) with (a * prod (map fst t)) in Hr.
  rewrite Eq.
  change (prod (c :: ?l)) with (c * prod l).
  change (prod (p :: ?l)) with (p * prod l).
  assert (Ha : 0 < a) by nia.
  assert (Hq : 0 <= r / a < prod (map fst t)).
  { split; [apply Z.div_pos; lia|]. apply Z.div_lt_upper_bound; lia. }
  destruct (IH (r / a) H3 Hq) as [B1 B2].
  assert (Hm : 0 <= r mod a < a) by (apply Z.mod_pos_bound; lia).
  assert (Hc1 : 0 <= (r mod a) / p < c).
  { split; [apply Z.div_pos; lia|]. apply Z.div_lt_upper_bound; lia. }
  assert (Hc2 : 0 <= (r mod a) mod p < p) by (apply Z.mod_pos_bound; lia).
  remember (r mod a / p) as u. remember (core_of t (r / a)) as w.
  remember ((r mod a) mod p) as u2. remember (atom_of t (r / a)) as w2.
  clear - Hc Hp B1 B2 Hc1 Hc2. nia.
Qed.

Lemma join_split : forall dims r, Forall dim_ok dims ->
  0 <= r < prod (sizes dims) -> join dims (core_of dims r) (atom_of dims r) = r.
Proof.
  induction dims as [|[a p] t IH]; intros r H Hr; [cbn in *; lia|].
  inversion H; subst. destruct (dim_ok_quot a p H2) as (c & Hc & E & Eq).
  assert (Hp : 0 < p) by (destruct H2 as (_ & ? & _); assumption).
  unfold sizes in *. cbn [map fst snd core_of atom_of join] in *.
  change (prod (a :: map fst t)) with (a * prod (map fst t)) in Hr.
  assert (Ha : 0 < a) by nia.
  assert (Hq : 0 <= r / a < prod (map fst t)).
  { split; [apply Z.div_pos; lia|]. apply Z.div_lt_upper_bound; lia. }
  assert (Hm : 0 <= r mod a < a) by (apply Z.mod_pos_bound; lia).
  assert (Hc1 : 0 <= (r mod a) / p < c).
  { split; [apply Z.div_pos; lia|]. apply Z.div_lt_upper_bound; lia. }
  assert (Hc2 : 0 <= (r mod a) mod p < p) by (apply Z.mod_pos_bound; lia).
  rewrite Eq.
  destruct (divmod_step c _ (core_of t (r / a)) Hc1) as [-> ->].
  destruct (divmod_step p _ (atom_of t (r / a)) Hc2) as [-> ->].
  rewrite (IH _ H3 Hq).
  pose proof (Z.div_mod (r mod a) p). pose proof (Z.div_mod r a). lia.
Qed.

Lemma split_join : forall dims c t, Forall dim_ok dims ->
  0 <= c < prod (cores dims) -> 0 <= t < prod (pers dims) ->
  0 <= join dims c t < prod (sizes dims) /\
  core_of dims (join dims c t) = c /\ atom_of dims (join dims c t) = t.
Proof.
  induction dims as [|[a p] l IH]; intros c t H Hc Ht; [cbn in *; lia|].
  inversion H; subst. destruct (dim_ok_quot a p H2) as (q & Hq & E & Eq).
  assert (Hp : 0 < p) by (destruct H2 as (_ & ? & _); assumption).
  unfold sizes, cores, pers in *. cbn [map fst snd core_of atom_of join] in *.
  rewrite Eq in *.
  change (prod (q :: ?l)) with (q * prod l) in *.
  change (prod (p :: ?l)) with (p * prod l) in *.
  change (prod (a :: ?l)) with (a * prod l).
  assert (Ha : 0 < a) by nia.
  assert (B1 : 0 <= c / q < prod (map (fun d => fst d / snd d) l)).
  { split; [apply Z.div_pos; lia|]. apply Z.div_lt_upper_bound; lia. }
  assert (B2 : 0 <= t / p < prod (map snd l)).
  { split; [apply Z.div_pos; lia|]. apply Z.div_lt_upper_bound; lia. }
  destruct (IH _ _ H3 B1 B2) as (J1 & J2 & J3).
  assert (M1 : 0 <= c mod q < q) by (apply Z.mod_pos_bound; lia).
  assert (M2 : 0 <= t mod p < p) by (apply Z.mod_pos_bound; lia).
  assert (S : 0 <= c mod q * p + t mod p < a).
  { remember (c mod q) as u. remember (t mod p) as w. rewrite E. clear - M1 M2 Hp. nia. }
  destruct (divmod_step a _ (join l (c / q) (t / p)) S) as [-> ->].
  rewrite J2, J3.
  replace (c mod q * p + t mod p) with (t mod p + p * (c mod q)) by ring.
  destruct (divmod_step p _ (c mod q) M2) as [-> ->].
  split.
  - remember (c mod q) as u. remember (t mod p) as w. remember (join l (c/q) (t/p)) as j.
    remember (prod (map fst l)) as k. clear - J1 S Ha. nia.
  - pose proof (Z.div_mod c q). pose proof (Z.div_mod t p). lia.
Qed.

(** ** One dimension *)

Lemma make_slice_ok : forall lo hi, 0 <= lo <= hi -> make_slice lo hi = Ok (mkSlice lo (hi - lo + 1) None).
Proof.
  intros lo hi H. unfold make_slice.
  destruct (Z.ltb_spec lo 0); [lia|]. destruct (Z.ltb_spec hi lo); [lia|]. reflexivity.
Qed.

Lemma single_loop_spec : forall k n per lo, 0 < per -> 0 <= lo <= n ->
  (Z.of_nat k - 1) * per < n - lo <= Z.of_nat k * per ->
  exists l, single_loop k n per (lo - 1) = Ok l /\ tiles lo l n /\ length l = k /\
    Forall (fun s => sl_n s <= per /\ sl_md s = None) l.
Proof.
  induction k as [|k IH]; intros n per lo Hp Hlo Hk.
  - exists []. cbn. split; [reflexivity|]. split; [lia|]. split; [reflexivity|constructor].
  - cbn [single_loop]. replace (lo - 1 + 1) with lo by lia.
    rewrite Nat2Z.inj_succ in Hk.
    assert (Hlt : lo < n) by nia.
    destruct (Z.le_gt_cases (n - 1) (lo + per - 1)) as [C|C].
    + rewrite Z.min_l by lia. rewrite make_slice_ok by lia. cbn [bind].
      assert (k = 0%nat) by nia. subst k.
      cbn [single_loop bind]. eexists. split; [reflexivity|].
      cbn. split; [lia|]. split; [reflexivity|]. constructor; [cbn; split; [lia|reflexivity]|constructor].
    + rewrite Z.min_r by lia. rewrite make_slice_ok by lia. cbn [bind].
      destruct (IH n per (lo + per) Hp) as (l & E & T & L & F); [nia|nia|].
      replace (lo + per - 1) with (lo + per - 1) in E by lia.
      rewrite E. cbn [bind]. eexists. split; [reflexivity|].
      cbn [tiles sl_lo sl_n length]. replace (lo + (lo + per - 1 - lo + 1)) with (lo + per) by lia.
      split; [split; [lia|split; [lia|exact T]]|]. split; [congruence|].
      constructor; [cbn; split; [lia|reflexivity]|exact F].
Qed.

Lemma ceil_bounds : forall n per, 0 < per ->
  (- (- n / per) - 1) * per < n <= - (- n / per) * per.
Proof.
  intros n per H. pose proof (Z.div_mod (- n) per). pose proof (Z.mod_pos_bound (- n) per). nia.
Qed.

Lemma ceil_div_ok : forall n per, 0 < per -> ceil_div n per = Ok (- (- n / per)).
Proof. intros. unfold ceil_div. destruct (Z.eqb_spec per 0); [lia|reflexivity]. Qed.

Lemma single_slices_spec : forall v n m, av_shape v = [n] -> av_n v = n -> 0 < n ->
  limits v = [m] -> 0 < m ->
  exists l, single_slices v = Ok l /\ tiles 0 l n /\
    Z.of_nat (length l) = - (- n / m) /\
    Forall (fun s => sl_n s <= m /\ sl_md s = None) l.
Proof.
  intros v n m Hs Hn Hpos Hl Hm. unfold single_slices.
  assert (E1 : get_max_atoms_per_core v = Ok m).
  { unfold get_max_atoms_per_core, limits in *. destruct (av_max v) as [mx|].
    - subst mx. unfold check_atoms_per_core. rewrite Hs. cbn. f_equal. lia.
    - rewrite Hs in Hl. congruence. }
  assert (E2 : get_max_per_dim v = Ok [m]).
  { unfold get_max_per_dim, limits in *. destruct (av_max v) as [mx|].
    - subst mx. unfold check_atoms_per_core. rewrite Hs. reflexivity.
    - congruence. }
  rewrite E1. cbn [bind]. rewrite Hn.
  destruct (Z.ltb_spec n m).
  - rewrite make_slice_ok by lia. cbn [bind]. eexists. split; [reflexivity|].
    cbn. split; [lia|]. split.
    + pose proof (ceil_bounds n m Hm). assert (- (- n / m) = 1) by nia. lia.
    + constructor; [cbn; split; [lia|reflexivity]|constructor].
  - rewrite E2. cbn [bind]. unfold aget. cbn [nth_error bind].
    rewrite ceil_div_ok by lia. cbn [bind].
    pose proof (ceil_bounds n m Hm) as B.
    assert (P : 0 <= - (- n / m)) by nia.
    destruct (single_loop_spec (Z.to_nat (- (- n / m))) n m 0 Hm) as (l & E & T & L & F);
      [lia|rewrite Z2Nat.id by lia; lia|].
    exists l. split; [exact E|]. split; [exact T|]. split; [|exact F].
    rewrite L, Z2Nat.id by lia. reflexivity.
Qed.

(** ** Several dimensions *)

Fixpoint nl (k : Z) (dims : list (Z * Z)) : list (Z * Z * Z) :=
  match dims with
  | [] => []
  | (a, p) :: t => (k, p, a) :: nl (k * (a / p)) t
  end.

Fixpoint starts (dims : list (Z * Z)) (u : Z) : list Z :=
  match dims with
  | [] => []
  | (a, p) :: t => (u mod (a / p)) * p :: starts t (u / (a / p))
  end.

Lemma numerators_spec : forall dims k, Forall dim_ok dims ->
  numerators k dims = Ok (nl k dims, k * prod (cores dims)).
Proof.
  induction dims as [|[a p] t IH]; intros k H.
  - cbn. f_equal. f_equal. lia.
  - inversion H; subst. destruct (dim_ok_quot a p H2) as (c & Hc & E & Eq).
    assert (Hp : 0 < p) by (destruct H2 as (_ & ? & _); assumption).
    cbn [numerators nl]. rewrite ceil_div_ok by lia. cbn [bind].
    replace (- (- a / p)) with (a / p).
    + rewrite IH by assumption. cbn [bind]. f_equal. f_equal.
      unfold cores. cbn [map fst snd]. change (prod (?x :: ?l)) with (x * prod l). ring.
    + rewrite Eq, E. replace (- (p * c)) with ((- c) * p) by ring. rewrite Z.div_mul by lia. lia.
Qed.

Lemma locate_spec : forall dims k v, Forall dim_ok dims -> 0 < k ->
  0 <= v < k * prod (cores dims) ->
  locate (nl k dims) v = (combine (starts dims (v / k)) (pers dims), v mod k).
Proof.
  induction dims as [|[a p] t IH]; intros k v H Hk Hv.
  - cbn in *. rewrite Z.mod_small by lia. reflexivity.
  - inversion H; subst. destruct (dim_ok_quot a p H2) as (c & Hc & E & Eq).
    assert (Hp : 0 < p) by (destruct H2 as (_ & ? & _); assumption).
    cbn [nl locate starts]. unfold cores, pers in *. cbn [map fst snd] in *.
    rewrite Eq in *. change (prod (c :: ?l)) with (c * prod l) in Hv.
    rewrite IH; [|assumption|nia|nia].
    assert (F1 : v mod (k * c) / k = (v / k) mod c).
    { rewrite Z.rem_mul_r by lia. rewrite Z.mul_comm, Z.div_add by lia.
      rewrite Z.div_small by (apply Z.mod_pos_bound; lia). lia. }
    assert (F2 : (v mod (k * c)) mod k = v mod k).
    { rewrite Z.rem_mul_r by lia. rewrite Z.mul_comm, Z_mod_plus_full. apply Z.mod_mod. lia. }
    assert (F3 : v / (k * c) = v / k / c) by (rewrite Z.div_div by lia; reflexivity).
    rewrite F1, F2, F3. cbn [combine].
    assert (M : 0 <= (v / k) mod c < c) by (apply Z.mod_pos_bound; lia).
    rewrite Z.min_l by nia. f_equal. f_equal. f_equal. lia.
Qed.

Lemma starts_length : forall dims u, length (starts dims u) = length dims.
Proof. induction dims as [|[a p] t IH]; intro u; cbn; congruence. Qed.

Lemma map_combine_fst : forall {A B} (l : list A) (l' : list B),
  length l = length l' -> map fst (combine l l') = l.
Proof. induction l; intros [|b l'] H; cbn in *; try congruence. f_equal. apply IHl. lia. Qed.
Lemma map_combine_snd : forall {A B} (l : list A) (l' : list B),
  length l = length l' -> map snd (combine l l') = l'.
Proof. induction l; intros [|b l'] H; cbn in *; try congruence. f_equal. apply IHl. lia. Qed.

Definition md_slice (dims : list (Z * Z)) (v : nat) : slice :=
  let per := prod (pers dims) in
  mkSlice (Z.of_nat v * per) per (Some (pers dims, starts dims (Z.of_nat v), sizes dims)).

Lemma multi_loop_spec : forall dims m s, Forall dim_ok dims ->
  Z.of_nat (s + m) <= prod (cores dims) ->
  multi_loop (seq s m) (nl 1 dims) (sizes dims) (Z.of_nat s * prod (pers dims) - 1) =
  Ok (map (md_slice dims) (seq s m)).
Proof.
  intros dims m. induction m as [|m IH]; intros s H Hs; [reflexivity|].
  destruct (prod_split dims H) as (_ & _ & Pp).
  cbn [seq multi_loop map].
  rewrite locate_spec by (try assumption; lia). cbn [fst]. rewrite Z.div_1_r.
  assert (L : length (starts dims (Z.of_nat s)) = length (pers dims)).
  { rewrite starts_length. unfold pers. now rewrite map_length. }
  rewrite map_combine_fst, map_combine_snd by assumption.
  remember (prod (pers dims)) as pp.
  replace (Z.of_nat s * pp - 1 + 1) with (Z.of_nat s * pp) by lia.
  unfold make_mdslice. rewrite make_slice_ok by nia. cbn [bind].
  rewrite L, Nat.eqb_refl. cbn [bind sl_lo sl_n].
  replace (Z.of_nat s * pp + pp - 1) with (Z.of_nat (S s) * pp - 1) by lia.
  rewrite Heqpp in *. rewrite IH by (try assumption; lia).
  cbn [bind]. f_equal. f_equal.
  unfold md_slice. f_equal. lia.
Qed.

Lemma check_divisible_ok : forall mx shape, length mx = length shape ->
  Forall (fun m => 0 < m) mx ->
  (Forall2 (fun m d => (m | d)) mx shape -> check_divisible mx shape = Ok tt) /\
  (~ Forall2 (fun m d => (m | d)) mx shape -> check_divisible mx shape = Err ValueError).
Proof.
  induction mx as [|m mx IH]; intros [|d shape] L H; try discriminate.
  - split; [reflexivity|]. intro C. exfalso. apply C. constructor.
  - inversion H; subst. cbn [check_divisible].
    destruct (Z.eqb_spec m 0); [lia|].
    destruct (IH shape ltac:(cbn in L; lia) H3) as [I1 I2].
    destruct (Z.eqb_spec (d mod m) 0) as [E|E].
    + apply Z.mod_divide in E; [|lia]. split; intro F.
      * inversion F; subst. auto.
      * apply I2. intro C. apply F. now constructor.
    + split; intro F; [|reflexivity]. inversion F; subst.
      exfalso. apply E. apply Z.mod_divide; [lia|assumption].
Qed.

Lemma splittable_dec : forall v, sized v -> {splittable v} + {~ splittable v}.
Proof.
  intros v (Hn & Hs & Hl). unfold splittable.
  destruct (Nat.eq_dec (length (limits v)) (length (av_shape v))) as [E|E]; [|right; tauto].
  destruct (Nat.eq_dec (length (av_shape v)) 1) as [E1|E1]; [left; split; [exact E|tauto]|].
  destruct (check_divisible (limits v) (av_shape v)) eqn:C.
  - left. split; [exact E|]. intros _.
    assert (H : check_divisible (limits v) (av_shape v) = Ok tt) by (destruct a; exact C). clear C.
    revert H E Hl. clear. generalize (limits v) (av_shape v).
    induction l as [|m mx IH]; intros [|d sh] H E Hl; try discriminate; [constructor|].
    inversion Hl; subst. cbn in H. destruct (Z.eqb_spec m 0); [lia|].
    destruct (Z.eqb_spec (d mod m) 0); [|discriminate].
    constructor; [apply Z.mod_divide; lia|]. apply IH; auto.
  - right. intros [_ F]. specialize (F E1).
    destruct (check_divisible_ok _ _ E Hl) as [I _]. rewrite (I F) in C. discriminate.
Qed.

Lemma Forall2_diag_div : forall l : list Z, Forall2 (fun m d => (m | d)) l l.
Proof. induction l; constructor; [apply Z.divide_refl|assumption]. Qed.

Lemma limits_ok : forall v, sized v -> splittable v ->
  get_max_per_dim v = Ok (limits v) /\ get_max_atoms_per_core v = Ok (prod (limits v)).
Proof.
  intros v (Hn & Hs & Hl) (L & D). unfold get_max_per_dim, get_max_atoms_per_core, limits in *.
  destruct (av_max v) as [mx|]; [|split; [reflexivity|now rewrite Hn]].
  assert (C : check_atoms_per_core v mx = Ok tt).
  { unfold check_atoms_per_core. rewrite L, Nat.eqb_refl. cbn [negb].
    destruct (Nat.ltb_spec 1 (length (av_shape v))); [|reflexivity].
    apply (check_divisible_ok mx (av_shape v) L Hl). apply D. lia. }
  rewrite C. cbn [bind]. split; reflexivity.
Qed.

Lemma not_splittable : forall v, sized v -> ~ splittable v ->
  multi_slices v = Err ValueError.
Proof.
  intros v (Hn & Hs & Hl) N. unfold multi_slices, get_max_per_dim, splittable, limits in *.
  destruct (av_max v) as [mx|].
  - assert (C : check_atoms_per_core v mx = Err ValueError).
    { unfold check_atoms_per_core.
      destruct (Nat.eqb_spec (length mx) (length (av_shape v))) as [E|E]; [|reflexivity].
      cbn [negb]. destruct (Nat.ltb_spec 1 (length (av_shape v))) as [G|G].
      - apply (check_divisible_ok mx (av_shape v) E Hl). intro F. apply N. split; [exact E|auto].
      - exfalso. apply N. split; [exact E|]. intro Q.
        destruct (av_shape v) as [|d [|d' t]]; cbn in *; try lia.
        destruct mx; [constructor|discriminate]. }
    rewrite C. reflexivity.
  - exfalso. apply N. split; [reflexivity|]. intros _. apply Forall2_diag_div.
Qed.

Lemma dims_ok : forall v, sized v -> splittable v -> length (av_shape v) <> 1%nat ->
  let dims := combine (av_shape v) (limits v) in
  Forall dim_ok dims /\ sizes dims = av_shape v /\ pers dims = limits v.
Proof.
  intros v (Hn & Hs & Hl) (L & D) N dims. specialize (D N).
  split; [|split].
  - unfold dims. clear -Hs Hl D. revert Hs Hl.
    induction D as [|m d mx sh Hd D IH]; intros Hs Hl; cbn; [constructor|].
    inversion Hs; inversion Hl; subst. constructor; [|auto]. repeat split; auto.
  - apply map_combine_fst. lia.
  - apply map_combine_snd. lia.
Qed.

Lemma prod_le_eq : forall dims, Forall dim_ok dims ->
  prod (sizes dims) <= prod (pers dims) -> sizes dims = pers dims.
Proof.
  induction dims as [|[a p] t IH]; intros H Hle; [reflexivity|].
  inversion H; subst. destruct (dim_ok_quot a p H2) as (c & Hc & E & Eq).
  destruct (prod_split t H3) as (E1 & Q1 & Q2).
  assert (Hp : 0 < p) by (destruct H2 as (_ & ? & _); assumption).
  unfold sizes, pers, cores in *. cbn [map fst snd] in *.
  change (prod (?x :: ?l)) with (x * prod l) in *.
  rewrite E1 in Hle.
  remember (prod (map (fun d => fst d / snd d) t)) as q.
  remember (prod (map snd t)) as w.
  assert (c * q <= 1).
  { assert (p * w * (c * q) <= p * w * 1) by (rewrite E in Hle; nia).
    apply Z.mul_le_mono_pos_l in H0; nia. }
  assert (c = 1 /\ q = 1) by nia. destruct H1; subst c q.
  f_equal; [lia|]. apply IH; [assumption|]. rewrite E1, H4. nia.
Qed.

Lemma sizes_eq_cores : forall dims, Forall dim_ok dims -> sizes dims = pers dims ->
  prod (cores dims) = 1 /\ starts dims 0 = map (fun _ => 0) (sizes dims).
Proof.
  induction dims as [|[a p] t IH]; intros H E; [split; reflexivity|].
  inversion H; subst. unfold sizes, pers, cores in *. cbn [map fst snd starts] in *.
  inversion E; subst. assert (0 < p) by (destruct H2 as (_ & ? & _); assumption).
  rewrite Z.div_same by lia. destruct (IH H3 H4) as [I1 I2].
  change (prod (?x :: ?l)) with (x * prod l). rewrite I1, Z.mod_1_r, Z.div_1_r, I2.
  split; [lia|]. f_equal.
Qed.

Lemma multi_slices_shape : forall v, sized v -> splittable v -> length (av_shape v) <> 1%nat ->
  let dims := combine (av_shape v) (limits v) in
  multi_slices v = Ok (map (md_slice dims) (seq 0 (Z.to_nat (prod (cores dims))))).
Proof.
  intros v S P N dims. destruct (dims_ok v S P N) as (D & E1 & E2). fold dims in D, E1, E2.
  destruct (limits_ok v S P) as [G1 G2].
  unfold multi_slices. rewrite G1. cbn [bind]. destruct P as [L _].
  rewrite L, Nat.eqb_refl. cbn [negb].
  destruct (Nat.eqb_spec (length (av_shape v)) 1); [contradiction|].
  rewrite G2. cbn [bind]. destruct S as (Hn & Hs & Hl). rewrite Hn.
  destruct (prod_split dims D) as (PS & PC & PP).
  destruct (Z.leb_spec (prod (av_shape v)) (prod (limits v))) as [C|C].
  - rewrite <- E1, <- E2 in C. pose proof (prod_le_eq dims D C) as EQ.
    destruct (sizes_eq_cores dims D EQ) as [C1 C2]. rewrite C1.
    unfold make_mdslice. rewrite make_slice_ok by (pose proof (prod_pos _ Hs); lia).
    cbn [bind]. rewrite map_length, Nat.eqb_refl. cbn [bind sl_lo sl_n].
    change (Z.to_nat 1) with 1%nat. cbn [seq map]. unfold md_slice.
    change (Z.of_nat 0) with 0. rewrite C2, <- EQ, E1. f_equal. f_equal. f_equal; lia.
  - fold dims. rewrite numerators_spec by assumption. cbn [bind].
    rewrite <- E1. rewrite Z.mul_1_l.
    change (-1) with (Z.of_nat 0 * prod (pers dims) - 1).
    apply multi_loop_spec; [assumption|]. cbn. rewrite Z2Nat.id by lia. lia.
Qed.

Lemma in_grid_cons : forall a t x g, in_grid (a :: t) (x :: g) -> 0 <= x < a /\ in_grid t g.
Proof. intros a t x g H. inversion H; subst. auto. Qed.

Lemma box_iff : forall dims u g, Forall dim_ok dims -> 0 <= u < prod (cores dims) ->
  (in_box g (starts dims u) (pers dims) <->
   in_grid (sizes dims) g /\ core_of dims (raster_of (sizes dims) g) = u).
Proof.
  induction dims as [|[a p] t IH]; intros u g H Hu.
  - cbn in *. destruct g; split.
    + intros _. split; [constructor|lia].
    + intros _. exact I.
    + intros [].
    + intros [C _]. inversion C.
  - inversion H; subst. destruct (dim_ok_quot a p H2) as (c & Hc & E & Eq).
    assert (Hp : 0 < p) by (destruct H2 as (_ & ? & _); assumption).
    unfold sizes, pers, cores in *. cbn [map fst snd starts core_of] in *.
    rewrite Eq in *. change (prod (c :: ?l)) with (c * prod l) in Hu.
    assert (B : 0 <= u / c < prod (map (fun d => fst d / snd d) t)).
    { split; [apply Z.div_pos; lia|]. apply Z.div_lt_upper_bound; lia. }
    assert (M : 0 <= u mod c < c) by (apply Z.mod_pos_bound; lia).
    pose proof (Z.div_mod u c ltac:(lia)) as DM.
    destruct g as [|x g]; [split; [intros []|intros [C _]; inversion C]|].
    cbn [in_box raster_of]. specialize (IH (u / c) g H3 B).
    split.
    + intros [X Y]. apply IH in Y. destruct Y as [Y1 Y2].
      assert (Gx : 0 <= x < a) by nia.
      split; [now constructor|].
      destruct (divmod_step a x (raster_of (map fst t) g) Gx) as [-> ->].
      rewrite Y2. assert (x / p = u mod c).
      { symmetry. apply (Z.div_unique x p (u mod c) (x - u mod c * p)); lia. }
      lia.
    + intros [G C]. apply in_grid_cons in G. destruct G as [G1 G2].
      destruct (divmod_step a x (raster_of (map fst t) g) G1) as [R1 R2].
      rewrite R1, R2 in *.
      assert (Q : 0 <= x / p < c).
      { split; [apply Z.div_pos; lia|]. apply Z.div_lt_upper_bound; lia. }
      destruct (divmod_step c _ (core_of t (raster_of (map fst t) g)) Q) as [R3 R4].
      rewrite <- C, R3, R4 in *. split; [|apply IH; auto].
      pose proof (Z.div_mod x p ltac:(lia)). pose proof (Z.mod_pos_bound x p ltac:(lia)). nia.
Qed.

Lemma tiles_app : forall l1 l2 lo hi, tiles lo (l1 ++ l2) hi <-> exists m, tiles lo l1 m /\ tiles m l2 hi.
Proof.
  induction l1 as [|s t IH]; intros l2 lo hi; cbn [app tiles].
  - split; [intro; exists lo; auto|intros (m & -> & H); exact H].
  - rewrite IH. split.
    + intros (A & B & m & C & D). exists m. auto.
    + intros (m & (A & B & C) & D). split; [auto|]. split; [auto|]. exists m. auto.
Qed.

Lemma tiles_le : forall l lo hi, tiles lo l hi -> lo <= hi.
Proof. induction l as [|s t IH]; intros lo hi H; cbn in H; [lia|]. destruct H as (_ & P & H). apply IH in H. lia. Qed.

(** Each atom is in exactly one of the consecutive blocks. *)
Lemma tiles_unique : forall l lo hi a, tiles lo l hi -> lo <= a < hi ->
  exists i s, nth_error l i = Some s /\ sl_lo s <= a < sl_lo s + sl_n s /\
    forall j s', nth_error l j = Some s' -> sl_lo s' <= a < sl_lo s' + sl_n s' -> j = i.
Proof.
  assert (R : forall l lo hi j s, tiles lo l hi -> nth_error l j = Some s -> lo <= sl_lo s).
  { induction l as [|s t IH]; intros lo hi [|j] s' H E; cbn in *; try discriminate.
    - inversion E; subst. lia.
    - destruct H as (A & B & H). apply (IH _ _ _ _ H) in E. lia. }
  induction l as [|s t IH]; intros lo hi a H Ha; cbn [tiles] in H; [lia|].
  destruct H as (A & B & H).
  destruct (Z.lt_ge_cases a (lo + sl_n s)) as [C|C].
  - exists 0%nat, s. split; [reflexivity|]. split; [lia|].
    intros [|j] s' E X; [reflexivity|]. cbn in E. apply (R _ _ _ _ _ H) in E. lia.
  - assert (Ha2 : lo + sl_n s <= a < hi) by lia. destruct (IH _ _ _ H Ha2) as (i & s0 & E & X & U).
    exists (S i), s0. split; [exact E|]. split; [exact X|].
    intros [|j] s' E' X'.
    + cbn in E'. inversion E'; subst s'. lia.
    + f_equal. eapply U; eauto.
Qed.

Lemma tiles_md : forall dims m s, Forall dim_ok dims ->
  tiles (Z.of_nat s * prod (pers dims)) (map (md_slice dims) (seq s m))
        (Z.of_nat (s + m) * prod (pers dims)).
Proof.
  intros dims m. induction m as [|m IH]; intros s H; cbn [seq map tiles].
  - f_equal. lia.
  - destruct (prod_split dims H) as (_ & _ & Pp). cbn [md_slice sl_lo sl_n].
    split; [reflexivity|]. split; [assumption|].
    specialize (IH (S s) H). replace (s + S m)%nat with (S s + m)%nat by lia.
    replace (Z.of_nat s * prod (pers dims) + prod (pers dims))
      with (Z.of_nat (S s) * prod (pers dims)) by lia. exact IH.
Qed.

Lemma in_box_iff1 : forall g a n, in_box g [a] [n] <-> exists x, g = [x] /\ a <= x < a + n.
Proof.
  intros g a n. destruct g as [|x [|y g]]; cbn; split; try tauto.
  - intros (x & H & _). discriminate.
  - intros [H _]. eauto.
  - intros (x' & H & B). inversion H; subst. auto.
  - intros (x' & H & _). discriminate.
Qed.

Lemma in_grid1 : forall g n, in_grid [n] g <-> exists x, g = [x] /\ 0 <= x < n.
Proof.
  intros g n. split.
  - intro H. inversion H; subst. inversion H4; subst. eauto.
  - intros (x & -> & B). repeat constructor; lia.
Qed.

Lemma Forall_nth_error : forall {A} (P : A -> Prop) l i x, Forall P l -> nth_error l i = Some x -> P x.
Proof. intros A P l i x H E. apply nth_error_In in E. rewrite Forall_forall in H. auto. Qed.

Lemma shape1 : forall (v : app_vertex), sized v -> splittable v -> length (av_shape v) = 1%nat ->
  exists n m, av_shape v = [n] /\ av_n v = n /\ 0 < n /\ limits v = [m] /\ 0 < m /\
    multi_slices v = single_slices v.
Proof.
  intros v S P L. pose proof (limits_ok v S P) as [G _].
  destruct S as (Hn & Hs & Hl), P as (L' & _).
  destruct (av_shape v) as [|n [|]] eqn:Es; try discriminate.
  destruct (limits v) as [|m [|]] eqn:El; try discriminate.
  inversion Hs; inversion Hl; subst. exists n, m.
  split; [reflexivity|]. split; [rewrite Hn; cbn; lia|]. split; [assumption|].
  split; [reflexivity|]. split; [assumption|].
  unfold multi_slices. rewrite G. cbn [bind]. rewrite Es. reflexivity.
Qed.

(** The slices of a vertex. *)
Lemma slices_partition : forall v, sized v -> splittable v ->
  exists l, multi_slices v = Ok l /\ tiles 0 l (av_n v) /\
    (forall s, In s l -> sl_n s = prod (sl_shape s) /\
       Forall2 (fun x m => 0 < x <= m) (sl_shape s) (limits v) /\
       length (sl_start s) = length (av_shape v)) /\
    (forall g, in_grid (av_shape v) g ->
       exists i s, nth_error l i = Some s /\ in_slice g s /\
         forall j s', nth_error l j = Some s' -> in_slice g s' -> j = i) /\
    (forall s g, In s l -> in_slice g s -> in_grid (av_shape v) g).
Proof.
  intros v S P. destruct (Nat.eq_dec (length (av_shape v)) 1) as [L|L].
  - destruct (shape1 v S P L) as (n & m & Es & En & Pn & El & Pm & E).
    destruct (single_slices_spec v n m Es En Pn El Pm) as (l & El2 & T & _ & F).
    exists l. rewrite E, En. split; [exact El2|]. split; [exact T|].
    assert (I : forall s, In s l -> sl_md s = None /\ sl_n s <= m /\ 0 < sl_n s /\ 0 <= sl_lo s /\ sl_lo s + sl_n s <= n).
    { clear -T F. assert (Z0 : 0 <= 0) by lia. revert T Z0. generalize 0 at 1 3.
      induction F as [|s t [F1 F2] F IH]; intros lo T Hlo s' H; [destruct H|].
      cbn [tiles] in T. destruct T as (A & B & T). destruct H as [->|H].
      - pose proof (tiles_le _ _ _ T). split; [assumption|]. lia.
      - apply (IH _ T); [lia|exact H]. }
    split; [|split].
    + intros s Hs. destruct (I s Hs) as (M & H1 & H2 & H3 & H4).
      unfold sl_shape, sl_start. rewrite M, El, Es. cbn. split; [lia|].
      split; [constructor; [lia|constructor]|reflexivity].
    + intros g G. rewrite Es in G. apply in_grid1 in G. destruct G as (x & -> & B).
      destruct (tiles_unique l 0 n x T B) as (i & s & E1 & X & U).
      exists i, s. split; [exact E1|].
      assert (Q : forall j s', nth_error l j = Some s' ->
                 (in_slice [x] s' <-> sl_lo s' <= x < sl_lo s' + sl_n s')).
      { intros j s' Ej. apply nth_error_In in Ej. destruct (I s' Ej) as (M & _).
        unfold in_slice, sl_shape, sl_start. rewrite M. cbn. tauto. }
      split; [apply (Q i s E1); exact X|].
      intros j s' Ej H. apply (U j s' Ej). apply (Q j s' Ej). exact H.
    + intros s g Hs H. destruct (I s Hs) as (M & H1 & H2 & H3 & H4).
      unfold in_slice, sl_shape, sl_start in H. rewrite M in H.
      apply in_box_iff1 in H. destruct H as (x & -> & B).
      rewrite Es. apply in_grid1. exists x. split; [reflexivity|lia].
  - destruct (dims_ok v S P L) as (D & E1 & E2).
    pose proof (multi_slices_shape v S P L) as E. cbn zeta in E.
    remember (combine (av_shape v) (limits v)) as dims.
    destruct (prod_split dims D) as (PS & PC & PP).
    assert (LS : length dims = length (av_shape v)).
    { rewrite <- E1. unfold sizes. now rewrite map_length. }
    eexists. split; [exact E|].
    assert (N : forall i s, nth_error (map (md_slice dims) (seq 0 (Z.to_nat (prod (cores dims))))) i = Some s
                -> s = md_slice dims i /\ 0 <= Z.of_nat i < prod (cores dims)).
    { intros i s H. assert (B : (i < Z.to_nat (prod (cores dims)))%nat).
      { pose proof (nth_error_Some (map (md_slice dims) (seq 0 (Z.to_nat (prod (cores dims))))) i) as Q.
        rewrite map_length, seq_length in Q. apply Q. congruence. }
      rewrite nth_error_map, (nth_error_nth' _ 0%nat) in H by (rewrite seq_length; exact B).
      rewrite seq_nth in H by exact B. inversion H; subst. split; [reflexivity|lia]. }
    assert (K : forall i, 0 <= Z.of_nat i < prod (cores dims) ->
                nth_error (map (md_slice dims) (seq 0 (Z.to_nat (prod (cores dims))))) i = Some (md_slice dims i)).
    { intros i B. rewrite nth_error_map, (nth_error_nth' _ 0%nat) by (rewrite seq_length; lia).
      rewrite seq_nth by lia. reflexivity. }
    split; [|split; [|split]].
    + pose proof (tiles_md dims (Z.to_nat (prod (cores dims))) 0 D) as T.
      rewrite Z.mul_0_l in T. destruct S as (Hn & _). rewrite Hn, <- E1, PS.
      rewrite Nat.add_0_l, Z2Nat.id in T by lia. exact T.
    + intros s Hs. apply In_nth_error in Hs. destruct Hs as [i Hi].
      apply N in Hi. destruct Hi as [-> B].
      unfold md_slice, sl_shape, sl_start. cbn [sl_md sl_n].
      split; [reflexivity|]. rewrite E2. split; [|rewrite starts_length; exact LS].
      destruct S as (_ & _ & Hl). clear -Hl. induction Hl; constructor; [lia|assumption].
    + intros g G. rewrite <- E1 in G.
      pose proof (raster_bound _ _ G) as R.
      destruct (core_atom_bound dims _ D R) as [C _].
      exists (Z.to_nat (core_of dims (raster_of (sizes dims) g))). eexists.
      split; [apply K; rewrite Z2Nat.id by lia; exact C|]. split.
      * unfold in_slice, sl_start, sl_shape. cbn [md_slice sl_md]. apply box_iff; [exact D| |].
        -- rewrite Z2Nat.id by lia. exact C.
        -- split; [exact G|]. rewrite Z2Nat.id by lia. reflexivity.
      * intros j s' Ej H. apply N in Ej. destruct Ej as [-> B].
        unfold in_slice, sl_start, sl_shape in H. cbn [md_slice sl_md] in H.
        apply box_iff in H; [|exact D|exact B]. destruct H as [_ H]. rewrite H. lia.
    + intros s g Hs H. apply In_nth_error in Hs. destruct Hs as [i Hi].
      apply N in Hi. destruct Hi as [-> B].
      unfold in_slice, sl_start, sl_shape in H. cbn [md_slice sl_md] in H.
      apply box_iff in H; [|exact D|exact B]. rewrite <- E1. tauto.
Qed.

Lemma slices_accept_iff : forall v, sized v ->
  (splittable v <-> exists l, multi_slices v = Ok l) /\
  (~ splittable v <-> multi_slices v = Err ValueError).
Proof.
  intros v S. destruct (splittable_dec v S) as [P|P].
  - destruct (slices_partition v S P) as (l & E & _). split; split; intro H; try tauto.
    + eauto.
    + rewrite E in H. discriminate.
  - pose proof (not_splittable v S P) as E. split; split; intro H; try tauto.
    destruct H as [l H]. rewrite E in H. discriminate.
Qed.

Lemma one_dim_slices : forall v n m, sized v -> av_shape v = [n] -> limits v = [m] ->
  exists l, multi_slices v = Ok l /\ single_slices v = Ok l /\ tiles 0 l n /\
    Z.of_nat (length l) = - (- n / m) /\
    (forall s, In s l -> 0 < sl_n s <= m /\ hi_atom s = Ok (sl_lo s + sl_n s - 1)) /\
    (forall a, 0 <= a < n -> exists i s, nth_error l i = Some s /\
       sl_lo s <= a < sl_lo s + sl_n s /\
       forall j s', nth_error l j = Some s' -> sl_lo s' <= a < sl_lo s' + sl_n s' -> j = i).
Proof.
  intros v n m S Es El.
  assert (P : splittable v).
  { split; [rewrite Es, El; reflexivity|]. rewrite Es. intro C. exfalso. apply C. reflexivity. }
  destruct (shape1 v S P) as (n' & m' & Es' & En & Pn & El' & Pm & E); [rewrite Es; reflexivity|].
  assert (n' = n /\ m' = m) as [-> ->] by (split; congruence).
  destruct (single_slices_spec v n m Es En Pn El Pm) as (l & El2 & T & LL & F).
  exists l. split; [rewrite E; exact El2|]. split; [exact El2|]. split; [exact T|].
  split; [exact LL|]. split.
  - intros s Hs. assert (0 < sl_n s).
    { clear -T Hs. revert T Hs. generalize 0 at 1. induction l as [|x t IH]; intros lo T H; [destruct H|].
      cbn [tiles] in T. destruct T as (_ & B & T). destruct H as [->|H]; [exact B|eauto]. }
    rewrite Forall_forall in F. destruct (F s Hs) as [F1 F2].
    split; [lia|]. unfold hi_atom. rewrite F2. reflexivity.
  - intros a Ha. apply (tiles_unique l 0 n a T Ha).
Qed.

(** ** Orders *)

Lemma to_u32_small : forall x, 0 <= x < 2 ^ 32 -> to_u32 x = x.
Proof. intros. apply Z.mod_small. assumption. Qed.

Definition in_range (n : Z) (l : list Z) : Prop := Forall (fun i => 0 <= i < n) l.

Lemma limits_div : forall v, length (av_shape v) <> 1%nat ->
  splittable v -> length (limits v) = length (av_shape v).
Proof. intros v _ [H _]. exact H. Qed.

Lemma key_raster : forall v ixs, sized v -> splittable v -> av_n v <= 2 ^ 32 ->
  in_range (av_n v) ixs ->
  exists ks, key_ordered v (Some ixs) = Ok ks /\ in_range (av_n v) ks /\
    length ks = length ixs /\ raster_ordered v ks = Ok ixs.
Proof.
  intros v ixs S P B R. unfold key_ordered, raster_ordered.
  destruct (Nat.eqb_spec (length (av_shape v)) 1) as [L|L]; [exists ixs; auto|].
  destruct (dims_ok v S P L) as (D & E1 & E2).
  destruct (limits_ok v S P) as [G1 G2]. rewrite G1, G2. cbn [bind].
  remember (combine (av_shape v) (limits v)) as dims.
  destruct (prod_split dims D) as (PS & PC & PP). destruct S as (Hn & _).
  rewrite Hn in *. rewrite <- E1, <- E2 in *.
  assert (K : forall i, 0 <= i < prod (sizes dims) ->
    (let '(core, atom) := key_loop dims i 1 1 0 0 in to_u32 (core * prod (pers dims) + atom)) =
    core_of dims i * prod (pers dims) + atom_of dims i /\
    0 <= core_of dims i * prod (pers dims) + atom_of dims i < prod (sizes dims)).
  { intros i Hi. rewrite key_loop_spec. destruct (core_atom_bound dims i D Hi) as [B1 B2].
    assert (0 <= core_of dims i * prod (pers dims) + atom_of dims i < prod (sizes dims)).
    { rewrite PS. nia. }
    split; [|assumption]. rewrite !Z.add_0_l, !Z.mul_1_l. apply to_u32_small. lia. }
  eexists. split; [reflexivity|]. split; [|split].
  - unfold in_range in *. rewrite Forall_map. eapply Forall_impl; [|exact R].
    intros i Hi. destruct (K i Hi) as [-> Q]. exact Q.
  - apply map_length.
  - f_equal. rewrite map_map. rewrite <- (map_id ixs) at 2.
    apply map_ext_in. intros i Hi. unfold in_range in R. rewrite Forall_forall in R.
    specialize (R i Hi). destruct (K i R) as [-> Q].
    destruct (core_atom_bound dims i D R) as [B1 B2].
    rewrite raster_loop_spec.
    rewrite Z.div_add_l, (Z.div_small (atom_of dims i)) by lia.
    rewrite Z.add_comm with (n := core_of dims i * prod (pers dims)).
    rewrite Z_mod_plus_full, Z.mod_small by lia.
    rewrite Z.add_0_r, join_split by assumption. rewrite Z.add_0_l, Z.mul_1_l.
    apply to_u32_small. lia.
Qed.

Lemma raster_key : forall v ixs, sized v -> splittable v -> av_n v <= 2 ^ 32 ->
  in_range (av_n v) ixs ->
  exists rs, raster_ordered v ixs = Ok rs /\ in_range (av_n v) rs /\
    length rs = length ixs /\ key_ordered v (Some rs) = Ok ixs.
Proof.
  intros v ixs S P B R. unfold key_ordered, raster_ordered.
  destruct (Nat.eqb_spec (length (av_shape v)) 1) as [L|L]; [exists ixs; auto|].
  destruct (dims_ok v S P L) as (D & E1 & E2).
  destruct (limits_ok v S P) as [G1 G2]. rewrite G1, G2. cbn [bind].
  remember (combine (av_shape v) (limits v)) as dims.
  destruct (prod_split dims D) as (PS & PC & PP). destruct S as (Hn & _).
  rewrite Hn in *. rewrite <- E1, <- E2 in *.
  assert (K : forall i, 0 <= i < prod (sizes dims) ->
    let j := join dims (i / prod (pers dims)) (i mod prod (pers dims)) in
    to_u32 (raster_loop dims (i / prod (pers dims)) (i mod prod (pers dims)) 1 0) = j /\
    0 <= j < prod (sizes dims) /\ core_of dims j = i / prod (pers dims) /\
    atom_of dims j = i mod prod (pers dims)).
  { intros i Hi j. rewrite raster_loop_spec.
    assert (Q1 : 0 <= i / prod (pers dims) < prod (cores dims)).
    { split; [apply Z.div_pos; lia|]. apply Z.div_lt_upper_bound; lia. }
    assert (Q2 : 0 <= i mod prod (pers dims) < prod (pers dims)) by (apply Z.mod_pos_bound; lia).
    destruct (split_join dims _ _ D Q1 Q2) as (J1 & J2 & J3).
    split; [|auto]. rewrite Z.add_0_l, Z.mul_1_l. apply to_u32_small. lia. }
  eexists. split; [reflexivity|]. split; [|split].
  - unfold in_range in *. rewrite Forall_map. eapply Forall_impl; [|exact R].
    intros i Hi. destruct (K i Hi) as (-> & Q & _). exact Q.
  - apply map_length.
  - f_equal. rewrite map_map. rewrite <- (map_id ixs) at 2.
    apply map_ext_in. intros i Hi. unfold in_range in R. rewrite Forall_forall in R.
    specialize (R i Hi). destruct (K i R) as (-> & Q1 & Q2 & Q3).
    rewrite key_loop_spec, Q2, Q3, !Z.add_0_l, !Z.mul_1_l.
    pose proof (Z.div_mod i (prod (pers dims))). rewrite to_u32_small by lia. lia.
Qed.

Lemma key_ordered_all : forall v,
  key_ordered v None = key_ordered v (Some (map Z.of_nat (seq 0 (Z.to_nat (av_n v))))).
Proof. reflexivity. Qed.

(** ** Indices of one slice *)

(** Each dimension of the slice lies within the grid. *)
Definition dim3_ok (d : Z * (Z * Z)) : Prop :=
  0 <= fst (snd d) /\ 0 < snd (snd d) /\ fst (snd d) + snd (snd d) <= fst d.

(** An MDSlice that lies inside its grid (or any one-dimensional slice). *)
Definition slice_ok (s : slice) : Prop :=
  match sl_md s with
  | None => 0 <= sl_lo s /\ 0 < sl_n s
  | Some (sh, st, a) => length st = length a /\ length sh = length a /\
      sl_n s = prod sh /\ Forall dim3_ok (zip3 a st sh) /\ prod a <= 2 ^ 32
  end.

(** The raster index belongs to an atom of the slice. *)
Definition raster_in (s : slice) (r : Z) : Prop :=
  match sl_md s with
  | None => sl_lo s <= r < sl_lo s + sl_n s
  | Some (sh, st, a) => exists g, in_grid a g /\ in_box g st sh /\ r = raster_of a g
  end.

Fixpoint rel (dims : list (Z * (Z * Z))) (r : Z) : Z :=
  match dims with
  | [] => 0
  | (a, (st, sh)) :: t => (r mod a - st) + sh * rel t (r / a)
  end.
Fixpoint unrel (dims : list (Z * (Z * Z))) (l : Z) : Z :=
  match dims with
  | [] => 0
  | (a, (st, sh)) :: t => (l mod sh + st) + a * unrel t (l / sh)
  end.

Lemma relative_loop_spec : forall dims r cum acc, relative_loop dims r cum acc = acc + cum * rel dims r.
Proof.
  induction dims as [|[a [st sh]] t IH]; intros; cbn [relative_loop rel]; [lia|].
  rewrite IH. ring.
Qed.
Lemma slice_raster_loop_spec : forall dims r cum acc,
  slice_raster_loop dims r cum acc = acc + cum * unrel dims r.
Proof.
  induction dims as [|[a [st sh]] t IH]; intros; cbn [slice_raster_loop unrel]; [lia|].
  rewrite IH. ring.
Qed.

Fixpoint in_dims (g : list Z) (dims : list (Z * (Z * Z))) : Prop :=
  match g, dims with
  | [], [] => True
  | x :: g', (a, (st, sh)) :: t => st <= x < st + sh /\ in_dims g' t
  | _, _ => False
  end.

Definition shp (dims : list (Z * (Z * Z))) : list Z := map (fun d => snd (snd d)) dims.
Definition ats (dims : list (Z * (Z * Z))) : list Z := map fst dims.

Lemma shp_pos : forall dims, Forall dim3_ok dims -> 0 < prod (shp dims) <= prod (ats dims).
Proof.
  induction dims as [|[a [st sh]] t IH]; intro H; [cbn; lia|].
  inversion H; subst. destruct H2 as (H4 & H5 & H6). cbn [fst snd] in *.
  specialize (IH H3). unfold shp, ats in *. cbn [map fst snd].
  change (prod (?x :: ?l)) with (x * prod l). nia.
Qed.

Lemma in_dims_grid : forall dims g, Forall dim3_ok dims -> in_dims g dims -> in_grid (ats dims) g.
Proof.
  induction dims as [|[a [st sh]] t IH]; intros [|x g] H I; cbn in I; try contradiction; [constructor|].
  inversion H; subst. destruct H2 as (H4 & H5 & H6). cbn [fst snd] in *. destruct I as [I1 I2].
  unfold ats. cbn [map fst]. constructor; [lia|]. apply IH; assumption.
Qed.

Lemma rel_unrel : forall dims l, Forall dim3_ok dims -> 0 <= l < prod (shp dims) ->
  exists g, in_dims g dims /\ unrel dims l = raster_of (ats dims) g /\ rel dims (unrel dims l) = l.
Proof.
  induction dims as [|[a [st sh]] t IH]; intros l H Hl.
  - exists []. cbn in *. split; [auto|]. split; [reflexivity|lia].
  - inversion H; subst. destruct H2 as (H4 & H5 & H6). cbn [fst snd] in *.
    unfold shp, ats in *. cbn [map fst snd] in *. change (prod (?x :: ?l)) with (x * prod l) in Hl.
    assert (B : 0 <= l / sh < prod (map (fun d => snd (snd d)) t)).
    { split; [apply Z.div_pos; lia|]. apply Z.div_lt_upper_bound; lia. }
    destruct (IH _ H3 B) as (g & I & U & R).
    assert (M : 0 <= l mod sh < sh) by (apply Z.mod_pos_bound; lia).
    exists (l mod sh + st :: g). cbn [in_dims unrel raster_of rel].
    split; [split; [lia|exact I]|]. split; [rewrite U; reflexivity|].
    assert (X : 0 <= l mod sh + st < a) by lia.
    destruct (divmod_step a _ (unrel t (l / sh)) X) as [-> ->]. rewrite R.
    pose proof (Z.div_mod l sh). lia.
Qed.

Lemma unrel_rel : forall dims g, Forall dim3_ok dims -> in_dims g dims ->
  0 <= rel dims (raster_of (ats dims) g) < prod (shp dims) /\
  unrel dims (rel dims (raster_of (ats dims) g)) = raster_of (ats dims) g.
Proof.
  induction dims as [|[a [st sh]] t IH]; intros [|x g] H I; cbn in I; try contradiction; [cbn; lia|].
  inversion H; subst. destruct H2 as (H4 & H5 & H6). cbn [fst snd] in *. destruct I as [I1 I2].
  destruct (IH g H3 I2) as [B U]. unfold ats, shp in *. cbn [map fst snd raster_of rel unrel].
  change (prod (?x :: ?l)) with (x * prod l).
  assert (X : 0 <= x < a) by lia.
  destruct (divmod_step a x (raster_of (map fst t) g) X) as [-> ->].
  assert (Y : 0 <= x - st < sh) by lia.
  destruct (divmod_step sh _ (rel t (raster_of (map fst t) g)) Y) as [-> ->].
  rewrite U. split; [nia|lia].
Qed.

Lemma zip3_lists : forall a st sh, length st = length a -> length sh = length a ->
  ats (zip3 a st sh) = a /\ shp (zip3 a st sh) = sh /\
  forall g, in_dims g (zip3 a st sh) <-> in_box g st sh.
Proof.
  unfold zip3, ats, shp.
  induction a as [|x a IH]; intros [|y st] [|z sh] H1 H2; try discriminate.
  - split; [reflexivity|]. split; [reflexivity|]. intros [|]; cbn; tauto.
  - cbn in H1, H2. destruct (IH st sh ltac:(lia) ltac:(lia)) as (I1 & I2 & I3).
    cbn [combine map fst snd]. rewrite I1, I2. split; [reflexivity|]. split; [reflexivity|].
    intros [|w g]; cbn [in_dims in_box]; [tauto|]. rewrite I3. tauto.
Qed.

Lemma slice_raster_relative : forall s ixs, slice_ok s -> Forall (raster_in s) ixs ->
  in_range (sl_n s) (relative_indices s ixs) /\ raster_indices s (relative_indices s ixs) = ixs.
Proof.
  intros s ixs OK F. unfold slice_ok, raster_in, relative_indices, raster_indices, in_range in *.
  destruct (sl_md s) as [[[sh st] a]|].
  - destruct OK as (L1 & L2 & N & D & B). destruct (zip3_lists a st sh L1 L2) as (Z1 & Z2 & Z3).
    assert (K : forall r, In r ixs -> to_u32 (relative_loop (zip3 a st sh) r 1 0) = rel (zip3 a st sh) r
              /\ 0 <= rel (zip3 a st sh) r < prod sh /\ unrel (zip3 a st sh) (rel (zip3 a st sh) r) = r).
    { intros r Hr. rewrite Forall_forall in F. destruct (F r Hr) as (g & G & I & ->).
      apply Z3 in I. destruct (unrel_rel _ _ D I) as [U1 U2]. rewrite Z1, Z2 in *.
      split; [|auto]. rewrite relative_loop_spec, Z.add_0_l, Z.mul_1_l. apply to_u32_small.
      pose proof (shp_pos _ D). rewrite Z1, Z2 in *. lia. }
    split.
    + rewrite Forall_map, Forall_forall. intros r Hr. destruct (K r Hr) as (-> & Q & _). lia.
    + rewrite map_map. rewrite <- (map_id ixs) at 2. apply map_ext_in. intros r Hr.
      destruct (K r Hr) as (-> & _ & Q). rewrite slice_raster_loop_spec. lia.
  - split.
    + rewrite Forall_map. eapply Forall_impl; [|exact F]. cbn. intros. lia.
    + rewrite map_map. rewrite <- (map_id ixs) at 2. apply map_ext. intros. lia.
Qed.

Lemma slice_relative_raster : forall s ixs, slice_ok s -> in_range (sl_n s) ixs ->
  Forall (raster_in s) (raster_indices s ixs) /\ relative_indices s (raster_indices s ixs) = ixs.
Proof.
  intros s ixs OK F. unfold slice_ok, raster_in, relative_indices, raster_indices, in_range in *.
  destruct (sl_md s) as [[[sh st] a]|].
  - destruct OK as (L1 & L2 & N & D & B). destruct (zip3_lists a st sh L1 L2) as (Z1 & Z2 & Z3).
    rewrite N in F.
    assert (K : forall l, In l ixs -> slice_raster_loop (zip3 a st sh) l 1 0 = unrel (zip3 a st sh) l
              /\ (exists g, in_grid a g /\ in_box g st sh /\ unrel (zip3 a st sh) l = raster_of a g)
              /\ to_u32 (relative_loop (zip3 a st sh) (unrel (zip3 a st sh) l) 1 0) = l).
    { intros l Hl. rewrite Forall_forall in F. specialize (F l Hl).
      pose proof (shp_pos _ D) as SP. rewrite Z1, Z2 in SP.
      destruct (rel_unrel _ l D) as (g & I & U & R); [rewrite Z2; exact F|].
      rewrite Z1 in U. split; [rewrite slice_raster_loop_spec; lia|]. split.
      - exists g. split; [|split; [now apply Z3|exact U]].
        rewrite <- Z1. now apply in_dims_grid.
      - rewrite relative_loop_spec, R, Z.add_0_l, Z.mul_1_l. apply to_u32_small. lia. }
    split.
    + rewrite Forall_map, Forall_forall. intros l Hl. destruct (K l Hl) as (-> & Q & _). exact Q.
    + rewrite map_map. rewrite <- (map_id ixs) at 2. apply map_ext_in. intros l Hl.
      destruct (K l Hl) as (-> & _ & Q). exact Q.
  - split.
    + rewrite Forall_map. eapply Forall_impl; [|exact F]. cbn. intros. lia.
    + rewrite map_map. rewrite <- (map_id ixs) at 2. apply map_ext. intros. lia.
Qed.

Lemma zrange_0 : forall n, zrange 0 n = map Z.of_nat (seq 0 (Z.to_nat n)).
Proof. intro n. unfold zrange. rewrite Z.sub_0_r. apply map_ext. intro. lia. Qed.

Lemma In_zrange : forall lo hi x, In x (zrange lo hi) <-> lo <= x < hi.
Proof.
  intros. unfold zrange. rewrite in_map_iff. split.
  - intros (i & <- & H). apply in_seq in H. lia.
  - intro H. exists (Z.to_nat (x - lo)). split; [lia|]. apply in_seq. lia.
Qed.

Lemma zrange_app : forall lo m hi, lo <= m <= hi -> zrange lo hi = zrange lo m ++ zrange m hi.
Proof.
  intros lo m hi H. unfold zrange.
  replace (Z.to_nat (hi - lo)) with (Z.to_nat (m - lo) + Z.to_nat (hi - m))%nat by lia.
  rewrite seq_app, map_app. f_equal. rewrite Nat.add_0_l.
  replace (seq (Z.to_nat (m - lo)) (Z.to_nat (hi - m)))
    with (map (fun i => (Z.to_nat (m - lo) + i)%nat) (seq 0 (Z.to_nat (hi - m)))).
  - rewrite map_map. apply map_ext. intro. lia.
  - generalize (Z.to_nat (hi - m)) (Z.to_nat (m - lo)). intros k d.
    assert (G : forall k s, map (fun i => (d + i)%nat) (seq s k) = seq (d + s) k).
    { induction k0; intro s; cbn; [reflexivity|]. rewrite IHk0. f_equal. f_equal. lia. }
    rewrite G. f_equal. lia.
Qed.

Lemma zrange_shift : forall lo hi d, zrange (lo + d) (hi + d) = map (fun i => i + d) (zrange lo hi).
Proof.
  intros. unfold zrange. rewrite map_map. replace (hi + d - (lo + d)) with (hi - lo) by lia.
  apply map_ext. intro. lia.
Qed.

Lemma zrange_mul : forall k n, 0 < k -> 0 <= n ->
  zrange 0 (k * n) = flat_map (fun q => map (fun i => i + k * q) (zrange 0 k)) (zrange 0 n).
Proof.
  intros k n Hk Hn. rewrite <- (Z2Nat.id n) by lia.
  induction (Z.to_nat n) as [|m IH].
  - rewrite Z.mul_0_r. reflexivity.
  - rewrite Nat2Z.inj_succ, <- Z.add_1_r.
    rewrite (zrange_app 0 (Z.of_nat m) (Z.of_nat m + 1)) by lia.
    rewrite flat_map_app, <- IH.
    rewrite (zrange_app 0 (k * Z.of_nat m)) by nia. f_equal.
    assert (zrange (Z.of_nat m) (Z.of_nat m + 1) = [Z.of_nat m]) as ->.
    { unfold zrange. replace (Z.to_nat (Z.of_nat m + 1 - Z.of_nat m)) with 1%nat by lia.
      cbn. f_equal. lia. }
    cbn [flat_map]. rewrite app_nil_r, <- zrange_shift. f_equal; lia.
Qed.

Lemma raster_grid_spec : forall dims, Forall dim3_ok dims ->
  raster_grid dims = map (unrel dims) (zrange 0 (prod (shp dims))).
Proof.
  induction dims as [|[a [st sh]] t IH]; intro H; [reflexivity|].
  inversion H; subst. destruct H2 as (H4 & H5 & H6). cbn [fst snd] in *.
  pose proof (shp_pos t H3) as SP.
  cbn [raster_grid]. rewrite IH by assumption. unfold shp in *. cbn [map snd].
  change (prod (?x :: ?l)) with (x * prod l).
  rewrite zrange_mul by lia. rewrite Z.min_l by lia.
  rewrite !flat_map_concat_map, concat_map, !map_map. f_equal. apply map_ext_in.
  intros q Hq. apply In_zrange in Hq. rewrite map_map.
  replace (zrange st (st + sh)) with (zrange (0 + st) (sh + st)) by (f_equal; lia).
  rewrite zrange_shift, map_map. apply map_ext_in. intros i Hi. apply In_zrange in Hi.
  cbn [unrel]. destruct (divmod_step sh i q Hi) as [-> ->]. reflexivity.
Qed.

Lemma raster_ids_spec : forall s, slice_ok s ->
  raster_ids s = raster_indices s (map Z.of_nat (seq 0 (Z.to_nat (sl_n s)))) /\
  NoDup (raster_ids s) /\ (forall r, In r (raster_ids s) <-> raster_in s r).
Proof.
  intros s OK.
  assert (E : raster_ids s = raster_indices s (map Z.of_nat (seq 0 (Z.to_nat (sl_n s))))).
  { unfold slice_ok, raster_ids, raster_indices in *. destruct (sl_md s) as [[[sh st] a]|].
    - destruct OK as (L1 & L2 & N & D & B). destruct (zip3_lists a st sh L1 L2) as (Z1 & Z2 & Z3).
      rewrite raster_grid_spec by assumption. rewrite Z2, N, zrange_0. apply map_ext.
      intro i. rewrite slice_raster_loop_spec. lia.
    - unfold zrange. rewrite map_map. replace (sl_lo s + sl_n s - sl_lo s) with (sl_n s) by lia.
      apply map_ext. intro. lia. }
  split; [exact E|].
  assert (R : in_range (sl_n s) (map Z.of_nat (seq 0 (Z.to_nat (sl_n s))))).
  { unfold in_range. rewrite Forall_map, Forall_forall. intros i Hi. apply in_seq in Hi. lia. }
  destruct (slice_relative_raster s _ OK R) as [A B]. rewrite <- E in A, B.
  split.
  - assert (ND : NoDup (relative_indices s (raster_ids s))).
    { rewrite B. apply FinFun.Injective_map_NoDup; [intros x y; lia|apply seq_NoDup]. }
    clear -ND. unfold relative_indices in ND. destruct (sl_md s) as [[[? ?] ?]|];
      eapply NoDup_map_inv; exact ND.
  - intro r. split; intro H.
    + rewrite Forall_forall in A. auto.
    + destruct (slice_raster_relative s [r] OK) as [C D]; [repeat constructor; exact H|].
      rewrite E.
      destruct (relative_indices s [r]) as [|x [|y t]] eqn:Q; unfold raster_indices in D.
      1: destruct (sl_md s) as [[[sh st] a]|]; discriminate D.
      2: destruct (sl_md s) as [[[sh st] a]|]; discriminate D.
      assert (X : 0 <= x < sl_n s) by (inversion C; assumption).
      assert (I : In x (map Z.of_nat (seq 0 (Z.to_nat (sl_n s))))).
      { apply in_map_iff. exists (Z.to_nat x). split; [lia|apply in_seq; lia]. }
      unfold raster_indices. destruct (sl_md s) as [[[sh st] a]|]; cbn [map] in D;
        apply in_map_iff; exists x; (split; [congruence|exact I]).
Qed.

Lemma starts_dim3 : forall dims u, Forall dim_ok dims -> 
  Forall dim3_ok (zip3 (sizes dims) (starts dims u) (pers dims)).
Proof.
  unfold zip3, sizes, pers. induction dims as [|[a p] t IH]; intros u H; cbn; [constructor|].
  inversion H; subst. destruct (dim_ok_quot a p H2) as (c & Hc & E & Eq).
  assert (Hp : 0 < p) by (destruct H2 as (_ & ? & _); assumption).
  constructor; [|apply IH; assumption].
  rewrite Eq. assert (M : 0 <= u mod c < c) by (apply Z.mod_pos_bound; lia).
  unfold dim3_ok. cbn [fst snd]. split; [nia|]. split; [lia|nia].
Qed.

Lemma md_slice_ok : forall dims i, Forall dim_ok dims -> prod (sizes dims) <= 2 ^ 32 ->
  slice_ok (md_slice dims i).
Proof.
  intros dims i D B. unfold slice_ok, md_slice. cbn [sl_md sl_n].
  split; [rewrite starts_length; unfold sizes; now rewrite map_length|].
  split; [unfold pers, sizes; now rewrite !map_length|].
  split; [reflexivity|]. split; [|exact B]. now apply starts_dim3.
Qed.

Lemma rel_atom : forall dims g, Forall dim_ok dims -> forall u, 0 <= u < prod (cores dims) ->
  in_box g (starts dims u) (pers dims) ->
  rel (zip3 (sizes dims) (starts dims u) (pers dims)) (raster_of (sizes dims) g) =
  atom_of dims (raster_of (sizes dims) g).
Proof.
  unfold zip3. induction dims as [|[a p] t IH]; intros g H u Hu I; [reflexivity|].
  assert (I0 := I). apply box_iff in I0; [|assumption|assumption]. destruct I0 as [G _].
  inversion H; subst. destruct (dim_ok_quot a p H2) as (c & Hc & E & Eq).
  assert (Hp : 0 < p) by (destruct H2 as (_ & ? & _); assumption).
  unfold sizes, pers, cores in *. cbn [map fst snd starts core_of] in *.
  rewrite Eq in *. change (prod (c :: ?l)) with (c * prod l) in Hu.
  destruct g as [|x g]; [destruct I|]. cbn [in_box] in I. destruct I as [X Y].
  apply in_grid_cons in G. destruct G as [G1 G2].
  assert (B : 0 <= u / c < prod (map (fun d => fst d / snd d) t)).
  { split; [apply Z.div_pos; lia|]. apply Z.div_lt_upper_bound; lia. }
  cbn [combine rel atom_of raster_of].
  destruct (divmod_step a x (raster_of (map fst t) g) G1) as [-> ->].
  rewrite (IH g H3 (u / c) B Y). f_equal.
  apply (Z.mod_unique x p (u mod c)); lia.
Qed.

(** The position of an atom in key order is its slice's first atom number plus
    its position in the slice. *)
Lemma key_order_slices : forall v l r, sized v -> av_n v <= 2 ^ 32 ->
  multi_slices v = Ok l -> 0 <= r < av_n v ->
  exists s k j, In s l /\ slice_ok s /\ raster_in s r /\
    key_ordered v (Some [r]) = Ok [k] /\ relative_indices s [r] = [j] /\
    0 <= j < sl_n s /\ k = sl_lo s + j.
Proof.
  intros v l r S B E Hr.
  assert (P : splittable v) by (apply (slices_accept_iff v S); eauto).
  destruct (Nat.eq_dec (length (av_shape v)) 1) as [L|L].
  - destruct (shape1 v S P L) as (n & m & Es & En & Pn & El & Pm & E').
    destruct (single_slices_spec v n m Es En Pn El Pm) as (l' & El2 & T & _ & F).
    assert (l' = l) by congruence. subst l'. rewrite En in *.
    destruct (tiles_unique l 0 n r T Hr) as (i & s & E1 & X & _).
    exists s, r, (r - sl_lo s).
    assert (Hs := nth_error_In _ _ E1).
    rewrite Forall_forall in F. destruct (F s Hs) as [F1 F2].
    split; [exact Hs|]. split; [|split; [|split; [|split; [|split]]]].
    + unfold slice_ok. rewrite F2.
      clear -T Hs. assert (Z0 : 0 <= 0) by lia. revert T Z0. generalize 0 at 1 3.
      induction l as [|x t IH]; intros lo T Z0; [destruct Hs|].
      cbn [tiles] in T. destruct T as (A & B & T). destruct Hs as [->|Hs]; [lia|].
      apply (IH Hs _ T). lia.
    + unfold raster_in. rewrite F2. exact X.
    + unfold key_ordered. rewrite L. reflexivity.
    + unfold relative_indices. rewrite F2. reflexivity.
    + lia.
    + lia.
  - destruct (dims_ok v S P L) as (D & E1 & E2).
    pose proof (multi_slices_shape v S P L) as E0. cbn zeta in E0.
    destruct (key_raster v [r] S P B) as (ks & K1 & K2 & K3 & _); [repeat constructor; lia|].
    unfold key_ordered in K1 |- *. destruct (Nat.eqb_spec (length (av_shape v)) 1); [contradiction|].
    destruct (limits_ok v S P) as [G1 G2]. rewrite G1, G2 in K1 |- *. cbn [bind] in K1 |- *.
    remember (combine (av_shape v) (limits v)) as dims.
    destruct (prod_split dims D) as (PS & PC & PP). destruct S as (Hn & Hs & _).
    rewrite Hn in *. rewrite <- E1, <- E2 in *.
    assert (El : l = map (md_slice dims) (seq 0 (Z.to_nat (prod (cores dims))))) by congruence.
    destruct (core_atom_bound dims r D Hr) as [B1 B2].
    assert (G : in_grid (sizes dims) (digits (sizes dims) r)) by now apply digits_grid.
    assert (RG : raster_of (sizes dims) (digits (sizes dims) r) = r) by now apply raster_digits.
    assert (IB : in_box (digits (sizes dims) r) (starts dims (core_of dims r)) (pers dims)).
    { apply box_iff; [assumption|exact B1|]. split; [exact G|]. now rewrite RG. }
    exists (md_slice dims (Z.to_nat (core_of dims r))), (core_of dims r * prod (pers dims) + atom_of dims r),
           (atom_of dims r).
    split; [rewrite El; apply in_map, in_seq; lia|].
    split; [now apply md_slice_ok|]. split; [|split; [|split; [|split]]].
    + unfold raster_in. cbn [md_slice sl_md]. rewrite Z2Nat.id by lia.
      exists (digits (sizes dims) r). rewrite RG. auto.
    + cbn [map]. rewrite key_loop_spec, !Z.add_0_l, !Z.mul_1_l. f_equal. f_equal.
      apply to_u32_small. nia.
    + unfold relative_indices. cbn [md_slice sl_md map]. rewrite Z2Nat.id by lia.
      f_equal. rewrite relative_loop_spec, Z.add_0_l, Z.mul_1_l.
      pose proof (rel_atom dims _ D _ B1 IB) as RA. rewrite RG in RA. rewrite RA.
      apply to_u32_small. nia.
    + cbn [md_slice sl_n]. exact B2.
    + cbn [md_slice sl_lo]. rewrite Z2Nat.id by lia. reflexivity.
Qed.

(** ** Virtual devices *)

Lemma mapM_Ok_app : forall {A B} (f : A -> res B) l1 l2 r1 r2,
  mapM f l1 = Ok r1 -> mapM f l2 = Ok r2 -> mapM f (l1 ++ l2) = Ok (r1 ++ r2).
Proof.
  intros A B f. induction l1 as [|x t IH]; intros l2 r1 r2 H1 H2; cbn in *.
  - inversion H1; subst. exact H2.
  - apply bind_Ok_inv in H1. destruct H1 as (y & Hy & H1). apply bind_Ok_inv in H1.
    destruct H1 as (ys & Hys & H1). inversion H1; subst. rewrite Hy. cbn [bind].
    rewrite (IH _ _ _ Hys H2). reflexivity.
Qed.

Lemma mapM_ext : forall {A B} (f g : A -> res B) l, (forall x, f x = g x) -> mapM f l = mapM g l.
Proof. intros A B f g l H. induction l; cbn; [reflexivity|]. now rewrite H, IHl. Qed.

Lemma mapM_map : forall {A B C} (f : B -> res C) (g : A -> B) l,
  mapM f (map g l) = mapM (fun x => f (g x)) l.
Proof. induction l; cbn; [reflexivity|]. now rewrite IHl. Qed.

(** Slices of [per] atoms from the [s]-th on, the last cut at [n]. *)
Lemma device_loop : forall per n k s, 0 < per -> 0 <= s -> per * s <= n ->
  (forall i, s <= i < s + Z.of_nat k -> per * i < n) ->
  exists l, mapM (fun i => make_slice (per * i) (Z.min (per * (i + 1) - 1) (n - 1)))
                 (map (fun i => s + Z.of_nat i) (seq 0 k)) = Ok l /\
    tiles (per * s) l (Z.min (per * (s + Z.of_nat k)) n) /\ length l = k.
Proof.
  intros per n k. induction k as [|k IH]; intros s Hp Hs Hle H.
  - exists []. cbn. split; [reflexivity|]. split; [|reflexivity]. rewrite Z.add_0_r. lia.
  - cbn [seq map mapM]. rewrite Z.add_0_r.
    assert (per * s < n) by (apply H; lia).
    rewrite make_slice_ok by nia. cbn [bind].
    rewrite <- seq_shift, map_map.
    rewrite (map_ext _ (fun i => (s + 1) + Z.of_nat i)) by (intro; lia).
    destruct k as [|k'].
    + cbn. eexists. split; [reflexivity|]. cbn [tiles sl_lo sl_n]. split; [|reflexivity].
      split; [reflexivity|]. split; lia.
    + assert (per * (s + 1) < n) by (apply H; lia).
      destruct (IH (s + 1)) as (l & E & T & L); [lia|lia|lia|intros; apply H; lia|].
      rewrite E. cbn [bind]. eexists. split; [reflexivity|]. cbn [tiles sl_lo sl_n length].
      split; [|congruence]. split; [reflexivity|]. split; [lia|].
      rewrite Z.min_l by lia.
      replace (per * s + (per * (s + 1) - 1 - per * s + 1)) with (per * (s + 1)) by lia.
      replace (s + Z.of_nat (S (S k'))) with (s + 1 + Z.of_nat (S k')) by lia. exact T.
Qed.

Lemma fpga_one : forall n m, 1 <= m -> 0 <= n ->
  (m <= n -> exists l, mapM (fun i => fpga_slice n m i) (zrange 0 m) = Ok l /\
     tiles 0 l (m * (n / m)) /\ Z.of_nat (length l) = m) /\
  (n < m -> mapM (fun i => fpga_slice n m i) (zrange 0 m) = Err ValueError).
Proof.
  intros n m Hm Hn. unfold fpga_slice. destruct (Z.eqb_spec m 0); [lia|]. split; intro C.
  - assert (P : 0 < n / m) by (apply Z.div_str_pos; lia).
    pose proof (Z.mul_div_le n m ltac:(lia)) as Q.
    destruct (device_loop (n / m) n (Z.to_nat m) 0 P) as (l & E & T & L); [lia|lia| |].
    { intros i Hi. nia. }
    exists l. unfold zrange. rewrite Z.sub_0_r. split; [exact E|]. split; [|lia].
    rewrite Z.mul_0_r, Z.add_0_l, Z2Nat.id, Z.min_l in T by lia.
    rewrite (Z.mul_comm m). exact T.
  - rewrite Z.div_small by lia. unfold zrange. rewrite Z.sub_0_r.
    destruct (Z.to_nat m) as [|k] eqn:Ek; [lia|]. cbn [seq map mapM].
    unfold make_slice. destruct (Z.ltb_spec (0 * (0 + Z.of_nat 0)) 0); [lia|].
    destruct (Z.ltb_spec (Z.min (0 * (0 + Z.of_nat 0 + 1) - 1) (n - 1)) (0 * (0 + Z.of_nat 0))); [reflexivity|lia].
Qed.

Lemma mapM_repeat : forall {B} (f : Z -> res B) c l r, mapM f l = Ok r ->
  mapM f (flat_map (fun i => repeat i c) l) = Ok (flat_map (fun s => repeat s c) r).
Proof.
  intros B f c. induction l as [|x t IH]; intros r H; cbn in H.
  - inversion H; subst. reflexivity.
  - apply bind_Ok_inv in H. destruct H as (y & Hy & H). apply bind_Ok_inv in H.
    destruct H as (ys & Hys & H). inversion H; subst. cbn [flat_map].
    apply mapM_Ok_app; [|now apply IH].
    clear -Hy. induction c; cbn; [reflexivity|]. rewrite Hy, IHc. reflexivity.
Qed.

Lemma fpga_slices_spec : forall n m c, 1 <= m -> 0 <= n ->
  (m <= n -> exists l, fpga_slices n m c = Ok (flat_map (fun s => repeat s c) l) /\
     tiles 0 l (m * (n / m)) /\ Z.of_nat (length l) = m) /\
  (n < m -> (0 < c)%nat -> fpga_slices n m c = Err ValueError).
Proof.
  intros n m c Hm Hn. destruct (fpga_one n m Hm Hn) as [A B]. unfold fpga_slices. split; intro C.
  - destruct (A C) as (l & E & T & L). exists l. split; [now apply mapM_repeat|auto].
  - intro Hc. specialize (B C). clear A.
    destruct c as [|c]; [lia|].
    assert (Z1 : exists t, zrange 0 m = 0 :: t).
    { unfold zrange. destruct (Z.to_nat (m - 0)) eqn:Ek; [lia|]. cbn. eauto. }
    destruct Z1 as [t Et]. rewrite Et. cbn [flat_map repeat app mapM].
    assert (F : fpga_slice n m 0 = Err ValueError).
    { unfold fpga_slice. destruct (Z.eqb_spec m 0); [lia|]. rewrite Z.div_small by lia.
      unfold make_slice. rewrite Z.mul_0_l. destruct (Z.ltb_spec 0 0); [lia|].
      destruct (Z.ltb_spec (Z.min (0 * (0 + 1) - 1) (n - 1)) 0); [reflexivity|lia]. }
    rewrite F. reflexivity.
Qed.

Lemma link_slices_spec : forall n m, 1 <= m -> 1 <= n ->
  let per := - (- n / m) in
  (per * (m - 1) < n -> exists l, link_slices n m = Ok l /\ tiles 0 l n /\ Z.of_nat (length l) = m) /\
  (n <= per * (m - 1) -> link_slices n m = Err ValueError).
Proof.
  intros n m Hm Hn per. unfold link_slices.
  pose proof (ceil_bounds n m ltac:(lia)) as B. fold per in B.
  assert (P : 0 < per) by nia.
  assert (EL : forall i, link_slice n m i = make_slice (per * i) (Z.min (per * (i + 1) - 1) (n - 1))).
  { intro i. unfold link_slice. rewrite ceil_div_ok by lia. reflexivity. }
  unfold zrange. rewrite Z.sub_0_r. split; intro C.
  - destruct (device_loop per n (Z.to_nat m) 0 P) as (l & E & T & L); [lia|lia| |].
    { intros i Hi. nia. }
    exists l. split; [|split; [|lia]].
    + rewrite <- E. apply mapM_ext. exact EL.
    + rewrite Z.mul_0_r, Z.add_0_l, Z2Nat.id, Z.min_r in T by lia. exact T.
  - rewrite mapM_map.
    assert (I : forall i, n <= per * i -> 0 <= i -> make_slice (per * i) (Z.min (per * (i + 1) - 1) (n - 1)) = Err ValueError).
    { intros i Hi H0. unfold make_slice. destruct (Z.ltb_spec (per * i) 0); [reflexivity|].
      destruct (Z.ltb_spec (Z.min (per * (i + 1) - 1) (n - 1)) (per * i)); [reflexivity|lia]. }
    assert (G : forall k s, (exists i, (s <= i < s + k)%nat /\ n <= per * Z.of_nat i) ->
      mapM (fun x => link_slice n m (0 + Z.of_nat x)) (seq s k) = Err ValueError).
    { induction k as [|k IH]; intros s (i & Hi & Q); [lia|]. cbn [seq mapM].
      rewrite EL, Z.add_0_l. unfold make_slice at 1.
      destruct (Z.ltb_spec (per * Z.of_nat s) 0); [reflexivity|].
      destruct (Z.ltb_spec (Z.min (per * (Z.of_nat s + 1) - 1) (n - 1)) (per * Z.of_nat s)); [reflexivity|].
      cbn [bind]. rewrite IH; [reflexivity|]. exists i. split; [|exact Q].
      assert (i <> s); [|lia]. intros ->. lia. }
    apply G. exists (Z.to_nat (m - 1)). split; [lia|]. rewrite Z2Nat.id by lia. exact C.
Qed.
