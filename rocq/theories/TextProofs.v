(** Proofs about conversions to JSON and text. *)
From Coq Require Import String Ascii List ZArith Bool Lia Decimal DecimalString DecimalZ DecimalPos.
From Verif Require Import Base AllocModel Json SliceModel TextModel.
Import ListNotations.
Local Open Scope string_scope.

(** * JSON *)
Lemma iptag_round : forall t, iptag_from_json (iptag_to_json t) = Ok t.
Proof. intros [a [p|] s [g|] tr]; reflexivity. Qed.

Lemma reverse_round : forall t, reverse_from_json (reverse_to_json t) = Ok t.
Proof. intros [[p|] s [g|]]; reflexivity. Qed.

Lemma mapM_round : forall (A B : Type) (f : A -> B) (g : B -> res A) l,
  (forall a, g (f a) = Ok a) -> mapM g (map f l) = Ok l.
Proof.
  intros A B f g l H. induction l as [|a l IH]; [reflexivity|].
  cbn [map mapM]. now rewrite H, IH.
Qed.

(** * Digits *)
Definition digit (a : ascii) : Prop :=
  (exists n, (48 <= n <= 57)%nat /\ nat_of_ascii a = n) \/ a = "-"%char.

Fixpoint all_digits (s : string) : Prop :=
  match s with EmptyString => True | String a r => digit a /\ all_digits r end.

Ltac is_digit := left; eexists; split; [|reflexivity]; cbn; lia.

Lemma string_of_uint_digits : forall d, all_digits (NilEmpty.string_of_uint d).
Proof. induction d; cbn [NilEmpty.string_of_uint all_digits]; [exact I|..]; (split; [is_digit|assumption]). Qed.

Lemma str_int_digits : forall z, all_digits (str_int z).
Proof.
  intro z. unfold str_int, NilZero.string_of_int.
  assert (U : forall d, all_digits (NilZero.string_of_uint d)).
  { intros []; try apply string_of_uint_digits; cbn. split; [is_digit|exact I]. }
  destruct (Z.to_int z) as [d|d]; [apply U|]. split; [now right|apply U].
Qed.

Lemma to_int_nz : forall z, Z.to_int z <> Pos Nil /\ Z.to_int z <> Neg Nil.
Proof.
  intros [|p|p]; cbn; split; try discriminate; intros [= E];
    exact (DecimalPos.Unsigned.to_uint_nonnil p E).
Qed.

Lemma digit_not_space : forall a, digit a -> a <> " "%char.
Proof. intros a [(n & H & E)| ->]; [|discriminate]. intros ->. cbn in E. lia. Qed.

Lemma lstrip_digits : forall s, all_digits s -> lstrip s = s.
Proof.
  intros [|a r] H; [reflexivity|]. destruct H as (H & _). apply digit_not_space in H.
  destruct a as [[] [] [] [] [] [] [] []]; try reflexivity. contradiction.
Qed.

Lemma int_str_round : forall z, int_str (str_int z) = Ok z.
Proof.
  intro z. unfold int_str. rewrite lstrip_digits by apply str_int_digits.
  unfold str_int. destruct (to_int_nz z) as (A & B). rewrite NilZero.isi by assumption.
  now rewrite DecimalZ.of_to.
Qed.

Lemma int_str_space : forall s, int_str (String " " s) = int_str s.
Proof. reflexivity. Qed.

(** * Splitting *)
Fixpoint free (c : ascii) (s : string) : Prop :=
  match s with EmptyString => True | String a r => a <> c /\ free c r end.

Lemma digits_free : forall s c, all_digits s -> ~ digit c -> free c s.
Proof.
  induction s as [|a r IH]; intros c H D; [exact I|]. destruct H as (H & R).
  split; [intros ->; contradiction|]. now apply IH.
Qed.

Lemma not_digit : forall c, (nat_of_ascii c < 45 \/ 57 < nat_of_ascii c)%nat -> ~ digit c.
Proof. intros c H [(n & R & E)| ->]; [lia|]. cbn in H. lia. Qed.

Lemma str_int_free : forall z c, (nat_of_ascii c < 45 \/ 57 < nat_of_ascii c)%nat -> free c (str_int z).
Proof. intros z c H. apply digits_free; [apply str_int_digits|now apply not_digit]. Qed.

Lemma free_app : forall c s t, free c s -> free c t -> free c (s ++ t).
Proof. induction s as [|a r IH]; intros t S T; [exact T|]. destruct S. split; auto. Qed.

Lemma split_free : forall c s, free c s -> split c s = [s].
Proof.
  induction s as [|a r IH]; intro F; [reflexivity|]. destruct F as (N & F).
  cbn [split]. destruct (Ascii.eqb_spec a c); [contradiction|]. now rewrite (IH F).
Qed.

Lemma split_app : forall c s t, free c s -> split c (s ++ String c t) = s :: split c t.
Proof.
  induction s as [|a r IH]; intros t F.
  - cbn [append split]. now rewrite Ascii.eqb_refl.
  - destruct F as (N & F). cbn [append split]. destruct (Ascii.eqb_spec a c); [contradiction|].
    now rewrite (IH t F).
Qed.

Lemma init_snoc : forall s a, init (s ++ String a "") = s.
Proof.
  induction s as [|b r IH]; intro a; [reflexivity|].
  cbn [append init]. rewrite IH. destruct r; reflexivity.
Qed.

Lemma app_assoc_s : forall a b c : string, (a ++ b) ++ c = a ++ b ++ c.
Proof. induction a as [|x a IH]; intros b c; [reflexivity|]. cbn [append]. now rewrite IH. Qed.

(** * Slices *)
Lemma make_slice_again : forall s, sl_md s = None -> (0 <= sl_lo s)%Z -> (0 < sl_n s)%Z ->
  make_slice (sl_lo s) (sl_lo s + sl_n s - 1) = Ok s.
Proof.
  intros [lo n md] M L N. cbn [sl_lo sl_n sl_md] in *. subst md. unfold make_slice.
  destruct (Z.ltb_spec lo 0); [lia|]. destruct (Z.ltb_spec (lo + n - 1) lo); [lia|].
  f_equal. f_equal. lia.
Qed.

Lemma slice_round : forall s, sl_md s = None -> (0 <= sl_lo s)%Z -> (0 < sl_n s)%Z ->
  slice_from_string (slice_str s) = Ok s.
Proof.
  intros s M L N.
  assert (E : slice_str s =
    String "(" ((str_int (sl_lo s) ++ String ":" (str_int (sl_lo s + sl_n s - 1))) ++ ")")).
  { unfold slice_str. rewrite app_assoc_s. reflexivity. }
  rewrite E. unfold slice_from_string. cbn [Ascii.eqb Bool.eqb negb]. cbn [drop1].
  rewrite init_snoc. rewrite split_app by (apply str_int_free; cbn; lia).
  rewrite split_free by (apply str_int_free; cbn; lia).
  cbn [part nth_error bind]. rewrite int_str_round. cbn [bind]. rewrite int_str_round. cbn [bind].
  now apply make_slice_again.
Qed.

(** The texts of the dimensions. *)
Fixpoint dim_parts (l : list (Z * Z)) : list string :=
  match l with
  | [] => []
  | (st, sh) :: r => (str_int st ++ ":" ++ str_int (st + sh)%Z ++ ")") :: dim_parts r
  end.

Lemma dim_part_free : forall st sh, free "(" (str_int st ++ ":" ++ str_int (st + sh)%Z ++ ")").
Proof.
  intros st sh. apply free_app; [apply str_int_free; cbn; lia|].
  apply free_app; [cbn; split; [discriminate|exact I]|].
  apply free_app; [apply str_int_free; cbn; lia|cbn; split; [discriminate|exact I]].
Qed.

Lemma split_dims : forall l h, free "(" h -> split "(" (h ++ dims_str l) = h :: dim_parts l.
Proof.
  induction l as [|(st, sh) r IH]; intros h F.
  - cbn [dims_str dim_parts]. assert (E : h ++ "" = h) by (clear; induction h; cbn; [reflexivity|now f_equal]).
    rewrite E. now apply split_free.
  - cbn [dims_str dim_parts].
    assert (E : h ++ "(" ++ str_int st ++ ":" ++ str_int (st + sh)%Z ++ ")" ++ dims_str r =
                h ++ String "(" ((str_int st ++ ":" ++ str_int (st + sh)%Z ++ ")") ++ dims_str r)).
    { rewrite !app_assoc_s. reflexivity. }
    rewrite E, split_app by assumption. f_equal. apply IH, dim_part_free.
Qed.

Lemma read_dim_round : forall st sh,
  read_dim (str_int st ++ ":" ++ str_int (st + sh)%Z ++ ")") = Ok (st, sh).
Proof.
  intros st sh. unfold read_dim. cbn [append]. rewrite split_app by (apply str_int_free; cbn; lia).
  rewrite split_free.
  2:{ apply free_app; [apply str_int_free; cbn; lia|cbn; split; [discriminate|exact I]]. }
  cbn [part nth_error bind]. rewrite int_str_round. cbn [bind]. rewrite init_snoc, int_str_round.
  cbn [bind]. f_equal. f_equal. lia.
Qed.

Lemma read_dims_round : forall l, mapM read_dim (dim_parts l) = Ok l.
Proof.
  induction l as [|(st, sh) r IH]; [reflexivity|]. cbn [dim_parts mapM].
  rewrite read_dim_round. cbn [bind]. now rewrite IH.
Qed.

(** Tuples of two or more. *)
Lemma commas_free : forall l, free "(" (commas l).
Proof.
  induction l as [|z r IH]; [exact I|]. cbn [commas]. destruct r as [|y r'].
  - apply str_int_free. cbn. lia.
  - apply free_app; [apply str_int_free; cbn; lia|]. apply free_app; [|exact IH].
    cbn. repeat split; discriminate.
Qed.

Lemma split_commas : forall r z, mapM int_str (split "," (commas (z :: r))) = Ok (z :: r).
Proof.
  assert (S : forall r z, mapM int_str (split "," (String " " (commas (z :: r)))) = Ok (z :: r)).
  { induction r as [|y r IH]; intro z.
    - cbn [commas]. rewrite split_free.
      + cbn [mapM]. rewrite int_str_space, int_str_round. reflexivity.
      + split; [discriminate|]. apply str_int_free. cbn. lia.
    - cbn [commas].
      assert (E : String " " (str_int z ++ ", " ++ commas (y :: r)) =
                  String " " (str_int z) ++ String "," (String " " (commas (y :: r)))) by reflexivity.
      cbn [commas] in E. rewrite E.
      rewrite split_app by (split; [discriminate|apply str_int_free; cbn; lia]).
      cbn [mapM]. rewrite int_str_space, int_str_round. cbn [bind].
      specialize (IH y). cbn [commas] in IH. now rewrite IH. }
  intros [|y r] z.
  - cbn [commas]. rewrite split_free by (apply str_int_free; cbn; lia).
    cbn [mapM]. now rewrite int_str_round.
  - assert (E : commas (z :: y :: r) = str_int z ++ String "," (String " " (commas (y :: r)))) by reflexivity.
    rewrite E, split_app by (apply str_int_free; cbn; lia).
    cbn [mapM]. rewrite int_str_round. cbn [bind]. now rewrite S.
Qed.

Lemma tuple_str_two : forall a, (2 <= length a)%nat -> tuple_str a = "(" ++ commas a ++ ")".
Proof. intros [|x [|y a]] H; cbn [length] in H; try lia. reflexivity. Qed.

Lemma fold_mul : forall l a, fold_left Z.mul l a = (a * prod l)%Z.
Proof.
  induction l as [|x l IH]; intro a; cbn [fold_left prod fold_right]; [lia|].
  rewrite IH. unfold prod. lia.
Qed.

Lemma str_int_head : forall z, exists a r, str_int z = String a r /\ digit a.
Proof.
  intro z. pose proof (str_int_digits z) as D. destruct (str_int z) as [|a r] eqn:E.
  - pose proof (int_str_round z) as R. rewrite E in R. discriminate.
  - exists a, r. split; [reflexivity|apply D].
Qed.

Lemma map_combine : forall (A B : Type) (l : list A) (m : list B), length l = length m ->
  map fst (combine l m) = l /\ map snd (combine l m) = m.
Proof.
  induction l as [|a l IH]; intros [|b m] H; try discriminate; [split; reflexivity|].
  cbn [combine map fst snd]. destruct (IH m) as (E1 & E2); [now injection H|]. now rewrite E1, E2.
Qed.

Lemma mdslice_round : forall s sh st a, sl_md s = Some (sh, st, a) ->
  (0 <= sl_lo s)%Z -> (0 < sl_n s)%Z -> sl_n s = prod sh -> length sh = length st -> (2 <= length a)%nat ->
  mdslice_from_string (mdslice_str s) = Ok s.
Proof.
  intros [lo n md] sh st a M L N P LS LA. cbn [sl_md sl_lo sl_n] in *. subst md.
  unfold mdslice_str. cbn [sl_md sl_lo]. rewrite tuple_str_two by assumption.
  destruct (str_int_head lo) as (c & r & E & D).
  assert (NC : Ascii.eqb c "(" = false).
  { apply Ascii.eqb_neq. intros ->. revert D. apply not_digit. cbn. lia. }
  assert (T : str_int lo ++ ("(" ++ commas a ++ ")") ++ dims_str (combine st sh) =
              str_int lo ++ String "(" ((commas a ++ ")") ++ dims_str (combine st sh))).
  { rewrite !app_assoc_s. reflexivity. }
  rewrite T. unfold mdslice_from_string.
  assert (H : forall A (x y : A) (f : ascii -> A),
    match str_int lo ++ String "(" ((commas a ++ ")") ++ dims_str (combine st sh)) with
    | EmptyString => x | String b _ => f b end = f c).
  { intros. rewrite E. reflexivity. }
  rewrite (H _ _ (Err IndexError)). rewrite NC. clear H.
  rewrite split_app by (apply str_int_free; cbn; lia).
  rewrite split_dims.
  2:{ apply free_app; [apply commas_free|]. cbn. split; [discriminate|exact I]. }
  cbn [part nth_error bind skipn]. rewrite int_str_round. cbn [bind]. rewrite init_snoc.
  destruct a as [|z a]; [cbn in LA; lia|]. rewrite split_commas. cbn [bind].
  rewrite read_dims_round. cbn [bind].
  destruct (map_combine _ _ st sh (eq_sym LS)) as (E1 & E2). rewrite E1, E2, fold_mul.
  replace (1 * prod sh)%Z with n by lia.
  unfold make_mdslice.
  pose proof (make_slice_again (mkSlice lo n None) eq_refl L N) as Q. cbn [sl_lo sl_n] in Q. rewrite Q.
  cbn [bind]. rewrite LS, Nat.eqb_refl. reflexivity.
Qed.
