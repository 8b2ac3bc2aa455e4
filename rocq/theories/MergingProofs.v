(** How much the merging table generator merges (C159, C160). *)
From Coq Require Import List Arith NArith ZArith Bool Lia.
From Verif Require Import Base Dict RouteSpec AllocModel AllocProofs TablesModel GenModel GenProofs.
Import ListNotations.
Local Open Scope N_scope.

(** ** How many entries a run of machine vertices makes *)

Lemma low_bit_max : forall i l k, 0 < i -> low_bit i = 2 ^ l -> i mod 2 ^ k = 0 -> k <= l.
Proof.
  intros [|p] l k H; [lia|]. clear H. unfold low_bit. cbn [Z.of_N]. intros HL HM.
  assert (HZ : Z.land (Z.pos p) (- Z.pos p) = (2 ^ Z.of_N l)%Z).
  { apply (f_equal Z.of_N) in HL. rewrite Z2N.id in HL.
    - rewrite HL, N2Z.inj_pow. reflexivity.
    - apply Z.land_nonneg. left. lia. }
  destruct (N.le_gt_cases k l) as [C|C]; [auto|exfalso].
  assert (T : Z.testbit (Z.pos p) (Z.of_N l) = true).
  { apply (f_equal (fun z => Z.testbit z (Z.of_N l))) in HZ. rewrite Z.land_spec, Z.pow2_bits_true in HZ by lia.
    apply andb_true_iff in HZ. tauto. }
  apply mod0_mul in HM; [|pose proof (pow2_pos k); lia]. destruct HM as [q Hq].
  assert (E : Z.pos p = (Z.of_N q * 2 ^ Z.of_N k)%Z).
  { change (Z.pos p) with (Z.of_N (N.pos p)). rewrite Hq, N2Z.inj_mul, N2Z.inj_pow. reflexivity. }
  rewrite E, Z.mul_pow2_bits_low in T by lia. discriminate.
Qed.

Lemma low_bit_next : forall s l, 0 < s -> low_bit s = 2 ^ l -> exists l', low_bit (s + 2 ^ l) = 2 ^ l' /\ l < l'.
Proof.
  intros s l P E. pose proof (pow2_pos l) as Pl.
  destruct (low_bit_spec (s + 2 ^ l)) as (l' & A & _); [lia|]. exists l'. split; [auto|].
  apply N.le_succ_l.
  apply low_bit_max with (s + 2 ^ l); [lia|auto|].
  destruct (low_bit_spec s P) as (l0 & A0 & B0). rewrite E in A0.
  apply N.pow_inj_r in A0; [|lia]. subst l0.
  apply mod0_mul in B0; [|lia]. destruct B0 as [q Hq].
  destruct (N.even q) eqn:EV.
  - exfalso. apply N.even_spec in EV. destruct EV as [q' ->].
    assert (L : N.succ l <= l).
    { apply low_bit_max with s; auto. rewrite Hq, N.pow_succ_r'.
      replace (2 * q' * 2 ^ l) with (q' * (2 * 2 ^ l)) by lia. apply N.mod_mul. lia. }
    lia.
  - rewrite <- N.negb_odd in EV. apply negb_false_iff, N.odd_spec in EV. destruct EV as [q' ->].
    rewrite Hq, N.pow_succ_r'.
    replace ((2 * q' + 1) * 2 ^ l + 2 ^ l) with ((q' + 1) * (2 * 2 ^ l)) by lia. apply N.mod_mul. lia.
Qed.

Lemma break_down_count : forall fuel mm b es os, break_down fuel mm b es = Ok os -> es <> [] ->
  N.of_nat (length os) <= N.log2 (N.of_nat (length es)) + 1.
Proof.
  induction fuel as [|fuel IH]; intros mm b es os H NE.
  - destruct es; [congruence|discriminate].
  - destruct es as [|m es]; [congruence|]. cbn [break_down] in H. clear NE. set (r := m :: es) in *.
    assert (LR : 0 < N.of_nat (length r)) by (unfold r; cbn [length]; lia).
    destruct (N.log2_spec _ LR) as [L1 L2]. remember (N.log2 (N.of_nat (length r))) as l eqn:El.
    apply bind_Ok_inv in H. destruct H as (os' & H1 & H2). injection H2 as <-. cbn [length].
    assert (SL : length (skipn (N.to_nat (2 ^ l)) r) = (length r - N.to_nat (2 ^ l))%nat)
      by apply skipn_length.
    destruct (skipn (N.to_nat (2 ^ l)) r) as [|x r'] eqn:ER.
    + destruct fuel; cbn [break_down] in H1; injection H1 as <-; cbn [length]; lia.
    + apply IH in H1; [|discriminate]. rewrite SL in H1. rewrite N.pow_succ_r' in L2.
      assert (N.log2 (N.of_nat (length r - N.to_nat (2 ^ l))) < l).
      { apply N.log2_lt_pow2; [cbn [length] in SL; lia|]. lia. }
      lia.
Qed.

Lemma merge_loop_count : forall fuel K b is_last n s es os l M,
  merge_loop fuel (mask_of b) b is_last n es = Ok os -> es <> [] -> run K b s es ->
  0 < s -> low_bit s = 2 ^ l -> N.of_nat (length es) <= M ->
  N.of_nat (length os) <= (N.log2 M + 1 - l) + (N.log2 M + 1).
Proof.
  induction fuel as [|fuel IH]; intros K b is_last n s es os l M H NE R P LB LM.
  - destruct es; [congruence|discriminate].
  - destruct es as [|m es]; [congruence|]. cbn [merge_loop] in H. clear NE.
    set (r := m :: es) in *.
    assert (EI : me_index m = s) by apply R. rewrite EI in H.
    unfold n_sequential in H. destruct (N.ltb_spec 0 s) as [_|C]; [|lia]. rewrite LB in H.
    pose proof (pow2_pos l) as Pl.
    assert (LR : 0 < N.of_nat (length r)) by (unfold r; cbn [length]; lia).
    assert (SL : length (skipn (N.to_nat (2 ^ l)) r) = (length r - N.to_nat (2 ^ l))%nat)
      by apply skipn_length.
    destruct (N.leb_spec (2 ^ l) (N.of_nat (length r))) as [C|C]; cbn [orb] in H.
    + apply bind_Ok_inv in H. destruct H as (os' & H1 & H2). injection H2 as <-. cbn [length].
      assert (LL : l <= N.log2 M) by (apply N.log2_le_pow2; lia).
      destruct (skipn (N.to_nat (2 ^ l)) r) as [|x r'] eqn:ER.
      * destruct fuel; cbn [merge_loop] in H1; injection H1 as <-; cbn [length]; lia.
      * destruct (low_bit_next s l P LB) as (l' & L1 & L2).
        assert (X : run K b (s + 2 ^ l) (x :: r')).
        { pose proof (run_skipn K b (N.to_nat (2 ^ l)) s r R) as X. rewrite N2Nat.id, ER in X. exact X. }
        eapply IH with (M := M) in H1; [|discriminate|exact X|lia|exact L1|lia]. lia.
    + destruct is_last.
      * apply bind_Ok_inv in H. destruct H as (os' & H1 & H2). injection H2 as <-. cbn [length].
        rewrite skipn_all2 in H1 by lia.
        destruct fuel; cbn [merge_loop] in H1; injection H1 as <-; cbn [length]; lia.
      * apply break_down_count in H; [|discriminate].
        assert (N.log2 (N.of_nat (length r)) <= N.log2 M) by (apply N.log2_le_mono; lia). lia.
Qed.

Definition few (n : nat) : N := 2 * (N.log2 (N.of_nat n) + 1).

Lemma merge_count : forall K b mx s es os, merge_machine_entries (mask_of b) b mx es = Ok os ->
  run K b s es -> N.of_nat (length os) <= few (length es).
Proof.
  intros K b mx s es os H R. unfold merge_machine_entries in H. unfold few.
  destruct (rev es) as [|x q] eqn:ER; [discriminate|].
  assert (NE : es <> []) by (intros ->; discriminate).
  remember (me_index x =? mx) as il. clear Heqil ER.
  destruct (N.eq_dec s 0) as [-> |NS].
  - destruct es as [|m es]; [congruence|]. cbn [merge_loop] in H.
    change (length (m :: es)) with (S (length es)) in H at 1. cbn [merge_loop] in H.
    set (r := m :: es) in *. set (n := N.of_nat (length r)) in *.
    assert (EI : me_index m = 0) by apply R. rewrite EI in H.
    unfold n_sequential in H. destruct (N.ltb_spec 0 0) as [C|_]; [lia|].
    assert (LN : n <= 2 ^ N.log2_up n).
    { destruct (N.le_gt_cases n 1) as [C|C].
      - pose proof (pow2_pos (N.log2_up n)). lia.
      - apply N.log2_up_spec. auto. }
    destruct ((2 ^ N.log2_up n <=? n) || il)%bool.
    + apply bind_Ok_inv in H. destruct H as (os' & H1 & H2). injection H2 as <-. cbn [length].
      rewrite skipn_all2 in H1 by lia.
      destruct (length es); cbn [merge_loop] in H1; injection H1 as <-; cbn [length]; lia.
    + apply break_down_count in H; [|discriminate]. fold n in H. lia.
  - destruct (low_bit_spec s) as (l & L1 & _); [lia|].
    eapply merge_loop_count with (M := N.of_nat (length es)) in H; eauto; lia.
Qed.

(** All machine vertices of an application vertex make one entry. *)
Lemma merge_whole : forall K b mx es, run K b 0 es -> es <> [] -> N.of_nat (length es) = mx + 1 ->
  exists m rest, es = m :: rest /\
  merge_machine_entries (mask_of b) b mx es =
    Ok [mkOut (me_key m) (mask_of (b + N.log2_up (mx + 1))) (me_rent m)].
Proof.
  intros K b mx es R NE L. destruct es as [|m es]; [congruence|]. exists m, es. split; [auto|].
  unfold merge_machine_entries. destruct (rev (m :: es)) as [|x q] eqn:ER.
  { apply (f_equal (@rev ment)) in ER. rewrite rev_involutive in ER. discriminate. }
  assert (EX : me_index x = mx).
  { assert (EL : m :: es = rev q ++ [x]) by (rewrite <- (rev_involutive (m :: es)), ER; reflexivity).
    pose proof (run_skipn K b (length (rev q)) 0 (m :: es) R) as X. rewrite EL in X.
    rewrite skipn_app, skipn_all, Nat.sub_diag in X. cbn [app skipn run] in X.
    rewrite EL, app_length in L. cbn [length] in L. lia. }
  rewrite EX, N.eqb_refl.
  change (length (m :: es)) with (S (length es)) at 1. cbn [merge_loop].
  assert (EI : me_index m = 0) by apply R. rewrite EI, orb_true_r.
  unfold n_sequential. destruct (N.ltb_spec 0 0) as [C|_]; [lia|]. rewrite L.
  assert (LN : mx + 1 <= 2 ^ N.log2_up (mx + 1)).
  { destruct (N.le_gt_cases (mx + 1) 1) as [C|C].
    - pose proof (pow2_pos (N.log2_up (mx + 1))). lia.
    - apply N.log2_up_spec. auto. }
  rewrite skipn_all2 by lia. rewrite group_mask_spec.
  destruct (length es); reflexivity.
Qed.

Lemma few_pos : forall n, 1 <= few n.
Proof. intros. unfold few. lia. Qed.

Lemma few_add : forall n m, (0 < n)%nat -> (0 < m)%nat -> few (n + m) <= few n + few m.
Proof.
  intros n m Hn Hm. unfold few.
  set (a := N.of_nat n). set (c := N.of_nat m).
  replace (N.of_nat (n + m)) with (a + c) by lia.
  assert (B : N.log2 (a + c) < N.max (N.log2 a) (N.log2 c) + 2).
  { apply N.log2_lt_pow2; [lia|].
    destruct (N.log2_spec a) as [_ A2]; [lia|]. destruct (N.log2_spec c) as [_ C2]; [lia|].
    set (M := N.max (N.log2 a) (N.log2 c)).
    assert (2 ^ N.succ (N.log2 a) <= 2 ^ (M + 1)) by (apply N.pow_le_mono_r; lia).
    assert (2 ^ N.succ (N.log2 c) <= 2 ^ (M + 1)) by (apply N.pow_le_mono_r; lia).
    replace (M + 2) with (N.succ (M + 1)) by lia. rewrite N.pow_succ_r'. lia. }
  lia.
Qed.

Lemma few_concat : forall {A} (bs : list (list A)), Forall (fun x => x <> []) bs -> bs <> [] ->
  few (length (concat bs)) <= fold_right (fun x s => few (length x) + s) 0 bs.
Proof.
  induction bs as [|x bs IH]; intros F NE; [congruence|]. inversion_clear F as [|? ? F1 F2].
  cbn [concat fold_right]. rewrite app_length.
  assert (LX : (0 < length x)%nat) by (destruct x; [congruence|cbn [length]; lia]).
  destruct bs as [|y bs].
  - cbn [concat length fold_right]. rewrite Nat.add_0_r. lia.
  - assert (LY : (0 < length (concat (y :: bs)))%nat).
    { inversion_clear F2. cbn [concat]. rewrite app_length. destruct y; [congruence|cbn [length]; lia]. }
    pose proof (few_add _ _ LX LY). assert (Y : y :: bs <> []) by discriminate. specialize (IH F2 Y). lia.
Qed.

(** ** Masks without holes *)
Lemma no_holes : forall b, b <= 32 -> mask_has_holes (mask_of b) = false.
Proof.
  intros b Hb. unfold mask_has_holes. apply negb_false_iff. apply N.eqb_eq.
  assert (E : N.ldiff 0xFFFFFFFF (mask_of b) = N.ones b).
  { replace (mask_of b) with (N.ldiff (N.ones 32) (N.ones b)).
    - change 0xFFFFFFFF with (N.ones 32). apply N.bits_inj. intro n. rewrite !N.ldiff_spec.
      destruct (N.lt_ge_cases n b) as [L|L].
      + rewrite !N.ones_spec_low by lia. reflexivity.
      + rewrite (N.ones_spec_high b n) by lia. cbn [negb]. rewrite andb_true_r, andb_negb_r. reflexivity.
    - unfold mask_of. rewrite <- N.sub_nocarry_ldiff.
      + rewrite !N.ones_equiv. change (N.pred (2 ^ 32)) with 0xFFFFFFFF. pose proof (pow2_pos b). lia.
      + apply N.bits_inj. intro n. rewrite N.ldiff_spec, N.bits_0.
        destruct (N.lt_ge_cases n b) as [L|L].
        * rewrite !N.ones_spec_low by lia. reflexivity.
        * rewrite (N.ones_spec_high b n) by lia. reflexivity. }
  rewrite E, N.ones_equiv. pose proof (pow2_pos b).
  replace (N.pred (2 ^ b) + 1) with (2 ^ b) by lia.
  replace (2 ^ b - 1) with (N.ones b) by (rewrite N.ones_equiv; lia).
  rewrite N.land_ones. apply N.mod_same. lia.
Qed.

(** ** The groups that the generator makes *)

Section Groups.
  Variable entry_eq : entry -> entry -> bool.
  Variable infos : list info.
  Variable app_of : nat -> option nat.
  Variable items : list ((vertex * nat) * rent).
  Hypothesis WK : well_keyed infos app_of items.

  (** [y] may follow [x] in a group. *)
  Definition link (x y : (vertex * nat) * rent) : Prop :=
    exists m m' p en en' a i i' j mm b mx idx,
      x = ((Mac m, p), en) /\ y = ((Mac m', p), en') /\ app_of m = Some a /\ app_of m' = Some a /\
      get_info infos (Mac m) p = Ok i /\ get_info infos (Mac m') p = Ok i' /\
      get_info infos (App a) p = Ok j /\ i_extra j = IApp mm b mx /\ km_mask (i_km i) = mm /\
      mask_has_holes mm = false /\ i_extra i = IMac idx /\ i_extra i' = IMac (idx + 1) /\
      re_route en = re_route en'.

  Lemma scan_stop : forall a p j mm b mx, get_info infos (App a) p = Ok j -> i_extra j = IApp mm b mx ->
    forall rest m i idx en g lft, app_of m = Some a -> get_info infos (Mac m) p = Ok i ->
    i_extra i = IMac idx -> scan_group infos app_of mm (Some a) p (i_km i) idx en rest = Ok (g, lft) ->
    exists taken, rest = taken ++ lft /\
      forall y l', lft = y :: l' -> ~ link (last taken ((Mac m, p), en)) y.
  Proof.
    intros a p j mm b mx GJ XJ. induction rest as [|[[v' p'] en'] rest IH]; intros m i idx en g lft A G X H.
    - injection H as <- <-. exists []. split; [reflexivity|]. discriminate.
    - cbn [scan_group] in H.
      assert (STOP : forall C : ~ link ((Mac m, p), en) ((v', p'), en'),
        @Ok (list ment * list ((vertex * nat) * rent)) ([], ((v', p'), en') :: rest) = Ok (g, lft) ->
        exists taken, ((v', p'), en') :: rest = taken ++ lft /\
        forall y l', lft = y :: l' -> ~ link (last taken ((Mac m, p), en)) y).
      { intros C E. injection E as <- <-. exists []. split; [reflexivity|]. intros y l' E. injection E as <- _.
        exact C. }
      destruct (N.eqb_spec (km_mask (i_km i)) mm) as [EM|NM]; cbn [negb] in H.
      2: { apply STOP; [|exact H]. intros (m0 & m' & q & e & e' & a0 & i0 & i' & j0 & mm0 & b0 & mx0 & x0 & C).
           destruct C as (C1 & C2 & C3 & C4 & C5 & C6 & C7 & C8 & C9 & _). inversion C1; subst m0 q e.
           assert (a0 = a) by congruence. subst a0. apply NM. congruence. }
      destruct v' as [v'|m'].
      { apply STOP; [|exact H]. intros (m0 & m' & q & e & e' & a0 & i0 & i' & j0 & mm0 & b0 & mx0 & x0 & C).
        destruct C as (C1 & C2 & _). discriminate. }
      destruct (Nat.eqb_spec p p') as [<- |NP]; cbn [negb] in H.
      2: { apply STOP; [|exact H]. intros (m0 & m1 & q & e & e' & a0 & i0 & i' & j0 & mm0 & b0 & mx0 & x0 & C).
           destruct C as (C1 & C2 & _). congruence. }
      destruct (mask_has_holes (km_mask (i_km i))) eqn:MH.
      { apply STOP; [|exact H]. intros (m0 & m1 & q & e & e' & a0 & i0 & i' & j0 & mm0 & b0 & mx0 & x0 & C).
        destruct C as (C1 & C2 & C3 & C4 & C5 & C6 & C7 & C8 & C9 & C10 & _). inversion C1; subst m0 q e.
        assert (a0 = a) by congruence. subst a0. congruence. }
      apply bind_Ok_inv in H. destruct H as (i' & G' & H). destruct (i_extra i') as [index'|? ? ?] eqn:X'; [|discriminate].
      destruct (N.eqb_spec index' (idx + 1)) as [EI|NI]; cbn [negb] in H.
      2: { apply STOP; [|exact H]. intros (m0 & m1 & q & e & e' & a0 & i0 & i1 & j0 & mm0 & b0 & mx0 & x0 & C).
           destruct C as (C1 & C2 & C3 & C4 & C5 & C6 & C7 & C8 & C9 & C10 & C11 & C12 & _).
           inversion C1; inversion C2; subst. congruence. }
      destruct (opt_eqb (app_of m') (Some a)) eqn:EA; cbn [andb] in H.
      2: { apply STOP; [|exact H]. intros (m0 & m1 & q & e & e' & a0 & i0 & i1 & j0 & mm0 & b0 & mx0 & x0 & C).
           destruct C as (C1 & C2 & C3 & C4 & _). inversion C1; inversion C2; subst m0 q e m1 e'.
           assert (a0 = a) by congruence. subst a0. rewrite C4 in EA. cbn [opt_eqb] in EA.
           now rewrite Nat.eqb_refl in EA. }
      apply opt_eqb_eq in EA.
      destruct (N.eqb_spec (re_route en) (re_route en')) as [ER|NR].
      2: { apply STOP; [|exact H]. intros (m0 & m1 & q & e & e' & a0 & i0 & i1 & j0 & mm0 & b0 & mx0 & x0 & C).
           destruct C as (C1 & C2 & C). inversion C1; inversion C2; subst m0 q e m1 e'. apply NR. apply C. }
      apply bind_Ok_inv in H. destruct H as ([g' lft'] & H & E). injection E as <- <-.
      destruct (IH m' i' index' en' g' lft' EA G' X' H) as (taken & T1 & T2).
      exists (((Mac m', p), en') :: taken). split; [cbn [app]; congruence|].
      intros y l' EL. specialize (T2 y l' EL).
      replace (last (((Mac m', p), en') :: taken) ((Mac m, p), en)) with (last taken ((Mac m', p), en')); [exact T2|].
      clear. destruct taken as [|z taken]; [reflexivity|]. cbn [last].
      revert z. induction taken as [|w taken IH]; intro z; [reflexivity|]. apply IH.
  Qed.

  Definition group_ok (g : list ((vertex * nat) * rent)) (outs : list out) : Prop :=
    (exists v p en i, g = [((v, p), en)] /\ get_info infos v p = Ok i /\
       outs = [mkOut (km_key (i_km i)) (km_mask (i_km i)) en]) \/
    (exists a p j b mx K B ms i0, app_zone infos app_of items a p j b mx K B /\
       Forall2 (member infos app_of a p) ms g /\ run K b i0 ms /\
       merge_machine_entries (mask_of b) b mx ms = Ok outs).

  Inductive groups : list ((vertex * nat) * rent) -> list out -> Prop :=
  | groups_nil : groups [] []
  | groups_cons : forall g x lft outs os, g <> [] -> group_ok g outs ->
      (forall y l', lft = y :: l' -> ~ link (last g x) y) -> groups lft os -> groups (g ++ lft) (outs ++ os).

  Lemma last_cons : forall {A} (l : list A) x d, last (x :: l) d = last l x.
  Proof.
    intros A l x d. destruct l as [|z l]; [reflexivity|]. cbn [last].
    revert z. induction l as [|w l IH]; intro z; [reflexivity|]. apply IH.
  Qed.

  Lemma merged_loop_groups : forall fuel rest pre seen t done, pre ++ rest = items ->
    (length rest <= fuel)%nat -> seen_ok infos seen pre ->
    t_entries t = map ent done -> covers infos app_of items pre done ->
    exists t' os, merged_loop entry_eq infos app_of fuel rest seen t = Ok t' /\
      t_entries t' = map ent (done ++ os) /\ groups rest os.
  Proof.
    induction fuel as [|fuel IH]; intros rest pre seen t done E F S T C.
    - destruct rest; [|cbn [length] in F; lia].
      exists t, []. cbn [merged_loop]. rewrite app_nil_r. split; [auto|]. split; [auto|constructor].
    - destruct rest as [|[[v p] en] rest].
      { exists t, []. cbn [merged_loop]. rewrite app_nil_r. split; [auto|]. split; [auto|constructor]. }
      cbn [length] in F.
      assert (I : In ((v, p), en) items) by (rewrite <- E; apply in_or_app; right; left; auto).
      destruct (wk_info _ _ _ WK _ _ _ I) as (i & G & KO & XI).
      destruct (note_source_ok _ _ _ WK seen pre rest v p en i E S G) as (seen' & N1 & N2).
      set (o := mkOut (km_key (i_km i)) (km_mask (i_km i)) en).
      assert (STEP : forall taken lft outs, ((v, p), en) :: rest = (((v, p), en) :: taken) ++ lft ->
        covers infos app_of items (((v, p), en) :: taken) outs ->
        group_ok (((v, p), en) :: taken) outs ->
        (forall y l', lft = y :: l' -> ~ link (last taken ((v, p), en)) y) ->
        exists t1, foldM (add_out entry_eq) t outs = Ok t1 /\
        exists t' os, merged_loop entry_eq infos app_of fuel lft seen' t1 = Ok t' /\
          t_entries t' = map ent (done ++ os) /\ groups (((v, p), en) :: rest) os).
      { intros taken lft outs EQ C2 GO NL.
        assert (C3 : covers infos app_of items (pre ++ ((v, p), en) :: taken) (done ++ outs)).
        { apply covers_app with lft; auto. rewrite <- E, EQ. reflexivity. }
        destruct (fold_add entry_eq outs t done T) as (t1 & A1 & A2 & A3 & A4); [apply C3|apply C3|].
        exists t1. split; [auto|].
        destruct (IH lft (pre ++ ((v, p), en) :: taken) seen' t1 (done ++ outs))
          as (t' & os & B1 & B2 & B3); auto.
        + rewrite <- E, EQ, <- app_assoc. reflexivity.
        + injection EQ as EQ. apply (f_equal (@length _)) in EQ. rewrite app_length in EQ. lia.
        + replace (pre ++ ((v, p), en) :: taken) with ((pre ++ [((v, p), en)]) ++ taken)
            by (rewrite <- app_assoc; reflexivity).
          now apply seen_ok_app.
        + exists t', (outs ++ os). split; [auto|]. rewrite app_assoc. split; [auto|]. rewrite EQ.
          apply groups_cons with ((v, p), en); auto; [discriminate|]. intros y l' EL.
          rewrite last_cons. now apply NL with l'. }
      assert (ONE : covers infos app_of items [((v, p), en)] [o]) by now apply covers_one.
      assert (GONE : group_ok [((v, p), en)] [o]) by (left; exists v, p, en, i; auto).
      assert (SINGLE : (forall y l', rest = y :: l' -> ~ link ((v, p), en) y) -> exists t' os,
        (let* t := add_out entry_eq t o in merged_loop entry_eq infos app_of fuel rest seen' t) = Ok t' /\
        t_entries t' = map ent (done ++ os) /\ groups (((v, p), en) :: rest) os).
      { intro NL. destruct (STEP [] rest [o] eq_refl ONE GONE NL) as (t1 & A1 & B). cbn [foldM] in A1.
        destruct (add_out entry_eq t o) as [t1'|]; [|discriminate].
        cbn [bind] in A1 |- *. injection A1 as ->. exact B. }
      cbn [merged_loop]. rewrite G. cbn [bind]. rewrite N1. cbn [bind]. fold o.
      destruct v as [v|m].
      { apply SINGLE. intros y l' _ (m0 & m1 & q & e & e' & a0 & i0 & i1 & j0 & mm0 & b0 & mx0 & x0 & C0).
        destruct C0 as (C0 & _). discriminate. }
      destruct (XI m eq_refl) as [index X]. rewrite X.
      destruct (app_of m) as [a|] eqn:EA.
      2: { apply SINGLE. intros y l' _ (m0 & m1 & q & e & e' & a0 & i0 & i1 & j0 & mm0 & b0 & mx0 & x0 & C0).
           destruct C0 as (C0 & _ & C1 & _). inversion C0; subst. congruence. }
      destruct (wk_app _ _ _ WK m p en a I EA) as (j & mm & b & mx & GJ & XJ & Z). rewrite GJ. cbn [bind].
      rewrite XJ.
      assert (SD : sender infos app_of items a p m i) by (split; eauto).
      destruct Z as [Z|(K & B & Z)].
      + assert (NM : km_mask (i_km i) <> mm) by now apply (Z m i).
        rewrite scan_group_plain by auto. cbn [bind merged_keys_and_masks me_key me_rent].
        fold o. destruct (STEP [] rest [o] eq_refl ONE GONE) as (t1 & A1 & t' & os & B1 & B2).
        { intros y l' _ (m0 & m1 & q & e & e' & a0 & i0 & i1 & j0 & mm0 & b0 & mx0 & x0 & C0).
          destruct C0 as (C1 & C2 & C3 & C4 & C5 & C6 & C7 & C8 & C9 & _). cbn [last] in C1.
          inversion C1; subst m0 q e. assert (a0 = a) by congruence. subst a0. congruence. }
        rewrite A1. cbn [bind]. exists t', os. auto.
      + assert (EM : mm = mask_of b) by apply Z. subst mm.
        assert (AZ : app_zone infos app_of items a p j b mx K B) by (split; [auto|split; auto]).
        destruct (scan_group_zoned infos app_of items WK a p j b mx K B AZ rest (i_km i) index en)
          as (g & taken & lft & H1 & H2 & H3 & H4 & H5).
        { intros x Hx. rewrite <- E. apply in_or_app. right. now right. }
        destruct (scan_stop a p j _ b mx GJ XJ rest m i index en g lft EA G X H1) as (taken' & T1 & T2).
        assert (taken' = taken) by (apply app_inv_tail with lft; congruence). subst taken'.
        rewrite H1. cbn [bind].
        pose proof Z as (_ & _ & _ & _ & _ & _ & Z7 & _).
        destruct (Z7 m i SD) as (idx & L & X' & EK). assert (idx = index) by congruence. subst idx.
        assert (MO : exists outs, merged_keys_and_masks (mask_of b) b mx (km_mask (i_km i))
            (mkMent en (km_key (i_km i)) index :: g) = Ok outs /\
            covers infos app_of items (((Mac m, p), en) :: taken) outs /\
            group_ok (((Mac m, p), en) :: taken) outs).
        { destruct g as [|g0 g].
          - inversion H3; subst taken. exists [o]. split; [reflexivity|]. split; [exact ONE|exact GONE].
          - set (gg := mkMent en (km_key (i_km i)) index :: g0 :: g).
            assert (FM : Forall2 (member infos app_of a p) gg (((Mac m, p), en) :: taken)).
            { constructor; [|exact H3]. exists m, i. cbn [me_rent me_index me_key]. auto. }
            assert (RG : run K b index gg).
            { unfold gg. cbn [run me_index me_key]. split; [auto|].
              split; [rewrite EK; reflexivity|exact H4]. }
            destruct (covers_group infos app_of items a p j b mx K B gg (((Mac m, p), en) :: taken) index AZ)
              as (outs & O1 & O2); auto.
            + intros x Hx. rewrite <- E, H2. apply in_or_app. right.
              destruct Hx as [<- |Hx]; [left; auto|]. right. apply in_or_app. auto.
            + discriminate.
            + assert (RE : forall m, In m gg -> re_route (me_rent m) = re_route en).
              { intros y [<- |Hy]; [reflexivity|]. rewrite Forall_forall in H5. auto. }
              intros y y' Hy Hy'. rewrite !RE; auto.
            + exists outs. split; [exact O1|]. split; [exact O2|]. right.
              exists a, p, j, b, mx, K, B, gg, index. auto. }
        destruct MO as (outs & M1 & M2 & M3). rewrite M1. cbn [bind].
        destruct (STEP taken lft outs) as (t1 & A1 & t' & os & B1 & B2); auto; [cbn [app]; congruence|].
        rewrite A1. cbn [bind]. exists t', os. auto.
  Qed.

  Lemma merged_groups : forall x y, exists tm os, merged_table entry_eq infos app_of x y items = Ok tm /\
    t_entries tm = map ent os /\ groups items os.
  Proof.
    intros x y.
    destruct (merged_loop_groups (length items) items [] [] (empty_table x y) [])
      as (tm & os & M1 & M2 & M3); auto using covers_nil. { intros k v p []. }
    exists tm, os. auto.
  Qed.

  (** ** Groups are made of whole blocks *)

  Definition chain (l : list ((vertex * nat) * rent)) : Prop :=
    forall l1 x y l2, l = l1 ++ x :: y :: l2 -> link x y.

  Lemma app_split_le : forall {A} (a b c d : list A), a ++ b = c ++ d -> (length a < length c)%nat ->
    exists y c', c = a ++ y :: c' /\ b = (y :: c') ++ d.
  Proof.
    induction a as [|x a IH]; intros b c d H L.
    - destruct c as [|y c]; [cbn [length] in L; lia|]. exists y, c. cbn [app] in *. auto.
    - destruct c as [|x' c]; [cbn [length] in L; lia|]. cbn [app length] in *. injection H as <- H.
      destruct (IH b c d H) as (y & c' & -> & ->); [lia|]. exists y, c'. auto.
  Qed.
  Lemma app_split_ge : forall {A} (a b c d : list A), a ++ b = c ++ d -> (length c <= length a)%nat ->
    exists a', a = c ++ a' /\ d = a' ++ b.
  Proof.
    induction a as [|x a IH]; intros b c d H L.
    - destruct c; [|cbn [length] in L; lia]. exists []. auto.
    - destruct c as [|x' c]; [exists (x :: a); auto|]. cbn [app length] in *. injection H as <- H.
      destruct (IH b c d H) as (a' & -> & ->); [lia|]. exists a'. auto.
  Qed.

  Lemma border : forall blocks g R x, g ++ R = concat blocks -> g <> [] ->
    Forall (fun b => b <> [] /\ chain b) blocks ->
    (forall y l', R = y :: l' -> ~ link (last g x) y) ->
    exists bl rest, blocks = bl ++ rest /\ bl <> [] /\ g = concat bl /\ R = concat rest.
  Proof.
    induction blocks as [|c blocks IH]; intros g R x H NE F NL.
    - cbn [concat] in H. apply app_eq_nil in H. destruct H. contradiction.
    - inversion_clear F as [|? ? F1 F2]. destruct F1 as [F0 F1]. cbn [concat] in H.
      destruct (Nat.lt_ge_cases (length g) (length c)) as [L|L].
      + exfalso. destruct (app_split_le _ _ _ _ H L) as (y & c' & E1 & E2).
        apply (NL y (c' ++ concat blocks) E2).
        rewrite (app_removelast_last x NE) in E1. rewrite <- app_assoc in E1. cbn [app] in E1.
        eapply F1; exact E1.
      + destruct (app_split_ge _ _ _ _ H L) as (g' & E1 & E2).
        destruct g' as [|z g'].
        * exists [c], blocks. rewrite app_nil_r in E1. cbn [app concat]. rewrite app_nil_r.
          split; [auto|]. split; [discriminate|]. split; [auto|]. symmetry. exact E2.
        * assert (LS : last g x = last (z :: g') x).
          { rewrite E1. clear. induction c as [|w c IH]; [reflexivity|].
            cbn [app]. rewrite <- IH. destruct (c ++ z :: g') eqn:Q; [destruct c; discriminate|reflexivity]. }
          destruct (IH (z :: g') R x) as (bl & rest & B1 & B2 & B3 & B4); auto; [discriminate| |].
          { intros y l' ER. rewrite <- LS. now apply NL with l'. }
          exists (c :: bl), rest. cbn [app concat]. split; [congruence|]. split; [discriminate|].
          split; [congruence|auto].
  Qed.

  Lemma groups_blocks : forall its os, groups its os -> forall blocks, its = concat blocks ->
    Forall (fun b => b <> [] /\ chain b) blocks ->
    exists parts : list (list (list ((vertex * nat) * rent)) * list out),
      concat (map fst parts) = blocks /\ os = concat (map snd parts) /\
      Forall (fun q => fst q <> [] /\ group_ok (concat (fst q)) (snd q)) parts.
  Proof.
    induction 1 as [|g x lft outs os NE GO NL G IH]; intros blocks E F.
    - destruct blocks as [|c blocks]; [exists []; auto|]. exfalso. inversion_clear F as [|? ? F1 F2].
      cbn [concat] in E. symmetry in E. apply app_eq_nil in E. destruct F1. tauto.
    - destruct (border _ _ _ _ E NE F NL) as (bl & rest & B1 & B2 & B3 & B4). subst blocks.
      apply Forall_app in F. destruct F as [F1 F2].
      destruct (IH rest B4 F2) as (parts & P1 & P2 & P3).
      exists ((bl, outs) :: parts). cbn [map fst snd concat]. split; [congruence|]. split; [congruence|].
      constructor; [|auto]. cbn [fst snd]. split; [auto|]. now rewrite <- B3.
  Qed.

  Lemma Forall2_len : forall {A B} (R : A -> B -> Prop) l l', Forall2 R l l' -> length l = length l'.
  Proof. induction 1; cbn [length]; congruence. Qed.

  Lemma group_few : forall g outs, group_ok g outs -> N.of_nat (length outs) <= few (length g).
  Proof.
    intros g outs [(v & p & en & i & -> & _ & ->)|(a & p & j & b & mx & K & B & ms & i0 & Z & F & R & H)].
    - apply few_pos.
    - rewrite <- (Forall2_len _ _ _ F). eapply merge_count; eauto.
  Qed.

  Lemma merged_few : forall x y blocks, items = concat blocks -> Forall (fun b => b <> [] /\ chain b) blocks ->
    exists tm, merged_table entry_eq infos app_of x y items = Ok tm /\
      N.of_nat (length (t_entries tm)) <= fold_right (fun b s => few (length b) + s) 0 blocks.
  Proof.
    intros x y blocks E F. destruct (merged_groups x y) as (tm & os & M1 & M2 & M3).
    exists tm. split; [auto|]. rewrite M2, map_length.
    destruct (groups_blocks _ _ M3 blocks E F) as (parts & P1 & P2 & P3). subst os blocks.
    clear - P3 F. induction parts as [|[bl outs] parts IH]; [cbn; lia|].
    inversion_clear P3 as [|? ? G1 G2]. destruct G1 as [NB GO]. cbn [map fst snd concat] in *.
    apply Forall_app in F. destruct F as [F1 F2]. specialize (IH F2 G2).
    rewrite app_length, fold_right_app.
    assert (FF : forall l s, fold_right (fun (b : list ((vertex * nat) * rent)) s => few (length b) + s) s l
      = fold_right (fun b s => few (length b) + s) 0 l + s).
    { induction l as [|z l IHl]; intro s; cbn [fold_right]; [lia|]. rewrite IHl. lia. }
    rewrite FF. apply group_few in GO.
    assert (few (length (concat bl)) <= fold_right (fun b s => few (length b) + s) 0 bl).
    { apply few_concat; auto. eapply Forall_impl; [|exact F1]. cbv beta. tauto. }
    lia.
  Qed.

  (** ** Runs of machine vertices *)

  (** The items of consecutive machine vertices of one application vertex, from
      machine index [i0], with one route. *)
  Definition run_items (a p : nat) (r i0 : N) (c : list ((vertex * nat) * rent)) : Prop :=
    forall n x, nth_error c n = Some x -> exists m d i, x = ((Mac m, p), mkRent r d) /\ app_of m = Some a /\
      get_info infos (Mac m) p = Ok i /\ i_extra i = IMac (i0 + N.of_nat n).

  Lemma run_chain : forall a p j b mx K B r i0 c, app_zone infos app_of items a p j b mx K B ->
    (forall x, In x c -> In x items) -> run_items a p r i0 c -> chain c.
  Proof.
    intros a p j b mx K B r i0 c Z IN R l1 x y l2 ->.
    destruct (R (length l1) x) as (m & d & i & -> & A & G & X).
    { rewrite nth_error_app2, Nat.sub_diag by lia. reflexivity. }
    destruct (R (S (length l1)) y) as (m' & d' & i' & -> & A' & G' & X').
    { rewrite nth_error_app2 by lia. replace (S (length l1) - length l1)%nat with 1%nat by lia. reflexivity. }
    pose proof Z as (Z1 & Z2 & Z3 & Z4 & Z5 & _ & _ & _ & Z7 & _).
    destruct (Z7 m i) as (idx & L & X1 & EK).
    { split; [exists (mkRent r d); apply IN, in_or_app; right; left; auto|auto]. }
    exists m, m', p, (mkRent r d), (mkRent r d'), a, i, i', j, (mask_of b), b, mx, idx.
    split; [auto|]. split; [auto|]. split; [auto|]. split; [auto|]. split; [auto|]. split; [auto|].
    split; [auto|]. split; [auto|]. split; [rewrite EK; auto|]. split; [apply no_holes; lia|].
    split; [auto|]. split; [|auto].
    rewrite X'. rewrite X in X1. injection X1 as <-. f_equal. lia.
  Qed.

  (** All the machine vertices of an application vertex. *)
  Definition whole_items (a p : nat) (r : N) (c : list ((vertex * nat) * rent)) : Prop :=
    c <> [] /\ run_items a p r 0 c /\ exists j b mx K B, app_zone infos app_of items a p j b mx K B /\
      N.of_nat (length c) = mx + 1.
  Definition app_items (a p : nat) (r : N) (c : list ((vertex * nat) * rent)) : Prop :=
    exists d, c = [((App a, p), mkRent r d)].

  (** The mask of the entry of a block: that of the application vertex, or the one that
      leaves free the bits of the atoms and as many as are needed to number the
      machine vertices. *)
  Definition block_mask (j : info) (c : list ((vertex * nat) * rent)) (mask : N) : Prop :=
    match c with
    | ((App _, _), _) :: _ => mask = km_mask (i_km j)
    | _ => exists b mx, i_extra j = IApp (0xFFFFFFFF - (2 ^ b - 1)) b mx /\
        mask = 0xFFFFFFFF - (2 ^ (b + N.log2_up (N.of_nat (length c))) - 1)
    end.

  Lemma member_nth : forall a p K b i0 ms g n x, Forall2 (member infos app_of a p) ms g -> run K b i0 ms ->
    nth_error g n = Some x -> exists w en i, x = ((Mac w, p), en) /\ app_of w = Some a /\
      get_info infos (Mac w) p = Ok i /\ i_extra i = IMac (i0 + N.of_nat n).
  Proof.
    intros a p K b i0 ms g n x F. revert i0 n. induction F as [|m y ms g M F IH]; intros i0 n R H.
    - destruct n; discriminate.
    - destruct R as (R1 & R2 & R3). destruct n as [|n]; cbn [nth_error] in H.
      + injection H as ->. destruct M as (w & i & E & A & G & X & _). exists w, (me_rent m), i.
        rewrite N.add_0_r. split; [auto|]. split; [auto|]. split; [auto|]. congruence.
      + destruct (IH (i0 + 1) n R3 H) as (w & en & i & E & A & G & X). exists w, en, i.
        split; [auto|]. split; [auto|]. split; [auto|]. rewrite X. f_equal. lia.
  Qed.

  Lemma merged_whole : forall x y (blocks : list ((nat * nat * N) * list ((vertex * nat) * rent))),
    items = concat (map snd blocks) ->
    (forall a p r c, In ((a, p, r), c) blocks -> whole_items a p r c \/ app_items a p r c) ->
    exists tm, merged_table entry_eq infos app_of x y items = Ok tm /\
      Forall2 (fun bk e => exists j, get_info infos (App (fst (fst (fst bk)))) (snd (fst (fst bk))) = Ok j /\
        e_key e = km_key (i_km j) /\ e_route e = snd (fst bk) /\ block_mask j (snd bk) (e_mask e)) blocks (t_entries tm).
  Proof.
    intros x y blocks E W. destruct (merged_groups x y) as (tm & os & M1 & M2 & M3).
    exists tm. split; [auto|]. rewrite M2. clear M1 M2.
    assert (IN : forall bk z, In bk blocks -> In z (snd bk) -> In z items).
    { intros bk z I1 I2. rewrite E. apply in_concat. exists (snd bk). split; [now apply in_map|auto]. }
    destruct (groups_blocks _ _ M3 (map snd blocks) E) as (parts & P1 & P2 & P3).
    { apply Forall_forall. intros c I. apply in_map_iff in I. destruct I as ([[[a p] r] c'] & E' & I).
      cbn [snd] in E'. subst c'. destruct (W _ _ _ _ I) as [(NE & R & j & b & mx & K & B & Z & L)|(d & ->)].
      - split; [auto|]. apply (run_chain a p j b mx K B r 0 c Z); [|exact R]. intros z Hz. exact (IN _ z I Hz).
      - split; [discriminate|]. intros l1 z z' l2 C. apply (f_equal (@length _)) in C.
        rewrite app_length in C. cbn [length] in C. lia. }
    subst os. clear M3 E.
    revert blocks W IN P1. induction parts as [|[bl outs] parts IH]; intros blocks W IN P1.
    - destruct blocks; [constructor|discriminate].
    - inversion_clear P3 as [|? ? G1 G2]. destruct G1 as [NB GO]. cbn [map fst snd concat] in *.
      destruct bl as [|c bl]; [congruence|]. clear NB. destruct blocks as [|[[[a p] r] c'] blocks]; [discriminate|].
      cbn [map snd app] in P1. injection P1 as <- P1.
      (** The head of a block that starts at index 0. *)
      assert (HEAD : forall a p r c, whole_items a p r c \/ app_items a p r c -> exists v en c', c = ((v, p), en) :: c' /\
        ((exists m i, v = Mac m /\ app_of m = Some a /\ get_info infos v p = Ok i /\ i_extra i = IMac 0) \/ v = App a)).
      { intros a1 p1 r1 c1 [(NE & R & _)|(d & ->)].
        - destruct c1 as [|z c1]; [congruence|].
          destruct (R 0%nat z eq_refl) as (m & d & i & -> & A & G & X).
          exists (Mac m), (mkRent r1 d), c1. split; [auto|]. left. exists m, i. auto.
        - exists (App a1), (mkRent r1 d), []. auto. }
      pose proof (W _ _ _ _ (or_introl eq_refl)) as W1.
      destruct (HEAD _ _ _ _ W1) as (v & en & cr & Ec & HV).
      assert (BL : bl = []).
      { destruct bl as [|c2 bl]; [auto|exfalso]. cbn [app] in P1.
        destruct blocks as [|[[[a2 p2] r2] c2'] blocks]; [discriminate|].
        cbn [map snd] in P1. injection P1 as <- P1.
        pose proof (W _ _ _ _ (or_intror (or_introl eq_refl))) as W2.
        destruct (HEAD _ _ _ _ W2) as (v2 & en2 & cr2 & Ec2 & HV2).
        destruct GO as [(v0 & p0 & en0 & i0 & EG & _)|(a0 & p0 & j & b & mx & K & B & ms & i0 & Z & F & R & H)].
        - cbn [concat] in EG. rewrite Ec, Ec2 in EG. apply (f_equal (@length _)) in EG.
          cbn [app length] in EG. rewrite app_length in EG. cbn [length] in EG. lia.
        - assert (N1 : nth_error (concat (c :: c2 :: bl)) (length c) = Some ((v2, p2), en2)) by
            (cbn [concat]; rewrite nth_error_app2, Nat.sub_diag by lia; rewrite Ec2; reflexivity).
          destruct (member_nth _ _ _ _ _ _ _ _ _ F R N1) as (w & e' & i & EX & _ & G & X).
          inversion EX; subst v2 p0 e'. destruct HV2 as [(m2 & i2 & _ & _ & G' & X2)|HV2]; [|discriminate].
          rewrite G in G'. injection G' as <-. rewrite X in X2. injection X2 as X2.
          rewrite Ec in X2. cbn [length] in X2. lia. }
      subst bl. cbn [concat] in GO. rewrite app_nil_r in GO. cbn [app] in P1.
      assert (ONE : exists o j, outs = [o] /\ get_info infos (App a) p = Ok j /\ o_key o = km_key (i_km j) /\
        re_route (o_rent o) = r /\ block_mask j c (o_mask o)).
      { destruct GO as [(v0 & p0 & en0 & i0 & EG & G & ->)|(a0 & p0 & j & b & mx & K & B & ms & i0 & Z & F & R & H)].
        - destruct W1 as [(NE & R & j & b & mx & K & B & Z & L)|(d & E1)].
          + rewrite EG in R. destruct (R 0%nat _ eq_refl) as (m & d & i & EX & A & G' & X).
            inversion EX; subst v0 p0 en0. rewrite G in G'. injection G' as <-.
            pose proof Z as (Z1 & Z2 & ZX & _ & _ & _ & _ & _ & Z7 & _).
            destruct (Z7 m i0) as (idx & L' & X1 & EK).
            { split; [|auto]. exists (mkRent r d). apply (IN _ _ (or_introl eq_refl)). cbn [snd]. rewrite EG.
              left; auto. }
            rewrite X in X1. injection X1 as <-. eexists. exists j. split; [reflexivity|]. split; [auto|].
            cbn [o_key o_rent re_route]. rewrite EK, ZX. cbn [km_key]. split; [cbn; lia|]. split; [auto|].
            rewrite EG. cbn [block_mask]. exists b, mx. split; [exact Z2|]. cbn [o_mask km_mask length]. unfold mask_of. change (N.log2_up (N.of_nat 1)) with 0. rewrite N.add_0_r. reflexivity.
          + rewrite EG in E1 |- *. injection E1 as -> -> ->. eexists. exists i0. split; [reflexivity|]. cbn [block_mask]. auto.
        - assert (N0 : nth_error c 0 = Some ((v, p), en)) by (rewrite Ec; reflexivity).
          destruct (member_nth _ _ _ _ _ _ _ _ _ F R N0) as (w & e' & i & EX & A & G & X).
          inversion EX; subst v p0 e'.
          destruct W1 as [(NE & RI & j' & b' & mx' & K' & B' & Z' & L)|(d & E1)]; [|rewrite E1 in Ec; discriminate].
          destruct (RI 0%nat _ N0) as (m & d & i1 & EX1 & A1 & G1 & X1). inversion EX1; subst m en.
          rewrite G in G1. injection G1 as <-. rewrite X in X1. injection X1 as X1.
          assert (i0 = 0) by (change (N.of_nat 0) with 0 in X1; lia). subst i0.
          assert (a0 = a) by congruence. subst a0.
          pose proof Z as (Z1 & Z2 & ZX & _). pose proof Z' as (Z1' & Z2' & _).
          assert (j' = j) by congruence. subst j'. rewrite Z2 in Z2'. injection Z2' as _ _ <-.
          destruct (merge_whole K b mx ms R) as (m & rest & Em & HM).
          { intros ->. inversion F; subst. discriminate. }
          { rewrite (Forall2_len _ _ _ F). auto. }
          rewrite H in HM. injection HM as ->. eexists. exists j. split; [reflexivity|]. split; [auto|].
          cbn [o_key o_rent]. subst ms. destruct R as (R1 & R2 & _). rewrite R2, ZX. cbn [km_key].
          split; [lia|]. split.
          { rewrite Ec in F. inversion_clear F as [|? ? ? ? M F'].
            destruct M as (w' & i' & E' & _). injection E' as _ E'. now rewrite <- E'. }
          rewrite Ec in L |- *. cbn [block_mask o_mask]. exists b, mx. split; [exact Z2|]. rewrite L. reflexivity. }
      destruct ONE as (o & j & -> & GJ & OK & OR & OM). cbn [app map].
      constructor.
      + exists j. cbn [fst snd ent e_key e_route e_mask]. auto.
      + apply IH; auto.
        * intros a1 p1 r1 c1 I1. apply W. now right.
        * intros bk z I1 I2. apply (IN bk z); auto. now right.
  Qed.
End Groups.

(** ** Keys from the allocator *)

Lemma alloc_zone : forall flexible e parts infos app_of items m p en a,
  env_ok e parts -> allocate flexible e parts = Ok infos -> table_sources e parts app_of items ->
  In ((Mac m, p), en) items -> app_of m = Some a ->
  exists j b K B, app_zone infos app_of items a p j b (N.of_nat (length (ae_outgoing e a p)) - 1) K B.
Proof.
  intros flexible e parts infos app_of items m p en a EO H TS I A.
  pose proof (alloc_well_keyed _ _ _ _ _ _ EO H TS) as WK.
  destruct (wk_app _ _ _ WK m p en a I A) as (j & mm & b & mx & GJ & XJ & Z).
  destruct TS as (ND & TM & TA & TX). destruct (TM m p en I) as (a' & A' & F & C & O).
  assert (a' = a) by congruence. subst a'.
  destruct (wk_info _ _ _ WK _ _ _ I) as (i & G & _ & _).
  assert (SD : sender infos app_of items a p m i) by (split; eauto).
  assert (IM : is_mac infos e a p m i).
  { apply get_info_spec in G. destruct G as (G1 & G2 & G3). split; auto. }
  assert (J : is_app infos a p j) by (apply get_info_spec in GJ; exact GJ).
  destruct (allocate_shape _ _ _ _ _ _ EO F H) as (fixed & z' & used & aps & news & SH).
  destruct (sh_free_mac _ _ _ _ _ _ _ _ _ EO SH a p m i F C IM)
    as (idx & x & nba & nb & I1 & I2 & I3 & I4 & I5 & IF & IX & EK & _).
  destruct (sh_app _ _ _ _ _ _ _ _ _ SH a p j J) as (idx' & nba' & nbm' & L1 & L2 & L3 & _).
  rewrite IF in L2. inversion L2; subst nba' nbm'.
  rewrite XJ in L3. inversion L3; subst mm b mx.
  destruct Z as [Z|(K & B & Z)].
  - exfalso. apply (Z m i SD). rewrite EK. reflexivity.
  - exists j, nba, K, B. split; [auto|]. split; [auto|exact Z].
Qed.

Lemma alloc_few : forall entry_eq flexible e parts infos app_of x y blocks,
  env_ok e parts -> allocate flexible e parts = Ok infos -> table_sources e parts app_of (concat blocks) ->
  (forall c, In c blocks -> (exists s, c = [s]) \/ c <> [] /\ exists a p r i0, run_items infos app_of a p r i0 c) ->
  exists tm, merged_table entry_eq infos app_of x y (concat blocks) = Ok tm /\
    N.of_nat (length (t_entries tm)) <= fold_right (fun b s => few (length b) + s) 0 blocks.
Proof.
  intros entry_eq flexible e parts infos app_of x y blocks EO H TS W.
  pose proof (alloc_well_keyed _ _ _ _ _ _ EO H TS) as WK.
  apply merged_few with (1 := WK); [auto|]. apply Forall_forall. intros c I.
  destruct (W c I) as [(s & ->)|(NE & a & p & r & i0 & R)].
  - split; [discriminate|]. intros l1 z z' l2 C. apply (f_equal (@length _)) in C.
    rewrite app_length in C. cbn [length] in C. lia.
  - split; [auto|].
    assert (IN : forall z, In z c -> In z (concat blocks)) by (intros z Hz; apply in_concat; eauto).
    destruct c as [|z c]; [congruence|].
    destruct (R 0%nat z eq_refl) as (m & d & i & -> & A & G & X).
    destruct (alloc_zone _ _ _ _ _ _ m p (mkRent r d) a EO H TS) as (j & b & K & B & Z); auto.
    { apply IN. left; auto. }
    eapply run_chain; eauto.
Qed.

Lemma alloc_whole : forall entry_eq flexible e parts infos app_of x y
    (blocks : list ((nat * nat * N) * list ((vertex * nat) * rent))),
  env_ok e parts -> allocate flexible e parts = Ok infos ->
  table_sources e parts app_of (concat (map snd blocks)) ->
  (forall a p r c, In ((a, p, r), c) blocks ->
     c <> [] /\ run_items infos app_of a p r 0 c /\ length c = length (ae_outgoing e a p) \/
     exists d, c = [((App a, p), mkRent r d)]) ->
  exists tm, merged_table entry_eq infos app_of x y (concat (map snd blocks)) = Ok tm /\
    Forall2 (fun bk e => exists j, get_info infos (App (fst (fst (fst bk)))) (snd (fst (fst bk))) = Ok j /\
      e_key e = km_key (i_km j) /\ e_route e = snd (fst bk) /\ block_mask j (snd bk) (e_mask e)) blocks (t_entries tm).
Proof.
  intros entry_eq flexible e parts infos app_of x y blocks EO H TS W.
  pose proof (alloc_well_keyed _ _ _ _ _ _ EO H TS) as WK.
  apply merged_whole with (1 := WK); [auto|]. intros a p r c I.
  destruct (W a p r c I) as [(NE & R & L)|C]; [left|right; exact C].
  split; [auto|]. split; [auto|].
  destruct c as [|z c]; [congruence|].
  destruct (R 0%nat z eq_refl) as (m & d & i & Ez & A & G & X).
  destruct (alloc_zone _ _ _ _ _ _ m p (mkRent r d) a EO H TS) as (j & b & K & B & Z); auto.
  { apply in_concat. exists (z :: c). split; [|left; auto]. apply in_map_iff. exists ((a, p, r), z :: c). auto. }
  exists j, b, (N.of_nat (length (ae_outgoing e a p)) - 1), K, B. split; [auto|].
  rewrite <- L. cbn [length]. lia.
Qed.
