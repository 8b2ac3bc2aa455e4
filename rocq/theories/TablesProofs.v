(** Proofs about routing table containers and the compression driver. *)
From Coq Require Import String List Arith NArith ZArith Bool Lia.
From Verif Require Import Base RouteSpec KeyMask PairModel PairSort Json TablesModel.
Import ListNotations.

Definition km (e : entry) : N * N := (e_key e, e_mask e).

Lemma same_km_iff a b : same_km a b = true <-> km a = km b.
Proof.
  unfold same_km, km. rewrite andb_true_iff, !N.eqb_eq. split.
  - now intros [-> ->].
  - now intros [= -> ->].
Qed.

Lemma find_km_None e l : find (same_km e) l = None <-> ~ In (km e) (map km l).
Proof.
  split.
  - intros H C. apply in_map_iff in C. destruct C as (x & E & Ix).
    pose proof (find_none _ _ H x Ix) as F. apply not_true_iff_false in F.
    apply F. apply same_km_iff. congruence.
  - intros H. destruct (find (same_km e) l) eqn:F; [|reflexivity].
    apply find_some in F. destruct F as [I S]. apply same_km_iff in S.
    exfalso. apply H. rewrite S. now apply in_map.
Qed.

(** Specification: the first entry of each key/mask pair, in order. *)
Definition km_dec (a b : N * N) : {a = b} + {a <> b}.
Proof. decide equality; apply N.eq_dec. Defined.

Fixpoint firsts (seen : list (N * N)) (es : list entry) : list entry :=
  match es with
  | [] => []
  | e :: es' => if in_dec km_dec (km e) seen
                then firsts seen es' else e :: firsts (km e :: seen) es'
  end.
Definition count_def (es : list entry) : nat := List.length (filter e_def es).

Section WithEq.
  Variable entry_eq : entry -> entry -> bool.

  Lemma firsts_ext es : forall s1 s2, (forall p, In p s1 <-> In p s2) -> firsts s1 es = firsts s2 es.
  Proof.
    induction es as [|e es IH]; intros s1 s2 H; [reflexivity|]. cbn [firsts].
    destruct (in_dec km_dec (km e) s1) as [I1|I1], (in_dec km_dec (km e) s2) as [I2|I2].
    - auto.
    - exfalso. apply I2. now apply H.
    - exfalso. apply I1. now apply H.
    - f_equal. apply IH. intros p. simpl. rewrite H. tauto.
  Qed.

  Lemma history_spec es : forall t,
    t_ndef t = count_def (t_entries t) -> NoDup (map km (t_entries t)) ->
    let (t', rs) := unc_history entry_eq t es in
    t_entries t' = t_entries t ++ firsts (map km (t_entries t)) es /\
    t_x t' = t_x t /\ t_y t' = t_y t /\
    t_ndef t' = count_def (t_entries t') /\ NoDup (map km (t_entries t')) /\
    List.length rs = List.length es.
  Proof.
    induction es as [|e es IH]; intros t Hn ND.
    - cbn [unc_history firsts]. rewrite app_nil_r. auto 10.
    - cbn [unc_history firsts]. unfold unc_add.
      destruct (find (same_km e) (t_entries t)) as [old|] eqn:F.
      + assert (In (km e) (map km (t_entries t))).
        { destruct (in_dec km_dec (km e) (map km (t_entries t))) as [I|I]; [assumption|].
          apply find_km_None in I. congruence. }
        destruct (in_dec km_dec (km e) (map km (t_entries t))); [|contradiction].
        specialize (IH t Hn ND).
        destruct (entry_eq old e); destruct (unc_history entry_eq t es) as [t' rs];
          decompose [and] IH; cbn [List.length]; auto 10.
      + apply find_km_None in F.
        destruct (in_dec km_dec (km e) (map km (t_entries t))); [contradiction|].
        set (t1 := mkTable _ _ _ _).
        assert (H1 : t_ndef t1 = count_def (t_entries t1)).
        { unfold t1, count_def. cbn [t_ndef t_entries]. rewrite filter_app, app_length.
          cbn [filter]. rewrite Hn. unfold count_def. destruct (e_def e); cbn [List.length]; lia. }
        assert (H2 : NoDup (map km (t_entries t1))).
        { unfold t1. cbn [t_entries]. rewrite map_app. cbn [map].
          apply NoDup_Add with (a := km e) (l := map km (t_entries t)); [|split; assumption].
          pose proof (Add_app (km e) (map km (t_entries t)) []) as A. now rewrite app_nil_r in A. }
        specialize (IH t1 H1 H2). destruct (unc_history entry_eq t1 es) as [t' rs].
        destruct IH as (E & X & Y & C & N & L).
        split; [|cbn [List.length]; auto 10].
        rewrite E. unfold t1. cbn [t_entries]. rewrite <- app_assoc. cbn [app]. f_equal. f_equal.
        apply firsts_ext. intros p. rewrite map_app, in_app_iff. simpl. tauto.
  Qed.

  Lemma uncompressed_history x y es :
    let (t, rs) := unc_history entry_eq (empty_table x y) es in
    t_entries t = firsts [] es /\ NoDup (map km (t_entries t)) /\
    t_x t = x /\ t_y t = y /\
    t_ndef t = List.length (filter e_def (t_entries t)).
  Proof.
    pose proof (history_spec es (empty_table x y) eq_refl (NoDup_nil _)) as H.
    destruct (unc_history entry_eq (empty_table x y) es) as [t rs].
    decompose [and] H. auto 10.
  Qed.

  (** One addition: what it accepts and does. *)
  Lemma unc_add_spec t e :
    match unc_add entry_eq t e with
    | Ok t' => (t' = t /\ exists old, In old (t_entries t) /\ km old = km e /\ entry_eq old e = true) \/
               (t_entries t' = t_entries t ++ [e] /\ ~ In (km e) (map km (t_entries t)))
    | Err x => x = AlreadyExists /\
               exists old, In old (t_entries t) /\ km old = km e /\ entry_eq old e = false
    end.
  Proof.
    unfold unc_add. destruct (find (same_km e) (t_entries t)) as [old|] eqn:F.
    - pose proof (find_some _ _ F) as [I S]. apply same_km_iff in S.
      destruct (entry_eq old e) eqn:Q; [left|]; (split; [reflexivity|]); exists old; auto.
    - right. split; [reflexivity|]. now apply find_km_None.
  Qed.

  (** The reply to each addition. *)
  Lemma find_app {A} (f : A -> bool) l l' :
    find f (l ++ l') = match find f l with Some x => Some x | None => find f l' end.
  Proof. induction l as [|x l IH]; [reflexivity|]. cbn [app find]. destruct (f x); auto. Qed.

  Definition reply (before : list entry) (e : entry) : res unit :=
    match find (same_km e) before with
    | Some old => if entry_eq old e then Ok tt else Err AlreadyExists
    | None => Ok tt
    end.

  Lemma replies_spec es : forall t before,
    (forall e, find (same_km e) (t_entries t) = find (same_km e) before) ->
    forall i e, nth_error es i = Some e ->
    nth_error (snd (unc_history entry_eq t es)) i = Some (reply (before ++ firstn i es) e).
  Proof.
    induction es as [|a es IH]; intros t before H i e E; [now destruct i|].
    assert (R : forall old : entry, find (same_km a) (t_entries t) = Some old ->
      forall e, find (same_km e) (t_entries t) = find (same_km e) (before ++ [a])).
    { intros old F z. rewrite find_app, <- H. destruct (find (same_km z) (t_entries t)) eqn:G; [reflexivity|].
      cbn [find]. destruct (same_km z a) eqn:Q; [|reflexivity]. exfalso.
      apply same_km_iff in Q. apply find_km_None in G.
      apply G. rewrite Q. pose proof (find_some _ _ F) as [I S]. apply same_km_iff in S.
      rewrite S. now apply in_map. }
    cbn [unc_history]. unfold unc_add.
    destruct (find (same_km a) (t_entries t)) as [old|] eqn:F.
    - specialize (IH t (before ++ [a]) (R old eq_refl)).
      assert (P : nth_error (reply before a :: snd (unc_history entry_eq t es)) i
                  = Some (reply (before ++ firstn i (a :: es)) e)).
      { destruct i as [|i]; cbn [nth_error firstn] in *.
        - injection E as <-. now rewrite app_nil_r.
        - rewrite (IH i e E), <- app_assoc. reflexivity. }
      unfold reply at 1 in P. rewrite <- H, F in P.
      destruct (entry_eq old a); destruct (unc_history entry_eq t es) as [t2 rs]; exact P.
    - set (t1 := mkTable _ _ _ _).
      assert (R1 : forall e, find (same_km e) (t_entries t1) = find (same_km e) (before ++ [a])).
      { intros z. unfold t1. cbn [t_entries]. now rewrite !find_app, H. }
      specialize (IH t1 (before ++ [a]) R1).
      destruct (unc_history entry_eq t1 es) as [t2 rs]. cbn [snd] in *.
      destruct i as [|i]; cbn [nth_error firstn] in *.
      + injection E as <-. unfold reply. now rewrite app_nil_r, <- H, F.
      + rewrite (IH i e E), <- app_assoc. reflexivity.
  Qed.

  Lemma history_length es : forall t, List.length (snd (unc_history entry_eq t es)) = List.length es.
  Proof.
    induction es as [|a es IH]; intros t; [reflexivity|]. cbn [unc_history].
    destruct (unc_add entry_eq t a) as [t'|x]; [specialize (IH t') | specialize (IH t)];
      destruct (unc_history entry_eq _ es) as [t2 rs]; cbn [snd List.length] in *; congruence.
  Qed.

  Lemma uncompressed_replies x y es i :
    nth_error (snd (unc_history entry_eq (empty_table x y) es)) i =
    match nth_error es i with
    | Some e => Some (reply (firstn i es) e)
    | None => None
    end.
  Proof.
    destruct (nth_error es i) as [e|] eqn:E.
    - now apply (replies_spec es (empty_table x y) []).
    - apply nth_error_None. rewrite history_length. now apply nth_error_None.
  Qed.

  Lemma compressed_history es : forall t,
    fold_left com_add es t =
    mkTable (t_x t) (t_y t) (t_entries t ++ es) (t_ndef t + List.length (filter e_def es)).
  Proof.
    induction es as [|e es IH]; intros t; cbn [fold_left filter List.length].
    - rewrite app_nil_r, Nat.add_0_r. now destruct t.
    - rewrite IH. unfold com_add. cbn [t_x t_y t_entries t_ndef]. rewrite <- app_assoc. cbn [app].
      f_equal. destruct (e_def e); cbn [List.length]; lia.
  Qed.

  (** Equality of tables at the same position. *)
  Hypothesis entry_eq_spec : forall a b, entry_eq a b = true <-> a = b.

  Lemma list_eq_iff a : forall b, list_eq entry_eq a b = true <-> a = b.
  Proof.
    induction a as [|x a IH]; intros [|y b]; cbn [list_eq]; try (split; [discriminate|congruence]).
    - tauto.
    - rewrite andb_true_iff, entry_eq_spec, IH. split; [now intros [-> ->]|now intros [= -> ->]].
  Qed.

  Lemma com_eq_same_pos a b : t_x a = t_x b -> t_y a = t_y b ->
    (com_eq entry_eq a b = true <-> t_entries a = t_entries b).
  Proof.
    intros X Y. unfold com_eq. rewrite X, Y, !Z.eqb_refl. apply list_eq_iff.
  Qed.

  Lemma com_eq_iff a b : com_eq entry_eq a b = true <->
    (t_x a = t_x b \/ t_y a = t_y b) /\ t_entries a = t_entries b.
  Proof.
    unfold com_eq. rewrite <- list_eq_iff.
    destruct (Z.eqb_spec (t_x a) (t_x b)), (Z.eqb_spec (t_y a) (t_y b)); cbn [negb andb]; intuition congruence.
  Qed.

  Lemma unc_eq_same_pos a b : t_x a = t_x b -> t_y a = t_y b ->
    NoDup (map km (t_entries a)) -> NoDup (map km (t_entries b)) ->
    (unc_eq entry_eq a b = true <-> forall e, In e (t_entries a) <-> In e (t_entries b)).
  Proof.
    intros X Y Na Nb. unfold unc_eq. rewrite X, Y, !Z.eqb_refl. cbn [negb andb].
    unfold dict_eq. rewrite andb_true_iff, Nat.eqb_eq, forallb_forall.
    assert (Hin : forall e l, NoDup (map km l) ->
      (match find (same_km e) l with Some e' => entry_eq e e' | None => false end = true <-> In e l)).
    { intros e l Nl. destruct (find (same_km e) l) as [x|] eqn:F.
      - pose proof (find_some _ _ F) as [I S]. apply same_km_iff in S.
        rewrite entry_eq_spec. split; [now intros ->|].
        intros Ie. clear F. induction l as [|z l IH]; [contradiction|].
        cbn [map] in Nl. inversion Nl as [|? ? NI Nl']; subst.
        destruct Ie as [->|Ie], I as [->|I]; auto.
        + exfalso. apply NI. rewrite S. now apply in_map.
        + exfalso. apply NI. rewrite <- S. now apply in_map.
      - apply find_km_None in F. split; [discriminate|]. intros I. exfalso. apply F. now apply in_map. }
    assert (NDe : forall l : list entry, NoDup (map km l) -> NoDup l) by (intros l; apply NoDup_map_inv).
    split.
    - intros [L H] e.
      assert (Inc : incl (t_entries a) (t_entries b)).
      { intros z Hz. apply (Hin z _ Nb). now apply H. }
      split; [apply Inc|].
      apply (NoDup_length_incl (NDe _ Na)); [lia|assumption].
    - intros H. split.
      + apply Nat.le_antisymm; apply NoDup_incl_length; auto; intros z Hz; now apply H.
      + intros e He. apply (Hin e _ Nb). now apply H.
  Qed.

  Lemma unc_eq_iff a b : NoDup (map km (t_entries a)) -> NoDup (map km (t_entries b)) ->
    (unc_eq entry_eq a b = true <->
     (t_x a = t_x b \/ t_y a = t_y b) /\ forall e, In e (t_entries a) <-> In e (t_entries b)).
  Proof.
    intros Na Nb.
    pose proof (unc_eq_same_pos (mkTable (t_x b) (t_y b) (t_entries a) 0) b eq_refl eq_refl Na Nb) as S.
    unfold unc_eq in *. cbn [t_x t_y t_entries] in S. rewrite !Z.eqb_refl in S. cbn [negb andb] in S.
    destruct (Z.eqb_spec (t_x a) (t_x b)), (Z.eqb_spec (t_y a) (t_y b)); cbn [negb andb];
      rewrite ?S; intuition congruence.
  Qed.
End WithEq.

(** * The driver *)
Lemma fold_com_add es : forall t,
  t_entries (fold_left com_add es t) = t_entries t ++ es /\
  t_x (fold_left com_add es t) = t_x t /\ t_y (fold_left com_add es t) = t_y t.
Proof.
  induction es as [|e es IH]; intros t; cbn [fold_left]; [now rewrite app_nil_r|].
  destruct (IH (com_add t e)) as (A & B & C). rewrite A, B, C. cbn.
  now rewrite <- app_assoc.
Qed.

Section Driver.
  Variable compress : table -> res (list entry).
  Variable target : Z -> Z -> nat.
  Variables as_needed ordered accept_overflow : bool.

  (** What happens to one table. *)
  Definition one_result (t t' : table) : Prop :=
    t_x t' = t_x t /\ t_y t' = t_y t /\
    ((as_needed = true /\ List.length (t_entries t) <= target (t_x t) (t_y t) /\ t' = t) \/
     compress t = Ok (t_entries t')).

  Definition fits (t : table) : Prop := List.length (t_entries t) <= target (t_x t) (t_y t).

  Lemma loop_spec todo : forall done problems out ps,
    compress_loop compress target as_needed todo done problems = Ok (out, ps) ->
    exists new, out = done ++ new /\ Forall2 one_result todo new /\
      exists extra, ps = problems ++ extra /\ (extra = [] <-> Forall fits new).
  Proof.
    induction todo as [|t todo IH]; intros done problems out ps H.
    - cbn in H. injection H as <- <-. exists []. rewrite app_nil_r. split; [reflexivity|].
      split; [constructor|]. exists []. rewrite app_nil_r. split; [reflexivity|]. split; [constructor|reflexivity].
    - cbn [compress_loop] in H.
      destruct (as_needed && Nat.leb (List.length (t_entries t)) (target (t_x t) (t_y t)))%bool eqn:A.
      + apply andb_true_iff in A. destruct A as [A1 A2]. apply Nat.leb_le in A2.
        destruct (bind_Ok_inv _ _ _ H) as (done' & D & H'). clear H.
        unfold add_table in D. destruct (existsb (same_chip t) done); [discriminate|].
        injection D as <-. destruct (IH _ _ _ _ H') as (new & E & F & extra & Ep & Ef).
        exists (t :: new). rewrite E, <- app_assoc. split; [reflexivity|]. split.
        * constructor; [|assumption]. split; [reflexivity|]. split; [reflexivity|]. left. auto.
        * exists extra. split; [assumption|]. rewrite Ef. split.
          -- intros Hn. constructor; assumption.
          -- intros Hn. now inversion Hn.
      + destruct (bind_Ok_inv _ _ _ H) as (es & C & H1). clear H.
        destruct (bind_Ok_inv _ _ _ H1) as (done' & D & H'). clear H1.
        destruct (fold_com_add es (empty_table (t_x t) (t_y t))) as (Fe & Fx & Fy).
        set (new1 := fold_left com_add es (empty_table (t_x t) (t_y t))) in *.
        cbn [empty_table t_entries t_x t_y app] in Fe, Fx, Fy.
        unfold add_table in D. destruct (existsb (same_chip new1) done); [discriminate|].
        injection D as <-. destruct (IH _ _ _ _ H') as (new & E & F & extra & Ep & Ef).
        exists (new1 :: new). rewrite E, <- app_assoc. split; [reflexivity|]. split.
        * constructor; [|assumption]. split; [assumption|]. split; [assumption|]. right. now rewrite Fe.
        * assert (FN : fits new1 <-> ~ target (t_x t) (t_y t) < List.length (t_entries new1)).
          { unfold fits. rewrite Fx, Fy. lia. }
          destruct (Nat.ltb_spec (target (t_x t) (t_y t)) (List.length (t_entries new1))) as [O|O].
          -- rewrite <- app_assoc in Ep. eexists. split; [exact Ep|].
             split; [discriminate|]. intros Hn. inversion Hn as [|? ? Hf _]. apply FN in Hf. lia.
          -- exists extra. split; [assumption|]. rewrite Ef. split.
             ++ intros Hn. constructor; [|assumption]. apply FN. lia.
             ++ intros Hn. now inversion Hn.
  Qed.

  Lemma driver_spec ts out :
    compress_tables compress target as_needed ordered accept_overflow ts [] = Ok out ->
    Forall2 one_result ts out /\
    (ordered = true -> accept_overflow = false -> Forall fits out).
  Proof.
    unfold compress_tables. intros H.
    destruct (bind_Ok_inv _ _ _ H) as ([done ps] & L & H'). clear H.
    destruct (loop_spec _ _ _ _ _ L) as (new & E & F & extra & Ep & Ef).
    cbn [app] in E, Ep. subst done extra.
    destruct ps as [|p ps].
    - injection H' as <-. split; [assumption|]. intros _ _. now apply Ef.
    - destruct (ordered && negb accept_overflow)%bool eqn:O; [discriminate|].
      injection H' as <-. split; [assumption|]. intros -> ->. discriminate.
  Qed.

  (** The error is only raised when a table does not fit. *)
  Lemma driver_error ts :
    (forall t, In t ts -> exists es, compress t = Ok es /\ List.length es <= target (t_x t) (t_y t)) ->
    NoDup (map (fun t => (t_x t, t_y t)) ts) ->
    exists out, compress_tables compress target as_needed ordered accept_overflow ts [] = Ok out.
  Proof.
    intros Hc ND.
    assert (G : forall todo done, (forall t, In t todo -> In t ts) ->
       NoDup (map (fun t => (t_x t, t_y t)) (done ++ todo)) ->
       exists out, compress_loop compress target as_needed todo done [] = Ok (out, [])).
    { induction todo as [|t todo IH]; intros done Hin N.
      - exists done. reflexivity.
      - cbn [compress_loop].
        assert (Fresh : forall t', t_x t' = t_x t -> t_y t' = t_y t -> existsb (same_chip t') done = false).
        { intros t' X Y. apply not_true_iff_false. intros C. apply existsb_exists in C.
          destruct C as (d & Id & S). unfold same_chip in S. apply andb_true_iff in S.
          rewrite !Z.eqb_eq in S. destruct S as [S1 S2].
          rewrite map_app in N. cbn [map] in N. apply NoDup_remove_2 in N. apply N.
          apply in_or_app. left. apply in_map_iff. exists d. split; [|assumption].
          f_equal; congruence. }
        assert (N' : forall t', t_x t' = t_x t -> t_y t' = t_y t ->
          NoDup (map (fun t => (t_x t, t_y t)) ((done ++ [t']) ++ todo))).
        { intros t' X Y. rewrite <- app_assoc. rewrite map_app in *. cbn [map app] in *.
          now rewrite X, Y. }
        destruct (as_needed && Nat.leb (List.length (t_entries t)) (target (t_x t) (t_y t)))%bool.
        + unfold add_table. rewrite Fresh by reflexivity. cbn [bind]. apply IH.
          * intros z Hz. apply Hin. now right.
          * now apply N'.
        + destruct (Hc t) as (es & E & L); [apply Hin; now left|]. rewrite E. cbn [bind].
          destruct (fold_com_add es (empty_table (t_x t) (t_y t))) as (Fe & Fx & Fy).
          set (new1 := fold_left com_add es (empty_table (t_x t) (t_y t))) in *.
          cbn [empty_table t_entries t_x t_y app] in Fe, Fx, Fy.
          unfold add_table. rewrite Fresh by assumption. cbn [bind].
          replace (Nat.ltb (target (t_x t) (t_y t)) (List.length (t_entries new1))) with false.
          2:{ symmetry. apply Nat.ltb_ge. now rewrite Fe. }
          apply IH.
          * intros z Hz. apply Hin. now right.
          * now apply N'. }
    destruct (G ts [] (fun t H => H) ND) as (out & E).
    exists out. unfold compress_tables. rewrite E. reflexivity.
  Qed.
End Driver.

(** The driver run with the pair compressor keeps the routing of every chip. *)
Lemma pair_driver_preserves target as_needed ordered c_sort n_routes ts out :
  Forall (fun t => Forall entry_ok (t_entries t) /\ orthogonal (t_entries t)) ts ->
  compress_tables (fun t => compress_table ordered c_sort n_routes (t_entries t))
    target as_needed ordered false ts [] = Ok out ->
  Forall2 (fun t t' => t_x t' = t_x t /\ t_y t' = t_y t /\
     (forall e k, In e (t_entries t) -> entry_matches k e -> routes_to (t_entries t') k (e_route e)) /\
     (ordered = true -> List.length (t_entries t') <= target (t_x t) (t_y t))) ts out.
Proof.
  intros Hok H. apply driver_spec in H. destruct H as [F2 Fit].
  assert (Fit' : ordered = true -> Forall (fits target) out) by (intros; now apply Fit).
  clear Fit. revert Hok Fit'. induction F2 as [|t t' ts out (X & Y & R) F2 IH]; intros Hok Fit.
  - constructor.
  - inversion Hok as [|? ? [O1 O2] Hok']; subst. constructor.
    + split; [assumption|]. split; [assumption|]. split.
      * intros e k He Mk. destruct R as [(_ & _ & ->)|R].
        -- destruct (first_match_exists _ _ _ He Mk) as (e' & F). exists e'. split; [assumption|].
           apply first_match_Some in F. f_equal. eapply orthogonal_unique; eauto; tauto.
        -- eapply pair_preserves_routing; eauto.
      * intros O. specialize (Fit O). inversion Fit as [|? ? Ft _]; subst.
        unfold fits in Ft. now rewrite X, Y in Ft.
    + apply IH; [assumption|]. intros O. specialize (Fit O). now inversion Fit.
Qed.

(** * JSON *)
Section JsonProofs.
  Variable entry_eq : entry -> entry -> bool.

  Lemma entry_json_roundtrip e : entry_ok e -> entry_from_json (entry_to_json e) = Ok e.
  Proof.
    intros H. unfold entry_from_json, entry_to_json. cbn.
    rewrite !N2Z.id. rewrite H, N.eqb_refl. now destruct e.
  Qed.

  Lemma entries_json es : forall t,
    Forall entry_ok es -> NoDup (map km (t_entries t ++ es)) ->
    exists n, foldM (fun t je => let* e := entry_from_json je in unc_add entry_eq t e)
      t (map entry_to_json es) = Ok (mkTable (t_x t) (t_y t) (t_entries t ++ es) n) /\
      n = t_ndef t + count_def es.
  Proof.
    induction es as [|e es IH]; intros t OK ND; cbn [map foldM].
    - exists (t_ndef t). rewrite app_nil_r. split; [now destruct t|]. unfold count_def; simpl; lia.
    - inversion OK as [|? ? O1 O2]; subst. rewrite entry_json_roundtrip by assumption. cbn [bind].
      assert (U : unc_add entry_eq t e = Ok (mkTable (t_x t) (t_y t) (t_entries t ++ [e])
                      (if e_def e then S (t_ndef t) else t_ndef t))).
      { unfold unc_add. replace (find (same_km e) (t_entries t)) with (@None entry); [reflexivity|].
          symmetry. apply find_km_None. rewrite map_app in ND. cbn [map] in ND.
          apply NoDup_remove_2 in ND. intros C. apply ND. apply in_or_app. now left. }
      rewrite U. cbn [bind]. clear U.
      destruct (IH (mkTable (t_x t) (t_y t) (t_entries t ++ [e])
                      (if e_def e then S (t_ndef t) else t_ndef t)) O2) as (n & E & En).
      { cbn [t_entries]. now rewrite <- app_assoc. }
      exists n. cbn [t_x t_y t_entries] in E. rewrite E, <- app_assoc. split; [reflexivity|].
      cbn [t_ndef] in En. unfold count_def in *. cbn [filter]. destruct (e_def e); cbn [List.length]; lia.
  Qed.

  Definition table_ok (t : table) : Prop :=
    Forall entry_ok (t_entries t) /\ NoDup (map km (t_entries t)) /\
    t_ndef t = count_def (t_entries t).

  Lemma table_json_roundtrip t : table_ok t -> table_from_json entry_eq (table_to_json t) = Ok t.
  Proof.
    intros (O & ND & C). unfold table_from_json, table_to_json.
    cbn [jget assoc String.eqb Ascii.eqb Bool.eqb bind jint jlist].
    destruct (entries_json (t_entries t) (empty_table (t_x t) (t_y t)) O ND) as (n & E & En).
    cbn in E. cbn. rewrite E. subst n. cbn. rewrite <- C. now destruct t.
  Qed.

  Lemma tables_json_roundtrip ts :
    Forall table_ok ts -> NoDup (map (fun t => (t_x t, t_y t)) ts) ->
    tables_from_json entry_eq (tables_to_json ts) = Ok ts.
  Proof.
    intros OK ND. unfold tables_from_json, tables_to_json. cbn [jlist bind].
    assert (G : forall todo done, Forall table_ok todo ->
      NoDup (map (fun t => (t_x t, t_y t)) (done ++ todo)) ->
      foldM (fun ts jt => let* t := table_from_json entry_eq jt in add_table ts t)
        done (map table_to_json todo) = Ok (done ++ todo)).
    { induction todo as [|t todo IH]; intros done O N; cbn [map foldM].
      - now rewrite app_nil_r.
      - inversion O as [|? ? O1 O2]; subst. rewrite table_json_roundtrip by assumption. cbn [bind].
        assert (U : add_table done t = Ok (done ++ [t])).
        { unfold add_table. replace (existsb (same_chip t) done) with false; [reflexivity|].
            symmetry. apply not_true_iff_false. intros C. apply existsb_exists in C.
            destruct C as (d & Id & S). unfold same_chip in S. apply andb_true_iff in S.
            rewrite !Z.eqb_eq in S. destruct S as [S1 S2].
            rewrite map_app in N. cbn [map] in N. apply NoDup_remove_2 in N. apply N.
            apply in_or_app. left. apply in_map_iff. exists d. split; [|assumption]. f_equal; congruence. }
        rewrite U. cbn [bind]. rewrite IH; [now rewrite <- app_assoc|assumption|now rewrite <- app_assoc]. }
    apply (G ts []); assumption.
  Qed.
End JsonProofs.

(** ** Collections of tables *)

Definition pos (t : table) : Z * Z := (t_x t, t_y t).

Lemma same_chip_pos : forall a b, same_chip a b = true <-> pos a = pos b.
Proof.
  intros a b. unfold same_chip, pos. rewrite andb_true_iff, !Z.eqb_eq. split.
  - intros [-> ->]. reflexivity.
  - intros [= -> ->]. auto.
Qed.

Lemma collection_spec : forall ts,
  match foldM add_table [] ts with
  | Ok r => r = ts /\ NoDup (map pos ts)
  | Err x => x = AlreadyExists /\ ~ NoDup (map pos ts)
  end.
Proof.
  assert (G : forall ts acc, NoDup (map pos acc) ->
    match foldM add_table acc ts with
    | Ok r => r = acc ++ ts /\ NoDup (map pos (acc ++ ts))
    | Err x => x = AlreadyExists /\ ~ NoDup (map pos (acc ++ ts))
    end).
  { induction ts as [|t ts IH]; intros acc ND; cbn [foldM].
    - rewrite app_nil_r. auto.
    - unfold add_table. destruct (existsb (same_chip t) acc) eqn:E; cbn [bind].
      + split; [reflexivity|]. intro C. rewrite map_app in C. cbn [map] in C.
        apply NoDup_remove_2 in C. apply C. apply in_or_app. left.
        apply existsb_exists in E. destruct E as (u & I & S). apply same_chip_pos in S.
        rewrite S. now apply in_map.
      + assert (NN : NoDup (map pos (acc ++ [t]))).
        { rewrite map_app. cbn [map]. apply Permutation.Permutation_NoDup with (pos t :: map pos acc).
          - apply Permutation.Permutation_cons_append.
          - constructor; auto. intro C. apply in_map_iff in C. destruct C as (u & P & I).
            assert (existsb (same_chip t) acc = true); [|congruence].
            apply existsb_exists. exists u. split; [auto|]. now apply same_chip_pos. }
        specialize (IH (acc ++ [t]) NN). rewrite <- app_assoc in IH. exact IH. }
  intro ts. apply (G ts []). constructor.
Qed.

Lemma get_table_spec : forall ts x y, NoDup (map pos ts) ->
  forall t, get_table ts x y = Some t <-> In t ts /\ t_x t = x /\ t_y t = y.
Proof.
  intros ts x y ND t. unfold get_table. split.
  - intro H. apply find_some in H. destruct H as [I S]. apply andb_true_iff in S.
    destruct S as [S1 S2]. apply Z.eqb_eq in S1, S2. auto.
  - intros (I & X & Y). induction ts as [|u ts IH]; [destruct I|].
    cbn [map] in ND. inversion_clear ND as [|? ? N1 N2]. cbn [find].
    destruct ((t_x u =? x)%Z && (t_y u =? y)%Z)%bool eqn:E.
    + destruct I as [-> |I]; [reflexivity|]. exfalso. apply N1.
      apply andb_true_iff in E. destruct E as [E1 E2]. apply Z.eqb_eq in E1, E2.
      apply in_map_iff. exists t. split; [unfold pos; congruence|auto].
    + destruct I as [-> |I]; [|auto]. subst. rewrite !Z.eqb_refl in E. discriminate.
Qed.

Lemma max_entries_spec : forall ts,
  (forall t, In t ts -> (length (t_entries t) <= max_entries ts)%nat) /\
  (ts <> [] -> exists t, In t ts /\ length (t_entries t) = max_entries ts) /\
  (ts = [] -> max_entries ts = 0%nat).
Proof.
  assert (G : forall l a, (a <= fold_left Nat.max l a)%nat /\
    (forall x, In x l -> (x <= fold_left Nat.max l a)%nat) /\
    (fold_left Nat.max l a = a \/ In (fold_left Nat.max l a) l)).
  { induction l as [|x l IH]; intro a; cbn [fold_left].
    - split; [lia|]. split; [intros x []|auto].
    - destruct (IH (Nat.max a x)) as (A & B & C). split; [lia|]. split.
      + intros y [<- |I]; [lia|auto].
      + destruct C as [C|C]; [|right; right; auto].
        destruct (Nat.max_spec a x) as [[M1 M2]|[M1 M2]].
        * right. left. lia.
        * left. lia. }
  intro ts. unfold max_entries. destruct (G (map (fun t => length (t_entries t)) ts) 0%nat) as (A & B & C).
  split; [|split].
  - intros t I. apply B. apply in_map_iff. eauto.
  - intro NE. destruct C as [C|C].
    + destruct ts as [|t ts]; [congruence|]. exists t. split; [left; auto|].
      assert (length (t_entries t) <= 0)%nat; [|rewrite C; lia].
      rewrite <- C. apply B. left. reflexivity.
    + apply in_map_iff in C. destruct C as (t & E & I). eauto.
  - intros ->. reflexivity.
Qed.

Lemma total_entries_spec : forall ts,
  total_entries ts = length (flat_map t_entries ts).
Proof.
  assert (G : forall ts a, fold_left Nat.add (map (fun t => length (t_entries t)) ts) a
                    = (a + length (flat_map t_entries ts))%nat).
  { induction ts as [|t ts IH]; intro a; cbn [map fold_left flat_map].
    - cbn. lia.
    - rewrite IH, app_length. lia. }
  intro ts. apply G.
Qed.
