(** Proofs about the sources of a router without a key, and what basic and merged
    tables hold whenever they are returned. *)
From Coq Require Import List Arith NArith ZArith Bool Lia.
From Verif Require Import Base Dict RouteSpec AllocModel TablesModel GenModel GenProofs.
Import ListNotations.
Local Open Scope N_scope.

(** The entry of a source in a basic table. *)
Definition entry_of (infos : list info) (it : (vertex * nat) * rent) (e : entry) : Prop :=
  exists i, get_info infos (fst (fst it)) (snd (fst it)) = Ok i /\
    N.land (km_key (i_km i)) (km_mask (i_km i)) = km_key (i_km i) /\
    e = mkEntry (km_key (i_km i)) (km_mask (i_km i)) (re_route (snd it)) (re_def (snd it)).

Lemma basic_exact : forall entry_eq infos x y items t, NoDup (map fst items) ->
  basic_table entry_eq infos x y items = Ok t -> t_x t = x /\ t_y t = y /\ Forall2 (entry_of infos) items (t_entries t).
Proof.
  intros entry_eq infos x y items t ND. unfold basic_table.
  assert (G : forall rest pre seen t0 t1, NoDup (map fst (pre ++ rest)) ->
    (forall k s, dget km_eqb seen k = Some s -> In s (map fst pre)) ->
    (forall e, In e (t_entries t0) -> dget km_eqb seen (mkKM (e_key e) (e_mask e)) <> None) ->
    Forall2 (entry_of infos) pre (t_entries t0) -> basic_loop entry_eq infos rest seen t0 = Ok t1 ->
    t_x t1 = t_x t0 /\ t_y t1 = t_y t0 /\ Forall2 (entry_of infos) (pre ++ rest) (t_entries t1)).
  { induction rest as [|[[v p] en] rest IH]; intros pre seen t0 t1 D SE TE F H; cbn [basic_loop] in H.
    - injection H as <-. rewrite app_nil_r. auto.
    - apply bind_Ok_inv in H. destruct H as [i [G H]]. apply bind_Ok_inv in H. destruct H as [seen' [NS H]].
      apply bind_Ok_inv in H. destruct H as [t' [A H]].
      assert (NEW : ~ In (v, p) (map fst pre)).
      { intros X. rewrite map_app in D. cbn [map fst] in D. apply NoDup_remove in D. apply (proj2 D). apply in_app_iff. left. exact X. }
      assert (S0 : dget km_eqb seen (i_km i) = None /\ seen' = dset km_eqb seen (i_km i) (v, p)).
      { unfold note_source in NS. destruct (dget km_eqb seen (i_km i)) as [s'|] eqn:Q.
        - destruct (source_eqb s' (v, p)) eqn:R; [|discriminate]. apply source_eqb_iff in R. subst s'. exfalso. exact (NEW (SE _ _ Q)).
        - injection NS as <-. auto. }
      destruct S0 as [S0 ->]. unfold add_out in A. cbn [o_key o_mask o_rent] in A.
      destruct (N.eqb (N.land (km_key (i_km i)) (km_mask (i_km i))) (km_key (i_km i))) eqn:AL; [|discriminate]. apply N.eqb_eq in AL.
      unfold unc_add in A. destruct (find (same_km (mkEntry (km_key (i_km i)) (km_mask (i_km i)) (re_route en) (re_def en))) (t_entries t0)) as [old|] eqn:FN.
      + exfalso. apply find_some in FN. destruct FN as [F1 F2]. unfold same_km in F2. cbn [e_key e_mask] in F2. apply andb_prop in F2. destruct F2 as [F2 F3].
        apply N.eqb_eq in F2, F3. apply (TE old F1). rewrite <- F2, <- F3. destruct (i_km i). exact S0.
      + injection A as <-.
        assert (E : pre ++ ((v, p), en) :: rest = (pre ++ [((v, p), en)]) ++ rest) by (rewrite <- app_assoc; reflexivity).
        rewrite E in D |- *. apply (IH _ _ _ _ D) in H; [exact H | | |].
        * intros k s. rewrite (dget_dset _ km_eqb_eq), map_app. intros X. apply in_app_iff. destruct (km_eqb (i_km i) k).
          -- injection X as <-. right. left. reflexivity.
          -- left. exact (SE _ _ X).
        * intros e X. cbn [t_entries] in X. rewrite (dget_dset _ km_eqb_eq).
          destruct (km_eqb (i_km i) (mkKM (e_key e) (e_mask e))) eqn:Q; [discriminate|]. apply in_app_iff in X. destruct X as [X|[<-|[]]]; [exact (TE e X)|].
          cbn [e_key e_mask] in Q. destruct (i_km i) as [k m]. cbn [km_key km_mask] in Q.
          assert (R : km_eqb (mkKM k m) (mkKM k m) = true) by (apply km_eqb_eq; reflexivity). congruence.
        * cbn [t_entries]. apply Forall2_app; [exact F|]. constructor; [|constructor]. exists i. auto. }
  intros H. apply (G items [] [] (empty_table x y) t ND) in H; [exact H | discriminate | intros e [] | constructor].
Qed.

(** * Merged tables *)
Definition keyed (infos : list info) (it : (vertex * nat) * rent) : Prop :=
  exists i, get_info infos (fst (fst it)) (snd (fst it)) = Ok i.
Lemma scan_keyed : forall infos app_of rest mm app p k index en g lft,
  scan_group infos app_of mm app p k index en rest = Ok (g, lft) ->
  exists taken, rest = taken ++ lft /\ Forall (keyed infos) taken /\ map me_rent g = map snd taken.
Proof.
  intros infos app_of. induction rest as [|[[v' p'] en'] rest IH]; intros mm app p k index en g lft H; cbn [scan_group] in H.
  - injection H as <- <-. exists []. auto.
  - assert (STOP : Ok ([], ((v', p'), en') :: rest) = Ok (g, lft) -> exists taken, ((v', p'), en') :: rest = taken ++ lft /\ Forall (keyed infos) taken /\ map me_rent g = map snd taken).
    { intros X. injection X as <- <-. exists []. auto. }
    destruct (negb (N.eqb (km_mask k) mm)); [exact (STOP H)|]. destruct v' as [a|m']; [exact (STOP H)|].
    destruct (negb (Nat.eqb p p')); [exact (STOP H)|]. destruct (mask_has_holes (km_mask k)); [exact (STOP H)|].
    apply bind_Ok_inv in H. destruct H as [i' [G H]]. destruct (i_extra i') as [index'|? ? ?]; [|discriminate].
    destruct (negb (N.eqb index' (index + 1))); [exact (STOP H)|].
    destruct (opt_eqb (app_of m') app && N.eqb (re_route en) (re_route en'))%bool; [|exact (STOP H)].
    apply bind_Ok_inv in H. destruct H as [[g' lft'] [S H]]. injection H as <- <-.
    destruct (IH _ _ _ _ _ _ _ _ S) as [taken [-> [F M]]]. exists (((Mac m', p'), en') :: taken). split; [reflexivity|]. split.
    + constructor; [exists i'; exact G | exact F].
    + cbn [map me_rent snd]. rewrite M. reflexivity.
Qed.

Lemma break_rents : forall mm b fuel rest outs, break_down fuel mm b rest = Ok outs ->
  forall o, In o outs -> In (o_rent o) (map me_rent rest).
Proof.
  intros mm b. induction fuel as [|f IH]; intros [|e rest] outs H o I; cbn [break_down] in H; try discriminate; try (injection H as <-; destruct I).
  apply bind_Ok_inv in H. destruct H as [o1 [B H]]. injection H as <-. destruct I as [<-|I]; [left; reflexivity|].
  apply (IH _ _ B) in I. apply in_map_iff in I. destruct I as [x [E I]]. rewrite <- E. apply in_map. 
  rewrite <- (firstn_skipn (N.to_nat (2 ^ N.log2 (N.of_nat (length (e :: rest))))) (e :: rest)). apply in_app_iff. right. exact I.
Qed.
Lemma merge_rents : forall mm b is_last n fuel rest outs, merge_loop fuel mm b is_last n rest = Ok outs ->
  forall o, In o outs -> In (o_rent o) (map me_rent rest).
Proof.
  intros mm b is_last n. induction fuel as [|f IH]; intros [|e rest] outs H o I; cbn [merge_loop] in H; try discriminate; try (injection H as <-; destruct I).
  destruct (_ || is_last)%bool.
  - apply bind_Ok_inv in H. destruct H as [o1 [B H]]. injection H as <-. destruct I as [<-|I]; [left; reflexivity|].
    apply (IH _ _ B) in I. apply in_map_iff in I. destruct I as [x [E I]]. rewrite <- E. apply in_map.
    rewrite <- (firstn_skipn (N.to_nat (n_sequential (me_index e) n)) (e :: rest)). apply in_app_iff. right. exact I.
  - exact (break_rents _ _ _ _ _ H o I).
Qed.
Lemma keys_rents : forall mm b mx mask es outs, merged_keys_and_masks mm b mx mask es = Ok outs ->
  forall o, In o outs -> In (o_rent o) (map me_rent es).
Proof.
  intros mm b mx mask [|e [|e' es]] outs H o I; cbn [merged_keys_and_masks] in H.
  - injection H as <-. destruct I.
  - injection H as <-. destruct I as [<-|[]]. left. reflexivity.
  - unfold merge_machine_entries in H. destruct (rev (e :: e' :: es)); [discriminate|]. exact (merge_rents _ _ _ _ _ _ _ H o I).
Qed.
(** What an added entry does to the entries of a table. *)
Lemma add_out_entries : forall entry_eq t o t', add_out entry_eq t o = Ok t' ->
  t_x t' = t_x t /\ t_y t' = t_y t /\
  forall e, In e (t_entries t') -> In e (t_entries t) \/ e = mkEntry (o_key o) (o_mask o) (re_route (o_rent o)) (re_def (o_rent o)).
Proof.
  intros entry_eq t o t' H. unfold add_out in H. destruct (N.eqb _ _); [|discriminate]. unfold unc_add in H.
  destruct (find _ (t_entries t)) as [old|].
  - destruct (entry_eq old _); [|discriminate]. injection H as <-. auto.
  - injection H as <-. cbn [t_x t_y t_entries]. split; [reflexivity|]. split; [reflexivity|]. intros e I. apply in_app_iff in I. destruct I as [I|[<-|[]]]; auto.
Qed.
Lemma add_outs_entries : forall entry_eq outs t t', foldM (add_out entry_eq) t outs = Ok t' ->
  t_x t' = t_x t /\ t_y t' = t_y t /\
  forall e, In e (t_entries t') -> In e (t_entries t) \/ exists o, In o outs /\ e_route e = re_route (o_rent o) /\ e_def e = re_def (o_rent o).
Proof.
  intros entry_eq. induction outs as [|o outs IH]; intros t t' H; cbn [foldM] in H.
  - injection H as <-. auto.
  - apply bind_Ok_inv in H. destruct H as [t1 [A H]]. destruct (IH _ _ H) as [X [Y E]]. destruct (add_out_entries _ _ _ _ A) as [X1 [Y1 E1]].
    split; [congruence|]. split; [congruence|]. intros e I. destruct (E e I) as [I1|[o' [I1 R]]].
    + destruct (E1 e I1) as [I2|I2]; [left; exact I2|]. right. exists o. split; [left; reflexivity|]. rewrite I2. auto.
    + right. exists o'. split; [right; exact I1 | exact R].
Qed.

Lemma merged_sources : forall entry_eq infos app_of fuel items seen t t', merged_loop entry_eq infos app_of fuel items seen t = Ok t' ->
  t_x t' = t_x t /\ t_y t' = t_y t /\ Forall (keyed infos) items /\
  forall e, In e (t_entries t') -> In e (t_entries t) \/ exists it, In it items /\ e_route e = re_route (snd it) /\ e_def e = re_def (snd it).
Proof.
  intros entry_eq infos app_of. induction fuel as [|f IH]; intros [|[[v p] en] rest] seen t t' H; cbn [merged_loop] in H; try discriminate;
    try (injection H as <-; auto).
  apply bind_Ok_inv in H. destruct H as [i [G H]]. apply bind_Ok_inv in H. destruct H as [seen' [NS H]].
  assert (ONE : (let* t := add_out entry_eq t (mkOut (km_key (i_km i)) (km_mask (i_km i)) en) in merged_loop entry_eq infos app_of f rest seen' t) = Ok t' ->
    t_x t' = t_x t /\ t_y t' = t_y t /\ Forall (keyed infos) (((v, p), en) :: rest) /\
    forall e, In e (t_entries t') -> In e (t_entries t) \/ exists it, In it (((v, p), en) :: rest) /\ e_route e = re_route (snd it) /\ e_def e = re_def (snd it)).
  { intros X. apply bind_Ok_inv in X. destruct X as [t1 [A X]]. destruct (IH _ _ _ _ X) as [X1 [Y1 [K E]]]. destruct (add_out_entries _ _ _ _ A) as [X2 [Y2 E2]].
    split; [congruence|]. split; [congruence|]. split; [constructor; [exists i; exact G | exact K]|].
    intros e I. destruct (E e I) as [I1|[it [I1 R]]].
    - destruct (E2 e I1) as [I2|I2]; [left; exact I2|]. right. exists ((v, p), en). split; [left; reflexivity|]. rewrite I2. auto.
    - right. exists it. split; [right; exact I1 | exact R]. }
  destruct v as [a|m]; [exact (ONE H)|]. destruct (i_extra i) as [index|? ? ?]; [|discriminate].
  destruct (app_of m) as [a|]; [|exact (ONE H)]. apply bind_Ok_inv in H. destruct H as [ai [GA H]].
  destruct (i_extra ai) as [|mm b mx]; [discriminate|]. apply bind_Ok_inv in H. destruct H as [[g lft] [SG H]].
  apply bind_Ok_inv in H. destruct H as [outs [MK H]]. apply bind_Ok_inv in H. destruct H as [t1 [A H]].
  destruct (scan_keyed _ _ _ _ _ _ _ _ _ _ _ SG) as [taken [-> [F M]]].
  destruct (IH _ _ _ _ H) as [X1 [Y1 [K E]]]. destruct (add_outs_entries _ _ _ _ A) as [X2 [Y2 E2]].
  split; [congruence|]. split; [congruence|]. split.
  - constructor; [exists i; exact G|]. apply Forall_app. auto.
  - intros e I. destruct (E e I) as [I1|[it [I1 R]]].
    + destruct (E2 e I1) as [I2|[o [I2 R]]]; [left; exact I2|]. right. apply (keys_rents _ _ _ _ _ _ MK) in I2. cbn [map me_rent] in I2. rewrite M in I2.
      destruct I2 as [I2|I2].
      * exists ((Mac m, p), en). split; [left; reflexivity|]. cbn [snd]. rewrite I2. exact R.
      * apply in_map_iff in I2. destruct I2 as [it [EQ I2]]. exists it. split; [right; apply in_app_iff; left; exact I2|]. rewrite EQ. exact R.
    + right. exists it. split; [right; apply in_app_iff; right; exact I1 | exact R].
Qed.

Lemma generate_tables : forall make routers ts, generate make routers = Ok ts ->
  Forall2 (fun r t => make (fst (fst r)) (snd (fst r)) (snd r) = Ok t) routers ts.
Proof.
  intros make routers ts. unfold generate.
  assert (G : forall routers ts0 ts1 pre, Forall2 (fun r t => make (fst (fst r)) (snd (fst r)) (snd r) = Ok t) pre ts0 ->
    foldM (fun ts r => let* t := make (fst (fst r)) (snd (fst r)) (snd r) in add_table ts t) ts0 routers = Ok ts1 ->
    Forall2 (fun r t => make (fst (fst r)) (snd (fst r)) (snd r) = Ok t) (pre ++ routers) ts1).
  { clear. induction routers as [|r routers IH]; intros ts0 ts1 pre F H; cbn [foldM] in H.
    - injection H as <-. rewrite app_nil_r. exact F.
    - apply bind_Ok_inv in H. destruct H as [ts' [A H]]. apply bind_Ok_inv in A. destruct A as [t [M A]]. unfold add_table in A.
      destruct (existsb (same_chip t) ts0); [discriminate|]. injection A as <-.
      replace (pre ++ r :: routers) with ((pre ++ [r]) ++ routers) by (rewrite <- app_assoc; reflexivity).
      apply (IH (ts0 ++ [t])); [|exact H]. apply Forall2_app; [exact F|]. constructor; [exact M | constructor]. }
  intros H. apply (G routers [] ts []); [constructor | exact H].
Qed.
