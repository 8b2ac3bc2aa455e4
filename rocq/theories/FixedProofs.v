(** Proofs about fixed routes (C36). *)
From Coq Require Import List ZArith NArith Arith Bool Lia.
From Verif Require Import Base Dict TreeModel MachModel LdfModel LdfProofs PathModel PathProofs RPartModel RPartProofs
  BfsModel BfsProofs FixedModel.
Import ListNotations.
Local Open Scope nat_scope.

(** Following the fixed routes of a board from chip [p] leads to its Ethernet chip
    [e] in [n] hops, each over a working link to a chip of the board. *)
Inductive fhops (m : machine) (chips : list xy) (t : ftable) (e : xy) : nat -> xy -> Prop :=
| fh_here : fhops m chips t e 0 e
| fh_hop : forall n p l q, p <> e -> dget xy_eqb t p = Some (mkRE (route_of [l] []) false) ->
    works m p (l, q) -> In q chips -> fhops m chips t e n q -> fhops m chips t e (S n) p.

Definition grows (t t' : ftable) : Prop := forall q x, dget xy_eqb t q = Some x -> dget xy_eqb t' q = Some x.
Lemma grows_refl : forall t, grows t t.
Proof. intros t q x H. exact H. Qed.
Lemma grows_trans : forall a b c, grows a b -> grows b c -> grows a c.
Proof. intros a b c A B q x H. exact (B q x (A q x H)). Qed.
Lemma fhops_grows : forall m chips t t' e n p, grows t t' -> fhops m chips t e n p -> fhops m chips t' e n p.
Proof. intros m chips t t' e n p G H. induction H; [constructor | econstructor; eauto]. Qed.

Lemma add_fixed_spec : forall t key links procs,
  match add_fixed t key links procs with
  | Ok t' => dget xy_eqb t key = None /\ grows t t' /\ dget xy_eqb t' key = Some (mkRE (route_of links procs) false) /\
      (forall q, q <> key -> dget xy_eqb t' q = dget xy_eqb t q) /\ (NoDup (map fst t) -> NoDup (map fst t'))
  | Err x => x = AlreadyExists /\ dget xy_eqb t key <> None
  end.
Proof.
  intros. unfold add_fixed, dmem. destruct (dget xy_eqb t key) as [o|] eqn:E.
  - split; [reflexivity | discriminate].
  - split; [reflexivity|]. split; [|split; [|split]].
    + intros q x H. rewrite (dget_dset_neq _ xy_eqb_eq); [exact H | congruence].
    + apply (dget_dset_eq _ xy_eqb_eq).
    + intros q H. apply (dget_dset_neq _ xy_eqb_eq). congruence.
    + apply (dset_NoDup _ xy_eqb_eq).
Qed.

Lemma fixed_pass_spec : forall m routed todo t found, NoDup todo ->
  match fixed_pass m routed t found todo with
  | Ok (t', found') =>
      grows t t' /\ (NoDup (map fst t) -> NoDup (map fst t')) /\
      (forall q, In q found' <-> In q found \/ (In q todo /\ first_link m routed q <> None)) /\
      (forall q, dget xy_eqb t' q <> None <-> dget xy_eqb t q <> None \/ (In q todo /\ first_link m routed q <> None)) /\
      (forall q l, In q todo -> first_link m routed q = Some l ->
         dget xy_eqb t q = None /\ dget xy_eqb t' q = Some (mkRE (route_of [l] []) false))
  | Err x => x = AlreadyExists /\ exists q, In q todo /\ dget xy_eqb t q <> None
  end.
Proof.
  induction todo as [|p todo IH]; intros t found ND; cbn [fixed_pass].
  - split; [apply grows_refl|]. split; [auto|]. split; [intros q; cbn; tauto|]. split; [intros q; cbn; tauto|]. intros q l [].
  - inversion ND as [|? ? NI ND']; subst. destruct (first_link m routed p) as [l|] eqn:FL.
    + pose proof (add_fixed_spec t p [l] []) as SP. destruct (add_fixed t p [l] []) as [t1|x]; cbn [bind].
      2:{ destruct SP as [-> SP]. split; [reflexivity|]. exists p. split; [left; reflexivity | exact SP]. }
      destruct SP as [S1 [S2 [S3 [S4 S5]]]]. specialize (IH t1 (found ++ [p]) ND').
      destruct (fixed_pass m routed t1 (found ++ [p]) todo) as [[t' found']|x].
      * destruct IH as [I1 [I2 [I3 [I4 I5]]]]. split; [exact (grows_trans _ _ _ S2 I1)|]. split; [auto|]. split; [|split].
        -- intros q. rewrite I3, in_app_iff. cbn [In]. split.
           ++ intros [[X|[<-|[]]]|[X Y]]; [left; exact X | right; split; [left; reflexivity | congruence] | right; split; [right; exact X | exact Y]].
           ++ intros [X|[[<-|X] Y]]; auto.
        -- intros q. rewrite I4. cbn [In]. destruct (xy_dec q p) as [->|D].
           ++ rewrite S3, FL. split; [intros _; right; split; [left; reflexivity | discriminate] | intros _; left; discriminate].
           ++ rewrite (S4 q D). split; [intros [X|[X Y]]; auto | intros [X|[[X|X] Y]]; [auto | congruence | auto]].
        -- intros q l' [<-|X] F.
           ++ assert (l' = l) by congruence. subst l'. split; [exact S1 | exact (I1 _ _ S3)].
           ++ destruct (I5 q l' X F) as [Y1 Y2]. split; [|exact Y2]. rewrite <- (S4 q); [exact Y1 | intros ->; contradiction].
      * destruct IH as [-> [q [X Y]]]. split; [reflexivity|]. exists q. split; [right; exact X|].
        rewrite <- (S4 q); [exact Y | intros ->; contradiction].
    + specialize (IH t found ND'). destruct (fixed_pass m routed t found todo) as [[t' found']|x].
      * destruct IH as [I1 [I2 [I3 [I4 I5]]]]. split; [exact I1|]. split; [exact I2|]. split; [|split].
        -- intros q. rewrite I3. cbn [In]. split; [intros [X|[X Y]]; auto | intros [X|[[<-|X] Y]]; [auto | congruence | auto]].
        -- intros q. rewrite I4. cbn [In]. split; [intros [X|[X Y]]; auto | intros [X|[[<-|X] Y]]; [auto | congruence | auto]].
        -- intros q l' [<-|X] F; [congruence | exact (I5 q l' X F)].
      * destruct IH as [-> [q [X Y]]]. split; [reflexivity|]. exists q. split; [right; exact X | exact Y].
Qed.

Lemma first_link_Some : forall m routed p l, first_link m routed p = Some l ->
  l < 6 /\ is_link m p l = true /\ In (over_link m p l) routed.
Proof.
  intros m routed p l H. apply find_some in H. destruct H as [I H]. apply andb_prop in H. destruct H as [H1 H2].
  apply xy_in_spec in H1. split; [|auto]. cbn in I. intuition lia.
Qed.
Lemma first_link_None : forall m routed p l, first_link m routed p = None -> l < 6 -> is_link m p l = true ->
  ~ In (over_link m p l) routed.
Proof.
  intros m routed p l H L K I. assert (X : In l link_order) by (cbn; lia).
  pose proof (find_none _ _ H l X) as Y. cbn beta in Y. rewrite K, andb_true_r in Y. apply xy_in_spec in I. congruence.
Qed.

(** Walks on the board to its Ethernet chip. *)
Definition to_eth (m : machine) (chips : list xy) (e p : xy) (l : list node) : Prop :=
  rwalk m chips p l /\ last_xy p l = e.

Record finv (m : machine) (chips : list xy) (e : xy) (k : nat) (t0 t : ftable) (to_route routed : list xy) : Prop := mkFInv {
  fi_split : forall p, In p chips <-> In p to_route \/ In p routed;
  fi_apart : forall p, In p to_route -> ~ In p routed;
  fi_nodup : NoDup to_route;
  fi_eth : In e routed;
  fi_near : forall p l, In p chips -> to_eth m chips e p l -> length l <= k -> In p routed;
  fi_hops : forall p, In p routed -> exists n, n <= k /\ fhops m chips t e n p /\ forall l, to_eth m chips e p l -> n <= length l;
  fi_grows : grows t0 t;
  fi_keys : forall p, dget xy_eqb t p <> None <-> dget xy_eqb t0 p <> None \/ (In p routed /\ p <> e);
  fi_new : forall p, In p routed -> p <> e -> dget xy_eqb t0 p = None }.

Lemma fixed_loop_spec : forall fuel m chips e k t0 t to_route routed,
  (forall p, In p chips -> is_chip m p = true) -> In e chips ->
  finv m chips e k t0 t to_route routed -> length to_route <= fuel ->
  match fixed_loop fuel m t to_route routed with
  | Ok t' => exists k' routed', finv m chips e k' t0 t' [] routed' /\ (NoDup (map fst t) -> NoDup (map fst t'))
  | Err x => (x = RoutingException /\ exists p, In p chips /\ forall l, ~ to_eth m chips e p l) \/
             (x = AlreadyExists /\ exists p, In p chips /\ p <> e /\ dget xy_eqb t0 p <> None)
  end.
Proof.
  induction fuel as [|fuel IH]; intros m chips e k t0 t to_route routed EX EC I F.
  - destruct to_route; [|cbn in F; lia]. cbn [fixed_loop]. exists k, routed. auto.
  - destruct to_route as [|p0 rest]; [cbn [fixed_loop]; exists k, routed; auto|].
    cbn [fixed_loop]. remember (p0 :: rest) as todo eqn:TD.
    destruct I as [I1 I2 I3 I4 I5 I6 I7 I8 I9].
    pose proof (fixed_pass_spec m routed todo t [] I3) as SP.
    destruct (fixed_pass m routed t [] todo) as [[t' found]|x]; cbn [bind].
    2:{ right. destruct SP as [-> [q [X Y]]]. split; [reflexivity|]. exists q. split; [apply I1; auto|]. split; [intros ->; exact (I2 _ X I4)|].
        apply I8 in Y. destruct Y as [Y|[Y _]]; [exact Y|]. destruct (I2 q X Y). }
    destruct SP as [P1 [P2 [P3 [P4 P5]]]].
    assert (FO : forall q, In q found <-> In q todo /\ first_link m routed q <> None).
    { intros q. rewrite (P3 q). cbn. tauto. }
    destruct found as [|f0 found0] eqn:FE.
    + left. split; [reflexivity|]. exists p0. assert (T0 : In p0 todo) by (rewrite TD; left; reflexivity).
      split; [apply I1; auto|]. intros l [W L].
      assert (ST : In (last_xy p0 l) todo).
      { apply (closed_walk m chips (fun p => In p todo)); [|exact T0 | exact W].
        intros p [d q] Hp [W1 [W2 [W3 W4]]] Hq. cbn [fst snd] in *. destruct (proj1 (I1 q) Hq) as [X|X]; [exact X|]. exfalso.
        destruct (first_link m routed p) as [l'|] eqn:E.
        - apply (proj2 (FO p)). split; [exact Hp | congruence].
        - rewrite W3 in X. exact (first_link_None m routed p d E W1 W2 X). }
      rewrite L in ST. exact (I2 e ST I4).
    + assert (F0 : In f0 found) by (rewrite FE; left; reflexivity).
      change (match fixed_loop fuel m t' (filter (fun p => negb (xy_in p (f0 :: found0))) todo) (routed ++ f0 :: found0) with
        | Ok t' => exists k' routed', finv m chips e k' t0 t' [] routed' /\ (NoDup (map fst t) -> NoDup (map fst t'))
        | Err x => (x = RoutingException /\ exists p, In p chips /\ forall l, ~ to_eth m chips e p l) \/
                   (x = AlreadyExists /\ exists p, In p chips /\ p <> e /\ dget xy_eqb t0 p <> None)
        end).
      rewrite <- FE in *. clear FE.
      assert (LT : length (filter (fun p => negb (xy_in p found)) todo) <= fuel).
      { assert (X : length (filter (fun p => negb (xy_in p found)) todo) < length todo); [|lia].
        apply FO in F0 as Hf2. destruct Hf2 as [Ht _]. clear - F0 Ht. induction todo as [|a todo IH]; [destruct Ht|].
        cbn [filter length]. destruct Ht as [->|Ht].
        - apply xy_in_spec in F0. rewrite F0. cbn [negb].
          assert (LE : forall A (f : A -> bool) l, length (filter f l) <= length l).
          { induction l; cbn; [lia|]. destruct (f a); cbn; lia. }
          specialize (LE _ (fun p => negb (xy_in p found)) todo). lia.
        - specialize (IH Ht). destruct (negb (xy_in a found)); cbn [length]; lia. }
      assert (FI : forall p, In p (filter (fun p => negb (xy_in p found)) todo) <-> In p todo /\ ~ In p found).
      { intros p. rewrite filter_In, negb_true_iff, <- (xy_in_spec p found). destruct (xy_in p found); intuition congruence. }
      assert (NEXT : finv m chips e (S k) t0 t' (filter (fun p => negb (xy_in p found)) todo) (routed ++ found)).
      { constructor.
        - intros p. rewrite FI, in_app_iff, I1, FO. split; [|tauto]. intros [X|X]; [|auto].
          destruct (first_link m routed p) eqn:E; [right; right; split; [exact X | congruence] | left; split; [exact X | tauto]].
        - intros p. rewrite FI, in_app_iff. intros [X Y] [Z|Z]; [exact (I2 p X Z) | contradiction].
        - apply NoDup_filter. exact I3.
        - apply in_app_iff. left. exact I4.
        - intros p l Hp [W L] LE. apply in_app_iff. destruct (in_dec xy_dec p routed) as [R|R]; [left; exact R|]. right.
          assert (T : In p todo) by (apply I1 in Hp; tauto). apply FO. split; [exact T|]. intros E.
          destruct l as [|[d q] l]; [cbn in L; subst p; contradiction|].
          destruct W as [[[W1 [W2 [W3 W4]]] W5] W6]. pose proof (Forall_inv W6) as C1. pose proof (Forall_inv_tail W6) as C2.
          cbn [fst snd] in *. rewrite last_cons in L. cbn [snd] in L. subst q.
          apply (first_link_None m routed p d E W1 W2). apply (I5 _ l); [exact C1 | | cbn [length] in LE; lia].
          split; [split; [exact W5 | exact C2] | exact L].
        - intros p Hp. apply in_app_iff in Hp. destruct Hp as [Hp|Hp].
          + destruct (I6 p Hp) as [n [X1 [X2 X3]]]. exists n. split; [lia|]. split; [exact (fhops_grows _ _ _ _ _ _ _ P1 X2) | exact X3].
          + apply FO in Hp. destruct Hp as [Ht Hf]. destruct (first_link m routed p) as [l|] eqn:E; [|congruence].
            destruct (first_link_Some m routed p l E) as [L1 [L2 L3]]. destruct (I6 _ L3) as [n [X1 [X2 X3]]].
            assert (OC : In (over_link m p l) chips) by (apply I1; auto).
            exists (S n). split; [lia|]. split.
            * apply (fh_hop m chips t' e n p l (over_link m p l)).
              -- intros ->. exact (I2 _ Ht I4).
              -- exact (proj2 (P5 p l Ht E)).
              -- unfold works. cbn [fst snd]. auto.
              -- exact OC.
              -- exact (fhops_grows _ _ _ _ _ _ _ P1 X2).
            * intros w W. destruct (le_lt_dec (length w) k) as [D|D]; [|lia]. exfalso.
              apply (I2 p Ht). apply (I5 p w); [apply I1; auto | exact W | exact D].
        - exact (grows_trans _ _ _ I7 P1).
        - intros p. rewrite P4, I8, in_app_iff, FO. split.
          + intros [[X|[X Y]]|[X Y]]; [left; exact X | right; auto | right]. split; [auto|]. intros ->. exact (I2 _ X I4).
          + intros [X|[[X|X] Y]]; auto.
        - intros p Hp NE. apply in_app_iff in Hp. destruct Hp as [Hp|Hp]; [exact (I9 p Hp NE)|].
          apply FO in Hp. destruct Hp as [Ht Hf]. destruct (first_link m routed p) as [l|] eqn:E; [|congruence].
          destruct (dget xy_eqb t0 p) as [x|] eqn:X; [|reflexivity]. apply I7 in X. destruct (P5 p l Ht E) as [Y _]. congruence. }
      pose proof (IH m chips e (S k) t0 t' _ _ EX EC NEXT LT) as R.
      destruct (fixed_loop fuel m t' (filter (fun p => negb (xy_in p found)) todo) (routed ++ found)) as [t2|x]; [|exact R].
      destruct R as [k' [routed' [R1 R2]]]. exists k', routed'. auto.
Qed.

Definition board_ok (m : machine) (g : xy -> option nat) (t0 t : ftable) (board : xy * list xy) : Prop :=
  let '(e, chips) := board in
  In e chips /\
  (forall p, In p chips -> dget xy_eqb t0 p = None) /\
  (forall p, In p chips -> exists n, fhops m chips t e n p /\ forall l, to_eth m chips e p l -> n <= length l) /\
  (exists n, g e = Some n /\ dget xy_eqb t e = Some (mkRE (route_of [] [n]) false)).

Lemma fhops_walk : forall m chips t e n p, fhops m chips t e n p -> exists l, to_eth m chips e p l /\ length l = n.
Proof.
  intros m chips t e n p H. induction H as [|n p l q NE D W C H [w [[[W1 W2] W3] L]]].
  - exists []. split; [split; [split; [exact I | constructor] | reflexivity] | reflexivity].
  - exists ((l, q) :: w). split; [|cbn; congruence]. split.
    + split; [split; [exact W | exact W1] | constructor; [exact C | exact W2]].
    + rewrite last_cons. exact W3.
Qed.

Lemma route_board_spec : forall m g t board, NoDup (snd board) -> (forall p, In p (snd board) -> is_chip m p = true) ->
  match route_board m g t board with
  | Ok t' => board_ok m g t t' board /\ grows t t' /\
      (forall p, dget xy_eqb t' p <> None <-> dget xy_eqb t p <> None \/ In p (snd board)) /\ (NoDup (map fst t) -> NoDup (map fst t'))
  | Err x =>
      (x = KeyError /\ ~ In (fst board) (snd board)) \/
      (x = RoutingException /\ exists p, In p (snd board) /\ forall l, ~ to_eth m (snd board) (fst board) p l) \/
      (x = ConfigurationException /\ g (fst board) = None) \/
      (x = AlreadyExists /\ exists p, In p (snd board) /\ dget xy_eqb t p <> None)
  end.
Proof.
  intros m g t [e chips] ND EX. cbn [fst snd] in *. unfold route_board.
  destruct (xy_in e chips) eqn:IE.
  2:{ left. split; [reflexivity|]. rewrite <- xy_in_spec. congruence. }
  apply xy_in_spec in IE. set (todo := filter (fun p => negb (xy_eqb p e)) chips).
  assert (TD : forall p, In p todo <-> In p chips /\ p <> e).
  { intros p. unfold todo. rewrite filter_In, negb_true_iff. split; intros [A B]; split; auto.
    - intros ->. rewrite (proj2 (xy_eqb_eq e e) eq_refl) in B. discriminate.
    - apply (eqb_neq' _ xy_eqb_eq). exact B. }
  assert (INV : finv m chips e 0 t t todo [e]).
  { constructor.
    - intros p. rewrite TD. cbn [In]. destruct (xy_dec p e) as [->|D]; [tauto|]. split; [tauto|]. intros [X|[X|[]]]; [tauto | congruence].
    - intros p X [Y|[]]. apply TD in X. destruct X as [_ X]. congruence.
    - apply NoDup_filter. exact ND.
    - left. reflexivity.
    - intros p l _ [_ L] LE. destruct l; [|cbn in LE; lia]. cbn in L. left. auto.
    - intros p [<-|[]]. exists 0. split; [lia|]. split; [constructor | intros; lia].
    - apply grows_refl.
    - intros p. split; [auto|]. intros [X|[[X|[]] Y]]; [exact X | congruence].
    - intros p [X|[]] Y. congruence. }
  pose proof (fixed_loop_spec (length todo) m chips e 0 t t todo [e] EX IE INV (Nat.le_refl _)) as SP.
  destruct (fixed_loop (length todo) m t todo [e]) as [t1|x]; cbn [bind].
  2:{ destruct SP as [SP|[-> [p [X [_ Y]]]]]; [right; left; exact SP | right; right; right; eauto]. }
  destruct SP as [k [routed [[F1 F2 F3 F4 F5 F6 F7 F8 F9] FN]]].
  destruct (g e) as [n|] eqn:G.
  2:{ right; right; left. auto. }
  assert (CR : forall p, In p chips <-> In p routed) by (intros p; rewrite F1; cbn; tauto).
  pose proof (add_fixed_spec t1 e [] [n]) as SP. destruct (add_fixed t1 e [] [n]) as [t2|x].
  2:{ destruct SP as [-> SP]. right; right; right. split; [reflexivity|]. exists e. split; [exact IE|].
      apply F8 in SP. destruct SP as [SP|[_ SP]]; [exact SP | congruence]. }
  destruct SP as [S1 [S2 [S3 [S4 S5]]]]. split; [|split; [|split]].
  - split; [exact IE|]. split; [|split].
    + intros p Hp. destruct (xy_dec p e) as [->|D].
      * destruct (dget xy_eqb t e) as [x|] eqn:E; [|reflexivity]. apply F7 in E. congruence.
      * apply F9; [apply CR; exact Hp | exact D].
    + intros p Hp. apply CR in Hp. destruct (F6 p Hp) as [n' [_ [X Y]]]. exists n'. split; [exact (fhops_grows _ _ _ _ _ _ _ S2 X) | exact Y].
    + exists n. split; [exact G | exact S3].
  - exact (grows_trans _ _ _ F7 S2).
  - intros p. destruct (xy_dec p e) as [->|D].
    + rewrite S3. split; [intros _; right; exact IE | intros _; discriminate].
    + rewrite (S4 p D), F8, CR. tauto.
  - auto.
Qed.

Lemma build_spec : forall m g boards t, (forall b, In b boards -> NoDup (snd b) /\ forall p, In p (snd b) -> is_chip m p = true) ->
  match foldM (route_board m g) t boards with
  | Ok t' =>
      grows t t' /\ (NoDup (map fst t) -> NoDup (map fst t')) /\
      (forall p, dget xy_eqb t' p <> None <-> dget xy_eqb t p <> None \/ exists b, In b boards /\ In p (snd b)) /\
      (forall b, In b boards -> In (fst b) (snd b) /\
         (forall p, In p (snd b) -> exists n, fhops m (snd b) t' (fst b) n p /\ forall l, to_eth m (snd b) (fst b) p l -> n <= length l) /\
         (exists n, g (fst b) = Some n /\ dget xy_eqb t' (fst b) = Some (mkRE (route_of [] [n]) false)))
  | Err x =>
      (x = KeyError /\ exists b, In b boards /\ ~ In (fst b) (snd b)) \/
      (x = RoutingException /\ exists b p, In b boards /\ In p (snd b) /\ forall l, ~ to_eth m (snd b) (fst b) p l) \/
      (x = ConfigurationException /\ exists b, In b boards /\ g (fst b) = None) \/
      (x = AlreadyExists /\ exists pre b post p, boards = pre ++ b :: post /\ In p (snd b) /\
         (dget xy_eqb t p <> None \/ exists b', In b' pre /\ In p (snd b')))
  end.
Proof.
  induction boards as [|b boards IH]; intros t H; cbn [foldM].
  - split; [apply grows_refl|]. split; [auto|]. split; [|intros b []]. intros p. split; [auto|]. intros [X|[b [[] _]]]. exact X.
  - destruct (H b (or_introl eq_refl)) as [ND EX]. pose proof (route_board_spec m g t b ND EX) as SP.
    destruct (route_board m g t b) as [t1|x]; cbn [bind].
    2:{ destruct SP as [[-> A]|[[-> [p A]]|[[-> A]|[-> [p [A B]]]]]].
        - left. split; [reflexivity|]. exists b. split; [left; reflexivity | exact A].
        - right; left. split; [reflexivity|]. exists b, p. split; [left; reflexivity | exact A].
        - right; right; left. split; [reflexivity|]. exists b. split; [left; reflexivity | exact A].
        - right; right; right. split; [reflexivity|]. exists [], b, boards, p. split; [reflexivity|]. auto. }
    destruct SP as [SB [SG [SK SN]]].
    assert (H' : forall b, In b boards -> NoDup (snd b) /\ forall p, In p (snd b) -> is_chip m p = true) by (intros b' X; apply H; right; exact X).
    specialize (IH t1 H'). destruct (foldM (route_board m g) t1 boards) as [t'|x].
    + destruct IH as [I1 [I2 [I3 I4]]]. split; [exact (grows_trans _ _ _ SG I1)|]. split; [auto|]. split.
      * intros p. rewrite I3, SK. split.
        -- intros [[X|X]|[b' [X Y]]]; [left; exact X | right; exists b; split; [left; reflexivity | exact X] | right; exists b'; split; [right; exact X | exact Y]].
        -- intros [X|[b' [[<-|X] Y]]]; [auto | auto | right; eauto].
      * intros b' [<-|X]; [|exact (I4 b' X)]. destruct b as [e chips]. cbn [fst snd] in *. destruct SB as [B1 [_ [B3 [n [B4 B5]]]]].
        split; [exact B1|]. split.
        -- intros p Hp. destruct (B3 p Hp) as [k [X Y]]. exists k. split; [exact (fhops_grows _ _ _ _ _ _ _ I1 X) | exact Y].
        -- exists n. split; [exact B4 | exact (I1 _ _ B5)].
    + destruct IH as [[-> [b' [A1 A2]]]|[[-> [b' [p [A1 A2]]]]|[[-> [b' [A1 A2]]]|[-> [pre [b' [post [p [-> [A1 A2]]]]]]]]]].
      * left. split; [reflexivity|]. exists b'. split; [right; exact A1 | exact A2].
      * right; left. split; [reflexivity|]. exists b', p. split; [right; exact A1 | exact A2].
      * right; right; left. split; [reflexivity|]. exists b'. split; [right; exact A1 | exact A2].
      * right; right; right. split; [reflexivity|]. exists (b :: pre), b', post, p. split; [reflexivity|]. split; [exact A1|].
        destruct A2 as [A2|[b2 [A2 A3]]].
        -- apply SK in A2. destruct A2 as [A2|A2]; [left; exact A2 | right; exists b; split; [left; reflexivity | exact A2]].
        -- right. exists b2. split; [right; exact A2 | exact A3].
Qed.
