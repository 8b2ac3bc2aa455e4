(** Which port a reverse IP tag request without one is given. *)
From Coq Require Import List ZArith NArith Arith Bool Lia.
From Verif Require Import Base Dict TreeModel TagsModel TagsProofs.
Import ListNotations.
Local Open Scope nat_scope.

(** The reverse requests with the Ethernet chips of their placements, in order. *)
Definition rev_reqs (pls : list tplace) : list (nat * revreq) :=
  flat_map (fun pl => map (pair (tp_eth pl)) (tp_rev pl)) pls.
Definition auto_on (c : nat) (x : nat * revreq) : bool :=
  Nat.eqb (fst x) c && match rq_port (snd x) with None => true | Some _ => false end.
Definition n_auto (c : nat) (l : list (nat * revreq)) : nat := length (filter (auto_on c) l).
Definition names (c : nat) (l : list (nat * revreq)) (p : N) : Prop := exists r, In (c, r) l /\ rq_port r = Some p.

Definition port_at (i : nat) : N := (17896 + N.of_nat i)%N.

Record pinv (m : tmachine) (st : astate) (acc : list tagcall) (l : list (nat * revreq)) : Prop := mkPInv {
  pv_avail : forall c, avail board_ports (a_ports st) c = map port_at (seq 0 (104 - n_auto c l));
  pv_used : forall c p, In c (tm_eths m) -> port_used (tm_addr m c) p acc ->
    names c l p \/ (p < 18000 <= p + N.of_nat (n_auto c l))%N }.

Lemma pinv_start : forall m, pinv m (mkA [] [] no_tags) [] [].
Proof.
  intro m. constructor.
  - intro c. reflexivity.
  - intros c p _ (t & v & [] & _).
Qed.

Lemma last_ports : forall n, 0 < n -> last (map port_at (seq 0 n)) 0%N = port_at (n - 1) /\
  removelast (map port_at (seq 0 n)) = map port_at (seq 0 (n - 1)).
Proof.
  intros n L. destruct n as [|n]; [lia|]. rewrite seq_S, map_app. cbn [map Nat.add].
  rewrite last_last, List.removelast_last. replace (S n - 1) with n by lia. auto.
Qed.

Lemma n_auto_snoc : forall c l x, n_auto c (l ++ [x]) = n_auto c l + (if auto_on c x then 1 else 0).
Proof. intros. unfold n_auto. rewrite filter_app, app_length. cbn [filter]. destruct (auto_on c x); reflexivity. Qed.

Lemma names_snoc : forall c l x p, names c l p -> names c (l ++ [x]) p.
Proof. intros c l x p (r & I & E). exists r. split; [apply in_app_iff; auto|exact E]. Qed.

Lemma rev_pinv : forall m pl st acc r l st', NoDup (map (tm_addr m) (tm_eths m)) -> In (tp_eth pl) (tm_eths m) -> ainv m st acc ->
  pinv m st acc l -> alloc_rev m pl st r = Ok st' ->
  exists call, ainv m st' (acc ++ [call]) /\ pinv m st' (acc ++ [call]) (l ++ [(tp_eth pl, r)]).
Proof.
  intros m pl st acc r l st' ND He I [P1 P2] E.
  pose proof (alloc_rev_spec m pl st acc r ND He I) as A. rewrite E in A.
  destruct A as (t & p & call & _ & _ & _ & PO & _ & EC & A). exists call. split; [exact A|].
  unfold alloc_rev in E. destruct (get_chip_and_tag _ _ _ _) as [((ch, tg), free')|x]; cbn [bind] in E; [|discriminate].
  destruct (get_port (a_ports st) (rq_port r) (tp_eth pl)) as [(port, ports')|x] eqn:GP; cbn [bind] in E; [|discriminate].
  destruct (add_reverse_ip_tag _ _ _) as [tg'|x]; cbn [bind] in E; [|discriminate]. injection E as <-.
  unfold port_of in PO. unfold get_port in GP.
  assert (AU : forall c, auto_on c (tp_eth pl, r) = Nat.eqb (tp_eth pl) c && match rq_port r with None => true | Some _ => false end)
    by reflexivity.
  assert (NEW : forall c q, In c (tm_eths m) -> port_used (tm_addr m c) q (acc ++ [call]) ->
            port_used (tm_addr m c) q acc \/ (c = tp_eth pl /\ q = p)).
  { intros c q Hc (t' & v' & H1 & H2 & H3). apply in_app_iff in H1. destruct H1 as [H1|[H1|[]]].
    - left. exists t', v'. auto.
    - right. rewrite EC in H1. injection H1 as <- <-. cbn [rt_board rt_port] in H2, H3. injection H3 as <-.
      split; [|reflexivity]. symmetry. apply (addr_inj m); auto. }
  constructor; cbn [a_ports].
  - intro c. rewrite n_auto_snoc, AU. destruct (rq_port r) as [q|].
    + injection GP as <- <-. rewrite andb_false_r, Nat.add_0_r. apply P1.
    + rewrite andb_true_r. rewrite (P1 (tp_eth pl)) in GP.
      destruct (104 - n_auto (tp_eth pl) l) as [|n] eqn:K; [discriminate|].
      destruct (last_ports (S n)) as (L1 & L2); [lia|].
      destruct (map port_at (seq 0 (S n))) as [|q0 qs] eqn:EM; [discriminate|].
      injection GP as <- <-. rewrite avail_dset. destruct (Nat.eqb_spec (tp_eth pl) c) as [<-|NE].
      * change (match qs with [] => [] | _ :: _ => q0 :: removelast qs end) with (removelast (q0 :: qs)).
        rewrite L2. f_equal. f_equal. lia.
      * rewrite Nat.add_0_r. apply P1.
  - intros c q Hc H. rewrite n_auto_snoc. destruct (NEW c q Hc H) as [H1|(-> & ->)].
    + destruct (P2 c q Hc H1) as [X|X]; [left; now apply names_snoc|right; lia].
    + destruct (rq_port r) as [q|] eqn:RP.
      * left. exists r. subst p. split; [apply in_app_iff; right; now left|exact RP].
      * right. rewrite AU, Nat.eqb_refl. cbn [andb]. rewrite PO, (P1 (tp_eth pl)).
        rewrite (P1 (tp_eth pl)) in GP. destruct (104 - n_auto (tp_eth pl) l) as [|n] eqn:K; [discriminate|].
        destruct (last_ports (S n)) as (L1 & _); [lia|]. rewrite L1. unfold port_at. lia.
Qed.

Lemma ip_pinv : forall m pl st acc r l st', NoDup (map (tm_addr m) (tm_eths m)) -> In (tp_eth pl) (tm_eths m) -> ainv m st acc ->
  pinv m st acc l -> alloc_ip m pl st r = Ok st' ->
  exists call, ainv m st' (acc ++ [call]) /\ pinv m st' (acc ++ [call]) l.
Proof.
  intros m pl st acc r l st' ND He I [P1 P2] E.
  pose proof (alloc_ip_spec m pl st acc r ND He I) as A. rewrite E in A.
  destruct A as (c & t & call & _ & _ & _ & _ & EC & A). exists call. split; [exact A|].
  unfold alloc_ip in E. destruct (get_chip_and_tag _ _ _ _) as [((ch, tg), free')|x]; cbn [bind] in E; [|discriminate].
  destruct (add_ip_tag _ _ _) as [tg'|x]; cbn [bind] in E; [|discriminate]. injection E as <-.
  constructor; [exact P1|]. intros c' q Hc (t' & v' & H1 & H2). apply (P2 c' q Hc).
  apply in_app_iff in H1. destruct H1 as [H1|[H1|[]]]; [exists t', v'; auto|]. rewrite EC in H1. discriminate.
Qed.

Lemma ips_pinv : forall m pl, NoDup (map (tm_addr m) (tm_eths m)) -> In (tp_eth pl) (tm_eths m) ->
  forall reqs st acc l st', ainv m st acc -> pinv m st acc l -> foldM (alloc_ip m pl) st reqs = Ok st' ->
  exists calls, ainv m st' (acc ++ calls) /\ pinv m st' (acc ++ calls) l.
Proof.
  intros m pl ND He. induction reqs as [|r reqs IH]; intros st acc l st' I P E; cbn [foldM] in E.
  - injection E as <-. exists []. rewrite app_nil_r. auto.
  - destruct (alloc_ip m pl st r) as [st1|x] eqn:E1; cbn [bind] in E; [|discriminate].
    destruct (ip_pinv m pl st acc r l st1 ND He I P E1) as (call & I1 & P1).
    destruct (IH st1 _ l st' I1 P1 E) as (calls & I2 & P2). exists (call :: calls).
    rewrite <- app_assoc in I2, P2. auto.
Qed.

Lemma revs_pinv : forall m pl, NoDup (map (tm_addr m) (tm_eths m)) -> In (tp_eth pl) (tm_eths m) ->
  forall reqs st acc l st', ainv m st acc -> pinv m st acc l -> foldM (alloc_rev m pl) st reqs = Ok st' ->
  exists calls, ainv m st' (acc ++ calls) /\ pinv m st' (acc ++ calls) (l ++ map (pair (tp_eth pl)) reqs).
Proof.
  intros m pl ND He. induction reqs as [|r reqs IH]; intros st acc l st' I P E; cbn [foldM map] in *.
  - injection E as <-. exists []. rewrite !app_nil_r. auto.
  - destruct (alloc_rev m pl st r) as [st1|x] eqn:E1; cbn [bind] in E; [|discriminate].
    destruct (rev_pinv m pl st acc r l st1 ND He I P E1) as (call & I1 & P1).
    destruct (IH st1 _ _ st' I1 P1 E) as (calls & I2 & P2). exists (call :: calls).
    rewrite <- app_assoc in I2. rewrite <- (app_assoc acc), <- (app_assoc l) in P2. auto.
Qed.

Lemma places_pinv : forall m, NoDup (map (tm_addr m) (tm_eths m)) ->
  forall pls st acc l st', (forall pl, In pl pls -> In (tp_eth pl) (tm_eths m)) ->
  ainv m st acc -> pinv m st acc l -> foldM (alloc_place m) st pls = Ok st' ->
  exists calls, ainv m st' (acc ++ calls) /\ pinv m st' (acc ++ calls) (l ++ rev_reqs pls).
Proof.
  intros m ND. induction pls as [|pl pls IH]; intros st acc l st' He I P E; cbn [foldM] in E.
  - injection E as <-. exists []. cbn [rev_reqs flat_map]. rewrite !app_nil_r. auto.
  - unfold alloc_place at 1 in E.
    destruct (foldM (alloc_ip m pl) st (tp_ip pl)) as [st1|x] eqn:E1; cbn [bind] in E; [|discriminate].
    destruct (ips_pinv m pl ND (He pl (or_introl eq_refl)) _ st acc l st1 I P E1) as (c1 & I1 & P1).
    destruct (foldM (alloc_rev m pl) st1 (tp_rev pl)) as [st2|x] eqn:E2; cbn [bind] in E; [|discriminate].
    destruct (revs_pinv m pl ND (He pl (or_introl eq_refl)) _ st1 _ l st2 I1 P1 E2) as (c2 & I2 & P2).
    destruct (IH st2 _ _ st' (fun p Hp => He p (or_intror Hp)) I2 P2 E) as (c3 & I3 & P3).
    exists (c1 ++ c2 ++ c3). cbn [rev_reqs flat_map]. fold (rev_reqs pls).
    rewrite <- !app_assoc in I3. rewrite <- (app_assoc l), <- !app_assoc in P3. auto.
Qed.

(** One more placement with one reverse request without a port. *)
Lemma next_auto : forall m pls pl s r, sound_machine m (pls ++ [pl]) -> basic_tag_allocator m pls = Ok s ->
  tp_ip pl = [] -> tp_rev pl = [r] -> rq_port r = None ->
  let p := (17999 - N.of_nat (n_auto (tp_eth pl) (rev_reqs pls)))%N in
  ((exists s', basic_tag_allocator m (pls ++ [pl]) = Ok s') <->
   (exists t, want_ok (rq_tag r) t /\ open_tag m (given s pls) (tp_eth pl) t) /\
   ~ In (tm_addr m (tp_eth pl), p) (ports_given s pls)) /\
  (forall s', basic_tag_allocator m (pls ++ [pl]) = Ok s' -> exists x, revs s' pl = [x] /\ rt_port x = Some p) /\
  (In (tm_addr m (tp_eth pl), p) (ports_given s pls) -> names (tp_eth pl) (rev_reqs pls) p).
Proof.
  intros m pls pl s r HS E R1 R2 Rp. cbn zeta. destruct (sound_front m pls pl HS) as [HS0 He].
  destruct (allocator_run m pls s HS0 E) as (st & cs & Est & <- & F & I & G1 & G2). rewrite G1, G2.
  destruct (places_pinv m (proj1 HS0) pls _ [] [] st (proj1 (proj2 HS0)) (ainv_start m) (pinv_start m) Est)
    as (calls & I' & [P1 P2']). cbn [app] in *.
  assert (K : n_auto (tp_eth pl) (rev_reqs pls) <= 7).
  { pose proof (n_rev_le m st (concat cs) (tm_addr m (tp_eth pl)) I) as L.
    pose proof (i_ports _ _ _ I (tp_eth pl) He) as L2. rewrite (P1 (tp_eth pl)), map_length, seq_length in L2. lia. }
  assert (PU : forall c p, In c (tm_eths m) -> port_used (tm_addr m c) p (concat cs) ->
                 names c (rev_reqs pls) p \/ (p < 18000 <= p + N.of_nat (n_auto c (rev_reqs pls)))%N).
  { intros c p Hc U. apply (P2' c p Hc). pose proof (i_holds _ _ _ I) as H1. pose proof (i_holds _ _ _ I') as H2.
    apply (proj1 (h_ports _ _ H2 _ _)). apply (proj2 (h_ports _ _ H1 _ _)). exact U. }
  assert (PO : port_of st pl r = (17999 - N.of_nat (n_auto (tp_eth pl) (rev_reqs pls)))%N).
  { unfold port_of. rewrite Rp, (P1 (tp_eth pl)).
    destruct (last_ports (104 - n_auto (tp_eth pl) (rev_reqs pls))) as (L & _); [lia|]. rewrite L. unfold port_at. lia. }
  rewrite basic_snoc, Est. cbn [bind]. unfold alloc_place. rewrite R1, R2. cbn [foldM bind].
  pose proof (alloc_rev_spec m pl st (concat cs) r (proj1 HS) He I) as A.
  rewrite in_rev_ports. fold (port_used (tm_addr m (tp_eth pl)) (17999 - N.of_nat (n_auto (tp_eth pl) (rev_reqs pls)))%N (concat cs)).
  rewrite <- PO. split; [|split].
  - destruct (alloc_rev m pl st r) as [st'|e]; cbn [bind].
    + destruct A as (t & q & call & A1 & A2 & A3 & A4 & A5 & _). subst q. split; [intros _; eauto|eauto].
    + split; [intros (s' & C); discriminate|]. intros ((t & W & O) & NP). exfalso.
      destruct A as [[_ A]|[_ [A|A]]].
      * exact (A _ _ He W O).
      * exact (A t W O).
      * tauto.
  - intros s' X. destruct (alloc_rev m pl st r) as [st'|e]; cbn [bind] in X; [|discriminate]. injection X as <-.
    destruct A as (t & q & call & A1 & A2 & A3 & A4 & A5 & A6 & A7). rewrite (ainv_revs _ _ _ _ A7), revs_of_app.
    assert (N : revs_of (tp_vertex pl) (concat cs) = []).
    { apply ips_of_none. intros c' Hin C. pose proof (places_caller m pls cs c' F Hin) as P. rewrite C in P.
      destruct HS as (_ & _ & ND). rewrite map_app in ND. apply NoDup_remove_2 in ND. rewrite app_nil_r in ND. tauto. }
    rewrite N, A6. cbn. rewrite Nat.eqb_refl. cbn. eexists. split; [reflexivity|]. cbn [rt_port]. congruence.
  - intro U. destruct (PU (tp_eth pl) _ He U) as [X|X]; [exact X|]. rewrite PO in X. lia.
Qed.

(** There are never many automatic ports on a board. *)
Lemma few_auto : forall m pls s, sound_machine m pls -> basic_tag_allocator m pls = Ok s ->
  forall c, In c (tm_eths m) -> n_auto c (rev_reqs pls) <= 7.
Proof.
  intros m pls s HS E c Hc. destruct (allocator_run m pls s HS E) as (st & cs & Est & <- & F & I & G1 & G2).
  destruct (places_pinv m (proj1 HS) pls _ [] [] st (proj1 (proj2 HS)) (ainv_start m) (pinv_start m) Est)
    as (calls & I' & [P1 _]). cbn [app] in *.
  pose proof (n_rev_le m st (concat cs) (tm_addr m c) I) as L.
  pose proof (i_ports _ _ _ I c Hc) as L2. rewrite (P1 c), map_length, seq_length in L2. lia.
Qed.
