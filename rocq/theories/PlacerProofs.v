(** Proofs about the placer. *)
From Coq Require Import List Arith ZArith QArith Bool Lia Permutation.
From Verif Require Import Base Dict SdramModel SdramProofs SdramBelow PlacementsModel PlacementsProofs PlacerModel.
Import ListNotations.
Local Open Scope nat_scope.

(** * Results *)
Definition wp {A} (r : res A) (P : A -> Prop) (E : exn -> Prop) : Prop :=
  match r with Ok a => P a | Err e => E e end.

Lemma wp_bind : forall A B (r : res A) (f : A -> res B) P E,
  wp r (fun a => wp (f a) P E) E -> wp (bind r f) P E.
Proof. intros A B [a|e] f P E H; exact H. Qed.

Lemma wp_mono : forall A (r : res A) (P Q : A -> Prop) E,
  wp r P E -> (forall a, P a -> Q a) -> wp r Q E.
Proof. intros A [a|e] P Q E H I; [apply I, H|exact H]. Qed.

Lemma wp_foldM : forall A S (f : S -> A -> res S) (I : S -> Prop) E l s,
  I s -> (forall s a, In a l -> I s -> wp (f s a) I E) -> wp (foldM f s l) I E.
Proof.
  intros A S f I E. induction l as [|a l IH]; intros s H F; [exact H|].
  cbn [foldM]. apply wp_bind. eapply wp_mono.
  - apply F; [left; reflexivity|exact H].
  - intros s' H'. apply IH; [exact H'|]. intros; apply F; [right|]; assumption.
Qed.

(** * Placements *)
Definition abs (p : placements) : list placement := map snd (ps_verts p).
Definition ok (p : placements) : Prop := exists cs, Rep p (abs p) cs.

Lemma rep_abs : forall p ps cs, Rep p ps cs -> ps = abs p.
Proof.
  intros p ps cs R. unfold abs. rewrite (r_verts _ _ _ R), map_map. cbn [snd]. now rewrite map_id.
Qed.

Lemma rep_ok : forall p ps cs, Rep p ps cs -> ok p.
Proof. intros p ps cs R. exists cs. now rewrite <- (rep_abs _ _ _ R). Qed.

Lemma on_chip_ok : forall p c p' l, ok p -> on_chip p c = (p', l) ->
  ok p' /\ abs p' = abs p /\ ps_verts p' = ps_verts p /\ l = filter (on c) (abs p).
Proof.
  intros p c p' l (cs & R) H. unfold on_chip in H. pose proof (rep_touch p (abs p) cs c R) as T.
  destruct (touch c p) as (q, d). destruct T as (R' & D & _ & V). injection H as <- <-.
  split; [eapply rep_ok; exact R'|]. split; [unfold abs; now rewrite V|]. split; [exact V|].
  rewrite D, map_map. cbn [snd]. now rewrite map_id.
Qed.

Definition occupied (l : list placement) (x y q : nat) : Prop :=
  exists pl, In pl l /\ pl_x pl = x /\ pl_y pl = y /\ pl_p pl = q.
Definition vplaced (l : list placement) (v : nat) : Prop := exists pl, In pl l /\ pl_v pl = v.

Lemma at_proc_occ : forall l x y q, existsb (at_proc x y q) l = true <-> occupied l x y q.
Proof.
  intros l x y q. rewrite existsb_exists. unfold at_proc, occupied. split; intros (pl & H & E); exists pl.
  - apply andb_prop in E. destruct E as (E & E3). apply andb_prop in E. destruct E as (E1 & E2).
    apply Nat.eqb_eq in E1, E2, E3. auto.
  - destruct E as (<- & <- & <-). now rewrite !Nat.eqb_refl.
Qed.

Lemma has_vertex_placed : forall l v, existsb (has_vertex v) l = true <-> vplaced l v.
Proof.
  intros l v. rewrite existsb_exists. unfold has_vertex, vplaced. split; intros (pl & H & E); exists pl.
  - apply Nat.eqb_eq in E. auto.
  - subst v. now rewrite Nat.eqb_refl.
Qed.

Lemma is_placed_iff : forall p v, ok p -> (is_placed p v = true <-> vplaced (abs p) v).
Proof.
  intros p v (cs & R). unfold is_placed, dmem. rewrite (r_verts _ _ _ R), dget_verts.
  rewrite <- has_vertex_placed, find_existsb. destruct (find (has_vertex v) (abs p)); reflexivity.
Qed.

(** Adding a placement. *)
Lemma add_wp : forall p pl (P : placements -> Prop) (E : exn -> Prop), ok p ->
  (~ occupied (abs p) (pl_x pl) (pl_y pl) (pl_p pl) -> ~ vplaced (abs p) (pl_v pl) ->
   forall p', ok p' -> abs p' = abs p ++ [pl] -> P p') ->
  (occupied (abs p) (pl_x pl) (pl_y pl) (pl_p pl) -> E ProcessorOccupied) ->
  (vplaced (abs p) (pl_v pl) -> E AlreadyPlaced) ->
  wp (lift_add (add_placement p pl)) P E.
Proof.
  intros p pl P E (cs & R) HP HO HV. pose proof (add_spec p (abs p) cs pl R) as S.
  destruct (add_placement p pl) as (p', r). unfold spec_add in S.
  destruct (existsb (at_proc (pl_x pl) (pl_y pl) (pl_p pl)) (abs p)) eqn:O.
  - destruct S as (_ & EQ & _). destruct r as [u|e]; [discriminate|]. injection EQ as ->.
    cbn. apply HO. now apply at_proc_occ.
  - destruct (existsb (has_vertex (pl_v pl)) (abs p)) eqn:V.
    + destruct S as (_ & EQ & _). destruct r as [u|e]; [discriminate|]. injection EQ as ->.
      cbn. apply HV. now apply has_vertex_placed.
    + destruct S as (R' & EQ & _). destruct r as [u|e]; [|discriminate]. cbn.
      apply HP.
      * intro X. apply at_proc_occ in X. congruence.
      * intro X. apply has_vertex_placed in X. congruence.
      * eapply rep_ok; exact R'.
      * symmetry. eapply rep_abs; exact R'.
Qed.

Definition triple (pl : placement) : nat * nat * nat := (pl_x pl, pl_y pl, pl_p pl).

Lemma occupied_triple : forall l x y q, occupied l x y q <-> In (x, y, q) (map triple l).
Proof.
  intros l x y q. rewrite in_map_iff. unfold occupied, triple. split; intros (pl & A); exists pl.
  - destruct A as (A & <- & <- & <-). auto.
  - destruct A as ([= <- <- <-] & A). auto.
Qed.

Lemma vplaced_map : forall l v, vplaced l v <-> In v (map pl_v l).
Proof. intros l v. rewrite in_map_iff. unfold vplaced. split; intros (pl & A & B); exists pl; auto. Qed.

Lemma lift_adds_cons : forall p pl l,
  lift_add (add_placements p (pl :: l)) =
  let* p' := lift_add (add_placement p pl) in lift_add (add_placements p' l).
Proof.
  intros p pl l. cbn [add_placements]. destruct (add_placement p pl) as (p', [u|e]); reflexivity.
Qed.

(** Adding placements on free processors for vertices not placed. *)
Lemma adds_wp : forall l p (P : placements -> Prop) (E : exn -> Prop), ok p ->
  (forall p', ok p' -> abs p' = abs p ++ l -> P p') ->
  (~ NoDup (map triple l) \/ (exists pl, In pl l /\ In (triple pl) (map triple (abs p))) -> E ProcessorOccupied) ->
  (~ NoDup (map pl_v l) \/ (exists pl, In pl l /\ In (pl_v pl) (map pl_v (abs p))) -> E AlreadyPlaced) ->
  wp (lift_add (add_placements p l)) P E.
Proof.
  induction l as [|pl l IH]; intros p P E O HP HO HV.
  - cbn. apply HP; [assumption|now rewrite app_nil_r].
  - rewrite lift_adds_cons. apply wp_bind. apply add_wp; [assumption|..].
    + intros NO NV p' O' A'. rewrite occupied_triple in NO. rewrite vplaced_map in NV.
      apply IH; [assumption|..].
      * intros p'' O'' A''. apply HP; [assumption|]. now rewrite A'', A', <- app_assoc.
      * intros [X|(q & Q1 & Q2)]; apply HO.
        -- left. intro D. apply X. now inversion D.
        -- rewrite A', map_app, in_app_iff in Q2. destruct Q2 as [Q2|[Q2|[]]].
           ++ right. exists q. split; [now right|assumption].
           ++ left. intro D. inversion D as [|? ? N D']; subst. apply N. rewrite Q2. now apply in_map.
      * intros [X|(q & Q1 & Q2)]; apply HV.
        -- left. intro D. apply X. now inversion D.
        -- rewrite A', map_app, in_app_iff in Q2. destruct Q2 as [Q2|[Q2|[]]].
           ++ right. exists q. split; [now right|assumption].
           ++ left. intro D. inversion D as [|? ? N D']; subst. apply N. rewrite Q2. now apply in_map.
    + intro X. apply occupied_triple in X. apply HO. right. exists pl. split; [now left|assumption].
    + intro X. apply vplaced_map in X. apply HV. right. exists pl. split; [now left|assumption].
Qed.

(** * Chips *)
Section Env.
Variable e : penv.

Definition mchip (c : chip) : Prop := m_chip (pe_machine e) (c_xy c) = Some c.

Definition wf_machine : Prop :=
  forall d c, m_chip (pe_machine e) d = Some c -> c_xy c = d /\ NoDup (c_procs c).

Lemma mchip_inj : forall c d, mchip c -> mchip d -> c_xy c = c_xy d -> c = d.
Proof. unfold mchip. intros c d A B E. rewrite E in A. congruence. Qed.

Lemma chip_mem_xy : forall c l, chip_mem c l = true <-> In (c_xy c) (map c_xy l).
Proof.
  intros c l. unfold chip_mem, same_chip. rewrite existsb_exists, in_map_iff.
  split; intros (d & A & B); exists d; rewrite ?xy_eqb_spec in *; auto.
Qed.

Lemma chip_mem_In : forall c l, mchip c -> Forall mchip l -> (chip_mem c l = true <-> In c l).
Proof.
  intros c l C L. rewrite chip_mem_xy, in_map_iff. split.
  - intros (d & E & I). rewrite Forall_forall in L. now rewrite (mchip_inj c d C (L d I) (eq_sym E)).
  - intro I. exists c. auto.
Qed.

Lemma chip_add_In : forall c l d, mchip c -> Forall mchip l -> (In d (chip_add c l) <-> d = c \/ In d l).
Proof.
  intros c l d C L. unfold chip_add. destruct (chip_mem c l) eqn:M.
  - apply chip_mem_In in M; [|assumption..]. split; [auto|intros [->|]; auto].
  - rewrite in_app_iff. cbn. split; [intros [|[->|[]]]|intros [->|]]; auto.
Qed.

Lemma chip_add_Forall : forall c l (P : chip -> Prop), P c -> Forall P l -> Forall P (chip_add c l).
Proof.
  intros c l P C L. unfold chip_add. destruct (chip_mem c l); [assumption|].
  apply Forall_app. split; [assumption|]. constructor; [assumption|constructor].
Qed.

Lemma chip_add_NoDup : forall c l, mchip c -> Forall mchip l -> NoDup l -> NoDup (chip_add c l).
Proof.
  intros c l C L N. unfold chip_add. destruct (chip_mem c l) eqn:M; [assumption|].
  apply NoDup_app_snoc; [assumption|]. intro I. apply chip_mem_In in I; [congruence|assumption..].
Qed.

Lemma chip_order_mchip : wf_machine -> Forall mchip (chip_order (pe_machine e)).
Proof.
  intro W. apply Forall_forall. intros c H. unfold chip_order in H. rewrite in_flat_map in H.
  destruct H as (x & _ & H). rewrite in_flat_map in H. destruct H as (y & _ & H).
  destruct (m_chip (pe_machine e) (x, y)) as [d|] eqn:M; [|destruct H].
  destruct H as [<-|[]]. unfold mchip. destruct (W _ _ M) as (-> & _). exact M.
Qed.

(** * Cores and SDRAM of a chip *)
Definition reqs (l : list placement) : list sdram := map (fun pl => pe_sdram e (pl_v pl)) l.
Definition reqs_on (l : list placement) (c : chip) : list sdram := reqs (filter (on (c_xy c)) l).
Definition used_on (l : list placement) (c : chip) : list nat := map pl_p (filter (on (c_xy c)) l).

Lemma reqs_on_app : forall l m c, reqs_on (l ++ m) c = reqs_on l c ++ reqs_on m c.
Proof. intros. unfold reqs_on, reqs. now rewrite filter_app, map_app. Qed.

(** The costs of the vertices, and costs put together from them. *)
Definition vertex_cost (s : sdram) : Prop := exists v, s = pe_sdram e v.
Definition coh : Prop := coherent (pe_steps e) vertex_cost.
Definition okq (q : sdram) : Prop := from (pe_steps e) vertex_cost q.

Lemma reqs_okq : coh -> forall l, Forall okq (reqs l).
Proof.
  intros C l. unfold reqs. apply Forall_forall. intros s I. apply in_map_iff in I. destruct I as (pl & <- & _).
  apply U_from; [exact C|]. exists (pl_v pl). reflexivity.
Qed.

(** The total of costs added up is at most so much. *)
Definition sum_le (l : list sdram) (z : Z) : Prop :=
  exists r x, sum l = Ok r /\ total (pe_steps e) r = Ok x /\ (x <= z)%Z.
Definition sum_gt (l : list sdram) (z : Z) : Prop :=
  exists r x, sum l = Ok r /\ total (pe_steps e) r = Ok x /\ (z < x)%Z.

Lemma sum_le_gt : forall l z, sum_le l z -> sum_gt l z -> False.
Proof.
  intros l z (r & x & R & X & L) (r' & x' & R' & X' & L'). assert (r' = r) by congruence. subst r'.
  assert (x' = x) by congruence. lia.
Qed.

Lemma used_on_app : forall l m c, used_on (l ++ m) c = used_on l c ++ used_on m c.
Proof. intros. unfold used_on. now rewrite filter_app, map_app. Qed.

Lemma used_on_In : forall l c q, In q (used_on l c) <-> In (fst (c_xy c), snd (c_xy c), q) (map triple l).
Proof.
  intros l c q. unfold used_on. rewrite !in_map_iff. unfold triple. split.
  - intros (pl & <- & H). apply filter_In in H. destruct H as (H & O). apply xy_eqb_spec in O.
    exists pl. rewrite O. auto.
  - intros (pl & H & I). exists pl. injection H as A B C. split; [assumption|].
    apply filter_In. split; [assumption|]. apply xy_eqb_spec. destruct (c_xy c) as (x, y).
    cbn [fst snd] in *. congruence.
Qed.

Lemma remove_core_spec : forall q l, NoDup l ->
  wp (remove_core q l) (fun r => In q l /\ NoDup r /\ length l = S (length r) /\
                          forall z, In z r <-> In z l /\ z <> q) (fun x => x = ValueError /\ ~ In q l).
Proof.
  intros q. induction l as [|a l IH]; intro N; cbn [remove_core].
  - cbn. auto.
  - inversion N as [|? ? NI ND]; subst. destruct (Nat.eqb_spec a q) as [->|NE].
    + cbn. split; [auto|]. split; [assumption|]. split; [reflexivity|].
      intro z. split; [intro; split; [auto|intros ->; contradiction]|intros ([->|] & ?); [contradiction|assumption]].
    + apply wp_bind. specialize (IH ND). destruct (remove_core q l) as [r|x]; cbn in *.
      * destruct IH as (A & B & C & D). split; [auto|].
        split; [constructor; [|assumption]; rewrite D; tauto|]. split; [lia|].
        intro z. rewrite D. split; [intros [->|(? & ?)]; auto|intros ([->|] & ?); auto].
      * destruct IH as (-> & X). split; [reflexivity|]. tauto.
Qed.

Lemma take_core_spec : forall pls free used, NoDup free -> NoDup (map pl_p pls) ->
  wp (foldM (take_core e) (free, used) pls)
     (fun r => NoDup (fst r) /\ (forall z, In z (fst r) <-> In z free /\ ~ In z (map pl_p pls)) /\
               length free = length (fst r) + length pls /\
               foldM add used (reqs pls) = Ok (snd r))
     (fun x => (x = ValueError /\ exists pl, In pl pls /\ ~ In (pl_p pl) free) \/
               (x = ConfigurationException /\ exists y, foldM add used (reqs pls) = Err y)).
Proof.
  induction pls as [|pl pls IH]; intros free used N M.
  - cbn [foldM wp fst snd map reqs length]. split; [assumption|].
    split; [intro; cbn; tauto|]. split; [lia|reflexivity].
  - cbn [map] in M. inversion M as [|? ? NI ND]; subst. cbn [foldM]. apply wp_bind. unfold take_core at 1.
    apply wp_bind. cbn [fst snd]. pose proof (remove_core_spec (pl_p pl) free N) as R.
    destruct (remove_core (pl_p pl) free) as [f|x]; cbn [wp] in *.
    + destruct R as (R1 & R2 & R3 & R4). apply wp_bind. cbn [reqs map foldM]. fold (reqs pls).
      destruct (add used (pe_sdram e (pl_v pl))) as [u|x] eqn:AD; cbn [wp bind].
      2:{ right. apply add_Err in AD. split; [exact AD|eauto]. }
      specialize (IH f u R2 ND).
      destruct (foldM (take_core e) (f, u) pls) as [(f', u')|x]; cbn [wp fst snd] in *.
      * destruct IH as (A & B & C & D). split; [assumption|]. split.
        { intro z. rewrite B, R4. cbn [map In]. split; [intros ((? & ?) & ?); split; auto; intros [|]; auto|].
          intros (? & X). split; [split; auto|]; intro; apply X; auto. }
        split; [cbn [length]; lia|]. exact D.
      * destruct IH as [(-> & q & Q1 & Q2)|IH]; [|right; exact IH].
        left. split; [reflexivity|]. exists q. split; [now right|].
        intro X. apply Q2. apply R4. split; [assumption|]. intro Y. apply NI. rewrite <- Y. now apply in_map.
    + destruct R as (-> & R). left. split; [reflexivity|]. exists pl. split; [now left|assumption].
Qed.

(** * The state between two chips *)
Record NInv (s : st) : Prop := mkNInv {
  ni_ok : ok (s_pls s);
  ni_full : Forall mchip (s_full s);
  ni_prep : Forall mchip (s_prep s);
  ni_rest : Forall mchip (s_rest s);
  ni_tried : Forall mchip (s_tried s);
  ni_chips : Forall mchip (s_chips s);
  ni_same : Forall mchip (s_same s);
  ni_other : Forall mchip (s_other s);
  ni_cur : forall c, s_cur s = Some c -> mchip c;
  ni_bs : Forall (fun c => c_eth c = s_eth s) (s_same s);
  ni_bo : Forall (fun c => c_eth c <> s_eth s) (s_other s);
  ni_nds : NoDup (s_same s);
  ni_ndo : NoDup (s_other s);
  ni_dis : forall c, In c (s_same s ++ s_other s) -> ~ In c (s_prep s) }.

Definition links_ok : Prop :=
  forall c d, mchip c -> In d (c_links c) -> exists t, m_chip (pe_machine e) d = Some t.
Definition placable (l : list placement) : Prop :=
  forall pl c, In pl l -> mchip c -> c_xy c = (pl_x pl, pl_y pl) -> In (pl_p pl) (c_procs c).

(** A chip that counts as full, and one with room for a group. *)
Definition is_full (l : list placement) (c : chip) : Prop :=
  length (used_on l c) = length (c_procs c) \/ sum_gt (reqs_on l c) (cap_sdram e).
Definition room (l : list placement) (c : chip) (n : nat) (q : sdram) : Prop :=
  length (used_on l c) + n <= length (c_procs c) /\
  sum_le (reqs_on l c) (cap_sdram e) /\ sum_le (reqs_on l c ++ [q]) (c_sdram c).
Definition fits (n : nat) (q : sdram) : Prop :=
  (exists x, total (pe_steps e) q = Ok x /\ (x <= max_sdram e)%Z) /\ (Z.of_nat n <= max_cores e)%Z.

Lemma full_no_room : forall l c n q, is_full l c -> 0 < n -> ~ room l c n q.
Proof.
  intros l c n q [F|F] P (R1 & R2 & R3); [lia|]. exact (sum_le_gt _ _ R2 F).
Qed.

(** * Neighbours *)
Definition nframe (s s' : st) : Prop :=
  s_pls s' = s_pls s /\ s_chips s' = s_chips s /\ s_full s' = s_full s /\ s_prep s' = s_prep s /\
  s_rest s' = s_rest s /\ s_tried s' = s_tried s /\ s_cur s' = s_cur s /\ s_free s' = s_free s /\
  s_used s' = s_used s /\ s_eth s' = s_eth s.

Lemma nframe_refl : forall s, nframe s s.
Proof. intro s. unfold nframe. tauto. Qed.

Lemma add_neighbour_wp : wf_machine -> forall s d, NInv s ->
  wp (add_neighbour e s d)
     (fun s' => NInv s' /\ nframe s s' /\
        forall t, In t (s_same s' ++ s_other s') -> In t (s_same s ++ s_other s) \/ c_xy t = d)
     (fun x => x = KeyError /\ m_chip (pe_machine e) d = None).
Proof.
  intros W s d N. unfold add_neighbour. destruct (m_chip (pe_machine e) d) as [t|] eqn:M; [|cbn; auto].
  assert (T : mchip t) by (unfold mchip; destruct (W _ _ M) as (-> & _); exact M).
  assert (TX : c_xy t = d) by apply (W _ _ M).
  destruct (chip_mem t (s_full s)) eqn:MF; cbn [orb].
  { cbn. split; [assumption|]. split; [apply nframe_refl|auto]. }
  destruct (chip_mem t (s_prep s)) eqn:MP.
  { cbn. split; [assumption|]. split; [apply nframe_refl|auto]. }
  assert (NP : ~ In t (s_prep s)).
  { intro I. apply (chip_mem_In t _ T (ni_prep s N)) in I. congruence. }
  destruct (xy_eqb (c_eth t) (s_eth s)) eqn:B.
  - apply xy_eqb_spec in B. cbn [wp].
    split; [|split; [unfold nframe; cbn; tauto|]].
    + destruct N as [n1 n2 n3 n4 n5 n6 n7 n8 n9 n10 n11 n12 n13 n14].
      constructor; cbn [set_neighbours s_pls s_full s_prep s_rest s_tried s_chips s_same s_other s_cur s_eth]; auto.
      * now apply chip_add_Forall.
      * now apply chip_add_Forall.
      * now apply chip_add_NoDup.
      * intros c I. apply in_app_iff in I. destruct I as [I|I].
        -- apply chip_add_In in I; [|assumption..]. destruct I as [->|I]; [assumption|].
           apply n14, in_app_iff. auto.
        -- apply n14, in_app_iff. auto.
    + cbn [set_neighbours s_same s_other]. intros c I. apply in_app_iff in I. destruct I as [I|I].
      * apply chip_add_In in I; [|assumption|apply N]. destruct I as [->|I]; [auto|].
        left. apply in_app_iff. auto.
      * left. apply in_app_iff. auto.
  - assert (B' : c_eth t <> s_eth s) by (intro X; apply xy_eqb_spec in X; congruence). cbn [wp].
    split; [|split; [unfold nframe; cbn; tauto|]].
    + destruct N as [n1 n2 n3 n4 n5 n6 n7 n8 n9 n10 n11 n12 n13 n14].
      constructor; cbn [set_neighbours s_pls s_full s_prep s_rest s_tried s_chips s_same s_other s_cur s_eth]; auto.
      * now apply chip_add_Forall.
      * now apply chip_add_Forall.
      * now apply chip_add_NoDup.
      * intros c I. apply in_app_iff in I. destruct I as [I|I].
        -- apply n14, in_app_iff. auto.
        -- apply chip_add_In in I; [|assumption..]. destruct I as [->|I]; [assumption|].
           apply n14, in_app_iff. auto.
    + cbn [set_neighbours s_same s_other]. intros c I. apply in_app_iff in I. destruct I as [I|I].
      * left. apply in_app_iff. auto.
      * apply chip_add_In in I; [|assumption|apply N]. destruct I as [->|I]; [auto|].
        left. apply in_app_iff. auto.
Qed.

Lemma nframe_trans : forall a b c, nframe a b -> nframe b c -> nframe a c.
Proof.
  unfold nframe. intros a b c (A1 & A2 & A3 & A4 & A5 & A6 & A7 & A8 & A9 & A10)
    (B1 & B2 & B3 & B4 & B5 & B6 & B7 & B8 & B9 & B10).
  repeat split; congruence.
Qed.

Lemma add_neighbours_wp : wf_machine -> forall s c, NInv s -> mchip c ->
  wp (add_neighbours e s c)
     (fun s' => NInv s' /\ nframe s s' /\
        forall t, In t (s_same s' ++ s_other s') -> In t (s_same s ++ s_other s) \/ In (c_xy t) (c_links c))
     (fun x => ~ links_ok).
Proof.
  intros W s c N C. unfold add_neighbours.
  apply wp_foldM with (I := fun s' => NInv s' /\ nframe s s' /\
        forall t, In t (s_same s' ++ s_other s') -> In t (s_same s ++ s_other s) \/ In (c_xy t) (c_links c)).
  - split; [assumption|]. split; [apply nframe_refl|auto].
  - intros s1 d D (N1 & F1 & M1). pose proof (add_neighbour_wp W s1 d N1) as H.
    destruct (add_neighbour e s1 d) as [s2|x]; cbn [wp] in *.
    + destruct H as (N2 & F2 & M2). split; [assumption|]. split; [eapply nframe_trans; eassumption|].
      intros t T. destruct (M2 t T) as [T'|T']; [auto|]. right. rewrite T'. assumption.
    + destruct H as (_ & H). intro L. destruct (L c d C D) as (t & T). congruence.
Qed.

(** * A chip is tried *)
Definition frame (s s' : st) : Prop :=
  abs (s_pls s') = abs (s_pls s) /\ s_chips s' = s_chips s /\ s_rest s' = s_rest s /\
  s_tried s' = s_tried s /\ s_eth s' = s_eth s.

Definition refused (s : st) (c : chip) (n : nat) (q : sdram) (s' : st) : Prop :=
  s_cur s' = s_cur s /\ s_free s' = s_free s /\ s_used s' = s_used s /\
  s_same s' = s_same s /\ s_other s' = s_other s /\
  (forall d, In d (s_full s) -> In d (s_full s')) /\
  (forall d, In d (s_full s') -> In d (s_full s) \/ (d = c /\ is_full (abs (s_pls s)) c)) /\
  (forall d, In d (s_prep s) -> In d (s_prep s')) /\
  (forall d, In d (s_prep s') -> In d (s_prep s) \/ d = c) /\
  (0 < n -> ~ room (abs (s_pls s)) c n q).

Definition accepted (s : st) (c : chip) (n : nat) (q : sdram) (s' : st) : Prop :=
  s_full s' = s_full s /\
  (forall d, In d (s_prep s') <-> d = c \/ In d (s_prep s)) /\
  s_cur s' = Some c /\ NoDup (s_free s') /\
  (forall z, In z (s_free s') <-> In z (c_procs c) /\ ~ In z (used_on (abs (s_pls s)) c)) /\
  n <= length (s_free s') /\
  sum (reqs_on (abs (s_pls s)) c ++ [q]) = Ok (s_used s') /\
  (exists x, total (pe_steps e) (s_used s') = Ok x /\ (x <= c_sdram c)%Z) /\
  (forall t, In t (s_same s' ++ s_other s') -> In t (s_same s ++ s_other s) \/ In (c_xy t) (c_links c)).

Lemma used_on_NoDup : forall p c, ok p -> NoDup (used_on (abs p) c).
Proof.
  intros p c (cs & R). pose proof (r_p _ _ _ R) as N. unfold used_on.
  revert N. generalize (abs p). induction l as [|pl l IH]; intro N; cbn [filter map] in *; [constructor|].
  inversion N as [|? ? NI ND]; subst. destruct (on (c_xy c) pl) eqn:O; [|auto].
  cbn [map]. constructor; [|auto]. intro I. apply in_map_iff in I. destruct I as (q & Q & I).
  apply filter_In in I. destruct I as (I & O'). apply xy_eqb_spec in O, O'.
  apply NI. apply in_map_iff. exists q. split; [|assumption]. congruence.
Qed.

Lemma space_on_chip_wp : wf_machine -> forall s c n q, NInv s -> mchip c ->
  ~ In c (s_same s ++ s_other s) ->
  wp (space_on_chip e s c n q)
     (fun r => NInv (fst r) /\ frame s (fst r) /\
        if snd r then accepted s c n q (fst r) else refused s c n q (fst r))
     (fun x => links_ok -> placable (abs (s_pls s)) ->
        (x = ConfigurationException /\ ~ (coh /\ okq q)) \/ (x = TooBig /\ ~ fits n q)).
Proof.
  intros W s c n q N C D. unfold space_on_chip.
  destruct (on_chip (s_pls s) (c_xy c)) as (p', pls) eqn:OC.
  destruct (on_chip_ok _ _ _ _ (ni_ok s N) OC) as (O' & A' & V' & ->). clear OC.
  assert (N0 : NInv (set_pls s p')).
  { destruct N as [n1 n2 n3 n4 n5 n6 n7 n8 n9 n10 n11 n12 n13 n14].
    constructor; cbn [set_pls s_pls s_full s_prep s_rest s_tried s_chips s_same s_other s_cur s_eth]; auto. }
  assert (FULL : NInv (set_full (set_pls s p') (chip_add c (s_full s)))).
  { destruct N0 as [n1 n2 n3 n4 n5 n6 n7 n8 n9 n10 n11 n12 n13 n14].
    constructor; cbn [set_full set_pls s_pls s_full s_prep s_rest s_tried s_chips s_same s_other s_cur s_eth] in *; auto.
    now apply chip_add_Forall. }
  assert (ISF : is_full (abs (s_pls s)) c -> refused s c n q (set_full (set_pls s p') (chip_add c (s_full s)))).
  { intro F. unfold refused. cbn [set_full set_pls s_cur s_free s_used s_same s_other s_full s_prep].
    repeat (split; [reflexivity|]). split.
    { intros d I. apply chip_add_In; [assumption|apply N|auto]. }
    split.
    { intros d I. apply chip_add_In in I; [|assumption|apply N]. destruct I as [->|I]; auto. }
    split; [auto|]. split; [auto|].
    intro P. now apply full_no_room. }
  cbn [set_pls s_pls s_full].
  destruct (Nat.eqb_spec (length (filter (on (c_xy c)) (abs (s_pls s)))) (length (c_procs c))) as [EL|NL].
  { cbn [wp fst snd]. split; [assumption|]. split; [unfold frame; cbn; auto|].
    apply ISF. left. unfold used_on. now rewrite map_length. }
  apply wp_bind.
  assert (NP : NoDup (c_procs c)) by apply (W _ _ C).
  pose proof (take_core_spec (filter (on (c_xy c)) (abs (s_pls s))) (c_procs c) (Const 0) NP
    (used_on_NoDup _ _ (ni_ok s N))) as T.
  change (foldM add (Const 0) (reqs (filter (on (c_xy c)) (abs (s_pls s))))) with (sum (reqs_on (abs (s_pls s)) c)) in T.
  destruct (foldM (take_core e) (c_procs c, Const 0) (filter (on (c_xy c)) (abs (s_pls s)))) as [(free, used)|x];
    cbn [wp fst snd] in T |- *.
  2:{ intros _ PL. destruct T as [(-> & pl & I & NI)|(-> & y & Y)].
      - exfalso. apply NI. apply filter_In in I.
        destruct I as (I & O). apply xy_eqb_spec in O. now apply (PL pl c I C).
      - left. split; [reflexivity|]. intros (CO & _).
        destruct (sum_from_ok _ _ CO (reqs_on (abs (s_pls s)) c) (reqs_okq CO _)) as (r & R & _). congruence. }
  destruct T as (T1 & T2 & T3 & T4).
  apply wp_bind. destruct (total (pe_steps e) used) as [plan|x] eqn:TU; cbn [wp].
  2:{ intros _ _. left. split; [eapply total_Err; exact TU|]. intros (CO & _).
      destruct (sum_from_ok _ _ CO (reqs_on (abs (s_pls s)) c) (reqs_okq CO _)) as (r & R & [_ _ (z & Z)]). congruence. }
  destruct (Z.ltb (cap_sdram e) plan) eqn:CAP.
  { cbn [wp fst snd]. split; [assumption|]. split; [unfold frame; cbn; auto|].
    apply ISF. right. apply Z.ltb_lt in CAP. exists used, plan. auto. }
  assert (N1 : NInv (set_prep (set_pls s p') (chip_add c (s_prep s)))).
  { destruct N0 as [n1 n2 n3 n4 n5 n6 n7 n8 n9 n10 n11 n12 n13 n14].
    constructor; cbn [set_prep set_pls s_pls s_full s_prep s_rest s_tried s_chips s_same s_other s_cur s_eth] in *; auto.
    - now apply chip_add_Forall.
    - intros d I J. apply chip_add_In in J; [|assumption..]. destruct J as [->|J]; [contradiction|].
      now apply (n14 d). }
  cbn [set_pls set_prep s_prep].
  apply wp_bind. pose proof (sum_snoc (reqs_on (abs (s_pls s)) c) q) as SN. rewrite T4 in SN. cbn [bind] in SN.
  destruct (add used q) as [both|x] eqn:AD; cbn [wp].
  2:{ intros _ _. left. split; [eapply add_Err; exact AD|]. intros (CO & Q).
      destruct (sum_from_ok _ _ CO (reqs_on (abs (s_pls s)) c ++ [q])) as (r & R & _); [|congruence].
      apply Forall_app. split; [apply (reqs_okq CO)|]. constructor; [exact Q|constructor]. }
  apply wp_bind. destruct (total (pe_steps e) both) as [plan2|x] eqn:TB; cbn [wp].
  2:{ intros _ _. left. split; [eapply total_Err; exact TB|]. intros (CO & Q).
      destruct (sum_from_ok _ _ CO (reqs_on (abs (s_pls s)) c ++ [q])) as (r & R & [_ _ (z & Z)]); [|congruence].
      apply Forall_app. split; [apply (reqs_okq CO)|]. constructor; [exact Q|constructor]. }
  destruct (Nat.ltb (length free) n || Z.ltb (c_sdram c) plan2) eqn:SM.
  - apply wp_bind. unfold check_could_fit. apply wp_bind.
    destruct (total (pe_steps e) q) as [plan3|x] eqn:TQ; cbn [wp].
    2:{ intros _ _. left. split; [eapply total_Err; exact TQ|]. intros (_ & [_ _ (z & Z)]). congruence. }
    destruct (Z.leb plan3 (max_sdram e) && Z.leb (Z.of_nat n) (max_cores e)) eqn:FIT; cbn [wp].
    + cbn [fst snd]. split; [exact N1|]. split; [unfold frame; cbn; auto|].
      unfold refused. cbn [set_prep set_pls s_cur s_free s_used s_same s_other s_full s_prep].
      repeat (split; [reflexivity|]). split; [auto|]. split; [auto|].
      split; [intros d I; apply chip_add_In; [assumption|apply N|auto]|].
      split; [intros d I; apply chip_add_In in I; [|assumption|apply N]; tauto|].
      intros _ (R1 & R2 & R3). apply orb_prop in SM. destruct SM as [SM|SM].
      * apply Nat.ltb_lt in SM. unfold used_on in R1. rewrite map_length in R1. lia.
      * apply Z.ltb_lt in SM. apply (sum_le_gt _ _ R3). exists both, plan2. auto.
    + intros _ _. right. split; [reflexivity|]. intros ((x & F1 & F1') & F2). assert (x = plan3) by congruence. subst x.
      apply Z.leb_le in F1', F2. rewrite F1', F2 in FIT. discriminate.
  - apply orb_false_elim in SM. destruct SM as (S1 & S2). apply Nat.ltb_ge in S1. apply Z.ltb_ge in S2.
    apply wp_bind.
    assert (N2 : NInv (set_current (set_prep (set_pls s p') (chip_add c (s_prep s))) (Some c) free both)).
    { destruct N1 as [n1 n2 n3 n4 n5 n6 n7 n8 n9 n10 n11 n12 n13 n14].
      constructor; cbn [set_current set_prep set_pls s_pls s_full s_prep s_rest s_tried s_chips s_same s_other s_cur s_eth] in *; auto.
      intros d [= <-]. assumption. }
    pose proof (add_neighbours_wp W _ c N2 C) as H.
    cbn [set_current set_prep set_pls s_pls s_chips s_full s_prep s_rest s_tried s_cur s_free s_used s_eth s_same s_other] in *.
    match goal with |- wp ?r _ _ => match type of H with wp ?r' _ _ => change r with r' end end.
    destruct (add_neighbours e _ c) as [s'|x]; cbn [wp fst snd] in *.
    2:{ intro L. contradiction. }
    destruct H as (N' & (F1 & F2 & F3 & F4 & F5 & F6 & F7 & F8 & F9 & F10) & M).
    cbn [set_current set_prep set_pls s_pls s_chips s_full s_prep s_rest s_tried s_cur s_free s_used s_eth s_same s_other] in *.
    split; [assumption|]. split; [unfold frame; rewrite F1, F2, F5, F6, F10; auto|].
    unfold accepted. rewrite F3, F4, F7, F8, F9. split; [reflexivity|].
    split; [intro d; apply chip_add_In; [assumption|apply N]|].
    split; [reflexivity|]. split; [assumption|].
    split; [intro z; rewrite T2; reflexivity|].
    split; [lia|]. split; [exact SN|]. split; [exists plan2; auto|]. exact M.
Qed.

(** * Start chips *)
Lemma pop_until_Some : forall full l c r, pop_until full l = Some (c, r) ->
  exists pre, l = pre ++ c :: r /\ Forall (fun d => chip_mem d full = true) pre /\ chip_mem c full = false.
Proof.
  intros full. induction l as [|d l IH]; intros c r H; [discriminate|]. cbn [pop_until] in H.
  destruct (chip_mem d full) eqn:M.
  - destruct (IH c r H) as (pre & -> & F & X). exists (d :: pre). split; [reflexivity|]. split; [constructor; assumption|assumption].
  - injection H as <- <-. exists []. split; [reflexivity|]. split; [constructor|assumption].
Qed.

Lemma pop_until_None : forall full l, pop_until full l = None -> Forall (fun d => chip_mem d full = true) l.
Proof.
  intros full. induction l as [|d l IH]; intro H; [constructor|]. cbn [pop_until] in H.
  destruct (chip_mem d full) eqn:M; [|discriminate]. constructor; [assumption|auto].
Qed.

Definition measure (s : st) : nat := length (s_rest s) + length (s_chips s).
Definition in_pool (s : st) (d : chip) : Prop :=
  In d (s_full s) \/ In d (s_rest s) \/ In d (s_tried s) \/ In d (s_chips s).

Lemma Forall_mem_full : forall s l d, NInv s -> Forall mchip l ->
  Forall (fun d => chip_mem d (s_full s) = true) l -> In d l -> In d (s_full s).
Proof.
  intros s l d N M F I. rewrite Forall_forall in F, M. apply chip_mem_In; auto. apply N.
Qed.

(** What a popped start leaves. *)
Definition starts_frame (s s' : st) : Prop :=
  s_pls s' = s_pls s /\ s_full s' = s_full s /\ s_prep s' = s_prep s /\ s_cur s' = s_cur s /\
  s_free s' = s_free s /\ s_used s' = s_used s /\ s_eth s' = s_eth s /\ s_same s' = s_same s /\
  s_other s' = s_other s /\ s_tried s' = s_tried s.

Lemma pop_start_wp : forall s, NInv s ->
  wp (pop_start s)
     (fun r => let '(s', c) := r in
        NInv s' /\ starts_frame s s' /\ mchip c /\ measure s' < measure s /\
        forall d, In d (s_rest s) \/ In d (s_chips s) ->
          In d (s_full s) \/ d = c \/ In d (s_rest s') \/ In d (s_chips s'))
     (fun x => x = NoSpace /\ forall d, In d (s_rest s) \/ In d (s_chips s) -> In d (s_full s)).
Proof.
  intros s N. unfold pop_start.
  destruct (pop_until (s_full s) (s_rest s)) as [(c, r)|] eqn:P.
  - apply pop_until_Some in P. destruct P as (pre & E & F & X). cbn [wp].
    pose proof (ni_rest s N) as NR. rewrite E in NR. apply Forall_app in NR. destruct NR as (NR1 & NR2).
    pose proof (Forall_inv NR2) as C. pose proof (Forall_inv_tail NR2) as NR3. cbn beta in C.
    split.
    { destruct N as [n1 n2 n3 n4 n5 n6 n7 n8 n9 n10 n11 n12 n13 n14].
      constructor; cbn [set_starts s_pls s_full s_prep s_rest s_tried s_chips s_same s_other s_cur s_eth]; auto. }
    split; [unfold starts_frame; cbn; tauto|]. split; [assumption|].
    split; [unfold measure; cbn [set_starts s_rest s_chips]; rewrite E, app_length; cbn [length]; lia|].
    cbn [set_starts s_rest s_chips]. intros d [D|D]; [|auto]. rewrite E, in_app_iff in D. destruct D as [D|[->|D]]; auto.
    left. apply (Forall_mem_full s pre); auto.
  - apply pop_until_None in P.
    assert (PR : forall d, In d (s_rest s) -> In d (s_full s)).
    { intros d D. apply (Forall_mem_full s (s_rest s)); auto. apply N. }
    destruct (pop_until (s_full s) (s_chips s)) as [(c, r)|] eqn:Q.
    + apply pop_until_Some in Q. destruct Q as (pre & E & F & X). cbn [wp].
      pose proof (ni_chips s N) as NR. rewrite E in NR. apply Forall_app in NR. destruct NR as (NR1 & NR2).
      pose proof (Forall_inv NR2) as C. pose proof (Forall_inv_tail NR2) as NR3. cbn beta in C.
      split.
      { destruct N as [n1 n2 n3 n4 n5 n6 n7 n8 n9 n10 n11 n12 n13 n14].
        constructor; cbn [set_starts s_pls s_full s_prep s_rest s_tried s_chips s_same s_other s_cur s_eth]; auto. }
      split; [unfold starts_frame; cbn; tauto|]. split; [assumption|].
      split; [unfold measure; cbn [set_starts s_rest s_chips length]; rewrite E, app_length; cbn [length]; lia|].
      cbn [set_starts s_rest s_chips]. intros d [D|D]; [auto|]. rewrite E, in_app_iff in D.
      destruct D as [D|[->|D]]; auto. left. apply (Forall_mem_full s pre); auto.
    + apply pop_until_None in Q. cbn [wp]. split; [reflexivity|]. intros d [D|D]; [auto|].
      apply (Forall_mem_full s (s_chips s)); auto. apply N.
Qed.

(** The current chip. *)
Definition current (A : list placement) (s : st) (c : chip) (n : nat) (q : sdram) : Prop :=
  s_cur s = Some c /\ mchip c /\ In c (s_prep s) /\ NoDup (s_free s) /\
  (forall z, In z (s_free s) <-> In z (c_procs c) /\ ~ In z (used_on A c)) /\
  n <= length (s_free s) /\
  sum (reqs_on A c ++ [q]) = Ok (s_used s) /\
  exists x, total (pe_steps e) (s_used s) = Ok x /\ (x <= c_sdram c)%Z.

Definition grown (A : list placement) (s s' : st) : Prop :=
  abs (s_pls s') = A /\
  (forall d, In d (s_full s) -> In d (s_full s')) /\
  (forall d, In d (s_full s') -> In d (s_full s) \/ is_full A d) /\
  (forall d, in_pool s d -> in_pool s' d).

Lemma grown_trans : forall A a b c, grown A a b -> grown A b c -> grown A a c.
Proof.
  intros A a b c (X1 & X2 & X3 & X4) (Y1 & Y2 & Y3 & Y4). split; [assumption|].
  split; [auto|]. split; [|auto]. intros d D. apply Y3 in D. destruct D; auto.
Qed.

Lemma start_loop_wp : wf_machine -> forall fuel s n q,
  NInv s -> s_same s = [] -> s_other s = [] -> measure s < fuel ->
  wp (start_loop fuel e s n q)
     (fun r => let '(s', c) := r in
        NInv s' /\ grown (abs (s_pls s)) s s' /\ measure s' < measure s /\
        current (abs (s_pls s)) s' c n q /\
        forall t, In t (s_same s' ++ s_other s') -> In (c_xy t) (c_links c))
     (fun x => links_ok -> placable (abs (s_pls s)) ->
        (x = ConfigurationException /\ ~ (coh /\ okq q)) \/ (x = TooBig /\ ~ fits n q) \/
        (x = NoSpace /\ (0 < n -> forall d, In d (s_rest s) \/ In d (s_chips s) ->
           In d (s_full s) \/ ~ room (abs (s_pls s)) d n q))).
Proof.
  intros W. induction fuel as [|k IH]; intros s n q N S0 O0 L; [lia|]. cbn [start_loop].
  apply wp_bind. pose proof (pop_start_wp s N) as P.
  destruct (pop_start s) as [(s1, c)|x]; cbn [wp] in P |- *.
  2:{ destruct P as (-> & P). intros _ _. right. right. split; [reflexivity|]. auto. }
  destruct P as (N1 & (F1 & F2 & F3 & F4 & F5 & F6 & F7 & F8 & F9 & F10) & C & M1 & PL).
  remember (set_neighbours (set_starts s1 (s_chips s1) (s_rest s1) (s_tried s1 ++ [c])) (c_eth c)
             (s_same (set_starts s1 (s_chips s1) (s_rest s1) (s_tried s1 ++ [c])))
             (s_other (set_starts s1 (s_chips s1) (s_rest s1) (s_tried s1 ++ [c])))) as s2 eqn:E2.
  assert (S2 : s_same s2 = [] /\ s_other s2 = []).
  { rewrite E2. cbn [set_neighbours set_starts s_same s_other]. now rewrite F8, F9. }
  destruct S2 as (S2 & O2).
  assert (N2 : NInv s2).
  { destruct N1 as [n1 n2 n3 n4 n5 n6 n7 n8 n9 n10 n11 n12 n13 n14].
    constructor; rewrite ?S2, ?O2; try rewrite E2; cbn [set_neighbours set_starts s_pls s_full s_prep s_rest s_tried s_chips s_same s_other s_cur s_eth]; auto;
      try (constructor; fail).
    - apply Forall_app. split; [assumption|]. constructor; [assumption|constructor]. }
  assert (EP : s_pls s2 = s_pls s) by (rewrite E2; cbn; congruence).
  assert (EF : s_full s2 = s_full s) by (rewrite E2; cbn; congruence).
  assert (EM : measure s2 = measure s1) by (rewrite E2; reflexivity).
  assert (POOL : forall d, in_pool s d -> in_pool s2 d).
  { intros d D. unfold in_pool in *. rewrite EF. rewrite E2. cbn [set_neighbours set_starts s_rest s_tried s_chips].
    rewrite in_app_iff, F10. cbn [In].
    destruct D as [D|[D|[D|D]]]; [auto| |auto|].
    - destruct (PL d (or_introl D)) as [X|[->|[X|X]]]; auto 9.
    - destruct (PL d (or_intror D)) as [X|[->|[X|X]]]; auto 9. }
  apply wp_bind.
  pose proof (space_on_chip_wp W s2 c n q N2 C) as SP. rewrite S2, O2 in SP. specialize (SP (fun x => x)).
  destruct (space_on_chip e s2 c n q) as [(s3, b)|x]; cbn [wp fst snd] in SP |- *.
  2:{ intros LO PA. rewrite EP in SP. destruct (SP LO PA); auto. }
  destruct SP as (N3 & (G1 & G2 & G3 & G4 & G5) & SP). rewrite EP in *.
  assert (M3 : measure s3 = measure s2) by (unfold measure; rewrite G2, G3; reflexivity).
  destruct b.
  - destruct SP as (A1 & A2 & A3 & A4 & A5 & A6 & A7 & A8 & A9). cbn [wp]. rewrite EP in *. split; [assumption|].
    split.
    { split; [assumption|]. split; [intros d D; rewrite A1, EF; assumption|].
      split; [intros d D; left; rewrite A1, EF in D; assumption|].
      intros d D. apply POOL in D. unfold in_pool in *. rewrite A1, G2, G3, G4. assumption. }
    split; [lia|]. split.
    { unfold current. split; [assumption|]. split; [assumption|]. split; [apply A2; auto|]. auto. }
    intros t T. destruct (A9 t T) as [X|X]; [|assumption]. rewrite S2, O2 in X. destruct X.
  - destruct SP as (R1 & R2 & R3 & R4 & R5 & R6 & R7 & R8 & R9 & R10). rewrite EP in *.
    assert (GR : grown (abs (s_pls s)) s s3).
    { split; [assumption|]. split; [intros d D; apply R6; rewrite EF; assumption|].
      split.
      - intros d D. apply R7 in D. rewrite EF in D. destruct D as [D|(-> & D)]; auto.
      - intros d D. apply POOL in D. unfold in_pool in *. rewrite G2, G3, G4.
        destruct D as [D|D]; [left; apply R6; assumption|auto]. }
    specialize (IH s3 n q N3). rewrite R4, R5, S2, O2 in IH. specialize (IH eq_refl eq_refl ltac:(lia)).
    rewrite G1 in IH.
    destruct (start_loop k e s3 n q) as [(s4, d4)|x]; cbn [wp] in *.
    + destruct IH as (I1 & I2 & I3 & I4 & I5). split; [assumption|].
      split; [eapply grown_trans; eassumption|]. split; [lia|]. auto.
    + intros LO PA. destruct (IH LO PA) as [X|[X|(-> & X)]]; [auto|auto|]. right. right. split; [reflexivity|].
      intros P d D. specialize (X P).
      assert (Q : In d (s_full s) \/ d = c \/ In d (s_rest s3) \/ In d (s_chips s3)).
      { rewrite G2, G3. rewrite E2. cbn [set_neighbours set_starts s_rest s_chips]. auto. }
      destruct Q as [Q|[->|Q]]; [auto|right; auto|].
      destruct (X d Q) as [Y|Y]; [|auto]. apply R7 in Y. rewrite EF in Y. destruct Y as [Y|(-> & Y)]; [auto|].
      right. now apply full_no_room.
Qed.

(** * Neighbouring chips *)
Definition others_frame (s s' : st) : Prop :=
  s_pls s' = s_pls s /\ s_full s' = s_full s /\ s_prep s' = s_prep s /\ s_cur s' = s_cur s /\
  s_free s' = s_free s /\ s_used s' = s_used s /\ s_rest s' = s_rest s /\ s_chips s' = s_chips s /\
  s_tried s' = s_tried s.
Definition near (s : st) : list chip := s_same s ++ s_other s.

Lemma filter_split_length : forall (A : Type) (f : A -> bool) l,
  length (filter f l) + length (filter (fun x => negb (f x)) l) = length l.
Proof. intros A f. induction l as [|x l IH]; [reflexivity|]. cbn [filter]. destruct (f x); cbn [negb length]; lia. Qed.

Lemma pop_neighbour_None : forall s s', pop_neighbour s = (s', None) -> s' = s /\ near s = [].
Proof.
  intros s s'. unfold pop_neighbour, near. destruct (s_same s); [|discriminate].
  destruct (s_other s); [|discriminate]. intros H. injection H as <-. auto.
Qed.

Lemma pop_neighbour_Some : forall s s' c, NInv s -> pop_neighbour s = (s', Some c) ->
  NInv s' /\ others_frame s s' /\ mchip c /\ In c (near s) /\ ~ In c (near s') /\
  (forall t, In t (near s') -> In t (near s)) /\ length (near s) = S (length (near s')).
Proof.
  intros s s' c N. unfold pop_neighbour, near. destruct (s_same s) as [|d r] eqn:ES.
  - destruct (s_other s) as [|d r] eqn:EO; [discriminate|]. intro H. injection H as <- <-.
    cbn [set_neighbours s_same s_other app].
    pose proof (ni_other s N) as MO. pose proof (ni_ndo s N) as ND. pose proof (ni_dis s N) as DI.
    rewrite EO in *. rewrite ES in DI. cbn [app] in DI. inversion ND as [|? ? NI ND2]; subst.
    pose proof (Forall_inv MO) as MD. pose proof (Forall_inv_tail MO) as MR.
    assert (IFF : forall t, In t (filter (fun d0 => xy_eqb (c_eth d0) (c_eth d)) r ++
                    filter (fun d0 => negb (xy_eqb (c_eth d0) (c_eth d))) r) -> In t r).
    { intros t T. apply in_app_iff in T. destruct T as [T|T]; apply filter_In in T; tauto. }
    split.
    { destruct N as [n1 n2 n3 n4 n5 n6 n7 n8 n9 n10 n11 n12 n13 n14].
      constructor; cbn [set_neighbours s_pls s_full s_prep s_rest s_tried s_chips s_same s_other s_cur s_eth]; auto.
      - rewrite Forall_forall in *. intros t T. apply MR. apply filter_In in T. tauto.
      - rewrite Forall_forall in *. intros t T. apply MR. apply filter_In in T. tauto.
      - rewrite Forall_forall. intros t T. apply filter_In in T. apply xy_eqb_spec. tauto.
      - rewrite Forall_forall. intros t T. apply filter_In in T. destruct T as (_ & T) . intro X.
        apply xy_eqb_spec in X. now rewrite X in T.
      - now apply NoDup_filter.
      - now apply NoDup_filter.
      - intros t T. apply DI. right. auto. }
    split; [unfold others_frame; cbn; tauto|]. split; [assumption|]. split; [left; reflexivity|].
    split; [intro X; apply NI; auto|]. split; [intros t T; right; auto|].
    rewrite app_length, filter_split_length. reflexivity.
  - intro H. injection H as <- <-. cbn [set_neighbours s_same s_other app].
    pose proof (ni_same s N) as MO. pose proof (ni_nds s N) as ND. pose proof (ni_dis s N) as DI.
    pose proof (ni_bs s N) as BS. pose proof (ni_bo s N) as BO.
    rewrite ES in *. cbn [app] in DI. inversion ND as [|? ? NI ND2]; subst.
    pose proof (Forall_inv MO) as MD. pose proof (Forall_inv_tail MO) as MR.
    split.
    { destruct N as [n1 n2 n3 n4 n5 n6 n7 n8 n9 n10 n11 n12 n13 n14].
      constructor; cbn [set_neighbours s_pls s_full s_prep s_rest s_tried s_chips s_same s_other s_cur s_eth]; auto.
      - now apply Forall_inv_tail in BS.
      - intros t T. apply DI. right. auto. }
    split; [unfold others_frame; cbn; tauto|]. split; [assumption|]. split; [left; reflexivity|].
    split.
    { rewrite in_app_iff. intros [X|X]; [auto|]. rewrite Forall_forall in BO. apply (BO d X). now apply Forall_inv in BS. }
    split; [intros t T; right; auto|]. reflexivity.
Qed.

Lemma neighbour_loop_wp : wf_machine -> forall fuel s n q,
  NInv s -> length (near s) < fuel ->
  wp (neighbour_loop fuel e s n q)
     (fun r => let '(s', o) := r in
        NInv s' /\ grown (abs (s_pls s)) s s' /\ measure s' = measure s /\
        (forall d, In d (s_prep s) -> In d (s_prep s')) /\
        match o with
        | None => True
        | Some c => current (abs (s_pls s)) s' c n q /\ In c (near s) /\
            forall t, In t (near s') -> In t (near s) \/ In (c_xy t) (c_links c)
        end)
     (fun x => links_ok -> placable (abs (s_pls s)) ->
        (x = ConfigurationException /\ ~ (coh /\ okq q)) \/ (x = TooBig /\ ~ fits n q)).
Proof.
  intros W. induction fuel as [|k IH]; intros s n q N L; [lia|]. cbn [neighbour_loop].
  destruct (pop_neighbour s) as (s1, [c|]) eqn:P.
  2:{ apply pop_neighbour_None in P. destruct P as (-> & P). cbn [wp]. split; [assumption|].
      split; [|auto]. split; [reflexivity|]. auto. }
  apply pop_neighbour_Some in P; [|assumption].
  destruct P as (N1 & (F1 & F2 & F3 & F4 & F5 & F6 & F7 & F8 & F9) & C & I & NI & SUB & LEN).
  apply wp_bind. pose proof (space_on_chip_wp W s1 c n q N1 C NI) as SP. rewrite F1 in SP.
  destruct (space_on_chip e s1 c n q) as [(s2, b)|x]; cbn [wp fst snd] in SP |- *; [|assumption].
  destruct SP as (N2 & (G1 & G2 & G3 & G4 & G5) & SP).
  assert (M2 : measure s2 = measure s) by (unfold measure; rewrite G2, G3, F7, F8; reflexivity).
  destruct b.
  - destruct SP as (A1 & A2 & A3 & A4 & A5 & A6 & A7 & A8 & A9). cbn [wp]. rewrite F1 in *. split; [assumption|].
    split.
    { split; [assumption|]. unfold in_pool. rewrite A1, G2, G3, G4, F2, F7, F8, F9. auto. }
    split; [assumption|]. split; [intros d D; apply A2; rewrite F3; auto|]. split.
    { unfold current. split; [assumption|]. split; [assumption|]. split; [apply A2; auto|]. auto. }
    split; [assumption|]. intros t T. destruct (A9 t T) as [X|X]; auto.
  - destruct SP as (R1 & R2 & R3 & R4 & R5 & R6 & R7 & R8 & R9 & R10). rewrite F1 in *.
    assert (GR : grown (abs (s_pls s)) s s2).
    { split; [assumption|]. split; [intros d D; apply R6; rewrite F2; assumption|].
      split.
      - intros d D. apply R7 in D. rewrite F2 in D. destruct D as [D|(-> & D)]; auto.
      - intros d D. unfold in_pool in *. rewrite G2, G3, G4, F7, F8, F9.
        destruct D as [D|D]; [left; apply R6; rewrite F2; assumption|auto]. }
    assert (NE : near s2 = near s1) by (unfold near; rewrite R4, R5; reflexivity).
    specialize (IH s2 n q N2). rewrite NE, G1 in IH. specialize (IH ltac:(lia)).
    destruct (neighbour_loop k e s2 n q) as [(s3, o)|x]; cbn [wp] in *; [|assumption].
    destruct IH as (I1 & I2 & I3 & I4 & I5). split; [assumption|].
    split; [eapply grown_trans; eassumption|]. split; [lia|].
    split; [intros d D; apply I4, R8; rewrite F3; assumption|].
    destruct o as [d|]; [|trivial]. destruct I5 as (J1 & J2 & J3). split; [assumption|].
    split; [auto|]. intros t T. destruct (J3 t T); auto.
Qed.

(** * Groups of vertices *)
Definition none_placed (l : list placement) (vs : list nat) : Prop := Forall (fun v => ~ vplaced l v) vs.
Definition all_placed (l : list placement) (vs : list nat) : Prop := Forall (vplaced l) vs.
Definition real (v : nat) : bool := negb (pe_virtual e v).

Lemma filter_vertices_wp : forall p vs, ok p ->
  wp (filter_vertices e p vs)
     (fun todo => (all_placed (abs p) vs /\ todo = []) \/ (none_placed (abs p) vs /\ todo = filter real vs))
     (fun x => x = NotImplemented /\ (exists v, In v vs /\ vplaced (abs p) v) /\
               exists v, In v vs /\ ~ vplaced (abs p) v).
Proof.
  intros p vs O. unfold filter_vertices.
  assert (B : forall v, negb (is_placed p v) = true <-> ~ vplaced (abs p) v).
  { intro v. pose proof (is_placed_iff p v O) as I. destruct (is_placed p v); cbn [negb].
    - split; [discriminate|]. intro X. exfalso. apply X, I. reflexivity.
    - split; [|reflexivity]. intros _ X. apply I in X. discriminate. }
  assert (B2 : forall v, negb (is_placed p v) = false <-> vplaced (abs p) v).
  { intro v. rewrite Bool.negb_false_iff. apply is_placed_iff, O. }
  remember (fun v => negb (is_placed p v)) as f eqn:Ef.
  assert (H : (forall v, f v = true <-> ~ vplaced (abs p) v) /\ (forall v, f v = false <-> vplaced (abs p) v))
    by (rewrite Ef; auto). clear B B2 Ef. destruct H as (B & B2).
  assert (K : (Forall (fun v => f v = true) vs /\ filter f vs = vs) \/
              (Forall (fun v => f v = false) vs /\ filter f vs = []) \/
              (length (filter f vs) < length vs /\ 0 < length (filter f vs) /\
               (exists v, In v vs /\ f v = false) /\ (exists v, In v vs /\ f v = true))).
  { induction vs as [|v vs IH]; cbn [filter]; [left; split; [constructor|reflexivity]|].
    destruct (f v) eqn:F.
    - destruct IH as [(I1 & I2)|[(I1 & I2)|(I1 & I2 & (w & W1 & W2) & (z & Z1 & Z2))]].
      + left. split; [constructor; assumption|congruence].
      + destruct vs as [|w vs]; [left; split; [constructor; [assumption|constructor]|cbn; reflexivity]|].
        right. right. rewrite I2. cbn [length]. split; [lia|]. split; [lia|].
        split; [exists w|exists v; split; [left; reflexivity|assumption]].
        split; [right; left; reflexivity|]. now apply Forall_inv in I1.
      + right. right. cbn [length]. split; [lia|]. split; [lia|].
        split; [exists w; split; [right|]; assumption|exists v; split; [left; reflexivity|assumption]].
    - destruct IH as [(I1 & I2)|[(I1 & I2)|(I1 & I2 & (w & W1 & W2) & (z & Z1 & Z2))]].
      + destruct vs as [|w vs]; [right; left; split; [constructor; [assumption|constructor]|reflexivity]|].
        right. right. rewrite I2. cbn [length]. split; [lia|]. split; [lia|].
        split; [exists v; split; [left; reflexivity|assumption]|].
        exists w. split; [right; left; reflexivity|]. now apply Forall_inv in I1.
      + right. left. split; [constructor; assumption|assumption].
      + right. right. cbn [length]. split; [lia|]. split; [lia|].
        split; [exists v; split; [left; reflexivity|assumption]|exists z; split; [right|]; assumption]. }
  destruct K as [(K1 & K2)|[(K1 & K2)|(K1 & K2 & (w & W1 & W2) & (z & Z1 & Z2))]].
  - rewrite K2, Nat.eqb_refl. cbn [negb andb wp]. right. split; [|reflexivity].
    eapply Forall_impl; [|exact K1]. intros v. apply B.
  - rewrite K2. cbn [length]. replace (Nat.ltb 0 0) with false by reflexivity.
    rewrite Bool.andb_false_r. cbn [wp filter]. left. split; [|reflexivity].
    eapply Forall_impl; [|exact K1]. intros v. apply B2.
  - destruct (Nat.eqb_spec (length (filter f vs)) (length vs)); [lia|].
    destruct (Nat.ltb_spec 0 (length (filter f vs))); [|lia]. cbn [negb andb wp].
    split; [reflexivity|]. split; [exists w|exists z]; split; auto; [now apply B2|now apply B].
Qed.

Lemma take_cores_wp : forall c vs free,
  wp (take_cores c free vs)
     (fun r => map pl_v (snd r) = vs /\ map pl_p (snd r) ++ fst r = free /\
               Forall (fun pl => (pl_x pl, pl_y pl) = c_xy c) (snd r))
     (fun x => x = IndexError /\ length free < length vs).
Proof.
  intros c. induction vs as [|v vs IH]; intro free.
  - destruct free; cbn; auto.
  - destruct free as [|q free]; [cbn; split; [reflexivity|lia]|].
    cbn [take_cores]. apply wp_bind. specialize (IH free). destruct (take_cores c free vs) as [(f, l)|x]; cbn [wp fst snd] in *.
    + destruct IH as (<- & <- & F). cbn [map app]. split; [reflexivity|]. split; [reflexivity|].
      constructor; [|assumption]. cbn [pl_x pl_y]. symmetry. apply surjective_pairing.
    + cbn [length]. destruct IH. split; [assumption|lia].
Qed.

(** What is asked for a group is at least what its vertices need. *)
Definition covered (g : list nat * sdram) : Prop :=
  okq (snd g) /\ below (pe_steps e) (map (pe_sdram e) (fst g)) (snd g).

Lemma reqs_vertices : forall l, reqs l = map (pe_sdram e) (map pl_v l).
Proof. intro l. unfold reqs. now rewrite map_map. Qed.

Lemma filter_on_same : forall c l, Forall (fun pl => (pl_x pl, pl_y pl) = c_xy c) l -> filter (on (c_xy c)) l = l.
Proof.
  intros c. induction l as [|pl l IH]; intro F; [reflexivity|]. cbn [filter].
  pose proof (Forall_inv F) as H. cbn beta in H. unfold on. rewrite H.
  replace (xy_eqb (c_xy c) (c_xy c)) with true by (symmetry; now apply xy_eqb_spec).
  f_equal. apply IH. now apply Forall_inv_tail in F.
Qed.

Lemma filter_on_other : forall c d l, c_xy c <> d -> Forall (fun pl => (pl_x pl, pl_y pl) = d) l ->
  filter (on (c_xy c)) l = [].
Proof.
  intros c d l NE. induction l as [|pl l IH]; intro F; [reflexivity|]. cbn [filter].
  pose proof (Forall_inv F) as H. cbn beta in H. unfold on. rewrite H.
  destruct (xy_eqb (c_xy c) d) eqn:E; [apply xy_eqb_spec in E; contradiction|].
  apply IH. now apply Forall_inv_tail in F.
Qed.

(** A chip is linked to the next. *)
Definition linked (a b : xy) : Prop := exists c, m_chip (pe_machine e) a = Some c /\ In b (c_links c).
Definition xy_of (pl : placement) : xy := (pl_x pl, pl_y pl).
Definition walked (l : list placement) : Prop := forall l1 pl l2, l = l1 ++ pl :: l2 ->
  l1 = [] \/ exists pl0, In pl0 l1 /\ (xy_of pl0 = xy_of pl \/ linked (xy_of pl0) (xy_of pl)).

(** While the placements of one application vertex are prepared. *)
Record PInv (SD : Prop) (A : list placement) (s : st) (made : list placement) : Prop := mkPInv {
  pi_n : NInv s;
  pi_A : abs (s_pls s) = A;
  pi_on : forall pl, In pl made -> exists c, mchip c /\ xy_of pl = c_xy c /\ In c (s_prep s) /\
            In (pl_p pl) (c_procs c) /\ ~ In (pl_p pl) (used_on A c) /\
            (SD -> sum_le (reqs_on A c ++ reqs_on made c) (c_sdram c));
  pi_nd : NoDup (map triple made);
  pi_cur : match s_cur s with
           | None => made = []
           | Some c => mchip c /\ In c (s_prep s) /\ NoDup (s_free s) /\
               (forall z, In z (s_free s) -> In z (c_procs c) /\ ~ In z (used_on A c) /\ ~ In z (used_on made c)) /\
               (SD -> okq (s_used s) /\ below (pe_steps e) (reqs_on A c ++ reqs_on made c) (s_used s) /\
                      exists x, total (pe_steps e) (s_used s) = Ok x /\ (x <= c_sdram c)%Z) /\
               (exists pl, In pl made /\ xy_of pl = c_xy c)
           end;
  pi_walk : walked made;
  pi_near : s_cur s <> None -> forall t, In t (near s) -> exists pl, In pl made /\ linked (xy_of pl) (c_xy t) }.

(** After a chip has been found. *)
Record ready (SD : Prop) (A : list placement) (s : st) (made : list placement) (c : chip) (n : nat) (q : sdram) : Prop := mkReady {
  rd_n : NInv s;
  rd_A : abs (s_pls s) = A;
  rd_on : forall pl, In pl made -> exists c, mchip c /\ xy_of pl = c_xy c /\ In c (s_prep s) /\
            In (pl_p pl) (c_procs c) /\ ~ In (pl_p pl) (used_on A c) /\
            (SD -> sum_le (reqs_on A c ++ reqs_on made c) (c_sdram c));
  rd_nd : NoDup (map triple made);
  rd_cur : s_cur s = Some c;
  rd_c : mchip c;
  rd_prep : In c (s_prep s);
  rd_fnd : NoDup (s_free s);
  rd_free : forall z, In z (s_free s) -> In z (c_procs c) /\ ~ In z (used_on A c) /\ ~ In z (used_on made c);
  rd_len : n <= length (s_free s);
  rd_sd : SD -> okq (s_used s) /\
            (forall l, below (pe_steps e) l q ->
               below (pe_steps e) (reqs_on A c ++ reqs_on made c ++ l) (s_used s)) /\
            exists x, total (pe_steps e) (s_used s) = Ok x /\ (x <= c_sdram c)%Z;
  rd_walk : walked made;
  rd_from : made = [] \/ exists pl, In pl made /\ (xy_of pl = c_xy c \/ linked (xy_of pl) (c_xy c));
  rd_near : forall t, In t (near s) -> (exists pl, In pl made /\ linked (xy_of pl) (c_xy t)) \/ In (c_xy t) (c_links c) }.

Lemma filter_none : forall (X : Type) (f : X -> bool) l, (forall x, In x l -> f x = false) -> filter f l = [].
Proof.
  intros X f. induction l as [|x l IH]; intro H; [reflexivity|]. cbn [filter].
  rewrite (H x (or_introl eq_refl)). apply IH. intros; apply H; right; assumption.
Qed.

Lemma no_use : forall SD A s made c, PInv SD A s made -> ~ In c (s_prep s) -> mchip c ->
  filter (on (c_xy c)) made = [].
Proof.
  intros SD A s made c P NI C. apply filter_none. intros pl I. destruct (on (c_xy c) pl) eqn:O; [|reflexivity].
  exfalso. apply xy_eqb_spec in O. destruct (pi_on _ _ _ _ P pl I) as (d & D1 & D2 & D3 & _).
  unfold xy_of in D2. assert (d = c) by (apply mchip_inj; congruence). subst d. contradiction.
Qed.

(** A cost added to those of a list. *)
Lemma snoc_below : coh -> forall l q r, Forall okq l -> okq q -> sum (l ++ [q]) = Ok r ->
  okq r /\ forall m, below (pe_steps e) m q -> below (pe_steps e) (l ++ m) r.
Proof.
  intros CO l q r F Q E. destruct (sum_from_ok _ _ CO l F) as (a & A1 & A2).
  rewrite sum_snoc, A1 in E. cbn [bind] in E.
  destruct (add_from _ _ CO a q A2 Q) as (r' & R1 & R2). assert (r' = r) by congruence. subst r'.
  split; [exact R2|]. intros m M. eapply below_add; [apply A2|apply Q|exact R1| |exact M].
  apply below_sum; [|exact A1]. eapply Forall_impl; [|exact F]. intros x X. apply X.
Qed.

Lemma below_sum_le : coh -> forall l m s z x, below (pe_steps e) (reqs l ++ reqs m) s -> okq s ->
  total (pe_steps e) s = Ok x -> (x <= z)%Z -> sum_le (reqs l ++ reqs m) z.
Proof.
  intros CO l m s z x B S X L.
  assert (F : Forall okq (reqs l ++ reqs m)) by (apply Forall_app; split; apply reqs_okq, CO).
  destruct (below_le _ _ CO _ s F S B) as (r & x1 & y & R1 & R2 & R3 & R4). exists r, x1.
  split; [exact R1|]. split; [exact R2|]. assert (y = x) by congruence. lia.
Qed.

Lemma current_ready : forall (SD : Prop) A s s' made c n q, (SD -> coh /\ okq q) -> PInv SD A s made -> NInv s' -> abs (s_pls s') = A ->
  current A s' c n q -> filter (on (c_xy c)) made = [] ->
  (forall d, In d (s_prep s) -> In d (s_prep s')) ->
  (made = [] \/ exists pl, In pl made /\ (xy_of pl = c_xy c \/ linked (xy_of pl) (c_xy c))) ->
  (forall t, In t (near s') -> (exists pl, In pl made /\ linked (xy_of pl) (c_xy t)) \/ In (c_xy t) (c_links c)) ->
  ready SD A s' made c n q.
Proof.
  intros SD A s s' made c n q SQ P N AB (C1 & C2 & C3 & C4 & C5 & C6 & C7 & C8) F PR FR NE.
  destruct P as [p1 p2 p3 p4 p5 p6 p7].
  constructor; auto.
  - intros pl I. destruct (p3 pl I) as (d & D1 & D2 & D3 & D4). exists d. auto.
  - intros z Z. apply C5 in Z. destruct Z as (Z1 & Z2). split; [assumption|]. split; [assumption|].
    unfold used_on. rewrite F. intros [].
  - intro S. destruct (SQ S) as (CO & Q). unfold reqs_on at 2. rewrite F. cbn [reqs map app].
    destruct (snoc_below CO (reqs_on A c) q (s_used s') (reqs_okq CO _) Q C7) as (Z1 & Z2). auto.
Qed.

Lemma next_chip_wp : wf_machine -> forall (SD : Prop) A s made n q, (SD -> coh /\ okq q) -> PInv SD A s made ->
  wp (next_chip e s n q)
     (fun r => let '(s', o) := r in
        NInv s' /\ grown A s s' /\
        (s_cur s = None -> measure s' < measure s) /\ (s_cur s <> None -> measure s' = measure s) /\
        match o with None => s_cur s <> None | Some c => ready SD A s' made c n q end)
     (fun x => links_ok -> placable A ->
        (x = ConfigurationException /\ ~ (coh /\ okq q /\ (s_cur s = None \/ SD))) \/
        (x = TooBig /\ ~ fits n q) \/
        (x = NoSpace /\ (s_cur s = None -> 0 < n -> forall d, In d (s_rest s) \/ In d (s_chips s) ->
           In d (s_full s) \/ ~ room A d n q))).
Proof.
  intros W SD A s made n q SQ P. unfold next_chip. pose proof (pi_cur _ _ _ _ P) as PC.
  pose proof (pi_n _ _ _ _ P) as N. pose proof (pi_A _ _ _ _ P) as EA.
  destruct (s_cur s) as [c|] eqn:CU.
  - destruct PC as (C & CP & FN & FF & SDc & FR).
    apply wp_bind. destruct (add q (s_used s)) as [both|x] eqn:AD; cbn [wp].
    2:{ intros _ _. left. split; [eapply add_Err; exact AD|]. intros (CO & Q & [X|S]); [discriminate|].
        destruct (SDc S) as (S1 & _). destruct (add_from _ _ CO q (s_used s) Q S1) as (r & R & _). congruence. }
    apply wp_bind. destruct (total (pe_steps e) both) as [plan|x] eqn:TB; cbn [wp].
    2:{ intros _ _. left. split; [eapply total_Err; exact TB|]. intros (CO & Q & [X|S]); [discriminate|].
        destruct (SDc S) as (S1 & _). destruct (add_from _ _ CO q (s_used s) Q S1) as (r & R & [_ _ (z & Z)]). congruence. }
    destruct (Nat.leb n (length (s_free s)) && Z.leb plan (c_sdram c)) eqn:B.
    + apply andb_prop in B. destruct B as (B1 & B2). apply Nat.leb_le in B1. apply Z.leb_le in B2. cbn [wp].
      assert (N2 : NInv (set_current s (Some c) (s_free s) both)).
      { destruct N as [n1 n2 n3 n4 n5 n6 n7 n8 n9 n10 n11 n12 n13 n14].
        constructor; cbn [set_current s_pls s_full s_prep s_rest s_tried s_chips s_same s_other s_cur s_eth]; auto.
        intros d [= <-]. assumption. }
      split; [assumption|]. split; [split; [exact EA|]; unfold in_pool; cbn; auto|].
      split; [discriminate|]. split; [reflexivity|].
      destruct P as [p1 p2 p3 p4 p5 p6 p7].
      constructor; unfold near in *; cbn [set_current s_pls s_full s_prep s_rest s_tried s_chips s_same s_other s_cur s_eth s_free s_used]; auto.
      * intro S. destruct (SQ S) as (CO & Q). destruct (SDc S) as (S1 & S2 & _).
        destruct (add_from _ _ CO q (s_used s) Q S1) as (r & R & RF). assert (r = both) by congruence. subst r.
        split; [exact RF|]. split; [|exists plan; auto]. intros l L. rewrite app_assoc.
        eapply below_add_rev; [apply S1|apply Q|exact AD|exact S2|exact L].
      * right. destruct FR as (pl & F1 & F2). exists pl. auto.
      * intros t T. left. apply p7; [congruence|assumption].
    + unfold get_next_neighbour.
      pose proof (neighbour_loop_wp W (S (length (s_same s) + length (s_other s))) s n q N) as L.
      specialize (L ltac:(unfold near; rewrite app_length; lia)). rewrite EA in L.
      destruct (neighbour_loop _ e s n q) as [(s', o)|x]; cbn [wp] in *.
      2:{ intros LO PA. destruct (L LO PA) as [(X1 & X2)|X]; [|auto]. left. split; [exact X1|]. tauto. }
      destruct L as (L1 & L2 & L3 & L4 & L5). split; [assumption|]. split; [assumption|].
      split; [discriminate|]. split; [auto|]. destruct o as [d|]; [|discriminate].
      destruct L5 as (L5 & L6 & L7). destruct L5 as (M1 & M2 & L5).
      assert (PN : forall t, In t (near s) -> exists pl, In pl made /\ linked (xy_of pl) (c_xy t)).
      { apply (pi_near _ _ _ _ P). congruence. }
      apply current_ready with (s := s); auto.
      * apply L2.
      * split; [assumption|]. split; [assumption|]. exact L5.
      * apply (no_use SD A s); auto. apply (ni_dis s N). exact L6.
      * right. destruct (PN d L6) as (pl & PL1 & PL2). exists pl. auto.
      * intros t T. destruct (L7 t T) as [X|X]; auto.
  - subst made. apply wp_bind. unfold get_next_start.
    assert (N2 : NInv (set_neighbours s (s_eth s) [] [])).
    { destruct N as [n1 n2 n3 n4 n5 n6 n7 n8 n9 n10 n11 n12 n13 n14].
      constructor; cbn [set_neighbours s_pls s_full s_prep s_rest s_tried s_chips s_same s_other s_cur s_eth]; auto; try constructor.
    }
    pose proof (start_loop_wp W (S (length (s_rest s) + length (s_chips s))) _ n q N2 eq_refl eq_refl) as L.
    specialize (L ltac:(unfold measure; cbn [set_neighbours s_rest s_chips]; lia)).
    cbn [set_neighbours s_pls] in L. rewrite EA in L.
    destruct (start_loop _ e _ n q) as [(s', c)|x]; cbn [wp] in *.
    + destruct L as (L1 & L2 & L3 & L4 & L5). split; [assumption|]. split; [exact L2|].
      split; [intros _; exact L3|]. split; [congruence|].
      destruct L4 as (C1 & C2 & C3 & C4 & C5 & C6 & C7 & C8).
      constructor; auto.
      * apply L2.
      * intros pl [].
      * constructor.
      * intros z Z. apply C5 in Z. destruct Z as (Z1 & Z2). split; [assumption|]. split; [assumption|]. intros [].
      * intro S. destruct (SQ S) as (CO & Q). change (reqs_on [] c) with (@nil sdram). cbn [app].
        destruct (snoc_below CO (reqs_on A c) q (s_used s') (reqs_okq CO _) Q C7) as (Z1 & Z2). auto.
      * intros l1 pl l2 X. destruct l1; discriminate.
    + intros LO PA. destruct (L LO PA) as [(X1 & X2)|[X|(-> & X)]]; [left; tauto|auto|].
      right. right. split; [reflexivity|]. auto.
Qed.

(** The placements of a group on the chip that was found. *)
Lemma walked_app : forall l m, walked l -> m <> [] ->
  (forall a b, In a m -> In b m -> xy_of a = xy_of b) ->
  (l = [] \/ exists pl, In pl l /\ forall b, In b m -> xy_of pl = xy_of b \/ linked (xy_of pl) (xy_of b)) ->
  walked (l ++ m).
Proof.
  intros l m W NE SAME FR l1 pl l2 E.
  destruct (Nat.lt_ge_cases (length l1) (length l)) as [L|L].
  - assert (X : exists l3, l = l1 ++ pl :: l3).
    { clear W NE SAME FR. revert l E L. induction l1 as [|a l1 IH]; intros l E L.
      - destruct l as [|b l]; [cbn in L; lia|]. cbn in E. injection E as -> E. exists l. reflexivity.
      - destruct l as [|b l]; [cbn in L; lia|]. cbn in E. injection E as -> E. cbn in L.
        destruct (IH l E ltac:(lia)) as (l3 & ->). exists l3. reflexivity. }
    destruct X as (l3 & ->). exact (W l1 pl l3 eq_refl).
  - assert (X : exists m1, l1 = l ++ m1 /\ m = m1 ++ pl :: l2).
    { clear W NE SAME FR. revert l1 E L. induction l as [|a l IH]; intros l1 E L.
      - exists l1. auto.
      - destruct l1 as [|b l1]; [cbn in L; lia|]. cbn in E. injection E as -> E. cbn in L.
        destruct (IH l1 E ltac:(lia)) as (m1 & -> & ->). exists m1. auto. }
    destruct X as (m1 & -> & ->).
    assert (IM : In pl (m1 ++ pl :: l2)) by (apply in_app_iff; right; left; reflexivity).
    destruct m1 as [|a m1].
    + rewrite app_nil_r. destruct FR as [->|(p0 & P0 & P1)]; [auto|]. right. exists p0.
      split; [assumption|]. apply P1. assumption.
    + right. exists a. split; [apply in_app_iff; right; left; reflexivity|]. left.
      apply SAME; [left; reflexivity|assumption].
Qed.

Lemma ready_step : forall (SD : Prop) A s made c n q vs free l, ready SD A s made c n q ->
  take_cores c (s_free s) vs = Ok (free, l) -> vs <> [] -> (SD -> coh /\ covered (vs, q)) ->
  PInv SD A (set_current s (s_cur s) free (s_used s)) (made ++ l).
Proof.
  intros SD A s made c n q vs free l R T NE SDL. pose proof (take_cores_wp c vs (s_free s)) as TC.
  rewrite T in TC. cbn [wp fst snd] in TC. destruct TC as (T1 & T2 & T3).
  destruct R as [rd_n0 rd_A0 rd_on0 rd_nd0 rd_cur0 rd_c0 rd_prep0 rd_fnd0 rd_free0 rd_len0 rd_sd0 rd_walk0 rd_from0 rd_near0].
  assert (LNE : l <> []) by (intros ->; apply NE; rewrite <- T1; reflexivity).
  assert (LX : forall pl, In pl l -> xy_of pl = c_xy c) by (rewrite Forall_forall in T3; exact T3).
  assert (FL : filter (on (c_xy c)) l = l) by (apply filter_on_same; exact T3).
  assert (LF : forall z, In z (map pl_p l) -> In z (s_free s)) by (intros z Z; rewrite <- T2; apply in_app_iff; auto).
  assert (FF : forall z, In z free -> In z (s_free s)) by (intros z Z; rewrite <- T2; apply in_app_iff; auto).
  assert (ND2 : NoDup (map pl_p l) /\ NoDup free /\ forall z, In z free -> ~ In z (map pl_p l)).
  { rewrite <- T2 in rd_fnd0. clear - rd_fnd0. induction (map pl_p l) as [|a m IH]; cbn [app] in *.
    - split; [constructor|]. split; [assumption|]. auto.
    - inversion rd_fnd0 as [|? ? NI ND]; subst. destruct (IH ND) as (I1 & I2 & I3).
      split; [constructor; [|assumption]; intro X; apply NI, in_app_iff; auto|]. split; [assumption|].
      intros z Z [->|X]; [apply NI, in_app_iff; auto|apply (I3 z Z X)]. }
  destruct ND2 as (ND1 & ND2 & ND3).
  assert (LOADC : SD -> below (pe_steps e) (reqs_on A c ++ reqs_on (made ++ l) c) (s_used s)).
  { intro S. destruct (rd_sd0 S) as (S1 & S2 & _). destruct (SDL S) as (_ & _ & SB). cbn [fst snd] in SB. rewrite reqs_on_app.
    unfold reqs_on at 3. rewrite FL, reqs_vertices, T1. apply S2, SB. }
  assert (LEC : SD -> sum_le (reqs_on A c ++ reqs_on (made ++ l) c) (c_sdram c)).
  { intro S. destruct (rd_sd0 S) as (S1 & _ & x & X1 & X2). destruct (SDL S) as (CO & _).
    eapply below_sum_le; [exact CO|apply LOADC, S|exact S1|exact X1|exact X2]. }
  constructor; unfold near in *;
    cbn [set_current s_pls s_full s_prep s_rest s_tried s_chips s_same s_other s_cur s_eth s_free s_used].
  - destruct rd_n0 as [n1 n2 n3 n4 n5 n6 n7 n8 n9 n10 n11 n12 n13 n14].
    constructor; cbn [set_current s_pls s_full s_prep s_rest s_tried s_chips s_same s_other s_cur s_eth]; auto.
  - assumption.
  - intros pl I. apply in_app_iff in I. destruct I as [I|I].
    + destruct (rd_on0 pl I) as (d & D1 & D2 & D3 & D4 & D5 & D6). exists d.
      split; [assumption|]. split; [assumption|]. split; [assumption|]. split; [assumption|]. split; [assumption|].
      intro S. destruct (xy_eqb (c_xy d) (c_xy c)) eqn:X.
      * apply xy_eqb_spec in X. assert (d = c) by (apply mchip_inj; assumption). subst d.
        apply LEC, S.
      * assert (c_xy d <> c_xy c) by (intro Y; apply xy_eqb_spec in Y; congruence).
        rewrite reqs_on_app. unfold reqs_on at 3. rewrite (filter_on_other d (c_xy c)); [|assumption|exact T3].
        cbn [reqs map]. rewrite app_nil_r. apply D6, S.
    + exists c. split; [assumption|]. split; [apply LX; assumption|]. split; [assumption|].
      destruct (rd_free0 (pl_p pl)) as (F1 & F2 & F3); [apply LF, in_map; assumption|].
      split; [assumption|]. split; [assumption|]. exact LEC.
  - rewrite map_app.
    assert (TR : forall m, NoDup m -> forall k, NoDup k -> (forall x, In x k -> ~ In x m) -> NoDup (m ++ k : list (nat * nat * nat))).
    { clear. induction m as [|a m IH]; intros M k K D; [assumption|]. inversion M as [|? ? MI MD]; subst. cbn [app].
      constructor; [|apply IH; auto; intros x X Y; apply (D x X); right; assumption].
      rewrite in_app_iff. intros [X|X]; [contradiction|]. apply (D a X). left. reflexivity. }
    apply TR; [assumption| |].
    + assert (Y : map triple l = map (fun p => (fst (c_xy c), snd (c_xy c), p)) (map pl_p l)).
      { rewrite map_map. apply map_ext_in. intros pl I. unfold triple. rewrite <- (LX pl I). reflexivity. }
      rewrite Y. apply FinFun.Injective_map_NoDup; [|assumption]. intros a b [= ->]. reflexivity.
    + intros x X Y. apply in_map_iff in X. destruct X as (pl & <- & X).
      destruct (rd_free0 (pl_p pl)) as (_ & _ & F3); [apply LF, in_map; assumption|].
      apply F3, used_on_In. rewrite <- (LX pl X). exact Y.
  - rewrite rd_cur0. split; [assumption|]. split; [assumption|]. split; [assumption|]. split.
    { intros z Z. destruct (rd_free0 z (FF z Z)) as (F1 & F2 & F3). split; [assumption|]. split; [assumption|].
      rewrite used_on_app, in_app_iff. intros [X|X]; [contradiction|]. unfold used_on in X. rewrite FL in X.
      apply (ND3 z Z X). }
    split.
    { intro S. destruct (rd_sd0 S) as (S1 & _ & S3). split; [exact S1|]. split; [apply LOADC, S|exact S3]. }
    destruct l as [|pl l']; [contradiction|]. exists pl. split; [apply in_app_iff; right; left; reflexivity|].
    apply LX. left. reflexivity.
  - apply walked_app; [assumption|assumption| |].
    + intros a b I1 I2. now rewrite (LX a I1), (LX b I2).
    + destruct rd_from0 as [->|(pl & P1 & P2)]; [auto|]. right. exists pl. split; [assumption|].
      intros b B. rewrite (LX b B). assumption.
  - intros _ t I. destruct (rd_near0 t I) as [(pl & P1 & P2)|X].
    + exists pl. split; [apply in_app_iff; auto|assumption].
    + destruct l as [|pl l']; [contradiction|]. exists pl. split; [apply in_app_iff; right; left; reflexivity|].
      exists c. rewrite (LX pl (or_introl eq_refl)). auto.
Qed.

(** * The placements of an application vertex *)
Definition pick (A : list placement) (vs : list nat) : list nat :=
  if existsb (fun v => existsb (has_vertex v) A) vs then [] else if existsb real vs then vs else [].
Definition unmixed (vs : list nat) : Prop :=
  (forall v, In v vs -> pe_virtual e v = true) \/ (forall v, In v vs -> pe_virtual e v = false).
Definition half_placed (A : list placement) (vs : list nat) : Prop :=
  (exists v, In v vs /\ vplaced A v) /\ exists v, In v vs /\ ~ vplaced A v.

Lemma pick_none : forall A vs, none_placed A vs -> pick A vs = if existsb real vs then vs else [].
Proof.
  intros A vs N. unfold pick. destruct (existsb (fun v => existsb (has_vertex v) A) vs) eqn:E; [|reflexivity].
  apply existsb_exists in E. destruct E as (v & V1 & V2). apply has_vertex_placed in V2.
  unfold none_placed in N. rewrite Forall_forall in N. exfalso. apply (N v V1 V2).
Qed.

Lemma pick_all : forall A vs, all_placed A vs -> pick A vs = [].
Proof.
  intros A vs N. unfold pick. destruct (existsb (fun v => existsb (has_vertex v) A) vs) eqn:E; [reflexivity|].
  destruct vs as [|v vs]; [reflexivity|]. exfalso. apply Forall_inv in N.
  apply has_vertex_placed in N. cbn [existsb] in E. rewrite N in E. discriminate.
Qed.

Lemma filter_real_nil : forall vs, filter real vs = [] -> existsb real vs = false.
Proof.
  induction vs as [|v vs IH]; [reflexivity|]. cbn [filter existsb]. destruct (real v); [discriminate|exact IH].
Qed.

Lemma filter_real_cons : forall vs v r, filter real vs = v :: r -> existsb real vs = true.
Proof.
  intros vs v r H. apply existsb_exists. exists v. apply filter_In. rewrite H. left. reflexivity.
Qed.

Lemma unmixed_filter : forall vs, unmixed vs -> filter real vs <> [] -> filter real vs = vs.
Proof.
  intros vs [U|U] NE.
  - exfalso. apply NE. apply filter_none. intros v V. unfold real. now rewrite U.
  - clear NE. induction vs as [|v vs IH]; [reflexivity|]. cbn [filter]. unfold real at 1.
    rewrite (U v (or_introl eq_refl)). cbn [negb]. f_equal. apply IH. intros; apply U; right; assumption.
Qed.

Lemma grown_refl : forall A s, abs (s_pls s) = A -> grown A s s.
Proof. intros A s E. split; [assumption|]. auto. Qed.

Definition together (l : list placement) (vs : list nat) : Prop :=
  exists c, forall v, In v vs -> exists pl, In pl l /\ pl_v pl = v /\ xy_of pl = c.

Lemma together_app : forall l m vs, together l vs -> together (l ++ m) vs.
Proof.
  intros l m vs (c & H). exists c. intros v V. destruct (H v V) as (pl & P1 & P2). exists pl.
  split; [apply in_app_iff; auto|assumption].
Qed.

Lemma prepare_loop_wp : wf_machine -> forall SD A gs s made, PInv SD A s made ->
  (SD -> coh /\ Forall covered gs) ->
  wp (prepare_loop e s made gs)
     (fun r => let '(s', o) := r in
        NInv s' /\ grown A s s' /\ measure s' <= measure s /\
        match o with
        | None => s_cur s = None -> measure s' < measure s
        | Some m => PInv SD A s' m /\ (exists tl, m = made ++ tl) /\
            map pl_v m = map pl_v made ++ flat_map (fun g => pick A (fst g)) gs /\
            (forall g, In g gs -> all_placed A (fst g) \/ none_placed A (fst g)) /\
            (forall g, In g gs -> pick A (fst g) <> [] -> together m (fst g))
        end)
     (fun x => links_ok -> placable A -> Forall (fun g => unmixed (fst g)) gs ->
        (x = NotImplemented /\ exists g, In g gs /\ half_placed A (fst g)) \/
        (x = TooBig /\ exists g, In g gs /\ ~ fits (length (fst g)) (snd g)) \/ x = NoSpace \/
        (x = ConfigurationException /\ ~ SD)).
Proof.
  intros W SD A. induction gs as [|(vs, q) gs IH]; intros s made P SDG; cbn [prepare_loop].
  - cbn [wp]. split; [apply P|]. split; [apply grown_refl, P|]. split; [lia|]. split; [assumption|].
    split; [exists []; now rewrite app_nil_r|]. cbn [flat_map]. rewrite app_nil_r. split; [reflexivity|].
    split; intros g [].
  - apply wp_bind. pose proof (filter_vertices_wp (s_pls s) vs (ni_ok _ (pi_n _ _ _ _ P))) as F.
    rewrite (pi_A _ _ _ _ P) in F.
    destruct (filter_vertices e (s_pls s) vs) as [todo|x]; cbn [wp] in F |- *.
    2:{ destruct F as (-> & F). intros _ _ _. left. split; [reflexivity|]. exists (vs, q). split; [left; reflexivity|exact F]. }
    assert (SDG2 : SD -> coh /\ Forall covered gs).
    { intro S. destruct (SDG S) as (S1 & S2). split; [exact S1|]. now apply Forall_inv_tail in S2. }
    assert (SDQ : SD -> coh /\ okq q).
    { intro S. destruct (SDG S) as (S1 & S2). split; [exact S1|]. apply Forall_inv in S2. apply S2. }
    assert (APN : all_placed A vs \/ none_placed A vs) by (destruct F as [(F & _)|(F & _)]; auto).
    destruct todo as [|t todo].
    + assert (PK : pick A vs = []).
      { destruct F as [(F & _)|(F1 & F2)]; [apply pick_all, F|]. rewrite pick_none; [|assumption].
        now rewrite filter_real_nil. }
      specialize (IH s made P SDG2).
      destruct (prepare_loop e s made gs) as [(s', o)|x]; cbn [wp] in *.
      * destruct IH as (I1 & I2 & I3 & I4). split; [assumption|]. split; [assumption|]. split; [assumption|].
        destruct o as [m|]; [|assumption]. destruct I4 as (J1 & J2 & J3 & J4 & J5).
        split; [assumption|]. split; [assumption|]. cbn [flat_map fst]. rewrite PK. split; [assumption|].
        split; intros g [<-|G]; auto. cbn [fst]. congruence.
      * intros LO PA U. apply Forall_inv_tail in U. destruct (IH LO PA U) as [(-> & g & G1 & G2)|[(-> & g & G1 & G2)|X]].
        -- left. split; [reflexivity|]. exists g. split; [right|]; assumption.
        -- right. left. split; [reflexivity|]. exists g. split; [right|]; assumption.
        -- auto.
    + destruct F as [(_ & F)|(F1 & F2)]; [discriminate|].
      assert (PK : pick A vs = vs).
      { rewrite pick_none; [|assumption]. now rewrite (filter_real_cons vs t todo). }
      assert (VNE : vs <> []) by (intros ->; discriminate).
      rewrite F2. apply wp_bind.
      pose proof (next_chip_wp W SD A s made (length (filter real vs)) q SDQ P) as NC.
      destruct (next_chip e s (length (filter real vs)) q) as [(s1, o)|x]; cbn [wp] in NC |- *.
      2:{ intros LO PA U. apply Forall_inv in U. cbn [fst] in U.
          rewrite (unmixed_filter vs U) in NC; [|congruence].
          destruct (NC LO PA) as [(-> & X)|[(-> & X)|(-> & X)]]; [| |auto].
          { right. right. right. split; [reflexivity|]. intro S. apply X. destruct (SDQ S). auto. }
          right. left. split; [reflexivity|].
          exists (vs, q). split; [left; reflexivity|exact X]. }
      destruct NC as (N1 & G1 & M1 & M2 & R).
      assert (MLE : measure s1 <= measure s).
      { destruct (s_cur s); [rewrite M2; [lia|discriminate]|specialize (M1 eq_refl); lia]. }
      destruct o as [c|]; cbn [wp].
      2:{ split; [assumption|]. split; [assumption|]. split; [assumption|]. contradiction. }
      apply wp_bind. pose proof (take_cores_wp c vs (s_free s1)) as TC.
      destruct (take_cores c (s_free s1) vs) as [(free, l)|x] eqn:T; cbn [wp fst snd] in TC |- *.
      2:{ intros LO PA U. apply Forall_inv in U. cbn [fst] in U.
          rewrite (unmixed_filter vs U) in R; [|congruence].
          pose proof (rd_len _ _ _ _ _ _ _ R). destruct TC. lia. }
      destruct TC as (T1 & T2 & T3).
      assert (P2 : PInv SD A (set_current s1 (s_cur s1) free (s_used s1)) (made ++ l)).
      { apply (ready_step SD A s1 made c (length (filter real vs)) q vs); auto.
        intro S. destruct (SDG S) as (S1 & S2). split; [exact S1|]. now apply Forall_inv in S2. }
      specialize (IH _ _ P2 SDG2).
      destruct (prepare_loop e _ (made ++ l) gs) as [(s', o)|x]; cbn [wp] in *.
      * destruct IH as (I1 & I2 & I3 & I4).
        split; [assumption|]. split; [eapply grown_trans; [exact G1|exact I2]|].
        change (measure (set_current s1 (s_cur s1) free (s_used s1))) with (measure s1) in *.
        split; [lia|]. destruct o as [m|].
        2:{ intro X. specialize (M1 X). lia. }
        destruct I4 as (J1 & (tl & J2) & J3 & J4 & J5). split; [assumption|].
        split; [exists (l ++ tl); now rewrite J2, app_assoc|]. cbn [flat_map fst]. rewrite PK.
        split; [rewrite J3, map_app, T1, app_assoc; reflexivity|].
        split.
        -- intros g [<-|G]; auto.
        -- intros g [<-|G]; auto. intros _. cbn [fst]. rewrite J2. apply together_app.
           exists (c_xy c). intros v V. rewrite <- T1 in V. apply in_map_iff in V. destruct V as (pl & V1 & V2).
           exists pl. split; [apply in_app_iff; auto|]. split; [assumption|].
           rewrite Forall_forall in T3. apply T3. assumption.
      * intros LO PA U. apply Forall_inv_tail in U. destruct (IH LO PA U) as [(-> & g & X1 & X2)|[(-> & g & X1 & X2)|X]].
        -- left. split; [reflexivity|]. exists g. split; [right|]; assumption.
        -- right. left. split; [reflexivity|]. exists g. split; [right|]; assumption.
        -- auto.
Qed.

(** One start after the other. *)
Lemma prepare_wp : wf_machine -> forall (SD : Prop) gs s, NInv s ->
  (SD -> coh /\ Forall covered gs) ->
  wp (prepare e s gs)
     (fun r => let '(s', o) := r in
        NInv s' /\ grown (abs (s_pls s)) s s' /\
        match o with
        | None => measure s' < measure s
        | Some m => PInv SD (abs (s_pls s)) s' m /\
            map pl_v m = flat_map (fun g => pick (abs (s_pls s)) (fst g)) gs /\
            (forall g, In g gs -> all_placed (abs (s_pls s)) (fst g) \/ none_placed (abs (s_pls s)) (fst g)) /\
            (forall g, In g gs -> pick (abs (s_pls s)) (fst g) <> [] -> together m (fst g))
        end)
     (fun x => links_ok -> placable (abs (s_pls s)) -> Forall (fun g => unmixed (fst g)) gs ->
        (x = NotImplemented /\ exists g, In g gs /\ half_placed (abs (s_pls s)) (fst g)) \/
        (x = TooBig /\ exists g, In g gs /\ ~ fits (length (fst g)) (snd g)) \/ x = NoSpace \/
        (x = ConfigurationException /\ ~ SD)).
Proof.
  intros W SD gs s N SDG. unfold prepare.
  assert (P : PInv SD (abs (s_pls s)) (set_current (set_prep s []) None (s_free s) (s_used s)) []).
  { constructor; cbn [set_current set_prep s_pls s_cur].
    - destruct N as [n1 n2 n3 n4 n5 n6 n7 n8 n9 n10 n11 n12 n13 n14].
      constructor; cbn [set_current set_prep s_pls s_full s_prep s_rest s_tried s_chips s_same s_other s_cur s_eth]; auto.
      discriminate.
    - reflexivity.
    - intros pl [].
    - constructor.
    - reflexivity.
    - intros l1 pl l2 X. destruct l1; discriminate.
    - congruence. }
  pose proof (prepare_loop_wp W SD _ gs _ _ P SDG) as L.
  destruct (prepare_loop e _ [] gs) as [(s', o)|x]; cbn [wp] in *; [|exact L].
  destruct L as (L1 & L2 & L3 & L4). split; [assumption|]. split; [exact L2|].
  destruct o as [m|]; [|apply L4; reflexivity]. destruct L4 as (J1 & J2 & J3 & J4). auto.
Qed.

Lemma place_loop_wp : wf_machine -> forall (SD : Prop) gs fuel s, NInv s -> measure s < fuel ->
  (SD -> coh /\ Forall covered gs) ->
  wp (place_loop fuel e s gs)
     (fun r => let '(s', m) := r in
        NInv s' /\ grown (abs (s_pls s)) s s' /\ PInv SD (abs (s_pls s)) s' m /\
        map pl_v m = flat_map (fun g => pick (abs (s_pls s)) (fst g)) gs /\
        (forall g, In g gs -> all_placed (abs (s_pls s)) (fst g) \/ none_placed (abs (s_pls s)) (fst g)) /\
        (forall g, In g gs -> pick (abs (s_pls s)) (fst g) <> [] -> together m (fst g)))
     (fun x => links_ok -> placable (abs (s_pls s)) -> Forall (fun g => unmixed (fst g)) gs ->
        (x = NotImplemented /\ exists g, In g gs /\ half_placed (abs (s_pls s)) (fst g)) \/
        (x = TooBig /\ exists g, In g gs /\ ~ fits (length (fst g)) (snd g)) \/ x = NoSpace \/
        (x = ConfigurationException /\ ~ SD)).
Proof.
  intros W SD gs. induction fuel as [|k IH]; intros s N L SDG; [lia|]. cbn [place_loop]. apply wp_bind.
  pose proof (prepare_wp W SD gs s N SDG) as P.
  destruct (prepare e s gs) as [(s1, o)|x]; cbn [wp] in *; [|exact P].
  destruct P as (P1 & P2 & P3). destruct o as [m|]; cbn [wp].
  - destruct P3 as (J1 & J2 & J3 & J4). auto 8.
  - specialize (IH s1 P1 ltac:(lia) SDG). assert (E : abs (s_pls s1) = abs (s_pls s)) by apply P2.
    rewrite E in IH. destruct (place_loop k e s1 gs) as [(s2, m)|x]; cbn [wp] in *; [|exact IH].
    destruct IH as (I1 & I2 & I3). split; [assumption|]. split; [eapply grown_trans; eassumption|]. exact I3.
Qed.

(** What is placed for one application vertex. *)
Record segment (SD : Prop) (A : list placement) (gs : list (list nat * sdram)) (m : list placement) : Prop := mkSegment {
  sg_on : forall pl, In pl m -> exists c, mchip c /\ xy_of pl = c_xy c /\ In (pl_p pl) (c_procs c) /\
            (SD -> sum_le (reqs_on (A ++ m) c) (c_sdram c));
  sg_vs : map pl_v m = flat_map (fun g => pick A (fst g)) gs;
  sg_walk : walked m;
  sg_split : forall g, In g gs -> all_placed A (fst g) \/ none_placed A (fst g);
  sg_together : forall g, In g gs -> pick A (fst g) <> [] -> together m (fst g) }.

Definition moved (A : list placement) (s s' : st) : Prop :=
  (forall d, In d (s_full s) -> In d (s_full s')) /\
  (forall d, In d (s_full s') -> In d (s_full s) \/ is_full A d) /\
  (forall d, in_pool s d -> in_pool s' d).

Lemma pick_cases : forall A vs, pick A vs = [] \/ (pick A vs = vs /\ none_placed A vs).
Proof.
  intros A vs. unfold pick. destruct (existsb (fun v => existsb (has_vertex v) A) vs) eqn:E; [auto|].
  destruct (existsb real vs); [|auto]. right. split; [reflexivity|]. apply Forall_forall. intros v V P.
  apply has_vertex_placed in P.
  assert (X : existsb (fun v => existsb (has_vertex v) A) vs = true) by (apply existsb_exists; eauto). congruence.
Qed.

Lemma pick_In : forall A (gs : list (list nat * sdram)) v, In v (flat_map (fun g => pick A (fst g)) gs) ->
  In v (flat_map fst gs) /\ ~ vplaced A v.
Proof.
  intros A gs v H. apply in_flat_map in H. destruct H as (g & G & V).
  destruct (pick_cases A (fst g)) as [E|(E & N)]; rewrite E in V; [destruct V|]. split.
  - apply in_flat_map. exists g. auto.
  - unfold none_placed in N. rewrite Forall_forall in N. auto.
Qed.

Lemma NoDup_app_inv : forall (X : Type) (l m : list X), NoDup (l ++ m) ->
  NoDup l /\ NoDup m /\ forall x, In x l -> ~ In x m.
Proof.
  intros X. induction l as [|a l IH]; intros m H; cbn [app] in H.
  - split; [constructor|]. split; [assumption|]. intros x [].
  - inversion H as [|? ? NI ND]; subst. destruct (IH m ND) as (I1 & I2 & I3). rewrite in_app_iff in NI.
    split; [constructor; tauto|]. split; [assumption|]. intros x [->|I]; auto.
Qed.

Lemma NoDup_app_intro : forall (X : Type) (l m : list X), NoDup l -> NoDup m ->
  (forall x, In x l -> ~ In x m) -> NoDup (l ++ m).
Proof.
  intros X. induction l as [|a l IH]; intros m L M D; [assumption|]. inversion L as [|? ? NI ND]; subst. cbn [app].
  constructor; [|apply IH; auto; intros x I; apply D; right; assumption].
  rewrite in_app_iff. intros [I|I]; [contradiction|]. apply (D a); [left; reflexivity|assumption].
Qed.

Lemma pick_NoDup : forall A (gs : list (list nat * sdram)), NoDup (flat_map fst gs) ->
  NoDup (flat_map (fun g => pick A (fst g)) gs).
Proof.
  intros A. induction gs as [|g gs IH]; intro H; [constructor|]. cbn [flat_map] in *.
  apply NoDup_app_inv in H. destruct H as (H1 & H2 & H3).
  destruct (pick_cases A (fst g)) as [E|(E & N)]; rewrite E; [apply IH; assumption|].
  apply NoDup_app_intro; [assumption|apply IH; assumption|]. intros x X Y. apply pick_In in Y. apply (H3 x X). tauto.
Qed.

Lemma place_vertex_wp : wf_machine -> forall (SD : Prop) s a, NInv s ->
  (SD -> coh /\ Forall covered (a_groups a)) ->
  wp (place_vertex e s a)
     (fun s' => NInv s' /\ moved (abs (s_pls s)) s s' /\
        exists m, abs (s_pls s') = abs (s_pls s) ++ m /\ segment SD (abs (s_pls s)) (a_groups a) m)
     (fun x => links_ok -> placable (abs (s_pls s)) -> Forall (fun g => unmixed (fst g)) (a_groups a) ->
        NoDup (flat_map fst (a_groups a)) ->
        (x = NotImplemented /\ exists g, In g (a_groups a) /\ half_placed (abs (s_pls s)) (fst g)) \/
        (x = TooBig /\ exists g, In g (a_groups a) /\ ~ fits (length (fst g)) (snd g)) \/ x = NoSpace \/
        (x = ConfigurationException /\ ~ SD)).
Proof.
  intros W SD s a N SDG. unfold place_vertex. destruct (a_groups a) as [|g0 gs0] eqn:EG.
  - cbn [wp]. split; [assumption|]. split; [split; [auto|]; split; auto|]. exists [].
    split; [now rewrite app_nil_r|]. constructor.
    + intros pl [].
    + reflexivity.
    + intros l1 pl l2 X. destruct l1; discriminate.
    + intros g [].
    + intros g [].
  - rewrite <- EG in *. clear EG g0 gs0.
    remember (set_starts s (s_chips s) (s_rest s ++ s_tried s) []) as s0 eqn:E0.
    assert (N0 : NInv s0).
    { destruct N as [n1 n2 n3 n4 n5 n6 n7 n8 n9 n10 n11 n12 n13 n14]. rewrite E0.
      constructor; cbn [set_starts s_pls s_full s_prep s_rest s_tried s_chips s_same s_other s_cur s_eth]; auto.
      apply Forall_app. auto. }
    assert (P0 : s_pls s0 = s_pls s) by (rewrite E0; reflexivity).
    assert (MV0 : (forall d, In d (s_full s) <-> In d (s_full s0)) /\ forall d, in_pool s d -> in_pool s0 d).
    { rewrite E0. unfold in_pool. cbn [set_starts s_full s_rest s_tried s_chips]. split; [tauto|].
      intros d D. rewrite in_app_iff. tauto. }
    destruct MV0 as (MV1 & MV2).
    apply wp_bind. pose proof (place_loop_wp W SD (a_groups a) (S (length (s_rest s0) + length (s_chips s0))) s0 N0) as L.
    specialize (L ltac:(unfold measure; lia) SDG). rewrite P0 in L.
    destruct (place_loop _ e s0 (a_groups a)) as [(s1, m)|x]; cbn [wp] in *; [|auto].
    destruct L as (N1 & G1 & P1 & V1 & AN & TG). clear E0.
    assert (E1 : abs (s_pls s1) = abs (s_pls s)) by apply G1.
    assert (AVOID : forall pl, In pl m -> ~ In (triple pl) (map triple (abs (s_pls s1)))).
    { intros pl I X. destruct (pi_on _ _ _ _ P1 pl I) as (c & C1 & C2 & C3 & C4 & C5 & _). apply C5, used_on_In.
      rewrite <- C2, <- E1. exact X. }
    apply wp_bind. apply adds_wp; [apply N1|..].
    + intros p' O' A'. cbn [wp]. split.
      { destruct N1 as [n1 n2 n3 n4 n5 n6 n7 n8 n9 n10 n11 n12 n13 n14].
        constructor; cbn [set_pls s_pls s_full s_prep s_rest s_tried s_chips s_same s_other s_cur s_eth]; auto. }
      split.
      { destruct G1 as (_ & H1 & H2 & H3). split; [intros d D; apply H1, MV1, D|].
        split; [intros d D; destruct (H2 d D) as [X|X]; [left; apply MV1, X|auto]|]. intros d D. apply H3, MV2, D. }
      exists m. cbn [set_pls s_pls]. split; [now rewrite A', E1|]. constructor; auto.
      * intros pl I. destruct (pi_on _ _ _ _ P1 pl I) as (c & C1 & C2 & C3 & C4 & C5 & C6). exists c.
        split; [assumption|]. split; [assumption|]. split; [assumption|]. intro S. rewrite reqs_on_app. auto.
      * apply (pi_walk _ _ _ _ P1).
    + intros [X|(pl & X & Y)]; exfalso; [apply X, (pi_nd _ _ _ _ P1)|apply (AVOID pl X Y)].
    + intros X LO PA U ND. exfalso. destruct X as [X|(pl & X & Y)].
      * apply X. rewrite V1. apply pick_NoDup, ND.
      * rewrite E1 in Y. apply vplaced_map in Y. assert (Z : In (pl_v pl) (map pl_v m)) by (apply in_map; assumption).
        rewrite V1 in Z. apply pick_In in Z. tauto.
Qed.

(** * Fixed locations *)
Definition pinned (v : nat) : bool :=
  match get_fixed e v with Some (_, _, Some _) => true | _ => false end.
Definition set_ok : Prop := forall l, Permutation (pe_set_order e l) l.

Definition it_ok (c : chip) (p : placements) (it : list nat) : Prop :=
  NoDup it /\ forall z, In z it -> In z (c_procs c) /\ ~ occupied (abs p) (fst (c_xy c)) (snd (c_xy c)) z.

Definition good (c : chip) (pl : placement) : Prop :=
  xy_of pl = c_xy c /\ In (pl_p pl) (c_procs c) /\
  forall x y q, get_fixed e (pl_v pl) = Some (x, y, Some q) -> pl_p pl = q.

Lemma it_find_spec : forall q l l', it_find q l = Some l' -> exists pre, l = pre ++ q :: l'.
Proof.
  intros q. induction l as [|a l IH]; intros l' H; [discriminate|]. cbn [it_find] in H.
  destruct (Nat.eqb_spec a q) as [->|NE].
  - injection H as <-. exists []. reflexivity.
  - destruct (IH l' H) as (pre & ->). exists (a :: pre). reflexivity.
Qed.

Lemma NoDup_suffix : forall (pre : list nat) q l, NoDup (pre ++ q :: l) -> NoDup l /\ ~ In q l.
Proof.
  intros pre q l H. apply NoDup_app_inv in H. destruct H as (_ & H & _). inversion H; auto.
Qed.

Lemma it_ok_add : forall c p p' pre q it v, it_ok c p (pre ++ q :: it) ->
  abs p' = abs p ++ [mkPl v (fst (c_xy c)) (snd (c_xy c)) q] -> it_ok c p' it.
Proof.
  intros c p p' pre q it v (N & O) E. destruct (NoDup_suffix pre q it N) as (N1 & N2). split; [assumption|].
  intros z Z. destruct (O z) as (O1 & O2); [apply in_app_iff; right; right; assumption|]. split; [assumption|].
  rewrite E. intros (pl & P1 & P2). apply in_app_iff in P1. destruct P1 as [P1|[<-|[]]].
  - apply O2. exists pl. auto.
  - cbn in P2. destruct P2 as (_ & _ & ->). contradiction.
Qed.

Lemma not_placed_add : forall p p' pl v, abs p' = abs p ++ [pl] -> ~ vplaced (abs p) v -> v <> pl_v pl ->
  ~ vplaced (abs p') v.
Proof.
  intros p p' pl v E N NE (z & Z1 & Z2). rewrite E in Z1. apply in_app_iff in Z1.
  destruct Z1 as [Z1|[<-|[]]]; [apply N; exists z; auto|congruence].
Qed.

Lemma fixed_core_wp : forall c vs p it, ok p -> it_ok c p it ->
  wp (foldM (fixed_core e (fst (c_xy c)) (snd (c_xy c))) (p, it) vs)
     (fun r => ok (fst r) /\ it_ok c (fst r) (snd r) /\
        exists m, abs (fst r) = abs p ++ m /\ map pl_v m = filter pinned vs /\ Forall (good c) m)
     (fun x => NoDup vs -> none_placed (abs p) vs -> x = ConfigurationException).
Proof.
  intros c. induction vs as [|v vs IH]; intros p it O I.
  - cbn. split; [assumption|]. split; [assumption|]. exists []. rewrite app_nil_r. auto.
  - cbn [foldM filter]. apply wp_bind. unfold fixed_core at 1. unfold pinned at 1.
    destruct (get_fixed e v) as [((lx, ly), [q|])|] eqn:GF.
    + destruct (it_find q it) as [it'|] eqn:F; [|cbn; auto].
      apply it_find_spec in F. destruct F as (pre & ->). apply wp_bind. apply add_wp; [assumption|..].
      * cbn [pl_x pl_y pl_p pl_v]. intros NO NV p' O' A'. cbn [wp].
        assert (I' : it_ok c p' it') by (eapply it_ok_add; eassumption).
        specialize (IH p' it' O' I'). destruct (foldM _ (p', it') vs) as [r|x]; cbn [wp] in *.
        -- destruct IH as (J1 & J2 & m & M1 & M2 & M3). split; [assumption|]. split; [assumption|].
           exists (mkPl v (fst (c_xy c)) (snd (c_xy c)) q :: m).
           rewrite M1, A', <- app_assoc. split; [reflexivity|]. cbn [map pl_v]. rewrite M2. split; [reflexivity|].
           constructor; [|assumption]. split; [unfold xy_of; cbn; destruct (c_xy c); reflexivity|].
           cbn [pl_p pl_v]. split; [apply I; apply in_app_iff; right; left; reflexivity|]. intros; congruence.
        -- intros ND NP. inversion ND as [|? ? NI ND2]; subst. pose proof (Forall_inv_tail NP) as NP2.
           apply IH; [assumption|]. apply Forall_forall. intros w Wv. unfold none_placed in NP2. rewrite Forall_forall in NP2.
           eapply not_placed_add; [exact A'|auto|]. cbn [pl_v]. intros ->. contradiction.
      * cbn [pl_x pl_y pl_p pl_v]. intros X. exfalso. destruct I as (_ & I). destruct (I q) as (_ & Y); [|contradiction].
        apply in_app_iff. right. left. reflexivity.
      * cbn [pl_v]. intros X _ NP. apply Forall_inv in NP. contradiction.
    + cbn [wp]. specialize (IH p it O I). destruct (foldM _ (p, it) vs) as [r|x]; cbn [wp] in *; [exact IH|].
      intros ND NP. apply IH; [now inversion ND|now apply Forall_inv_tail in NP].
    + cbn [wp]. specialize (IH p it O I). destruct (foldM _ (p, it) vs) as [r|x]; cbn [wp] in *; [exact IH|].
      intros ND NP. apply IH; [now inversion ND|now apply Forall_inv_tail in NP].
Qed.

Lemma free_core_wp : forall c vs p it, ok p -> it_ok c p it ->
  wp (foldM (free_core e (fst (c_xy c)) (snd (c_xy c))) (p, it) vs)
     (fun r => ok (fst r) /\ it_ok c (fst r) (snd r) /\
        exists m, abs (fst r) = abs p ++ m /\ map pl_v m = filter (fun v => negb (pinned v)) vs /\ Forall (good c) m)
     (fun x => NoDup vs -> none_placed (abs p) (filter (fun v => negb (pinned v)) vs) -> x = ConfigurationException).
Proof.
  intros c. induction vs as [|v vs IH]; intros p it O I.
  - cbn. split; [assumption|]. split; [assumption|]. exists []. rewrite app_nil_r. auto.
  - cbn [foldM filter]. apply wp_bind. unfold free_core at 1.
    assert (PV : pinned v = match get_fixed e v with Some (_, _, Some _) => true | _ => false end) by reflexivity.
    rewrite PV. clear PV.
    destruct (get_fixed e v) as [((lx, ly), [q|])|] eqn:GF; cbn [negb].
    + cbn [wp]. specialize (IH p it O I). destruct (foldM _ (p, it) vs) as [r|x]; cbn [wp] in *; [exact IH|].
      intros ND NP. apply IH; [now inversion ND|assumption].
    + destruct it as [|q it]; [cbn; auto|]. apply wp_bind. apply add_wp; [assumption|..].
      * cbn [pl_x pl_y pl_p pl_v]. intros NO NV p' O' A'. cbn [wp].
        assert (I' : it_ok c p' it) by (eapply (it_ok_add c p p' []); eassumption).
        specialize (IH p' it O' I'). destruct (foldM _ (p', it) vs) as [r|x]; cbn [wp] in *.
        -- destruct IH as (J1 & J2 & m & M1 & M2 & M3). split; [assumption|]. split; [assumption|].
           exists (mkPl v (fst (c_xy c)) (snd (c_xy c)) q :: m).
           rewrite M1, A', <- app_assoc. split; [reflexivity|]. cbn [map pl_v]. rewrite M2. split; [reflexivity|].
           constructor; [|assumption]. split; [unfold xy_of; cbn; destruct (c_xy c); reflexivity|].
           cbn [pl_p pl_v]. split; [apply I; left; reflexivity|]. intros; congruence.
        -- intros ND NP. inversion ND as [|? ? NI ND2]; subst. pose proof (Forall_inv_tail NP) as NP2.
           apply IH; [assumption|]. apply Forall_forall. intros w Wv. rewrite Forall_forall in NP2.
           eapply not_placed_add; [exact A'|auto|]. cbn [pl_v]. intros ->. apply filter_In in Wv. tauto.
      * cbn [pl_x pl_y pl_p pl_v]. intros X. exfalso. destruct I as (_ & I). destruct (I q) as (_ & Y); [|contradiction].
        left. reflexivity.
      * cbn [pl_v]. intros X _ NP. apply Forall_inv in NP. contradiction.
    + destruct it as [|q it]; [cbn; auto|]. apply wp_bind. apply add_wp; [assumption|..].
      * cbn [pl_x pl_y pl_p pl_v]. intros NO NV p' O' A'. cbn [wp].
        assert (I' : it_ok c p' it) by (eapply (it_ok_add c p p' []); eassumption).
        specialize (IH p' it O' I'). destruct (foldM _ (p', it) vs) as [r|x]; cbn [wp] in *.
        -- destruct IH as (J1 & J2 & m & M1 & M2 & M3). split; [assumption|]. split; [assumption|].
           exists (mkPl v (fst (c_xy c)) (snd (c_xy c)) q :: m).
           rewrite M1, A', <- app_assoc. split; [reflexivity|]. cbn [map pl_v]. rewrite M2. split; [reflexivity|].
           constructor; [|assumption]. split; [unfold xy_of; cbn; destruct (c_xy c); reflexivity|].
           cbn [pl_p pl_v]. split; [apply I; left; reflexivity|]. intros; congruence.
        -- intros ND NP. inversion ND as [|? ? NI ND2]; subst. pose proof (Forall_inv_tail NP) as NP2.
           apply IH; [assumption|]. apply Forall_forall. intros w Wv. rewrite Forall_forall in NP2.
           eapply not_placed_add; [exact A'|auto|]. cbn [pl_v]. intros ->. apply filter_In in Wv. tauto.
      * cbn [pl_x pl_y pl_p pl_v]. intros X. exfalso. destruct I as (_ & I). destruct (I q) as (_ & Y); [|contradiction].
        left. reflexivity.
      * cbn [pl_v]. intros X _ NP. apply Forall_inv in NP. contradiction.
Qed.

Lemma filter_perm : forall (X : Type) (f : X -> bool) l,
  Permutation (filter f l ++ filter (fun x => negb (f x)) l) l.
Proof.
  intros X f. induction l as [|x l IH]; [constructor|]. cbn [filter]. destruct (f x); cbn [negb].
  - cbn [app]. constructor. exact IH.
  - apply Permutation_sym, Permutation_cons_app, Permutation_sym. exact IH.
Qed.

Lemma do_fixed_wp : wf_machine -> set_ok -> forall p vs, ok p ->
  wp (do_fixed e p vs)
     (fun p' => ok p' /\ exists c m x y o, first_fixed e vs = Some (x, y, o) /\ c_xy c = (x, y) /\ mchip c /\
        abs p' = abs p ++ m /\ Permutation (map pl_v m) vs /\ Forall (good c) m)
     (fun x => NoDup vs -> none_placed (abs p) vs ->
        (x = NotImplemented /\ first_fixed e vs = None) \/ x = ConfigurationException).
Proof.
  intros W SO p vs O. unfold do_fixed. destruct (first_fixed e vs) as [((x, y), o)|] eqn:FF; [|cbn; auto].
  destruct (m_chip (pe_machine e) (x, y)) as [c|] eqn:M; [|cbn; auto].
  assert (CX : c_xy c = (x, y)) by apply (W _ _ M).
  assert (C : mchip c) by (unfold mchip; rewrite CX; exact M).
  destruct (on_chip p (x, y)) as (p1, pls) eqn:OC. apply on_chip_ok in OC; [|assumption].
  destruct OC as (O1 & A1 & _ & PL).
  remember (pe_set_order e (filter (fun q => negb (existsb (Nat.eqb q) (map pl_p pls))) (c_procs c))) as it eqn:EI.
  assert (I1 : it_ok c p1 it).
  { pose proof (SO (filter (fun q => negb (existsb (Nat.eqb q) (map pl_p pls))) (c_procs c))) as PM. rewrite <- EI in PM.
    split.
    - eapply Permutation_NoDup; [apply Permutation_sym; exact PM|]. apply NoDup_filter. apply (W _ _ M).
    - intros z Z. apply (Permutation_in _ PM) in Z. apply filter_In in Z. destruct Z as (Z1 & Z2). split; [assumption|].
      intros (pl & P1 & P2 & P3 & P4). rewrite CX in P2, P3. cbn [fst snd] in P2, P3. apply Bool.negb_true_iff in Z2.
      assert (X : existsb (Nat.eqb z) (map pl_p pls) = true); [|congruence].
      apply existsb_exists. exists z. split; [|apply Nat.eqb_refl]. rewrite PL. apply in_map_iff. exists pl.
      split; [assumption|]. apply filter_In. rewrite <- A1. split; [assumption|]. apply xy_eqb_spec. congruence. }
  pose proof (fixed_core_wp c vs p1 it O1 I1) as F1. rewrite CX in F1. cbn [fst snd] in F1.
  apply wp_bind. destruct (foldM (fixed_core e x y) (p1, it) vs) as [(p2, it2)|ex]; cbn [wp fst snd] in *.
  2:{ intros ND NP. right. apply F1; [assumption|]. now rewrite A1. }
  destruct F1 as (O2 & I2 & m1 & M1 & M2 & M3).
  pose proof (free_core_wp c vs p2 it2 O2 I2) as F2. rewrite CX in F2. cbn [fst snd] in F2.
  apply wp_bind. destruct (foldM (free_core e x y) (p2, it2) vs) as [(p3, it3)|ex]; cbn [wp fst snd] in *.
  2:{ intros ND NP. right. apply F2; [assumption|]. rewrite M1, A1. apply Forall_forall. intros v V.
      apply filter_In in V. destruct V as (V1 & V2). unfold none_placed in NP. rewrite Forall_forall in NP.
      intros (pl & P1 & P2). apply in_app_iff in P1. destruct P1 as [P1|P1].
      - apply (NP v V1). exists pl. auto.
      - assert (X : In v (map pl_v m1)) by (apply in_map_iff; eauto). rewrite M2 in X. apply filter_In in X.
        destruct X as (_ & X). rewrite X in V2. discriminate. }
  destruct F2 as (O3 & I3 & m2 & N1 & N2 & N3). split; [assumption|].
  exists c, (m1 ++ m2), x, y, o. split; [reflexivity|]. split; [assumption|]. split; [assumption|].
  split; [rewrite N1, M1, A1, app_assoc; reflexivity|].
  split; [rewrite map_app, M2, N2; apply filter_perm|]. apply Forall_app. auto.
Qed.

Definition placed_ok (pl : placement) : Prop :=
  exists c, mchip c /\ xy_of pl = c_xy c /\ In (pl_p pl) (c_procs c).

(** A group of a fixed application vertex has been placed. *)
Definition fixed_done (l : list placement) (vs : list nat) : Prop :=
  exists c x y o, first_fixed e (filter real vs) = Some (x, y, o) /\ c_xy c = (x, y) /\
    forall v, In v vs -> real v = true -> exists pl, In pl l /\ pl_v pl = v /\ good c pl.

Lemma fixed_done_app : forall l m vs, fixed_done l vs -> fixed_done (l ++ m) vs.
Proof.
  intros l m vs (c & x & y & o & F & C & H). exists c, x, y, o. split; [assumption|]. split; [assumption|].
  intros v V R. destruct (H v V R) as (pl & P1 & P2). exists pl. split; [apply in_app_iff; auto|assumption].
Qed.

Lemma fixed_done_app2 : forall l m vs, fixed_done m vs -> fixed_done (l ++ m) vs.
Proof.
  intros l m vs (c & x & y & o & F & C & H). exists c, x, y, o. split; [assumption|]. split; [assumption|].
  intros v V R. destruct (H v V R) as (pl & P1 & P2). exists pl. split; [apply in_app_iff; auto|assumption].
Qed.

Definition fixed_errors (x : exn) : Prop := x = NotImplemented \/ x = ConfigurationException.

Lemma fixed_group_wp : wf_machine -> set_ok -> forall p g, ok p ->
  wp (fixed_group e p g)
     (fun p' => ok p' /\ exists m, abs p' = abs p ++ m /\ Forall placed_ok m /\
        (forall pl, In pl m -> In (pl_v pl) (fst g) /\ real (pl_v pl) = true) /\ fixed_done m (fst g))
     (fun x => NoDup (fst g) -> fixed_errors x).
Proof.
  intros W SO p g O. unfold fixed_group. apply wp_bind. pose proof (filter_vertices_wp p (fst g) O) as F.
  destruct (filter_vertices e p (fst g)) as [todo|x]; cbn [wp] in F |- *.
  2:{ destruct F as (-> & _). intros _. left. reflexivity. }
  destruct F as [(_ & ->)|(NP & ->)]; [cbn; intros _; left; reflexivity|].
  pose proof (do_fixed_wp W SO p (filter real (fst g)) O) as D.
  destruct (do_fixed e p (filter real (fst g))) as [p'|x]; cbn [wp] in *.
  - destruct D as (O' & c & m & x & y & o & D1 & D2 & D3 & D4 & D5 & D6). split; [assumption|]. exists m.
    split; [assumption|]. split; [|split].
    + apply Forall_forall. intros pl I. rewrite Forall_forall in D6. destruct (D6 pl I) as (G1 & G2 & _).
      exists c. auto.
    + intros pl I. assert (X : In (pl_v pl) (map pl_v m)) by (apply in_map, I).
      apply (Permutation_in _ D5) in X. apply filter_In in X. exact X.
    + exists c, x, y, o. split; [assumption|]. split; [assumption|]. intros v V R.
      assert (X : In v (map pl_v m)).
      { apply (Permutation_in _ (Permutation_sym D5)). apply filter_In. auto. }
      apply in_map_iff in X. destruct X as (pl & X1 & X2). exists pl. split; [assumption|]. split; [assumption|].
      rewrite Forall_forall in D6. auto.
  - intro ND. destruct D as [(-> & _)| ->].
    + apply NoDup_filter, ND.
    + apply Forall_forall. intros v V. apply filter_In in V. unfold none_placed in NP. rewrite Forall_forall in NP. apply NP, V.
    + left. reflexivity.
    + right. reflexivity.
Qed.

Lemma fixed_groups_wp : wf_machine -> set_ok -> forall gs p, ok p ->
  wp (foldM (fixed_group e) p gs)
     (fun p' => ok p' /\ exists m, abs p' = abs p ++ m /\ Forall placed_ok m /\
        (forall pl, In pl m -> In (pl_v pl) (flat_map fst gs) /\ real (pl_v pl) = true) /\
        forall g, In g gs -> fixed_done m (fst g))
     (fun x => NoDup (flat_map fst gs) -> fixed_errors x).
Proof.
  intros W SO. induction gs as [|g gs IH]; intros p O.
  - cbn. split; [assumption|]. exists []. rewrite app_nil_r. split; [reflexivity|]. split; [constructor|].
    split; [intros pl []|intros g []].
  - cbn [foldM]. apply wp_bind. pose proof (fixed_group_wp W SO p g O) as G.
    destruct (fixed_group e p g) as [p1|x]; cbn [wp] in *.
    2:{ intro ND. cbn [flat_map] in ND. apply NoDup_app_inv in ND. apply G, ND. }
    destruct G as (O1 & m1 & A1 & P1 & V1 & F1). specialize (IH p1 O1).
    destruct (foldM (fixed_group e) p1 gs) as [p2|x]; cbn [wp] in *.
    2:{ intro ND. cbn [flat_map] in ND. apply NoDup_app_inv in ND. apply IH, ND. }
    destruct IH as (O2 & m2 & A2 & P2 & V2 & F2). split; [assumption|]. exists (m1 ++ m2).
    split; [rewrite A2, A1, app_assoc; reflexivity|]. split; [apply Forall_app; auto|]. split.
    + intros pl I. cbn [flat_map]. rewrite in_app_iff. apply in_app_iff in I. destruct I as [I|I].
      * destruct (V1 pl I). auto.
      * destruct (V2 pl I). auto.
    + intros g' [<-|I]; [apply fixed_done_app, F1|apply fixed_done_app2, F2, I].
Qed.

Definition all_of (apps : list appv) : list nat := flat_map (fun a => flat_map fst (a_groups a)) apps.

(** The fixed application vertices. *)
Lemma fixed_steps_wp : wf_machine -> set_ok -> forall apps s, NInv s ->
  wp (foldM (fixed_step e) s apps)
     (fun s' => exists p', s' = set_pls s p' /\ ok p' /\ exists m, abs p' = abs (s_pls s) ++ m /\ Forall placed_ok m /\
        (forall pl, In pl m -> exists a, In a apps /\ has_fixed e a = true /\ In (pl_v pl) (flat_map fst (a_groups a)) /\ real (pl_v pl) = true) /\
        forall a g, In a apps -> has_fixed e a = true -> In g (a_groups a) -> fixed_done m (fst g))
     (fun x => (forall a, In a apps -> NoDup (flat_map fst (a_groups a))) -> fixed_errors x).
Proof.
  intros W SO. induction apps as [|a apps IH]; intros s N.
  - cbn. exists (s_pls s). split; [destruct s; reflexivity|]. split; [apply N|]. exists []. rewrite app_nil_r.
    split; [reflexivity|]. split; [constructor|]. split; [intros pl []|intros a g []].
  - cbn [foldM]. apply wp_bind. unfold fixed_step at 1. destruct (has_fixed e a) eqn:HF.
    + unfold place_fixed.
      assert (G : wp (match a_groups a with [] => Err NotImplemented | gs => let* p := foldM (fixed_group e) (s_pls s) gs in Ok (set_pls s p) end)
        (fun s' => exists p', s' = set_pls s p' /\ ok p' /\ exists m, abs p' = abs (s_pls s) ++ m /\ Forall placed_ok m /\
          (forall pl, In pl m -> In (pl_v pl) (flat_map fst (a_groups a)) /\ real (pl_v pl) = true) /\
          forall g, In g (a_groups a) -> fixed_done m (fst g))
        (fun x => NoDup (flat_map fst (a_groups a)) -> fixed_errors x)).
      { pose proof (fixed_groups_wp W SO (a_groups a) (s_pls s) (ni_ok _ N)) as G.
        destruct (a_groups a) as [|g0 gs0] eqn:EG; [cbn; intros _; left; reflexivity|]. rewrite <- EG in *.
        apply wp_bind. destruct (foldM (fixed_group e) (s_pls s) (a_groups a)) as [p'|x]; cbn [wp] in *; [|exact G].
        exists p'. split; [reflexivity|]. exact G. }
      destruct (match a_groups a with [] => Err NotImplemented | gs => let* p := foldM (fixed_group e) (s_pls s) gs in Ok (set_pls s p) end) as [s1|x]; cbn [wp] in *.
      2:{ intro ND. apply G, ND. left. reflexivity. }
      destruct G as (p1 & -> & O1 & m1 & A1 & P1 & V1 & F1).
      assert (N1 : NInv (set_pls s p1)).
      { destruct N as [n1 n2 n3 n4 n5 n6 n7 n8 n9 n10 n11 n12 n13 n14].
        constructor; cbn [set_pls s_pls s_full s_prep s_rest s_tried s_chips s_same s_other s_cur s_eth]; auto. }
      specialize (IH (set_pls s p1) N1).
      destruct (foldM (fixed_step e) (set_pls s p1) apps) as [s2|x]; cbn [wp] in *.
      2:{ intro ND. apply IH. intros; apply ND; right; assumption. }
      destruct IH as (p2 & -> & O2 & m2 & A2 & P2 & V2 & F2). exists p2. split; [reflexivity|]. split; [assumption|].
      exists (m1 ++ m2). cbn [set_pls s_pls] in A2. split; [rewrite A2, A1, app_assoc; reflexivity|].
      split; [apply Forall_app; auto|]. split.
      * intros pl I. apply in_app_iff in I. destruct I as [I|I].
        -- exists a. split; [left; reflexivity|]. split; [assumption|]. apply V1, I.
        -- destruct (V2 pl I) as (b & B1 & B2). exists b. split; [right|]; assumption.
      * intros b g [<-|B] HB G; [apply fixed_done_app, F1, G|apply fixed_done_app2; eapply F2; eassumption].
    + cbn [wp]. specialize (IH s N). destruct (foldM (fixed_step e) s apps) as [s2|x]; cbn [wp] in *.
      2:{ intro ND. apply IH. intros; apply ND; right; assumption. }
      destruct IH as (p2 & -> & O2 & m2 & A2 & P2 & V2 & F2). exists p2. split; [reflexivity|]. split; [assumption|].
      exists m2. split; [assumption|]. split; [assumption|]. split.
      * intros pl I. destruct (V2 pl I) as (b & B1 & B2). exists b. split; [right|]; assumption.
      * intros b g [<-|B] HB G; [congruence|eapply F2; eassumption].
Qed.

(** * All application vertices *)
Inductive run (SD : Prop) : list placement -> list appv -> list placement -> Prop :=
| run_nil : forall A, run SD A [] A
| run_cons : forall A a m apps B, segment SD A (a_groups a) m -> run SD (A ++ m) apps B -> run SD A (a :: apps) B.

Definition wfull (l : list placement) (c : chip) : Prop :=
  length (c_procs c) <= length (used_on l c) \/ sum_gt (reqs_on l c) (cap_sdram e).
Definition nonneg : Prop := coh /\ forall v, parts_nonneg (pe_steps e) (pe_sdram e v).

Lemma wfull_mono : nonneg -> forall l m c, wfull l c -> wfull (l ++ m) c.
Proof.
  intros (CO & NN) l m c [H|H]; [left|right].
  - rewrite used_on_app, app_length. lia.
  - assert (PN : forall k, Forall (parts_nonneg (pe_steps e)) (reqs k)).
    { intro k. apply Forall_forall. intros s I. apply in_map_iff in I. destruct I as (pl & <- & _). apply NN. }
    rewrite reqs_on_app.
    destruct (sum_grow _ _ CO (reqs_on l c) (reqs_on m c) (reqs_okq CO _) (reqs_okq CO _) (PN _) (PN _))
      as (a & b & x & y & A1 & B1 & A2 & B2 & LE).
    destruct H as (r & z & R & Z & L). assert (r = a) by congruence. subst r. assert (z = x) by congruence. subst z.
    exists b, y. split; [exact B1|]. split; [exact B2|]. lia.
Qed.

Lemma is_full_wfull : forall l c, is_full l c -> wfull l c.
Proof. intros l c [H|H]; [left; lia|right; exact H]. Qed.

Lemma wfull_room : forall l c n q, wfull l c -> 0 < n -> ~ room l c n q.
Proof. intros l c n q [H|H] P (R1 & R2 & R3); [lia|]. exact (sum_le_gt _ _ R2 H). Qed.

Record GInv (s : st) : Prop := mkGInv {
  gi_n : NInv s;
  gi_pool : forall d, In d (chip_order (pe_machine e)) -> in_pool s d;
  gi_full : nonneg -> forall d, In d (s_full s) -> wfull (abs (s_pls s)) d }.

Lemma segment_placable : forall SD A gs m, placable A -> segment SD A gs m -> placable (A ++ m).
Proof.
  intros SD A gs m P S pl c I C X. apply in_app_iff in I. destruct I as [I|I]; [eapply P; eassumption|].
  destruct (sg_on _ _ _ _ S pl I) as (d & D1 & D2 & D3 & _). unfold xy_of in D2.
  assert (c = d) by (apply mchip_inj; congruence). subst d. assumption.
Qed.

Definition run_errors (SD : Prop) (apps : list appv) (x : exn) : Prop :=
  x = NotImplemented \/
  (x = TooBig /\ exists a g, In a apps /\ In g (a_groups a) /\ ~ fits (length (fst g)) (snd g)) \/ x = NoSpace \/
  (x = ConfigurationException /\ ~ SD).

Lemma place_vertex_ginv : wf_machine -> forall (SD : Prop) s a, GInv s ->
  (SD -> coh /\ Forall covered (a_groups a)) ->
  wp (place_vertex e s a)
     (fun s' => GInv s' /\ exists m, abs (s_pls s') = abs (s_pls s) ++ m /\ segment SD (abs (s_pls s)) (a_groups a) m)
     (fun x => links_ok -> placable (abs (s_pls s)) -> Forall (fun g => unmixed (fst g)) (a_groups a) ->
        NoDup (flat_map fst (a_groups a)) ->
        (x = NotImplemented /\ exists g, In g (a_groups a) /\ half_placed (abs (s_pls s)) (fst g)) \/
        (x = TooBig /\ exists g, In g (a_groups a) /\ ~ fits (length (fst g)) (snd g)) \/ x = NoSpace \/
        (x = ConfigurationException /\ ~ SD)).
Proof.
  intros W SD s a G SDG. pose proof (place_vertex_wp W SD s a (gi_n _ G) SDG) as P.
  destruct (place_vertex e s a) as [s'|x]; cbn [wp] in *; [|exact P].
  destruct P as (N & (M1 & M2 & M3) & m & A & S). split; [|exists m; auto]. constructor.
  - assumption.
  - intros d D. apply M3, (gi_pool _ G), D.
  - intros NN d D. rewrite A. destruct (M2 d D) as [X|X].
    + apply wfull_mono; [assumption|]. apply (gi_full _ G NN), X.
    + apply wfull_mono; [assumption|]. apply is_full_wfull, X.
Qed.

Lemma place_apps_wp : wf_machine -> forall (SD : Prop) apps s, GInv s ->
  (SD -> coh /\ forall a, In a apps -> Forall covered (a_groups a)) ->
  wp (foldM (place_vertex e) s apps)
     (fun s' => GInv s' /\ run SD (abs (s_pls s)) apps (abs (s_pls s')))
     (fun x => links_ok -> placable (abs (s_pls s)) ->
        (forall a, In a apps -> Forall (fun g => unmixed (fst g)) (a_groups a) /\ NoDup (flat_map fst (a_groups a))) ->
        run_errors SD apps x).
Proof.
  intros W SD. induction apps as [|a apps IH]; intros s G SDG.
  - cbn. split; [assumption|constructor].
  - cbn [foldM]. apply wp_bind. pose proof (place_vertex_ginv W SD s a G (fun S => conj (proj1 (SDG S)) (proj2 (SDG S) a (or_introl eq_refl)))) as P.
    destruct (place_vertex e s a) as [s1|x]; cbn [wp] in *.
    2:{ intros LO PA U. destruct (U a (or_introl eq_refl)) as (U1 & U2).
        destruct (P LO PA U1 U2) as [(-> & _)|[(-> & g & X & Y)|[-> |(-> & X)]]].
        - left. reflexivity.
        - right. left. split; [reflexivity|]. exists a, g. split; [left; reflexivity|]. auto.
        - right. right. left. reflexivity.
        - right. right. right. auto. }
    destruct P as (G1 & m & A1 & S1).
    specialize (IH s1 G1 (fun S => conj (proj1 (SDG S)) (fun b B => proj2 (SDG S) b (or_intror B)))).
    destruct (foldM (place_vertex e) s1 apps) as [s2|x]; cbn [wp] in *.
    + destruct IH as (G2 & R). split; [assumption|]. econstructor; [exact S1|]. rewrite <- A1. exact R.
    + intros LO PA U. rewrite A1 in IH. destruct (IH LO) as [->|[(-> & b & g & X & Y)|X]].
      * eapply segment_placable; eassumption.
      * intros b B. apply U. right. exact B.
      * left. reflexivity.
      * right. left. split; [reflexivity|]. exists b, g. split; [right|]; assumption.
      * right. right. exact X.
Qed.

(** The whole placer. *)
Definition fixed_part (apps : list appv) (m : list placement) : Prop :=
  Forall placed_ok m /\
  (forall pl, In pl m -> exists a, In a apps /\ has_fixed e a = true /\ In (pl_v pl) (flat_map fst (a_groups a)) /\ real (pl_v pl) = true) /\
  forall a g, In a apps -> has_fixed e a = true -> In g (a_groups a) -> fixed_done m (fst g).

Lemma fixed_placable : forall A m, placable A -> Forall placed_ok m -> placable (A ++ m).
Proof.
  intros A m P S pl c I C X. apply in_app_iff in I. destruct I as [I|I]; [eapply P; eassumption|].
  rewrite Forall_forall in S. destruct (S pl I) as (d & D1 & D2 & D3). unfold xy_of in D2.
  assert (c = d) by (apply mchip_inj; congruence). subst d. assumption.
Qed.

Lemma init_ginv : wf_machine -> forall sys s p, ok sys -> init_placer e sys = Ok s -> ok p -> GInv (set_pls s p).
Proof.
  intros W sys s p O I OP. unfold init_placer in I. destruct (Z.eqb (max_cores e) 0); [discriminate|].
  injection I as <-. constructor.
  - constructor; cbn [set_pls s_pls s_full s_prep s_rest s_tried s_chips s_same s_other s_cur s_eth]; auto; try constructor.
    + now apply chip_order_mchip.
    + discriminate.
  - intros d D. right. right. right. exact D.
  - intros _ d [].
Qed.

Lemma fixed_err : forall apps s x, foldM (fixed_step e) s apps = Err x -> exists a, In a apps /\ has_fixed e a = true.
Proof.
  induction apps as [|a apps IH]; intros s x H; cbn [foldM] in H; [discriminate|].
  destruct (has_fixed e a) eqn:HF; [exists a; split; [now left|exact HF]|].
  unfold fixed_step in H at 1. rewrite HF in H. cbn [bind] in H.
  destruct (IH _ _ H) as (b & B1 & B2). exists b. split; [now right|exact B2].
Qed.

Lemma place_graph_wp : wf_machine -> set_ok -> forall (SD : Prop) sys apps, ok sys ->
  (SD -> coh /\ forall a, In a apps -> Forall covered (a_groups a)) ->
  wp (place_graph e sys apps)
     (fun p => ok p /\ exists F, fixed_part apps F /\ run SD (abs sys ++ F) apps (abs p))
     (fun x => links_ok -> placable (abs sys) ->
        (forall a, In a apps -> Forall (fun g => unmixed (fst g)) (a_groups a) /\ NoDup (flat_map fst (a_groups a))) ->
        (x = ZeroDivision /\ max_cores e = 0%Z) \/
        ((x = ConfigurationException \/ x = NotImplemented) /\ exists a, In a apps /\ has_fixed e a = true) \/
        run_errors SD apps x).
Proof.
  intros W SO SD sys apps O SDG. unfold place_graph. apply wp_bind.
  destruct (init_placer e sys) as [s|x] eqn:IN; cbn [wp].
  2:{ unfold init_placer in IN. destruct (Z.eqb_spec (max_cores e) 0); [|discriminate]. injection IN as <-. auto. }
  assert (PS : s_pls s = sys) by (unfold init_placer in IN; destruct (Z.eqb (max_cores e) 0); [discriminate|]; injection IN as <-; reflexivity).
  assert (G0 : GInv (set_pls s sys)) by (eapply init_ginv; eassumption).
  assert (E0 : set_pls s sys = s) by (rewrite <- PS; destruct s; reflexivity). rewrite E0 in G0. clear E0.
  apply wp_bind. pose proof (fixed_steps_wp W SO apps s (gi_n _ G0)) as F.
  destruct (foldM (fixed_step e) s apps) as [s1|x] eqn:FE; cbn [wp] in *.
  2:{ intros LO PA U. assert (HF : exists a, In a apps /\ has_fixed e a = true) by (eapply fixed_err; exact FE).
      right. left. split; [|exact HF]. destruct F as [->| ->]; auto. intros a A. apply U, A. }
  destruct F as (p1 & -> & O1 & m & A1 & P1 & V1 & F1). rewrite PS in A1.
  assert (G1 : GInv (set_pls s p1)) by exact (init_ginv W sys s p1 O IN O1).
  apply wp_bind. pose proof (place_apps_wp W SD apps (set_pls s p1) G1 SDG) as R. cbn [set_pls s_pls] in R.
  rewrite A1 in R.
  destruct (foldM (place_vertex e) (set_pls s p1) apps) as [s2|x]; cbn [wp] in *.
  - destruct R as (G2 & R). split; [apply G2|]. exists m. split; [|assumption]. split; [assumption|]. split; assumption.
  - intros LO PA U. right. right. apply R; [assumption| |assumption]. apply fixed_placable; assumption.
Qed.
End Env.
