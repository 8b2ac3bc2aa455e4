(** Proofs about the pair compressor model. *)
From Coq Require Import List Arith NArith ZArith Bool Lia Permutation.
From Verif Require Import Base RouteSpec KeyMask PairModel.
Import ListNotations.

Lemma aget_at : forall {A} (a : list A) y b i,
  i = length a -> aget (a ++ y :: b) i = Ok y.
Proof. intros. subst. apply aget_app. Qed.

Lemma aset_at : forall {A} (a : list A) y b i x,
  i = length a -> aset (a ++ y :: b) i x = Ok (a ++ x :: b).
Proof. intros. subst. apply aset_app. Qed.

Ltac lens := repeat (progress (rewrite ?app_length; cbn [length])); try lia.
Ltac reass := repeat (rewrite <- app_assoc || rewrite <- app_comm_cons); simpl; try reflexivity.

(** * The merge search *)

Lemma no_intersect_spec : forall mk mm b a c,
  no_intersect (a ++ b ++ c) (length a) (length b) mk mm
  = Ok (forallb (fun e => negb (intersect (e_key e) (e_mask e) mk mm)) b).
Proof.
  intros mk mm. induction b as [|e b IH]; intros a c; simpl; [reflexivity|].
  rewrite aget_app. simpl.
  destruct (intersect (e_key e) (e_mask e) mk mm); simpl; [reflexivity|].
  specialize (IH (a ++ [e]) c). rewrite app_length in IH. simpl in IH.
  rewrite <- app_assoc in IH. simpl in IH.
  rewrite Nat.add_1_r in IH. exact IH.
Qed.

Definition merged (x y : entry) : entry :=
  mkEntry (merge_key (e_key x) (e_mask x) (e_key y) (e_mask y))
          (merge_mask (e_key x) (e_mask x) (e_key y) (e_mask y))
          (e_route x) (e_def x && e_def y).

Lemma merged_ok x y : entry_ok (merged x y).
Proof. unfold entry_ok, merged; simpl. apply merge_key_ok. Qed.

(** What the compressor checks about a merged entry. *)
Definition free (ordered : bool) (pre rest : list entry) (e : entry) : Prop :=
  (forall d, In d rest -> disjoint_entries e d) /\
  (ordered = false -> forall d, In d pre -> disjoint_entries e d).

(** A merged entry that the compressor turns down meets an entry it checks. *)
Definition blocked (ordered : bool) (pre rest : list entry) (e : entry) : Prop :=
  exists d k, (In d rest \/ (ordered = false /\ In d pre)) /\
    entry_matches k d /\ entry_matches k e.

Lemma forallb_blocked m b :
  entry_ok m -> Forall entry_ok b ->
  forallb (fun e => negb (intersect (e_key e) (e_mask e) (e_key m) (e_mask m))) b = false ->
  exists d k, In d b /\ entry_matches k d /\ entry_matches k m.
Proof.
  intros Hm Hb H. induction b as [|e b IH]; [discriminate|].
  inversion Hb as [|? ? He Hb']; subst. cbn [forallb] in H.
  destruct (intersect (e_key e) (e_mask e) (e_key m) (e_mask m)) eqn:E.
  - apply intersect_iff in E; [|assumption..]. destruct E as (k & H1 & H2).
    exists e, k. split; [now left|]. split; assumption.
  - destruct IH as (d & k & Hd & M); [assumption..|].
    exists d, k. split; [now right|assumption].
Qed.

Lemma forallb_free m b :
  forallb (fun e => negb (intersect (e_key e) (e_mask e) (e_key m) (e_mask m))) b = true ->
  forall d, In d b -> disjoint_entries m d.
Proof.
  intros H d Hd. rewrite forallb_forall in H. specialize (H d Hd).
  apply negb_true_iff in H. apply disjoint_entries_sym.
  apply entry_intersect_false. exact H.
Qed.

Lemma find_merge_spec ordered prev rem pre q1 x q2 y q3 rest left index :
  let arr := q1 ++ x :: q2 ++ y :: q3 ++ rest in
  left = length q1 -> index = length (q1 ++ x :: q2) ->
  rem = length (q1 ++ x :: q2 ++ y :: q3) ->
  prev = length pre -> firstn prev arr = pre ->
  Forall entry_ok pre -> Forall entry_ok rest ->
  (find_merge ordered prev rem arr left index = Ok None
   /\ blocked ordered pre rest (merged x y)) \/
  (find_merge ordered prev rem arr left index
     = Ok (Some (q1 ++ merged x y :: q2 ++ y :: q3 ++ rest))
   /\ free ordered pre rest (merged x y)).
Proof.
  intros arr Hl Hi Hr Hp Hf Okp Okr. unfold find_merge.
  assert (G1 : aget arr left = Ok x) by (unfold arr; now apply aget_at).
  assert (G2 : aget arr index = Ok y).
  { unfold arr.
    replace (q1 ++ x :: q2 ++ y :: q3 ++ rest)
      with ((q1 ++ x :: q2) ++ y :: q3 ++ rest) by reass.
    now apply aget_at. }
  rewrite G1, G2. cbn [bind].
  set (m := merged x y).
  assert (E1 : no_intersect arr 0 prev (e_key m) (e_mask m)
     = Ok (forallb (fun e => negb (intersect (e_key e) (e_mask e) (e_key m) (e_mask m))) pre)).
  { assert (Ea : arr = [] ++ pre ++ skipn prev arr).
    { simpl. rewrite <- Hf at 1. symmetry. apply firstn_skipn. }
    rewrite Ea at 1. rewrite Hp at 2. apply (no_intersect_spec _ _ pre []). }
  assert (E2 : no_intersect arr rem (length arr - rem) (e_key m) (e_mask m)
     = Ok (forallb (fun e => negb (intersect (e_key e) (e_mask e) (e_key m) (e_mask m))) rest)).
  { pose proof (no_intersect_spec (e_key m) (e_mask m) rest (q1 ++ x :: q2 ++ y :: q3) []) as E.
    rewrite app_nil_r in E. rewrite <- E. f_equal.
    - unfold arr. reass.
    - assumption.
    - unfold arr. rewrite Hr. lens. }
  change (merge_key (e_key x) (e_mask x) (e_key y) (e_mask y)) with (e_key m).
  change (merge_mask (e_key x) (e_mask x) (e_key y) (e_mask y)) with (e_mask m).
  rewrite E1, E2.
  assert (Hset : aset arr left m = Ok (q1 ++ m :: q2 ++ y :: q3 ++ rest)).
  { unfold arr. now apply aset_at. }
  change (mkEntry (e_key m) (e_mask m) (e_route x) (e_def x && e_def y)) with m.
  pose proof (forallb_blocked m rest (merged_ok x y) Okr) as B1.
  pose proof (forallb_blocked m pre (merged_ok x y) Okp) as B2.
  destruct ordered; cbn [bind].
  - destruct (forallb _ rest) eqn:F;
      [|left; split; [reflexivity|destruct (B1 eq_refl) as (d & k & Hd & M);
                                  exists d, k; auto]].
    right. rewrite Hset. cbn [bind].
    split; [reflexivity|]. split; [|discriminate].
    change (forall d, In d rest -> disjoint_entries m d).
    now apply forallb_free.
  - destruct (forallb _ pre) eqn:F0;
      [|left; split; [reflexivity|destruct (B2 eq_refl) as (d & k & Hd & M);
                                  exists d, k; auto]].
    destruct (forallb _ rest) eqn:F;
      [|left; split; [reflexivity|destruct (B1 eq_refl) as (d & k & Hd & M);
                                  exists d, k; auto]].
    right. rewrite Hset. cbn [bind].
    split; [reflexivity|].
    change (free false pre rest m). split; [|intros _]; now apply forallb_free.
Qed.

Lemma scan_merge_spec : forall ordered prev rem pre rest q1 x s2 s1 q3 left index,
  left = length q1 -> index = length (q1 ++ x :: s1) ->
  rem = length (q1 ++ x :: s1 ++ s2 ++ q3) ->
  prev = length pre -> prev <= length q1 -> firstn prev q1 = pre ->
  Forall entry_ok pre -> Forall entry_ok rest ->
  (scan_merge ordered prev rem (q1 ++ x :: s1 ++ s2 ++ q3 ++ rest) left index (length s2)
     = Ok None
   /\ (forall y, In y s2 -> blocked ordered pre rest (merged x y))) \/
  exists u y v, s2 = u ++ y :: v /\
    scan_merge ordered prev rem (q1 ++ x :: s1 ++ s2 ++ q3 ++ rest) left index (length s2)
    = Ok (Some (q1 ++ merged x y :: s1 ++ s2 ++ q3 ++ rest, length (q1 ++ x :: s1 ++ u)))
    /\ free ordered pre rest (merged x y).
Proof.
  intros ordered prev rem pre rest q1 x.
  induction s2 as [|y s2 IH]; intros s1 q3 left index Hl Hi Hr Hp Hle Hf Okp Okr; simpl.
  - left. split; [reflexivity|intros y []].
  - pose proof (find_merge_spec ordered prev rem pre q1 x s1 y (s2 ++ q3) rest left index) as FM.
    simpl in FM. rewrite <- app_assoc in FM.
    destruct FM as [[FM Bl]|[FM Fr]]; auto.
    { rewrite firstn_app. replace (prev - length q1) with 0 by lia.
      simpl. now rewrite app_nil_r. }
    + rewrite FM. simpl.
      specialize (IH (s1 ++ [y]) q3 left (S index)).
      replace ((s1 ++ [y]) ++ s2 ++ q3 ++ rest) with (s1 ++ y :: s2 ++ q3 ++ rest) in IH by reass.
      destruct IH as [[IH IB]|(u & z & v & -> & IH & Fr)]; auto.
      { rewrite Hi. lens. }
      { rewrite Hr. lens. }
      { left. split; [assumption|]. intros z [<-|Hz]; auto. }
      right. exists (y :: u), z, v. split; [reflexivity|]. split; [|assumption].
      rewrite IH. f_equal. f_equal. f_equal; try reass; lens.
    + right. exists [], y, s2. split; [reflexivity|]. split; [|assumption].
      rewrite FM. simpl. rewrite app_nil_r, Hi. reflexivity.
Qed.

(** * One run of equal routes *)

(** Entry [e] matches every key that [d] matches. *)
Definition covers (e d : entry) : Prop := forall k, entry_matches k d -> entry_matches k e.

Lemma merged_covers x y e :
  entry_ok x -> entry_ok y -> entry_ok e -> covers e y -> covers (merged x e) (merged x y).
Proof.
  intros Hx Hy He C k M. unfold entry_matches, key_matches in *.
  apply (merge_minimal (e_key x) (e_mask x) (e_key y) (e_mask y)
           (e_key (merged x e)) (e_mask (merged x e))); auto.
  - intros k' H. apply merge_covers_l; auto.
  - intros k' H. apply merge_covers_r; auto. now apply C.
Qed.

Lemma by_route_spec : forall fuel ordered prev pre rem rest r seg0 out junk seg junk2,
  rem = length (out ++ junk ++ seg ++ junk2) ->
  prev = length pre -> prev <= length out -> firstn prev out = pre ->
  Forall entry_ok pre -> Forall entry_ok rest ->
  seg <> [] -> length seg <= fuel ->
  (forall e, In e seg -> entry_ok e /\ e_route e = r /\
     (In e seg0 \/ free ordered pre rest e)) ->
  exists new junk',
    compress_by_route fuel ordered prev rem (out ++ junk ++ seg ++ junk2 ++ rest)
      (length out) (length (out ++ junk)) (length (out ++ junk ++ seg) - 1)
    = Ok (out ++ new ++ junk' ++ rest, length (out ++ new))
    /\ length (new ++ junk') = length (junk ++ seg ++ junk2)
    /\ length new <= length seg
    /\ (forall e, In e new -> entry_ok e /\ e_route e = r /\
          (In e seg0 \/ free ordered pre rest e))
    /\ (forall e, In e seg -> exists e', In e' new /\ covers e' e /\ (e_def e' = true -> e_def e = true))
    /\ (forall e', In e' new -> exists e, In e seg /\ covers e' e)
    /\ ForallOrdPairs (fun a b => blocked ordered pre rest (merged a b)) new.
Proof.
  induction fuel as [|fuel IH];
    intros ordered prev pre rem rest r seg0 out junk seg junk2 Hrem Hp Hle Hf Okp Okr
      Hne Hfuel Hseg.
  - destruct seg; [congruence|simpl in Hfuel; lia].
  - destruct seg as [|x s]; [congruence|]. clear Hne.
    simpl compress_by_route.
    destruct s as [|y0 s0].
    + (* one entry left *)
      replace (length (out ++ junk ++ [x]) - 1) with (length (out ++ junk)) by lens.
      rewrite Nat.ltb_irrefl, Nat.eqb_refl.
      change (x :: [] ++ junk2 ++ rest) with (x :: junk2 ++ rest).
      replace (out ++ junk ++ x :: junk2 ++ rest)
        with ((out ++ junk) ++ x :: junk2 ++ rest) by reass.
      rewrite aget_app. simpl.
      destruct junk as [|j junk].
      * rewrite app_nil_r. rewrite aset_app. simpl.
        exists [x], junk2. split; [|split; [|split; [|split; [|split; [|split]]]]].
        -- f_equal. f_equal. lens.
        -- reflexivity.
        -- simpl; lia.
        -- assumption.
        -- intros e He. exists e. split; [assumption|split; [intros k; auto|auto]].
        -- intros e He. exists e. split; [assumption|intros k; auto].
        -- repeat constructor.
      * replace ((out ++ j :: junk) ++ x :: junk2 ++ rest)
          with (out ++ j :: junk ++ x :: junk2 ++ rest) by reass.
        rewrite aset_app. simpl.
        exists [x], (junk ++ x :: junk2). split; [|split; [|split; [|split; [|split; [|split]]]]].
        -- f_equal. f_equal; [simpl; reass|lens].
        -- simpl. reflexivity.
        -- simpl; lia.
        -- assumption.
        -- intros e He. exists e. split; [assumption|split; [intros k; auto|auto]].
        -- intros e He. exists e. split; [assumption|intros k; auto].
        -- repeat constructor.
    + (* at least two *)
      assert (Hs1 : 1 <= length (y0 :: s0)) by (simpl; lia).
      remember (y0 :: s0) as s eqn:Es0. clear Es0 y0 s0.
      replace (length (out ++ junk ++ x :: s) - 1) with (length (out ++ junk) + length s)
        by (lens).
      destruct (Nat.ltb_spec (length (out ++ junk)) (length (out ++ junk) + length s));
        [|simpl in *; lia].
      replace (length (out ++ junk) + length s - length (out ++ junk))
        with (length s) by lia.
      pose proof (scan_merge_spec ordered prev rem pre rest (out ++ junk) x s [] junk2
                    (length (out ++ junk)) (S (length (out ++ junk)))) as SM.
      simpl app in SM.
      replace ((out ++ junk) ++ x :: s ++ junk2 ++ rest)
        with (out ++ junk ++ (x :: s) ++ junk2 ++ rest) in SM by reass.
      destruct SM as [[SM Bl]|(u & y & v & Es & SM & Fr)]; auto.
      { lens. }
      { rewrite Hrem. lens. }
      { lens. }
      { rewrite firstn_app. replace (prev - length out) with 0 by lia. simpl.
        now rewrite app_nil_r. }
      * (* nothing merges with x: write it *)
        change (out ++ junk ++ x :: s ++ junk2 ++ rest)
          with (out ++ junk ++ (x :: s) ++ junk2 ++ rest).
        rewrite SM. cbn [bind].
        replace (out ++ junk ++ (x :: s) ++ junk2 ++ rest)
          with ((out ++ junk) ++ x :: s ++ junk2 ++ rest) by reass.
        rewrite aget_app. cbn [bind].
        assert (Hset : exists junk1,
          aset ((out ++ junk) ++ x :: s ++ junk2 ++ rest) (length out) x
          = Ok ((out ++ [x]) ++ junk1 ++ s ++ junk2 ++ rest)
          /\ length junk1 = length junk).
        { destruct junk as [|j junk].
          - exists []. rewrite app_nil_r, aset_app. split; [f_equal; reass|reflexivity].
          - exists (junk ++ [x]).
            replace ((out ++ j :: junk) ++ x :: s ++ junk2 ++ rest)
              with (out ++ j :: junk ++ x :: s ++ junk2 ++ rest) by reass.
            rewrite aset_app. split; [f_equal; reass|lens]. }
        destruct Hset as (junk1 & -> & Hj1). cbn [bind].
        specialize (IH ordered prev pre rem rest r seg0 (out ++ [x]) junk1 s junk2).
        destruct IH as (new & junk' & E & L1 & L2 & P1 & P2 & P3 & P4).
        { rewrite Hrem. lens. }
        { assumption. }
        { lens. }
        { rewrite firstn_app. replace (prev - length out) with 0 by lia. simpl.
          now rewrite app_nil_r. }
        { assumption. }
        { assumption. }
        { destruct s; [simpl in Hs1; lia|discriminate]. }
        { simpl in *. lia. }
        { intros e He. apply Hseg. now right. }
        exists (x :: new), junk'. split; [|split; [|split; [|split; [|split; [|split]]]]].
        -- replace (length (out ++ [x])) with (S (length out)) in E by lens.
           replace (S (length (out ++ junk))) with (length ((out ++ [x]) ++ junk1)) by lens.
           replace (length (out ++ junk) + length s)
             with (length ((out ++ [x]) ++ junk1 ++ s) - 1)
             by (lens).
           rewrite E. f_equal. f_equal; [reass|lens].
        -- revert L1. simpl. lens.
        -- simpl in *. lia.
        -- intros e [<-|He]; [apply Hseg; now left|now apply P1].
        -- intros e [<-|He]; [exists x; split; [now left|split; [intros k; auto|auto]]|].
           destruct (P2 e He) as (e' & He' & M').
           exists e'. split; [now right|assumption].
        -- intros e [<-|He]; [exists x; split; [now left|intros k; auto]|].
           destruct (P3 e He) as (e' & He' & M').
           exists e'. split; [now right|assumption].
        -- constructor; [|assumption]. apply Forall_forall. intros e He.
           destruct (P3 e He) as (y & Hy & C).
           destruct (Bl y Hy) as (d & k & Hd & Md & Mm).
           exists d, k. split; [assumption|]. split; [assumption|].
           eapply merged_covers; [| | |exact C|exact Mm].
           ++ apply Hseg. now left.
           ++ apply Hseg. now right.
           ++ now apply P1.
      * (* merged with y *)
        change (out ++ junk ++ x :: s ++ junk2 ++ rest)
          with (out ++ junk ++ (x :: s) ++ junk2 ++ rest).
        rewrite SM. cbn [bind]. clear SM.
        set (m := merged x y) in *.
        assert (Hshape : exists seg1 junk21,
          (let* x0 := aget ((out ++ junk) ++ m :: s ++ junk2 ++ rest)
                        (length (out ++ junk) + length s) in
           aset ((out ++ junk) ++ m :: s ++ junk2 ++ rest)
             (length ((out ++ junk) ++ x :: u)) x0)
          = Ok (out ++ junk ++ (m :: seg1) ++ junk21 ++ rest)
          /\ length junk21 = S (length junk2)
          /\ length s = S (length seg1)
          /\ (forall e, In e seg1 -> In e s)
          /\ (forall e, In e s -> e = y \/ In e seg1)).
        { rewrite Es. destruct (rev v) as [|l v'] eqn:Ev.
          - assert (v = []) by (rewrite <- (rev_involutive v), Ev; reflexivity). subst v.
            exists u, (y :: junk2).
            replace ((out ++ junk) ++ m :: (u ++ [y]) ++ junk2 ++ rest)
              with (((out ++ junk) ++ m :: u) ++ y :: junk2 ++ rest) by reass.
            rewrite aget_at by lens. cbn [bind].
            rewrite aset_at by lens.
            split; [|split; [|split; [|split]]].
            + f_equal. reass.
            + lens.
            + lens.
            + intros e He. apply in_or_app. now left.
            + intros e He. apply in_app_or in He. destruct He as [He|[He|[]]]; auto.
          - assert (v = rev v' ++ [l]) by
              (rewrite <- (rev_involutive v), Ev; reflexivity). subst v.
            exists (u ++ l :: rev v'), (l :: junk2).
            replace ((out ++ junk) ++ m :: (u ++ y :: rev v' ++ [l]) ++ junk2 ++ rest)
              with (((out ++ junk) ++ m :: u ++ y :: rev v') ++ l :: junk2 ++ rest) by reass.
            rewrite aget_at by lens. cbn [bind].
            replace (((out ++ junk) ++ m :: u ++ y :: rev v') ++ l :: junk2 ++ rest)
              with (((out ++ junk) ++ m :: u) ++ y :: rev v' ++ l :: junk2 ++ rest) by reass.
            rewrite aset_at by lens.
            split; [|split; [|split; [|split]]].
            + f_equal. reass.
            + lens.
            + lens.
            + intros e He. apply in_app_or in He. apply in_or_app.
              destruct He as [He|[He|He]]; auto; right; right; apply in_or_app; auto.
              right. now left.
            + intros e He. apply in_app_or in He.
              destruct He as [He|[He|He]]; auto.
              * right. apply in_or_app. now left.
              * right. apply in_or_app. right. apply in_app_or in He.
                destruct He as [He|[He|[]]]; [now right|now left]. }
        destruct Hshape as (seg1 & junk21 & Hset & Lj & Ls & Sub & Sup).
        cbn [bind].
        destruct (aget ((out ++ junk) ++ m :: s ++ junk2 ++ rest)
                        (length (out ++ junk) + length s)) as [x0|e0] eqn:Eg;
          [|simpl in Hset; discriminate].
        cbn [bind] in Hset |- *. rewrite Hset. cbn [bind].
        assert (Hx : entry_ok x /\ e_route x = r) by (split; apply Hseg; now left).
        assert (Hy : entry_ok y /\ e_route y = r).
        { assert (In y s) by (rewrite Es; apply in_or_app; right; now left).
          split; apply Hseg; now right. }
        specialize (IH ordered prev pre rem rest r seg0 out junk (m :: seg1) junk21).
        destruct IH as (new & junk' & E & L1 & L2 & P1 & P2 & P3 & P4); auto.
        { rewrite Hrem. lens. }
        { discriminate. }
        { simpl in *. lia. }
        { intros e [<-|He].
          - split; [apply merged_ok|]. split; [apply Hx|]. right. assumption.
          - apply Hseg. right. now apply Sub. }
        exists new, junk'. split; [|split; [|split; [|split; [|split; [|split]]]]].
        -- replace (length (out ++ junk) + length s - 1)
             with (length (out ++ junk ++ m :: seg1) - 1) by lens.
           exact E.
        -- rewrite L1. lens.
        -- simpl in *. lia.
        -- assumption.
        -- destruct (P2 m) as (m' & Hm' & Cm & Dm); [now left|].
           assert (Dxy : e_def m' = true -> e_def x = true /\ e_def y = true).
           { intros D. apply andb_true_iff. exact (Dm D). }
           intros e [<-|He].
           ++ exists m'. split; [assumption|]. split; [|intros D; apply Dxy, D]. intros k M. apply Cm.
              apply merge_covers_l; [apply Hy|exact M].
           ++ destruct (Sup e He) as [->|He'].
              ** exists m'. split; [assumption|]. split; [|intros D; apply Dxy, D]. intros k M. apply Cm.
                 apply merge_covers_r; [apply Hx|exact M].
              ** apply P2. now right.
        -- intros e' He'. destruct (P3 e' He') as (e & [<-|He] & C).
           ++ exists x. split; [now left|]. intros k M. apply C.
              apply merge_covers_l; [apply Hy|exact M].
           ++ exists e. split; [right; now apply Sub|assumption].
        -- assumption.
Qed.

(** * The run finder *)
Lemma find_right_spec : forall fuel b a x s,
  length b < fuel ->
  (forall e, In e s -> e_route e = e_route x) ->
  exists s2 b2, b = s2 ++ b2 /\
    find_right fuel (a ++ x :: s ++ b) (length a) (length a + length s)
    = Ok (length a + length (s ++ s2)) /\
    (forall e, In e (s ++ s2) -> e_route e = e_route x) /\
    (forall y b3, b2 = y :: b3 -> e_route y <> e_route x).
Proof.
  induction fuel as [|fuel IH]; intros b a x s Hf Hs; [lia|]. simpl.
  destruct b as [|y b].
  - exists [], []. split; [reflexivity|].
    destruct (Nat.ltb_spec (S (length a + length s)) (length (a ++ x :: s ++ [])));
      [revert H; lens|].
    rewrite !app_nil_r. split; [reflexivity|]. split; [assumption|discriminate].
  - destruct (Nat.ltb_spec (S (length a + length s)) (length (a ++ x :: s ++ y :: b)));
      [|revert H; lens].
    replace (a ++ x :: s ++ y :: b) with ((a ++ x :: s) ++ y :: b) by reass.
    rewrite aget_at by lens. cbn [bind].
    replace ((a ++ x :: s) ++ y :: b) with (a ++ x :: s ++ y :: b) by reass.
    rewrite aget_app. cbn [bind].
    destruct (N.eqb_spec (e_route y) (e_route x)) as [Ey|Ey].
    + destruct (IH b a x (s ++ [y])) as (s2 & b2 & -> & E & P).
      { simpl in Hf. lia. }
      { intros e He. apply in_app_or in He. destruct He as [He|[<-|[]]]; auto. }
      exists (y :: s2), b2. split; [reflexivity|].
      replace (s ++ y :: s2) with ((s ++ [y]) ++ s2) by reass.
      split; [|assumption]. rewrite <- E.
      f_equal; [reass|lens].
    + exists [], (y :: b). rewrite app_nil_r. split; [reflexivity|].
      split; [reflexivity|]. split; [assumption|]. intros y' b3 [= <- _]. assumption.
Qed.

(** * The main loop *)

Definition loop_inv (ordered : bool) (done out rest : list entry) : Prop :=
  (forall e k, In e done -> entry_matches k e -> routes_to out k (e_route e)) /\
  (forall o d k, In o out -> In d rest -> entry_matches k o -> entry_matches k d ->
     e_route o = e_route d) /\
  (ordered = false -> route_consistent out) /\
  (forall o, In o out -> exists d, In d done /\ e_route d = e_route o) /\
  Forall entry_ok out.

Lemma routes_to_app_l t1 t2 k r : routes_to t1 k r -> routes_to (t1 ++ t2) k r.
Proof.
  intros (e & H & R). exists e. split; [|assumption].
  rewrite first_match_app, H. reflexivity.
Qed.

Lemma loop_spec : forall fuel ordered out junk rest done,
  length rest < fuel ->
  Forall entry_ok rest ->
  route_consistent (done ++ rest) ->
  loop_inv ordered done out rest ->
  exists arr w,
    compress_loop fuel ordered (out ++ junk ++ rest) (length out) (length (out ++ junk))
    = Ok (arr, w)
    /\ w <= length out + length rest
    /\ loop_inv ordered (done ++ rest) (firstn w arr) [].
Proof.
  induction fuel as [|fuel IH]; intros ordered out junk rest done Hfuel Hok RC INV; [lia|].
  cbn [compress_loop]. destruct rest as [|x b].
  - destruct (Nat.ltb_spec (length (out ++ junk)) (length (out ++ junk ++ [])));
      [revert H; lens|].
    exists (out ++ junk ++ []), (length out). split; [reflexivity|].
    split; [simpl; lia|]. rewrite !app_nil_r.
    rewrite firstn_app, Nat.sub_diag, firstn_all. simpl. now rewrite app_nil_r.
  - destruct (Nat.ltb_spec (length (out ++ junk)) (length (out ++ junk ++ x :: b)));
      [clear H|revert H; lens].
    destruct (find_right_spec (S (length (out ++ junk ++ x :: b))) b (out ++ junk) x [])
      as (s2 & b2 & -> & FR & Rt & _); [lens|intros e []|].
    simpl app in FR. replace ((out ++ junk) ++ x :: s2 ++ b2)
      with (out ++ junk ++ x :: s2 ++ b2) in FR by reass.
    rewrite Nat.add_0_r in FR. simpl app in Rt.
    rewrite FR. cbn [bind].
    set (seg := x :: s2) in *.
    destruct INV as (I1 & I2 & I3 & I4 & I5).
    destruct (by_route_spec (S (S (length (out ++ junk) + length s2) - length (out ++ junk)))
                ordered (length out) out (length (out ++ junk ++ seg ++ [])) b2 (e_route x)
                seg out junk seg [])
      as (new & junk' & E & L1 & L2 & P1 & P2 & _ & _); auto.
    { apply firstn_all. }
    { change (x :: s2 ++ b2) with (seg ++ b2) in Hok. apply Forall_app in Hok. tauto. }
    { discriminate. }
    { unfold seg. cbn [length]. lia. }
    { intros e He. split; [|split].
      - rewrite Forall_forall in Hok. apply Hok.
        change (x :: s2 ++ b2) with (seg ++ b2). apply in_or_app; now left.
      - destruct He as [<-|He]; [reflexivity|now apply Rt].
      - now left. }
    assert (E' : compress_by_route
        (S (S (length (out ++ junk) + length s2) - length (out ++ junk))) ordered
        (length out) (S (length (out ++ junk) + length s2))
        (out ++ junk ++ x :: s2 ++ b2) (length out) (length (out ++ junk))
        (length (out ++ junk) + length s2)
      = Ok (out ++ new ++ junk' ++ b2, length (out ++ new))).
    { rewrite <- E. f_equal; unfold seg; try reass; lens. }
    rewrite E'. cbn [bind].
    destruct (IH ordered (out ++ new) junk' b2 (done ++ seg)) as (arr & w & E2 & Lw & INV').
    { revert Hfuel. simpl. lens. }
    { change (x :: s2 ++ b2) with (seg ++ b2) in Hok. apply Forall_app in Hok. tauto. }
    { replace ((done ++ seg) ++ b2) with (done ++ x :: s2 ++ b2) by reass. assumption. }
    { (* invariant step *)
      assert (Hnr : forall e, In e new -> e_route e = e_route x) by (intros e0 He0; destruct (P1 e0 He0) as (_ & ? & _); assumption).
      assert (Hsr : forall e, In e seg -> e_route e = e_route x).
      { intros e [<-|He]; [reflexivity|now apply Rt]. }
      split; [|split; [|split; [|split]]].
      - intros e k He M. apply in_app_or in He. destruct He as [He|He].
        + apply routes_to_app_l. now apply I1.
        + destruct (first_match out k) as [o|] eqn:Fo.
          * exists o. rewrite first_match_app, Fo. split; [reflexivity|].
            apply first_match_Some in Fo. destruct Fo as [Ho Mo].
            apply (I2 o e k); auto. change (x :: s2 ++ b2) with (seg ++ b2).
            apply in_or_app. now left.
          * destruct (P2 e He) as (e' & He' & M' & _).
            destruct (first_match_exists new k e' He' (M' k M)) as (e2 & F2).
            exists e2. rewrite first_match_app, Fo. split; [assumption|].
            apply first_match_Some in F2. rewrite (Hnr e2) by tauto. symmetry. now apply Hsr.
      - intros o d k Ho Hd Mo Md. apply in_app_or in Ho. destruct Ho as [Ho|Ho].
        + apply (I2 o d k); auto. change (x :: s2 ++ b2) with (seg ++ b2).
          apply in_or_app. now right.
        + destruct (P1 o Ho) as (_ & _ & [Hs|[Fr _]]).
          * apply (RC o d k); auto.
            -- apply in_or_app. right. change (x :: s2 ++ b2) with (seg ++ b2).
               apply in_or_app. now left.
            -- apply in_or_app. right. change (x :: s2 ++ b2) with (seg ++ b2).
               apply in_or_app. now right.
          * exfalso. apply (Fr d Hd k). auto.
      - intros Ho. specialize (I3 Ho).
        assert (C : forall a n k, In a out -> In n new -> entry_matches k a ->
                  entry_matches k n -> e_route a = e_route n).
        { intros a n k Ha Hn Ma Mn. destruct (P1 n Hn) as (_ & _ & [Hs|[_ Fr]]).
          - apply (I2 a n k); auto. change (x :: s2 ++ b2) with (seg ++ b2).
            apply in_or_app. now left.
          - exfalso. apply (Fr Ho a Ha k). auto. }
        intros a b k Ha Hb Ma Mb. apply in_app_or in Ha. apply in_app_or in Hb.
        destruct Ha as [Ha|Ha], Hb as [Hb|Hb].
        + now apply (I3 a b k).
        + now apply (C a b k).
        + symmetry. now apply (C b a k).
        + now rewrite (Hnr a), (Hnr b) by assumption.
      - intros o Ho. apply in_app_or in Ho. destruct Ho as [Ho|Ho].
        + destruct (I4 o Ho) as (d & Hd & Ed). exists d. split; [|assumption].
          apply in_or_app. now left.
        + exists x. split; [apply in_or_app; right; now left|].
          symmetry. now apply Hnr.
      - apply Forall_app. split; [assumption|]. apply Forall_forall. intros e He.
        now apply P1. }
    exists arr, w. split; [|split].
    + replace ((out ++ new) ++ junk' ++ b2) with (out ++ new ++ junk' ++ b2) in E2 by reass.
      rewrite <- E2. f_equal.
      revert L1. unfold seg. lens.
    + revert Lw L2. unfold seg. simpl. lens.
    + replace (done ++ x :: s2 ++ b2) with ((done ++ seg) ++ b2) by reass. assumption.
Qed.
