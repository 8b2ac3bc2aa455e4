(** Proofs about the splitters and the partitioner. *)
From Coq Require Import List ZArith Bool Lia.
From Verif Require Import Base Dict SdramModel SdramProofs SliceModel SliceProofs SplitterModel.
Import ListNotations.

(** What one sees of a machine vertex. *)
Definition desc (m : mvertex) : slice * Z * role := (mv_slice m, mv_sdram m, mv_role m).

(** Every machine vertex knows its position. *)
Definition indexed (x : vertex) : Prop :=
  forall i m, nth_error (v_mvs x) i = Some m -> dget Nat.eqb (v_index x) (mv_id m) = Some i.

Definition old_ids (x : vertex) (l : list mvertex) : Prop :=
  Forall (fun m => (mv_id m < v_next x)%nat) l.

Definition whole (x : vertex) (sl : slice) : Prop := make_slice 0 (av_n (v_av x) - 1) = Ok sl.

Definition is_device (x : vertex) : Prop :=
  match v_kind x with Fpga _ _ _ | Link _ _ _ => True | _ => False end.

(** The vertex of a device's outgoing connection, if it has one. *)
Definition out_ok (x : vertex) (o : option mvertex) : Prop :=
  match device_out x with
  | None => o = None
  | Some c => exists m sl, o = Some m /\ whole x sl /\ desc m = (sl, 0%Z, ToDevice c)
  end.

(** The state of a vertex and its splitter before and after partitioning;
    [seen]: a reset has happened at some time. *)
Definition pair_ok (clean seen : bool) (x : vertex) (y : splitter) : Prop :=
  match s_kind y with
  | SFixed c =>
      exists f, v_kind x = Legacy f /\
      if clean then c = None /\ v_mvs x = []
      else exists l, c = Some l /\ multi_slices (v_av x) = Ok l /\
           map desc (v_mvs x) = map (fun sl => (sl, f sl, Core)) l /\
           NoDup (map mv_id (v_mvs x)) /\ indexed x
  | SOne None => False
  | SOne (Some m) =>
      exists f sl, v_kind x = Legacy f /\ whole x sl /\ desc m = (sl, f sl, Core) /\
      ((v_mvs x = [m] /\ indexed x) \/ (seen = true /\ v_mvs x = []))
  | SOneApp => exists m, v_kind x = OneApp m /\ v_mvs x = [m] /\ indexed x
  | SExt l o =>
      is_device x /\ out_ok x o /\
      (exists parts, device_parts x = Ok parts /\
         map desc l = map (fun p => (fst p, 0%Z, FromDevice (snd p))) parts) /\
      NoDup (map mv_id (l ++ opt_list o)) /\ old_ids x (l ++ opt_list o) /\
      if clean then v_mvs x = [] else v_mvs x = l ++ opt_list o /\ indexed x
  end.

Definition lone_ok (x : vertex) : Prop :=
  match v_kind x with
  | OneApp m => v_mvs x = [m] /\ indexed x
  | _ => v_mvs x = []
  end.

Definition wv (w : world) (v : nat) := nth_error (w_verts w) v.
Definition ws (w : world) (s : nat) := nth_error (w_splits w) s.

Record Inv (ph : nat -> bool) (seen : bool) (w : world) : Prop := mkInv {
  i_pair : forall v x s, wv w v = Some x -> v_split x = Some s ->
    exists y, ws w s = Some y /\ s_gov y = Some v /\ pair_ok (ph v) seen x y;
  i_lone : forall v x, wv w v = Some x -> v_split x = None -> ph v = true /\ lone_ok x;
  i_back : forall s y v, ws w s = Some y -> s_gov y = Some v ->
    exists x, wv w v = Some x /\ v_split x = Some s;
  i_free : forall s y, ws w s = Some y -> s_gov y = None -> exists c, y = fresh_splitter c;
  i_ids : forall v x, wv w v = Some x -> old_ids x (v_mvs x) }.

Lemma wv_upd : forall (l : list vertex) v x u, (v < length l)%nat ->
  nth_error (upd l v x) u = if Nat.eqb u v then Some x else nth_error l u.
Proof.
  intros. destruct (Nat.eqb_spec u v) as [->|N].
  - apply nth_error_upd_eq. assumption.
  - apply nth_error_upd_neq. congruence.
Qed.
Lemma ws_upd : forall (l : list splitter) v x u, (v < length l)%nat ->
  nth_error (upd l v x) u = if Nat.eqb u v then Some x else nth_error l u.
Proof.
  intros. destruct (Nat.eqb_spec u v) as [->|N].
  - apply nth_error_upd_eq. assumption.
  - apply nth_error_upd_neq. congruence.
Qed.
Lemma nth_lt : forall {A} (l : list A) i x, nth_error l i = Some x -> (i < length l)%nat.
Proof. intros. apply nth_error_Some. congruence. Qed.

(** Replacing an attached vertex and its splitter. *)
Lemma Inv_update : forall ph ph' seen w w' v s x y x' y',
  Inv ph seen w ->
  wv w v = Some x -> ws w s = Some y ->
  (v_split x = Some s \/ (v_split x = None /\ s_gov y = None)) ->
  w_verts w' = upd (w_verts w) v x' -> w_splits w' = upd (w_splits w) s y' ->
  v_split x' = Some s -> s_gov y' = Some v -> pair_ok (ph' v) seen x' y' ->
  old_ids x' (v_mvs x') ->
  (forall u, u <> v -> ph' u = ph u) ->
  Inv ph' seen w'.
Proof.
  intros ph ph' seen w w' v s x y x' y' H Hx Hy Hatt Ev Es Hs' Hg' Hok Hid Hph.
  pose proof (nth_lt _ _ _ Hx) as Lv. pose proof (nth_lt _ _ _ Hy) as Ls.
  assert (Hv : forall u, wv w' u = if Nat.eqb u v then Some x' else wv w u)
    by (intro; unfold wv; rewrite Ev; apply wv_upd; exact Lv).
  assert (Hsp : forall t, ws w' t = if Nat.eqb t s then Some y' else ws w t)
    by (intro; unfold ws; rewrite Es; apply ws_upd; exact Ls).
  constructor.
  - intros u z t Hu Ht. rewrite Hv in Hu. destruct (Nat.eqb_spec u v) as [->|N].
    + injection Hu as <-. assert (t = s) by congruence. subst t.
      exists y'. rewrite Hsp, Nat.eqb_refl. auto.
    + destruct (i_pair _ _ _ H u z t Hu Ht) as (y0 & A & B & C).
      exists y0. rewrite Hsp. destruct (Nat.eqb_spec t s) as [->|N2].
      * exfalso. assert (y0 = y) by congruence. subst y0.
        destruct Hatt as [E|[E1 E2]]; [|congruence].
        destruct (i_pair _ _ _ H v x s Hx E) as (y1 & A1 & B1 & _). congruence.
      * rewrite Hph by assumption. auto.
  - intros u z Hu Ht. rewrite Hv in Hu. destruct (Nat.eqb_spec u v) as [->|N].
    + injection Hu as <-. congruence.
    + rewrite Hph by assumption. exact (i_lone _ _ _ H u z Hu Ht).
  - intros t z u Ht Hu. rewrite Hsp in Ht. destruct (Nat.eqb_spec t s) as [->|N].
    + injection Ht as <-. assert (u = v) by congruence. subst u.
      exists x'. rewrite Hv, Nat.eqb_refl. auto.
    + destruct (i_back _ _ _ H t z u Ht Hu) as (x0 & A & B).
      exists x0. rewrite Hv. destruct (Nat.eqb_spec u v) as [->|N2]; [|auto].
      exfalso. assert (x0 = x) by congruence. subst x0.
      destruct Hatt as [E|[E1 E2]]; congruence.
  - intros t z Ht Hu. rewrite Hsp in Ht. destruct (Nat.eqb_spec t s) as [->|N].
    + injection Ht as <-. congruence.
    + exact (i_free _ _ _ H t z Ht Hu).
  - intros u z Hu. rewrite Hv in Hu. destruct (Nat.eqb_spec u v) as [->|N].
    + injection Hu as <-. exact Hid.
    + exact (i_ids _ _ _ H u z Hu).
Qed.

Lemma Inv_same : forall ph ph' seen seen' w w', Inv ph seen w ->
  w_verts w' = w_verts w -> w_splits w' = w_splits w ->
  (forall u, (u < length (w_verts w))%nat -> ph' u = ph u) ->
  (seen = true -> seen' = true) -> Inv ph' seen' w'.
Proof.
  intros ph ph' seen seen' w w' H Ev Es Hp Hs. destruct H as [A B C D E].
  unfold wv, ws in *.
  constructor; unfold wv, ws; rewrite ?Ev, ?Es; auto.
  - intros v x s Hv Hx. destruct (A v x s Hv Hx) as (y & Y1 & Y2 & Y3).
    exists y. split; [exact Y1|]. split; [exact Y2|].
    rewrite Hp by (eapply nth_lt; exact Hv).
    unfold pair_ok in *. destruct (s_kind y) as [c|[m|]| |l o]; auto.
    destruct Y3 as (f & sl & K1 & K2 & K3 & K4). exists f, sl.
    split; [exact K1|]. split; [exact K2|]. split; [exact K3|].
    destruct K4 as [K4|[K4 K5]]; [left; exact K4 | right; auto].
  - intros v x Hv Hx. rewrite Hp by (eapply nth_lt; exact Hv). eauto.
Qed.

(** ** Remembering machine vertices *)

Lemma in_mvs_false : forall m l, ~ In (mv_id m) (map mv_id l) -> in_mvs m l = false.
Proof.
  intros m l H. unfold in_mvs. destruct (existsb _ l) eqn:E; [|reflexivity].
  apply existsb_exists in E. destruct E as (m' & I & Q). apply Nat.eqb_eq in Q.
  exfalso. apply H. rewrite Q. apply in_map. exact I.
Qed.

(** A vertex after remembering new machine vertices [l]. *)
Fixpoint remembered (x : vertex) (l : list mvertex) : vertex :=
  match l with
  | [] => x
  | m :: t =>
      remembered (mkV (v_av x) (v_kind x) (v_mvs x ++ [m]) (v_split x)
                      (dset Nat.eqb (v_index x) (mv_id m) (length (v_mvs x))) (v_next x)) t
  end.

Lemma remembered_fields : forall l x,
  v_av (remembered x l) = v_av x /\ v_kind (remembered x l) = v_kind x /\
  v_mvs (remembered x l) = v_mvs x ++ l /\ v_split (remembered x l) = v_split x /\
  v_next (remembered x l) = v_next x.
Proof.
  induction l as [|m l IH]; intro x; cbn [remembered].
  - rewrite app_nil_r. auto.
  - destruct (IH (mkV (v_av x) (v_kind x) (v_mvs x ++ [m]) (v_split x)
      (dset Nat.eqb (v_index x) (mv_id m) (length (v_mvs x))) (v_next x))) as (A & B & C & D & E).
    cbn [v_av v_kind v_mvs v_split v_next] in *. rewrite A, B, C, D, E.
    rewrite <- app_assoc. auto.
Qed.

Lemma indexed_snoc : forall x m nx, indexed x -> ~ In (mv_id m) (map mv_id (v_mvs x)) ->
  indexed (mkV (v_av x) (v_kind x) (v_mvs x ++ [m]) (v_split x)
               (dset Nat.eqb (v_index x) (mv_id m) (length (v_mvs x))) nx).
Proof.
  intros x m nx H N i m' Hi. cbn [v_mvs v_index] in *.
  destruct (Nat.lt_ge_cases i (length (v_mvs x))) as [L|L].
  - rewrite nth_error_app1 in Hi by exact L.
    assert (mv_id m' <> mv_id m).
    { intro Q. apply N. rewrite <- Q. apply in_map. eapply nth_error_In; exact Hi. }
    rewrite (dget_dset_neq Nat.eqb Nat.eqb_eq) by auto. apply H. exact Hi.
  - rewrite nth_error_app2 in Hi by exact L.
    destruct (i - length (v_mvs x))%nat eqn:E; [|destruct n; discriminate].
    cbn in Hi. injection Hi as <-.
    rewrite (dget_dset_eq Nat.eqb Nat.eqb_eq). f_equal. lia.
Qed.

Lemma remembered_indexed : forall l x, indexed x -> NoDup (map mv_id (v_mvs x ++ l)) ->
  indexed (remembered x l).
Proof.
  induction l as [|m l IH]; intros x H N; cbn [remembered]; [exact H|].
  apply IH.
  - apply indexed_snoc; [exact H|].
    rewrite map_app in N. apply NoDup_remove_2 in N. intro Q. apply N. apply in_or_app. auto.
  - cbn [v_mvs]. rewrite <- app_assoc. exact N.
Qed.

Definition not_one_app (x : vertex) : Prop :=
  match v_kind x with OneApp _ => False | _ => True end.

Lemma remember_new : forall w v x m, wv w v = Some x -> not_one_app x ->
  ~ In (mv_id m) (map mv_id (v_mvs x)) ->
  remember w v m = done (set_vert w v (remembered x [m])).
Proof.
  intros w v x m Hx K N. unfold remember. unfold wv in Hx. rewrite Hx.
  unfold not_one_app in K. cbn [remembered].
  destruct (v_kind x) eqn:E; try contradiction; rewrite (in_mvs_false _ _ N); reflexivity.
Qed.

Lemma upd_upd : forall {A} (l : list A) i a b, upd (upd l i a) i b = upd l i b.
Proof. induction l; intros [|i] x y; cbn; auto. f_equal. apply IHl. Qed.
Lemma upd_same : forall {A} (l : list A) i a, nth_error l i = Some a -> upd l i a = l.
Proof. induction l; intros [|i] x H; cbn in *; auto; try congruence. f_equal. apply IHl. exact H. Qed.

(** [acts w v x' s y' costs w']: only the vertex and the splitter have changed,
    and the costs are counted. *)
Definition acts (pc ps : Z) (w : world) (v : nat) (x' : vertex) (s : nat) (y' : splitter)
  (costs : list Z) (w' : world) : Prop :=
  w_verts w' = upd (w_verts w) v x' /\ w_splits w' = upd (w_splits w) s y' /\
  w_counter w' = fold_left (add_core pc ps) costs (w_counter w).

(** The vertex after SplitterFixedLegacy's loop. *)
Fixpoint fixed_made (x : vertex) (f : slice -> Z) (l : list slice) : vertex :=
  match l with
  | [] => x
  | sl :: t => fixed_made (remembered (made x 1) [mkMV (v_next x) sl (f sl) Core]) f t
  end.

Lemma old_fresh : forall x l s c r, old_ids x l -> ~ In (mv_id (mkMV (v_next x) s c r)) (map mv_id l).
Proof.
  intros x l s c r H I. apply in_map_iff in I. destruct I as (m & E & I).
  unfold old_ids in H. rewrite Forall_forall in H. specialize (H m I). cbn in E. lia.
Qed.

Lemma make_fixed_ok : forall pc ps f l w v x, wv w v = Some x -> not_one_app x ->
  old_ids x (v_mvs x) ->
  make_fixed pc ps w v f l =
  done (mkW (upd (w_verts w) v (fixed_made x f l)) (w_splits w)
            (fold_left (add_core pc ps) (map f l) (w_counter w))).
Proof.
  intros pc ps f l. induction l as [|sl l IH]; intros w v x Hx K O.
  - cbn [make_fixed fixed_made map fold_left]. unfold wv in Hx. rewrite (upd_same _ _ _ Hx).
    destruct w; reflexivity.
  - cbn [make_fixed fixed_made map fold_left]. unfold wv in Hx.
    unfold add_core_w at 1. cbn [w_verts]. rewrite Hx.
    set (w1 := set_vert (add_core_w pc ps w (f sl)) v (made x 1)).
    assert (L : (v < length (w_verts w))%nat) by (eapply nth_lt; exact Hx).
    assert (H1 : wv w1 v = Some (made x 1)).
    { unfold wv, w1. cbn. apply nth_error_upd_eq. exact L. }
    rewrite (remember_new w1 v (made x 1) _ H1).
    2: exact K.
    2: cbn [made v_mvs]; apply (old_fresh x); exact O.
    cbn [and_then done].
    rewrite (IH (set_vert w1 v (remembered (made x 1) [mkMV (v_next x) sl (f sl) Core])) v
                (remembered (made x 1) [mkMV (v_next x) sl (f sl) Core])).
    + unfold w1. cbn [set_vert add_core_w w_verts w_splits w_counter]. rewrite !upd_upd. reflexivity.
    + unfold wv, w1. cbn. apply nth_error_upd_eq. rewrite upd_length. exact L.
    + exact K.
    + cbn. unfold old_ids in *. cbn. apply Forall_app. split.
      * eapply Forall_impl; [|exact O]. cbn. intros. lia.
      * constructor; [cbn; lia | constructor].
Qed.

Lemma fixed_made_spec : forall f l x, indexed x -> NoDup (map mv_id (v_mvs x)) ->
  old_ids x (v_mvs x) ->
  let x' := fixed_made x f l in
  v_av x' = v_av x /\ v_kind x' = v_kind x /\ v_split x' = v_split x /\
  map desc (v_mvs x') = map desc (v_mvs x) ++ map (fun sl => (sl, f sl, Core)) l /\
  NoDup (map mv_id (v_mvs x')) /\ indexed x' /\ old_ids x' (v_mvs x').
Proof.
  intros f l. induction l as [|sl l IH]; intros x I N O; cbn zeta; cbn [fixed_made].
  - cbn [map]. rewrite app_nil_r. auto 8.
  - set (m := mkMV (v_next x) sl (f sl) Core).
    assert (F : ~ In (mv_id m) (map mv_id (v_mvs x))) by (apply old_fresh; exact O).
    assert (N1 : NoDup (map mv_id (v_mvs x ++ [m]))).
    { rewrite map_app. cbn [map]. apply NoDup_rev in N. rewrite <- (rev_involutive (map mv_id (v_mvs x) ++ _)).
      apply NoDup_rev. rewrite rev_app_distr. cbn. constructor; [|exact N].
      rewrite <- in_rev. exact F. }
    destruct (IH (remembered (made x 1) [m])) as (A & B & C & D & E & G & J).
    + apply remembered_indexed; [|exact N1]. intros i m' Hi. apply (I i m'). exact Hi.
    + exact N1.
    + unfold old_ids in *. cbn. apply Forall_app. split.
      * eapply Forall_impl; [|exact O]. cbn. intros. lia.
      * constructor; [cbn; lia | constructor].
    + cbn zeta in *. split; [exact A|]. split; [exact B|]. split; [exact C|].
      split; [|auto].
      change (v_mvs (remembered (made x 1) [m])) with (v_mvs x ++ [m]) in D.
      rewrite map_app, <- app_assoc in D. exact D.
Qed.

Lemma make_known_ok : forall pc ps l w v x, wv w v = Some x -> not_one_app x ->
  NoDup (map mv_id (v_mvs x ++ l)) ->
  make_known pc ps w v l =
  done (mkW (upd (w_verts w) v (remembered x l)) (w_splits w)
            (fold_left (add_core pc ps) (map mv_sdram l) (w_counter w))).
Proof.
  intros pc ps l. induction l as [|m l IH]; intros w v x Hx K N.
  - cbn [make_known remembered map fold_left]. unfold wv in Hx. rewrite (upd_same _ _ _ Hx).
    destruct w; reflexivity.
  - cbn [make_known map fold_left].
    assert (L : (v < length (w_verts w))%nat) by (eapply nth_lt; exact Hx).
    set (w1 := add_core_w pc ps w (mv_sdram m)).
    assert (H1 : wv w1 v = Some x) by exact Hx.
    rewrite (remember_new w1 v x m H1 K).
    2:{ rewrite map_app in N. cbn [map] in N. apply NoDup_remove_2 in N.
        intro Q. apply N. apply in_or_app. auto. }
    cbn [and_then done].
    rewrite (IH (set_vert w1 v (remembered x [m])) v (remembered x [m])).
    + unfold w1. cbn [set_vert add_core_w w_verts w_splits w_counter]. rewrite !upd_upd. reflexivity.
    + unfold wv, w1. cbn. apply nth_error_upd_eq. exact L.
    + exact K.
    + cbn [remembered v_mvs]. rewrite <- app_assoc. exact N.
Qed.

(** The same splitter up to its cached slices. *)
Definition same_splitter (y y' : splitter) : Prop :=
  s_gov y' = s_gov y /\
  match s_kind y, s_kind y' with
  | SFixed _, SFixed _ => True
  | k, k' => k' = k
  end.

Lemma same_splitter_refl : forall y, same_splitter y y.
Proof. intros [k g]. split; [reflexivity|]. cbn. destruct k; reflexivity. Qed.

Lemma same_splitter_trans : forall a b c, same_splitter a b -> same_splitter b c -> same_splitter a c.
Proof.
  intros [ka ga] [kb gb] [kc gc] [A B] [C D]. unfold same_splitter. cbn in *. split; [congruence|].
  destruct ka, kb; try discriminate B; destruct kc; try discriminate D; try exact I; congruence.
Qed.

(** The SDRAM counted for a vertex. *)
Definition costs (x : vertex) (y : splitter) : list Z :=
  match s_kind y with
  | SOne (Some m) => [mv_sdram m]
  | _ => map mv_sdram (v_mvs x)
  end.

Definition can_split (x : vertex) (y : splitter) : Prop :=
  match s_kind y with
  | SFixed _ => exists l, multi_slices (v_av x) = Ok l
  | _ => True
  end.

Lemma indexed_nil : forall x, v_mvs x = [] -> indexed x.
Proof. intros x E i m H. rewrite E in H. destruct i; discriminate. Qed.

Lemma set_skind_eq : forall w s y k, ws w s = Some y ->
  set_skind w s k = mkW (w_verts w) (upd (w_splits w) s (mkS k (s_gov y))) (w_counter w).
Proof. intros w s y k H. unfold set_skind. unfold ws in H. rewrite H. reflexivity. Qed.

Lemma create_ok : forall pc ps seen w v x s y,
  wv w v = Some x -> ws w s = Some y -> v_split x = Some s -> s_gov y = Some v ->
  pair_ok true seen x y -> old_ids x (v_mvs x) -> can_split x y ->
  exists x' y' w', create pc ps w s = done w' /\ acts pc ps w v x' s y' (costs x' y') w' /\
    v_split x' = Some s /\ s_gov y' = Some v /\ pair_ok false seen x' y' /\
    old_ids x' (v_mvs x') /\ v_av x' = v_av x /\ v_kind x' = v_kind x /\ same_splitter y y'.
Proof.
  intros pc ps seen w v x s y Hx Hy Hs Hg P O CS.
  destruct y as [k g]. cbn [s_gov] in Hg. subst g.
  unfold create. unfold ws in Hy. rewrite Hy. pose proof Hx as Hx'. unfold wv in Hx'. rewrite Hx'.
  unfold pair_ok in P. cbn [s_kind] in P. unfold can_split in CS. cbn [s_kind] in CS.
  destruct k as [c|[m|]| |l o].
  - destruct P as (f & Kf & -> & Em). destruct CS as (l & El). rewrite Kf.
    unfold fixed_slices. rewrite Hy, Hx', El.
    set (w1 := set_skind w s (SFixed (Some l))).
    assert (E1 : w1 = mkW (w_verts w) (upd (w_splits w) s (mkS (SFixed (Some l)) (Some v))) (w_counter w))
      by (unfold w1; rewrite (set_skind_eq w s _ _ Hy); reflexivity).
    rewrite (make_fixed_ok pc ps f l w1 v x).
    2:{ rewrite E1. exact Hx. }
    2:{ unfold not_one_app. rewrite Kf. exact I. }
    2:{ exact O. }
    destruct (fixed_made_spec f l x) as (A & B & C & D & E & G & J).
    + apply indexed_nil. exact Em.
    + rewrite Em. constructor.
    + exact O.
    + rewrite Em in D. cbn [map app] in D. cbn zeta in *.
      exists (fixed_made x f l), (mkS (SFixed (Some l)) (Some v)). eexists. split; [reflexivity|].
      split; [|split; [rewrite C; exact Hs|split; [reflexivity|split]]].
      * unfold acts. rewrite E1. cbn [w_verts w_splits w_counter]. split; [reflexivity|].
        split; [reflexivity|]. f_equal. unfold costs. cbn [s_kind].
        transitivity (map (fun d => snd (fst d)) (map desc (v_mvs (fixed_made x f l)))).
        -- rewrite D, map_map. cbn. reflexivity.
        -- rewrite map_map. apply map_ext. intros [? ? ? ?]. reflexivity.
      * unfold pair_ok. cbn [s_kind]. exists f. split; [rewrite B; exact Kf|].
        exists l. split; [reflexivity|]. split; [rewrite A; exact El|]. auto.
      * split; [exact J|]. split; [exact A|]. split; [congruence|]. split; [reflexivity|exact I].
  - destruct P as (f & sl & Kf & Wh & Dm & Hm).
    exists x, (mkS (SOne (Some m)) (Some v)). eexists. split; [reflexivity|].
    split; [|split; [exact Hs|split; [reflexivity|split;
      [|split; [exact O|split; [reflexivity|split; [assumption||reflexivity|apply same_splitter_refl]]]]]]].
    + unfold acts. cbn [add_core_w w_verts w_splits w_counter costs s_kind fold_left].
      split; [symmetry; apply upd_same; exact Hx'|]. split; [symmetry; apply upd_same; exact Hy|reflexivity].
    + unfold pair_ok. cbn [s_kind]. exists f, sl. auto.
  - contradiction.
  - destruct P as (m & Km & Em & Ix). rewrite Km.
    exists x, (mkS SOneApp (Some v)). eexists. split; [reflexivity|].
    split; [|split; [exact Hs|split; [reflexivity|split;
      [|split; [exact O|split; [reflexivity|split; [assumption||reflexivity|apply same_splitter_refl]]]]]]].
    + unfold acts. cbn [add_core_w w_verts w_splits w_counter costs s_kind].
      rewrite Em. cbn [map fold_left].
      split; [symmetry; apply upd_same; exact Hx'|]. split; [symmetry; apply upd_same; exact Hy|reflexivity].
    + unfold pair_ok. cbn [s_kind]. exists m. auto.
  - destruct P as (Dv & Oo & Pa & Nd & Oi & Em).
    assert (K : not_one_app x).
    { unfold is_device in Dv. unfold not_one_app. destruct (v_kind x); auto; contradiction. }
    rewrite (make_known_ok pc ps (l ++ opt_list o) w v x Hx K).
    2:{ rewrite Em. exact Nd. }
    destruct (remembered_fields (l ++ opt_list o) x) as (A & B & C & D & E).
    rewrite Em in C. cbn [app] in C.
    exists (remembered x (l ++ opt_list o)), (mkS (SExt l o) (Some v)). eexists. split; [reflexivity|].
    split; [|split; [rewrite D; exact Hs|split; [reflexivity|split]]].
    + unfold acts. cbn [w_verts w_splits w_counter]. split; [reflexivity|].
      split; [symmetry; apply upd_same; exact Hy|]. f_equal. unfold costs. cbn [s_kind].
      rewrite C. reflexivity.
    + unfold pair_ok. cbn [s_kind]. unfold is_device, out_ok, device_parts, device_out, whole.
      rewrite A, B, C. fold (whole x). split; [exact Dv|]. split; [exact Oo|]. split; [exact Pa|].
      split; [exact Nd|].
      assert (Oi' : old_ids (remembered x (l ++ opt_list o)) (l ++ opt_list o))
        by (unfold old_ids in *; rewrite E; exact Oi).
      split; [exact Oi'|]. split; [reflexivity|].
      apply remembered_indexed; [apply indexed_nil; exact Em|]. rewrite Em. exact Nd.
    + split; [rewrite C; unfold old_ids in *; rewrite E; exact Oi|].
      split; [exact A|]. split; [exact B|apply same_splitter_refl].
Qed.

Lemma create_fails : forall pc ps seen w v x s y e,
  wv w v = Some x -> ws w s = Some y -> s_gov y = Some v ->
  pair_ok true seen x y -> (exists c, s_kind y = SFixed c) -> multi_slices (v_av x) = Err e ->
  snd (create pc ps w s) = Some e.
Proof.
  intros pc ps seen w v x s [k g] e Hx Hy Hg P [c Hc] E. cbn in Hg, Hc. subst.
  unfold pair_ok in P. cbn [s_kind] in P. destruct P as (f & Kf & -> & _).
  unfold create. unfold ws in Hy. unfold wv in Hx. rewrite Hy, Hx, Kf.
  unfold fixed_slices. rewrite Hy, Hx, E. reflexivity.
Qed.

Definition cost_at (w : world) (v : nat) : list Z :=
  match wv w v with
  | Some x =>
      match v_split x with
      | Some s => match ws w s with Some y => costs x y | None => [] end
      | None => []
      end
  | None => []
  end.

(** What partitioning does not change. *)
Definition frame (w w' : world) : Prop :=
  length (w_verts w') = length (w_verts w) /\
  (forall v x, wv w v = Some x -> exists x', wv w' v = Some x' /\
    v_av x' = v_av x /\ v_kind x' = v_kind x /\ v_split x' = v_split x) /\
  (forall s y, ws w s = Some y -> exists y', ws w' s = Some y' /\ same_splitter y y').

Lemma frame_trans : forall a b c, frame a b -> frame b c -> frame a c.
Proof.
  intros a b c (L1 & F1 & G1) (L2 & F2 & G2). split; [congruence|]. split.
  - intros v x Hx.
    destruct (F1 v x Hx) as (x1 & A & B & C & D). destruct (F2 v x1 A) as (x2 & A' & B' & C' & D').
    exists x2. split; [exact A'|]. split; [congruence|]. split; congruence.
  - intros s y Hy. destruct (G1 s y Hy) as (y1 & A & B). destruct (G2 s y1 A) as (y2 & C & D).
    exists y2. split; [exact C|exact (same_splitter_trans _ _ _ B D)].
Qed.

Lemma frame_refl : forall a, frame a a.
Proof.
  intro a. split; [reflexivity|]. split.
  - intros v x H. exists x. auto.
  - intros s y H. exists y. split; [exact H|apply same_splitter_refl].
Qed.

Definition upto (i u : nat) : bool := negb (Nat.ltb u i).

Lemma partition_loop_spec : forall pc ps seen k i w, (i + k = length (w_verts w))%nat ->
  Inv (upto i) seen w ->
  match partition_loop pc ps w (seq i k) with
  | (w', None) =>
      Inv (upto (i + k)) seen w' /\ frame w w' /\
      (forall v, (v < i)%nat -> wv w' v = wv w v /\
         forall s y, ws w s = Some y -> s_gov y = Some v -> ws w' s = Some y) /\
      w_counter w' = fold_left (add_core pc ps) (flat_map (cost_at w') (seq i k)) (w_counter w)
  | (w', Some e) =>
      exists v x, (i <= v)%nat /\ wv w v = Some x /\
        ((v_split x = None /\ e = ConfigurationException) \/
         exists s y c, v_split x = Some s /\ ws w s = Some y /\ s_kind y = SFixed c /\
           multi_slices (v_av x) = Err e)
  end.
Proof.
  intros pc ps seen k. induction k as [|k IH]; intros i w Hl HI.
  - cbn [seq partition_loop done]. rewrite Nat.add_0_r. split; [exact HI|].
    split; [apply frame_refl|]. split; [auto|reflexivity].
  - cbn [seq partition_loop].
    destruct (nth_error (w_verts w) i) as [x|] eqn:Hx.
    2:{ apply nth_error_None in Hx. lia. }
    destruct (v_split x) as [s|] eqn:Hs.
    2:{ cbn [raises]. exists i, x. split; [lia|]. split; [exact Hx|]. left. auto. }
    destruct (i_pair _ _ _ HI i x s Hx Hs) as (y & Hy & Hg & P).
    assert (Eu : upto i i = true) by (unfold upto; rewrite Nat.ltb_irrefl; reflexivity).
    rewrite Eu in P.
    assert (Dec : can_split x y \/ exists c e, s_kind y = SFixed c /\ multi_slices (v_av x) = Err e).
    { unfold can_split. destruct (s_kind y); auto.
      destruct (multi_slices (v_av x)) as [l|e]; [left; eauto|right; eauto]. }
    destruct Dec as [CS|(c & e & Kc & Ee)].
    2:{ pose proof (create_fails pc ps seen w i x s y e Hx Hy Hg P (ex_intro _ c Kc) Ee) as F.
        destruct (create pc ps w s) as [w1 o]. cbn [snd] in F. subst o. cbn [and_then].
        exists i, x. split; [lia|]. split; [exact Hx|]. right. exists s, y, c. auto. }
    destruct (create_ok pc ps seen w i x s y Hx Hy Hs Hg P (i_ids _ _ _ HI i x Hx) CS)
      as (x' & y' & w1 & Ec & (A1 & A2 & A3) & Hs' & Hg' & P' & O' & Av & Kd & Sy).
    rewrite Ec. cbn [and_then done].
    pose proof (nth_lt _ _ _ Hx) as Lv. pose proof (nth_lt _ _ _ Hy) as Ls.
    assert (HI1 : Inv (upto (S i)) seen w1).
    { apply (Inv_update (upto i) (upto (S i)) seen w w1 i s x y x' y'); auto.
      - assert (E : upto (S i) i = false) by (unfold upto; destruct (Nat.ltb_spec i (S i)); [reflexivity|lia]).
        rewrite E. exact P'.
      - intros u N. unfold upto. destruct (Nat.ltb_spec u i), (Nat.ltb_spec u (S i)); auto; lia. }
    assert (Hv1 : forall u, wv w1 u = if Nat.eqb u i then Some x' else wv w u)
      by (intro; unfold wv; rewrite A1; apply wv_upd; exact Lv).
    assert (Hs1 : forall u, ws w1 u = if Nat.eqb u s then Some y' else ws w u)
      by (intro; unfold ws; rewrite A2; apply ws_upd; exact Ls).
    assert (Hl1 : (S i + k = length (w_verts w1))%nat) by (rewrite A1, upd_length; lia).
    specialize (IH (S i) w1 Hl1 HI1).
    destruct (partition_loop pc ps w1 (seq (S i) k)) as [w' [e|]].
    + destruct IH as (v & z & Li & Hz & Hr). exists v, z. split; [lia|].
      rewrite Hv1 in Hz. destruct (Nat.eqb_spec v i) as [->|N]; [lia|].
      split; [exact Hz|]. destruct Hr as [Hr|(s0 & y0 & c & R1 & R2 & R3 & R4)]; [left; exact Hr|].
      right. rewrite Hs1 in R2. destruct (Nat.eqb_spec s0 s) as [->|N2].
      * exfalso. destruct (i_pair _ _ _ HI v z s Hz R1) as (y2 & B1 & B2 & _). congruence.
      * exists s0, y0, c. auto.
    + destruct IH as (HI' & F & Fr & Ct). split.
      { replace (i + S k)%nat with (S i + k)%nat by lia. exact HI'. }
      assert (W' : wv w' i = Some x' /\ ws w' s = Some y').
      { destruct (Fr i (Nat.lt_succ_diag_r i)) as (R1 & R2). split.
        - rewrite R1, Hv1, Nat.eqb_refl. reflexivity.
        - apply R2; [rewrite Hs1, Nat.eqb_refl; reflexivity|exact Hg']. }
      destruct W' as [W1 W2]. split; [|split].
      * refine (frame_trans _ w1 _ _ F). split; [rewrite A1, upd_length; reflexivity|]. split.
        -- intros v z Hz. rewrite Hv1. destruct (Nat.eqb_spec v i) as [->|N].
           ++ exists x'. assert (z = x) by (unfold wv in Hz; congruence). subst z.
              split; [reflexivity|]. split; [exact Av|]. split; [exact Kd|congruence].
           ++ exists z. auto.
        -- intros t z Hz. rewrite Hs1. destruct (Nat.eqb_spec t s) as [->|N].
           ++ exists y'. assert (z = y) by congruence. subst z. split; [reflexivity|exact Sy].
           ++ exists z. split; [exact Hz|apply same_splitter_refl].
      * intros v Lt. destruct (Fr v ltac:(lia)) as (R1 & R2). split.
        -- rewrite R1, Hv1. destruct (Nat.eqb_spec v i); [lia|reflexivity].
        -- intros s0 y0 Q1 Q2. apply R2; [|exact Q2]. rewrite Hs1.
           destruct (Nat.eqb_spec s0 s) as [->|N]; [|exact Q1].
           exfalso. assert (y0 = y) by congruence. subst y0. assert (v = i) by congruence. lia.
      * cbn [flat_map]. rewrite fold_left_app, Ct, A3. f_equal. f_equal.
        unfold cost_at. rewrite W1, Hs', W2. reflexivity.
Qed.

Definition all_ph (b : bool) : nat -> bool := fun _ => b.

Lemma partition_spec : forall pc ps seen w, Inv (all_ph true) seen w ->
  match partition pc ps w with
  | (w', None) =>
      Inv (all_ph false) seen w' /\ frame w w' /\
      w_counter w' = count pc ps (flat_map (cost_at w') (seq 0 (length (w_verts w'))))
  | (w', Some e) =>
      exists v x, wv w v = Some x /\
        ((v_split x = None /\ e = ConfigurationException) \/
         exists s y c, v_split x = Some s /\ ws w s = Some y /\ s_kind y = SFixed c /\
           multi_slices (v_av x) = Err e)
  end.
Proof.
  intros pc ps seen w HI. unfold partition.
  set (w0 := mkW (w_verts w) (w_splits w) new_counter).
  pose proof (partition_loop_spec pc ps seen (length (w_verts w)) 0 w0) as L.
  assert (HI0 : Inv (upto 0) seen w0).
  { apply (Inv_same (all_ph true) (upto 0) seen seen w w0); auto. }
  specialize (L eq_refl HI0).
  destruct (partition_loop pc ps w0 (seq 0 (length (w_verts w)))) as [w' [e|]].
  - destruct L as (v & x & _ & R). exists v, x. exact R.
  - destruct L as (A & B & _ & D). split; [|split].
    + apply (Inv_same (upto (0 + length (w_verts w))) (all_ph false) seen seen w' w'); auto.
      intros u Lu. destruct B as [B _]. cbn [w0 w_verts] in B. unfold all_ph, upto.
      destruct (Nat.ltb_spec u (0 + length (w_verts w))); [reflexivity|lia].
    + exact B.
    + unfold count. destruct B as [B _]. cbn [w0 w_verts] in B. rewrite B. exact D.
Qed.

Lemma partition_succeeds : forall pc ps seen w, Inv (all_ph true) seen w ->
  (forall v x, wv w v = Some x -> exists s y, v_split x = Some s /\ ws w s = Some y /\
     (forall c, s_kind y = SFixed c -> exists l, multi_slices (v_av x) = Ok l)) ->
  exists w', partition pc ps w = done w'.
Proof.
  intros pc ps seen w HI H. pose proof (partition_spec pc ps seen w HI) as P.
  destruct (partition pc ps w) as [w' [e|]]; [|exists w'; reflexivity].
  exfalso. destruct P as (v & x & Hx & R). destruct (H v x Hx) as (s & y & A & B & C).
  destruct R as [[R _]|(s0 & y0 & c & R1 & R2 & R3 & R4)]; [congruence|].
  assert (s0 = s) by congruence. subst s0. assert (y0 = y) by congruence. subst y0.
  destruct (C c R3) as [l El]. congruence.
Qed.

(** ** Reset *)

Definition cleared (x : vertex) : vertex :=
  match v_kind x with
  | OneApp _ => x
  | _ => mkV (v_av x) (v_kind x) [] (v_split x) (v_index x) (v_next x)
  end.

Lemma cleared_fields : forall x, v_av (cleared x) = v_av x /\ v_kind (cleared x) = v_kind x /\
  v_split (cleared x) = v_split x /\ v_next (cleared x) = v_next x.
Proof. intro x. unfold cleared. destruct (v_kind x) eqn:E; auto. Qed.

Lemma reset_pair : forall b seen x y, pair_ok b seen x y ->
  pair_ok true true (cleared x) (reset_called y).
Proof.
  intros b seen x [k g] P. unfold pair_ok in *. cbn [s_kind] in P. unfold reset_called. cbn [s_kind].
  destruct (cleared_fields x) as (A & B & C & D).
  destruct k as [c|[m|]| |l o]; cbn [s_kind].
  - destruct P as (f & Kf & _). exists f. rewrite B. split; [exact Kf|]. split; [reflexivity|].
    unfold cleared. rewrite Kf. reflexivity.
  - destruct P as (f & sl & Kf & Wh & Dm & _). exists f, sl. rewrite B. split; [exact Kf|].
    unfold whole in *. rewrite A. split; [exact Wh|]. split; [exact Dm|]. right.
    split; [reflexivity|]. unfold cleared. rewrite Kf. reflexivity.
  - contradiction.
  - destruct P as (m & Km & Em & Ix). exists m. unfold cleared. rewrite Km. auto.
  - destruct P as (Dv & Oo & Pa & Nd & Oi & _).
    unfold is_device, out_ok, device_parts, device_out, whole, old_ids. rewrite A, B, D.
    split; [exact Dv|]. split; [exact Oo|]. split; [exact Pa|]. split; [exact Nd|].
    split; [exact Oi|]. unfold cleared. unfold is_device in Dv.
    destruct (v_kind x); try contradiction; reflexivity.
Qed.

Lemma reset_vertex_spec : forall b i w x, wv w i = Some x ->
  Inv (fun u => if Nat.ltb u i then true else b) true w ->
  Inv (fun u => if Nat.ltb u (S i) then true else b) true (reset_vertex w i) /\
  frame w (reset_vertex w i).
Proof.
  intros b i w x Hx HI. unfold reset_vertex. pose proof Hx as Hx'. unfold wv in Hx'. rewrite Hx'.
  assert (Lv : (i < length (w_verts w))%nat) by (eapply nth_lt; exact Hx).
  set (w1 := match v_kind x with OneApp _ => w | _ => _ end).
  assert (E1 : w1 = mkW (upd (w_verts w) i (cleared x)) (w_splits w) (w_counter w)).
  { unfold w1, cleared. destruct (v_kind x); try reflexivity. rewrite (upd_same _ _ _ Hx'). destruct w; reflexivity. }
  assert (Fr : forall sp, (forall s y, ws w s = Some y -> exists y', nth_error sp s = Some y' /\ same_splitter y y') ->
    frame w (mkW (upd (w_verts w) i (cleared x)) sp (w_counter w))).
  { intros sp Hsp. split; [cbn; apply upd_length|]. split; [|exact Hsp].
    intros v z Hz. unfold wv. cbn [w_verts].
    rewrite wv_upd by exact Lv. destruct (Nat.eqb_spec v i) as [->|N].
    - assert (z = x) by congruence. subst z. exists (cleared x).
      destruct (cleared_fields x) as (A & B & C & D). auto.
    - exists z. auto. }
  destruct (v_split x) as [s|] eqn:Hs.
  - destruct (i_pair _ _ _ HI i x s Hx Hs) as (y & Hy & Hg & P).
    assert (Ls : (s < length (w_splits w))%nat) by (eapply nth_lt; exact Hy).
    rewrite E1. cbn [w_splits]. unfold ws in Hy. rewrite Hy. split.
    2:{ apply Fr. intros t z Hz. rewrite ws_upd by exact Ls. destruct (Nat.eqb_spec t s) as [->|N].
        - exists (reset_called y). assert (z = y) by (unfold ws in Hz; congruence). subst z.
          split; [reflexivity|]. destruct y as [k g]. destruct k; split; reflexivity.
        - exists z. split; [exact Hz|apply same_splitter_refl]. }
    destruct (cleared_fields x) as (A & B & C & D).
    apply (Inv_update (fun u => if Nat.ltb u i then true else b)
             (fun u => if Nat.ltb u (S i) then true else b) true w _ i s x y (cleared x) (reset_called y)); auto.
    + rewrite C. exact Hs.
    + unfold reset_called. destruct (s_kind y); cbn; exact Hg.
    + destruct (Nat.ltb_spec i (S i)); [|lia].
      apply (reset_pair (if Nat.ltb i i then true else b) true). exact P.
    + unfold old_ids. rewrite D. pose proof (i_ids _ _ _ HI i x Hx) as O.
      unfold cleared. destruct (v_kind x); cbn [v_mvs]; try constructor. exact O.
    + intros u N. destruct (Nat.ltb_spec u i), (Nat.ltb_spec u (S i)); auto; lia.
  - assert (Hb : b = true /\ cleared x = x).
    { destruct (i_lone _ _ _ HI i x Hx Hs) as (Q & Lo). rewrite Nat.ltb_irrefl in Q. split; [exact Q|].
      unfold lone_ok in Lo. unfold cleared. destruct x as [a k l sp ix nx]. cbn in *.
      destruct k; try reflexivity; subst l; reflexivity. }
    destruct Hb as [-> Hc]. rewrite E1. split.
    2:{ apply Fr. intros t z Hz. exists z. split; [exact Hz|apply same_splitter_refl]. }
    apply (Inv_same (fun u => if Nat.ltb u i then true else true) _ true true w); auto.
    + cbn. rewrite Hc. apply upd_same. exact Hx'.
    + intros u _. destruct (Nat.ltb u i), (Nat.ltb u (S i)); reflexivity.
Qed.

Lemma reset_spec : forall b seen w, Inv (all_ph b) seen w ->
  Inv (all_ph true) true (reset w) /\ frame w (reset w).
Proof.
  intros b seen w HI. unfold reset.
  assert (G : forall k i w0, (i + k = length (w_verts w0))%nat ->
    Inv (fun u => if Nat.ltb u i then true else b) true w0 ->
    Inv (fun u => if Nat.ltb u (i + k) then true else b) true (fold_left reset_vertex (seq i k) w0) /\
    frame w0 (fold_left reset_vertex (seq i k) w0)).
  { induction k as [|k IH]; intros i w0 L H.
    - cbn [seq fold_left]. rewrite Nat.add_0_r. split; [exact H|apply frame_refl].
    - cbn [seq fold_left].
      destruct (nth_error (w_verts w0) i) as [x|] eqn:E.
      2:{ apply nth_error_None in E. lia. }
      destruct (reset_vertex_spec b i w0 x E H) as (H1 & F1).
      destruct (IH (S i) (reset_vertex w0 i)) as (H2 & F2).
      + destruct F1 as [F1 _]. lia.
      + exact H1.
      + split; [|exact (frame_trans _ _ _ F1 F2)].
        replace (i + S k)%nat with (S i + k)%nat by lia. exact H2. }
  destruct (G (length (w_verts w)) 0%nat w eq_refl) as (H1 & F1).
  - apply (Inv_same (all_ph b) _ seen true w w); auto.
  - split; [|exact F1].
    eapply (Inv_same _ (all_ph true) true true); [exact H1|reflexivity|reflexivity| |auto].
    intros u Lu. destruct F1 as [F1 _]. rewrite F1 in Lu. unfold all_ph.
    destruct (Nat.ltb_spec u (0 + length (w_verts w))); [reflexivity|lia].
Qed.

(** ** Attaching *)

Lemma new_incoming_spec : forall parts n,
  map desc (new_incoming n parts) = map (fun p => (fst p, 0%Z, FromDevice (snd p))) parts /\
  map mv_id (new_incoming n parts) = seq n (length parts).
Proof.
  induction parts as [|[s c] t IH]; intro n; cbn; [auto|].
  destruct (IH (S n)) as [A B]. split; f_equal; assumption.
Qed.

Lemma build_device_ok : forall w w' s v x y,
  wv w v = Some x -> ws w s = Some y -> v_mvs x = [] -> s_gov y = Some v ->
  build_device w s v = done w' -> forall seen,
  exists x' y', w_verts w' = upd (w_verts w) v x' /\ w_splits w' = upd (w_splits w) s y' /\
    v_split x' = v_split x /\ s_gov y' = Some v /\ pair_ok true seen x' y' /\ old_ids x' (v_mvs x').
Proof.
  intros w w' s v x y Hx Hy Em Hg E seen. unfold build_device in E.
  pose proof Hx as Hx'. unfold wv in Hx'. rewrite Hx' in E.
  assert (Lv : (v < length (w_verts w))%nat) by (eapply nth_lt; exact Hx).
  assert (Ls : (s < length (w_splits w))%nat) by (eapply nth_lt; exact Hy).
  assert (Dv : is_device x).
  { unfold is_device. destruct (v_kind x); auto; discriminate. }
  rewrite (set_skind_eq w s y _ Hy) in E.
  assert (SK : forall u k c, (s < length (w_splits w))%nat ->
     set_skind (mkW u (upd (w_splits w) s (mkS (SExt [] None) (s_gov y))) c) s k =
     mkW u (upd (w_splits w) s (mkS k (s_gov y))) c).
  { intros u k c L. unfold set_skind. cbn [w_splits]. rewrite nth_error_upd_eq by exact L.
    unfold set_split. cbn. rewrite upd_upd. reflexivity. }
  assert (E' : match device_parts x with
     | Err _ => False
     | Ok parts =>
         match device_out x with
         | None => w' = mkW (upd (w_verts w) v (made x (length parts)))
             (upd (w_splits w) s (mkS (SExt (new_incoming (v_next x) parts) None) (s_gov y))) (w_counter w)
         | Some c => exists sl, whole x sl /\
             w' = mkW (upd (w_verts w) v (made x (S (length parts))))
             (upd (w_splits w) s (mkS (SExt (new_incoming (v_next x) parts)
                (Some (mkMV (v_next x + length parts) sl 0 (ToDevice c)))) (s_gov y))) (w_counter w)
         end
     end).
  { unfold is_device in Dv. unfold whole.
    destruct (v_kind x); try contradiction;
    (destruct (device_parts x) as [parts|]; [|discriminate];
     destruct (device_out x) as [c|];
     [destruct (make_slice 0 (av_n (v_av x) - 1)) as [sl|]; [|discriminate];
      exists sl; split; [reflexivity|]
     |]; unfold set_vert in E; cbn [w_verts w_splits w_counter] in E; rewrite SK in E by exact Ls;
     unfold done in E; congruence). }
  clear E. destruct (device_parts x) as [parts|] eqn:Ep; [|contradiction].
  destruct (new_incoming_spec parts (v_next x)) as [N1 N2].
  assert (Oi : forall m o, (forall z, o = Some z -> (mv_id z < v_next x + m)%nat) ->
    (length parts <= m)%nat ->
    old_ids (made x m) (new_incoming (v_next x) parts ++ opt_list o)).
  { intros m o Ho Lm. unfold old_ids. apply Forall_app. split.
    - apply Forall_forall. intros z Iz. apply (in_map mv_id) in Iz. rewrite N2 in Iz.
      apply in_seq in Iz. cbn. lia.
    - destruct o as [z|]; cbn; constructor; [|constructor]. specialize (Ho z eq_refl). cbn. lia. }
  destruct (device_out x) as [c|] eqn:Eo.
  - destruct E' as (sl & Wh & ->). exists (made x (S (length parts))). eexists.
    split; [reflexivity|]. split; [reflexivity|]. split; [reflexivity|]. split; [exact Hg|]. split.
    + unfold pair_ok. cbn [s_kind]. split; [exact Dv|]. split.
      * unfold out_ok. change (device_out (made x (S (length parts)))) with (device_out x).
        rewrite Eo. eexists _, sl. split; [reflexivity|]. split; [exact Wh|reflexivity].
      * split; [exists parts; split; [exact Ep|exact N1]|]. split.
        -- rewrite map_app, N2. cbn. rewrite <- (seq_app (length parts) 1). apply seq_NoDup.
        -- split; [|exact Em]. apply Oi; [|lia]. intros z Ez. injection Ez as <-. cbn. lia.
    + cbn. rewrite Em. constructor.
  - subst w'. exists (made x (length parts)). eexists.
    split; [reflexivity|]. split; [reflexivity|]. split; [reflexivity|]. split; [exact Hg|]. split.
    + unfold pair_ok. cbn [s_kind]. split; [exact Dv|]. split.
      * unfold out_ok. change (device_out (made x (length parts))) with (device_out x).
        rewrite Eo. reflexivity.
      * split; [exists parts; split; [exact Ep|exact N1]|]. split.
        -- cbn [opt_list]. rewrite app_nil_r, N2. apply seq_NoDup.
        -- split; [|exact Em]. apply Oi; [|lia]. intros z Ez. discriminate.
    + cbn. rewrite Em. constructor.
Qed.

Lemma build_one_ok : forall w w' s v x y f,
  wv w v = Some x -> ws w s = Some y -> v_kind x = Legacy f -> v_mvs x = [] -> s_gov y = Some v ->
  build_one w s v f = done w' -> forall seen,
  exists x' y', w_verts w' = upd (w_verts w) v x' /\ w_splits w' = upd (w_splits w) s y' /\
    v_split x' = v_split x /\ s_gov y' = Some v /\ pair_ok true seen x' y' /\ old_ids x' (v_mvs x').
Proof.
  intros w w' s v x y f Hx Hy Kf Em Hg E seen. unfold build_one in E.
  pose proof Hx as Hx'. unfold wv in Hx'. rewrite Hx' in E.
  assert (Lv : (v < length (w_verts w))%nat) by (eapply nth_lt; exact Hx).
  assert (Ls : (s < length (w_splits w))%nat) by (eapply nth_lt; exact Hy).
  destruct (make_slice 0 (av_n (v_av x) - 1)) as [sl|] eqn:Es; [|discriminate].
  set (m := mkMV (v_next x) sl (f sl) Core) in *.
  assert (W1 : set_skind (set_vert w v (made x 1)) s (SOne (Some m)) =
    mkW (upd (w_verts w) v (made x 1)) (upd (w_splits w) s (mkS (SOne (Some m)) (s_gov y))) (w_counter w)).
  { unfold set_skind, set_vert. cbn [w_splits]. unfold ws in Hy. rewrite Hy. reflexivity. }
  rewrite W1 in E.
  rewrite (remember_new _ v (made x 1) m) in E.
  2:{ unfold wv. cbn. apply nth_error_upd_eq. exact Lv. }
  2:{ unfold not_one_app. cbn. rewrite Kf. exact I. }
  2:{ cbn. rewrite Em. auto. }
  unfold done in E. injection E as <-.
  exists (remembered (made x 1) [m]), (mkS (SOne (Some m)) (Some v)).
  cbn [set_vert w_verts w_splits]. rewrite upd_upd, Hg.
  split; [reflexivity|]. split; [reflexivity|]. split; [reflexivity|]. split; [reflexivity|]. split.
  - unfold pair_ok. cbn [s_kind]. exists f, sl. split; [exact Kf|]. split; [exact Es|]. split; [reflexivity|].
    left. split; [cbn; rewrite Em; reflexivity|].
    apply remembered_indexed; [apply indexed_nil; exact Em|]. cbn. rewrite Em. cbn.
    constructor; [auto|constructor].
  - unfold old_ids. cbn. rewrite Em. cbn. constructor; [cbn; lia|constructor].
Qed.

Lemma set_splitter_ok : forall seen w w' v s, Inv (all_ph true) seen w ->
  set_splitter w v s = done w' -> Inv (all_ph true) seen w'.
Proof.
  intros seen w w' v s HI E. unfold set_splitter in E.
  remember 3%nat as n3 eqn:E3. cbn [attach] in E.
  destruct (nth_error (w_verts w) v) as [x|] eqn:Hx; [|discriminate].
  destruct (nth_error (w_splits w) s) as [y|] eqn:Hy; [|discriminate].
  assert (Lv : (v < length (w_verts w))%nat) by (eapply nth_lt; exact Hx).
  assert (Ls : (s < length (w_splits w))%nat) by (eapply nth_lt; exact Hy).
  destruct (v_split x) as [s'|] eqn:Hs.
  { destruct (Nat.eqb s' s); [|discriminate]. unfold done in E. injection E as <-. exact HI. }
  subst n3. remember 2%nat as n2 eqn:E2. cbn [attach] in E.
  set (x1 := with_split x (Some s)) in *.
  cbn [set_vert w_verts w_splits] in E. rewrite nth_error_upd_eq in E by exact Lv. rewrite Hy in E.
  destruct (s_gov y) as [v'|] eqn:Hg.
  { exfalso. destruct (i_back _ _ _ HI s y v' Hy Hg) as (x0 & A & B).
    assert (N : Nat.eqb v' v = false).
    { apply Nat.eqb_neq. intros ->. unfold wv in A. congruence. }
    rewrite N in E. destruct (s_kind y), (v_kind x1); discriminate. }
  destruct (i_free _ _ _ HI s y Hy Hg) as (c & Hc).
  set (w1 := set_vert w v x1) in *.
  assert (B : forall k, attach n2 false (set_split w1 s (mkS k (Some v))) v s =
              done (set_split w1 s (mkS k (Some v)))).
  { intro k. subst n2. remember 1%nat as n1. unfold w1, set_split, set_vert. cbn [attach w_verts w_splits].
    rewrite nth_error_upd_eq by exact Lv. rewrite nth_error_upd_eq by exact Ls.
    cbn [x1 with_split v_split]. rewrite Nat.eqb_refl. reflexivity. }
  assert (Lo := proj2 (i_lone _ _ _ HI v x Hx Hs)). unfold lone_ok in Lo.
  assert (Hv1 : forall k, wv (set_split w1 s (mkS k (Some v))) v = Some x1).
  { intro k. unfold wv. cbn. apply nth_error_upd_eq. exact Lv. }
  assert (Hs1 : forall k, ws (set_split w1 s (mkS k (Some v))) s = Some (mkS k (Some v))).
  { intro k. unfold ws. cbn. apply nth_error_upd_eq. exact Ls. }
  assert (Fin : forall k x' y' w2, w_verts w2 = upd (w_verts (set_split w1 s (mkS k (Some v)))) v x' ->
     w_splits w2 = upd (w_splits (set_split w1 s (mkS k (Some v)))) s y' ->
     v_split x' = Some s -> s_gov y' = Some v -> pair_ok true seen x' y' -> old_ids x' (v_mvs x') ->
     Inv (all_ph true) seen w2).
  { intros k x' y' w2 V S K1 K2 K3 K4. unfold w1, set_split, set_vert in V, S. cbn [w_verts w_splits] in V, S. rewrite upd_upd in V. rewrite upd_upd in S.
    apply (Inv_update (all_ph true) (all_ph true) seen w w2 v s x y x' y'); auto. }
  assert (Self : forall k, pair_ok true seen x1 (mkS k (Some v)) ->
     Inv (all_ph true) seen (set_split w1 s (mkS k (Some v)))).
  { intros k K. apply (Fin k x1 (mkS k (Some v))); auto.
    - cbn. rewrite upd_upd. reflexivity.
    - cbn. rewrite upd_upd. reflexivity.
    - exact (i_ids _ _ _ HI v x Hx). }
  subst y. destruct c; cbn [fresh_splitter s_kind] in E.
  - change (v_kind x1) with (v_kind x) in E.
    destruct (v_kind x) as [f|m0|i0 o0 p0|i0 o0 p0|] eqn:Kx; try discriminate. rewrite B in E.
    unfold done in E. injection E as <-. apply Self. unfold pair_ok. cbn [s_kind].
    exists f. split; [exact Kx|]. split; [reflexivity|exact Lo].
  - change (v_kind x1) with (v_kind x) in E.
    destruct (v_kind x) as [f|m0|i0 o0 p0|i0 o0 p0|] eqn:Kx; try discriminate. rewrite B in E.
    cbn [and_then done] in E.
    destruct (build_one_ok _ _ s v x1 _ f (Hv1 _) (Hs1 _) Kx Lo eq_refl E seen)
      as (x' & y' & K1 & K2 & K3 & K4 & K5 & K6).
    eapply Fin; eauto.
  - change (v_kind x1) with (v_kind x) in E.
    destruct (v_kind x) as [f|m0|i0 o0 p0|i0 o0 p0|] eqn:Kx; try discriminate. rewrite B in E.
    unfold done in E. injection E as <-. apply Self. unfold pair_ok. cbn [s_kind].
    exists m0. split; [exact Kx|exact Lo].
  - rewrite B in E. cbn [and_then done] in E.
    assert (Em : v_mvs x1 = []).
    { unfold build_device in E. pose proof (Hv1 (SExt [] None)) as Q. unfold wv in Q. rewrite Q in E.
      change (v_kind x1) with (v_kind x) in E. change (v_mvs x1) with (v_mvs x).
      destruct (v_kind x); auto; discriminate. }
    destruct (build_device_ok _ _ s v x1 _ (Hv1 _) (Hs1 _) Em eq_refl E seen)
      as (x' & y' & K1 & K2 & K3 & K4 & K5 & K6).
    eapply Fin; eauto.
Qed.
