(** Sequences of calls on vertices, splitters and the partitioner. *)
From Coq Require Import List ZArith Bool Lia.
From Verif Require Import Base Dict SdramModel SdramProofs SliceModel SliceProofs
  SplitterModel SplitterProofs.
Import ListNotations.

(** Calls in a sensible order: vertices are made, given splitters and limits
    before partitioning; slices are asked for after it; before partitioning
    again there is a reset.  [phase b ops]: whether [ops] end clean (not
    partitioned since the last reset), or None if the order is another one. *)
Fixpoint phase (clean : bool) (ops : list op) : option bool :=
  match ops with
  | [] => Some clean
  | NewSplitter _ :: t => phase clean t
  | (NewVertex _ _ | SetSplitter _ _ | SetMax _ _) :: t => if clean then phase true t else None
  | SetGoverned _ _ :: _ => None
  | Slices _ :: t => if clean then None else phase false t
  | Partition :: t => if clean then phase false t else None
  | Reset :: t => phase true t
  end.

Definition no_reset (ops : list op) : Prop := ~ In Reset ops.

Definition resets (o : op) : bool := match o with Reset => true | _ => false end.

(** The counter is that of all vertices. *)
Definition counted (pc ps : Z) (w : world) : Prop :=
  w_counter w = count pc ps (flat_map (cost_at w) (seq 0 (length (w_verts w)))).

Definition Good (pc ps : Z) (b seen : bool) (w : world) : Prop :=
  Inv (all_ph b) seen w /\ (b = false -> counted pc ps w).

Lemma snoc_nth : forall {A} (l : list A) z i x, nth_error (l ++ [z]) i = Some x ->
  nth_error l i = Some x \/ (i = length l /\ x = z).
Proof.
  intros A l z i x H. destruct (Nat.lt_ge_cases i (length l)) as [L|L].
  - rewrite nth_error_app1 in H by exact L. auto.
  - rewrite nth_error_app2 in H by exact L. right.
    destruct (i - length l)%nat eqn:E; [|destruct n; discriminate].
    cbn in H. injection H as <-. split; [lia|reflexivity].
Qed.
Lemma nth_snoc : forall {A} (l : list A) z i x, nth_error l i = Some x -> nth_error (l ++ [z]) i = Some x.
Proof. intros A l z i x H. rewrite nth_error_app1; [exact H|]. apply nth_error_Some. congruence. Qed.

Lemma fresh_lone : forall a c, lone_ok (fresh_vertex a c) /\ v_split (fresh_vertex a c) = None /\
  old_ids (fresh_vertex a c) (v_mvs (fresh_vertex a c)).
Proof.
  intros a c. destruct c; cbn; repeat split; try constructor; try constructor.
  intros [|[|i]] m H; cbn in H; try discriminate. injection H as <-. reflexivity.
Qed.

Lemma new_vertex_inv : forall seen w a c, Inv (all_ph true) seen w -> Inv (all_ph true) seen (new_vertex w a c).
Proof.
  intros seen w a c [A B C D E]. destruct (fresh_lone a c) as (F1 & F2 & F3).
  unfold wv, ws in *. constructor; unfold wv, ws, new_vertex; cbn [w_verts w_splits].
  - intros v x s Hx Hs. destruct (snoc_nth _ _ _ _ Hx) as [Hx'|[_ ->]]; [eauto|congruence].
  - intros v x Hx Hs. destruct (snoc_nth _ _ _ _ Hx) as [Hx'|[_ ->]]; [eauto|].
    split; [reflexivity|exact F1].
  - intros s y v Hy Hg. destruct (C s y v Hy Hg) as (x & Q1 & Q2). exists x. split; [apply nth_snoc; exact Q1|exact Q2].
  - exact D.
  - intros v x Hx. destruct (snoc_nth _ _ _ _ Hx) as [Hx'|[_ ->]]; [eauto|exact F3].
Qed.

Lemma new_splitter_inv : forall b seen w c, Inv (all_ph b) seen w -> Inv (all_ph b) seen (new_splitter w c).
Proof.
  intros b seen w c [A B C D E].
  unfold wv, ws in *. constructor; unfold wv, ws, new_splitter; cbn [w_verts w_splits]; auto.
  - intros v x s Hx Hs. destruct (A v x s Hx Hs) as (y & Q1 & Q2). exists y.
    split; [apply nth_snoc; exact Q1|exact Q2].
  - intros s y v Hy Hg. destruct (snoc_nth _ _ _ _ Hy) as [Hy'|[_ ->]]; [eauto|]. destruct c; discriminate.
  - intros s y Hy Hg. destruct (snoc_nth _ _ _ _ Hy) as [Hy'|[_ ->]]; [eauto|]. exists c. reflexivity.
Qed.

Lemma cost_at_new_splitter : forall b seen w c v, Inv (all_ph b) seen w ->
  cost_at (new_splitter w c) v = cost_at w v.
Proof.
  intros b seen w c v HI. unfold cost_at, new_splitter, wv, ws. cbn [w_verts w_splits].
  destruct (nth_error (w_verts w) v) as [x|] eqn:E; [|reflexivity].
  destruct (v_split x) as [s|] eqn:Es; [|reflexivity].
  destruct (i_pair _ _ _ HI v x s E Es) as (y & Hy & _). unfold ws in Hy.
  rewrite (nth_snoc _ _ _ _ Hy), Hy. reflexivity.
Qed.

Definition with_max (x : vertex) (m : option (list Z)) : vertex :=
  mkV (mkAV (av_n (v_av x)) (av_shape (v_av x)) m) (v_kind x) (v_mvs x) (v_split x) (v_index x) (v_next x).

Lemma set_max_inv : forall seen w v m w', Inv (all_ph true) seen w -> set_max w v m = done w' ->
  Inv (all_ph true) seen w'.
Proof.
  intros seen w v m w' HI E. unfold set_max in E.
  destruct (nth_error (w_verts w) v) as [x|] eqn:Hx; [|discriminate].
  assert (Lv : (v < length (w_verts w))%nat) by (eapply nth_lt; exact Hx).
  assert (W : w' = set_vert w v (with_max x m)).
  { destruct m as [mx|]; [|discriminate].
    destruct (check_atoms_per_core _ mx); [|discriminate]. unfold done in E. injection E as <-. reflexivity. }
  clear E. subst w'. destruct HI as [A B C D E]. unfold wv, ws in *.
  assert (Hv : forall u, nth_error (w_verts (set_vert w v (with_max x m))) u =
     if Nat.eqb u v then Some (with_max x m) else nth_error (w_verts w) u)
    by (intro u; cbn; apply wv_upd; exact Lv).
  constructor; unfold wv, ws; cbn [set_vert w_splits].
  - intros u z s Hz Hs. rewrite Hv in Hz. destruct (Nat.eqb_spec u v) as [->|N]; [|eauto].
    injection Hz as <-. destruct (A v x s Hx Hs) as (y & Q1 & Q2 & Q3). exists y.
    split; [exact Q1|]. split; [exact Q2|]. unfold pair_ok, all_ph in *.
    destruct (s_kind y) as [c|[m0|]| |l o]; exact Q3.
  - intros u z Hz Hs. rewrite Hv in Hz. destruct (Nat.eqb_spec u v) as [->|N]; [|eauto].
    injection Hz as <-. exact (B v x Hx Hs).
  - intros s y u Hy Hg. destruct (C s y u Hy Hg) as (z & Q1 & Q2). rewrite Hv.
    destruct (Nat.eqb_spec u v) as [->|N]; [|eauto].
    exists (with_max x m). split; [reflexivity|]. assert (z = x) by congruence. subst z. exact Q2.
  - exact D.
  - intros u z Hz. rewrite Hv in Hz. destruct (Nat.eqb_spec u v) as [->|N]; [|eauto].
    injection Hz as <-. exact (E v x Hx).
Qed.

Lemma slices_same : forall seen w s w' l, Inv (all_ph false) seen w -> out_slices w s = (w', Ok l) -> w' = w.
Proof.
  intros seen w s w' l HI E. unfold out_slices in E.
  destruct (nth_error (w_splits w) s) as [[k g]|] eqn:Hy; [|injection E as <-; reflexivity].
  destruct k as [c| | |]; try (injection E as <-; reflexivity).
  unfold fixed_slices in E. rewrite Hy in E. destruct c as [l0|]; [injection E as <-; reflexivity|].
  destruct g as [v|]; [|discriminate].
  destruct (i_back _ _ _ HI s _ v Hy eq_refl) as (x & Hx & Hs).
  destruct (i_pair _ _ _ HI v x s Hx Hs) as (y & Hy' & _ & P). unfold ws in Hy'.
  assert (y = mkS (SFixed None) (Some v)) by congruence. subst y.
  unfold pair_ok, all_ph in P. cbn [s_kind] in P. destruct P as (f & _ & l1 & Q & _). discriminate.
Qed.

Lemma step_good : forall pc ps b b' seen w w' o, Good pc ps b seen w -> step pc ps w o = done w' ->
  phase b [o] = Some b' -> Good pc ps b' (seen || resets o) w'.
Proof.
  intros pc ps b b' seen w w' o [HI HC] E Ph.
  destruct o as [a c|c|v s|s v|v m|s| |]; cbn [phase step resets] in *; rewrite ?orb_false_r, ?orb_true_r.
  - destruct b; [|discriminate]. injection Ph as <-. unfold done in E. injection E as <-.
    split; [apply new_vertex_inv; exact HI|discriminate].
  - injection Ph as <-. unfold done in E. injection E as <-. split; [apply new_splitter_inv; exact HI|].
    intro Hb. specialize (HC Hb). unfold counted in *. cbn [new_splitter w_counter w_verts]. rewrite HC.
    f_equal. apply flat_map_ext. intro v. symmetry. exact (cost_at_new_splitter b seen w c v HI).
  - destruct b; [|discriminate]. injection Ph as <-. split; [|discriminate].
    exact (set_splitter_ok seen w w' v s HI E).
  - discriminate.
  - destruct b; [|discriminate]. injection Ph as <-. split; [|discriminate].
    exact (set_max_inv seen w v m w' HI E).
  - destruct b; [discriminate|]. injection Ph as <-.
    destruct (out_slices w s) as [w1 [l|e]] eqn:Eo; [|discriminate]. unfold done in E. injection E as <-.
    rewrite (slices_same seen w s w1 l HI Eo). split; assumption.
  - destruct b; [|discriminate]. injection Ph as <-.
    pose proof (partition_spec pc ps seen w HI) as P. rewrite E in P. cbn [done] in P.
    destruct P as (P1 & _ & P2). split; [exact P1|]. intros _. exact P2.
  - injection Ph as <-. unfold done in E. injection E as <-. split; [|discriminate].
    exact (proj1 (reset_spec b seen w HI)).
Qed.

Lemma phase_cons : forall b o t b', phase b (o :: t) = Some b' ->
  exists b1, phase b [o] = Some b1 /\ phase b1 t = Some b'.
Proof. intros b o t b' H. destruct o, b; cbn in *; try discriminate; eauto. Qed.

Lemma run_good : forall pc ps ops b b' seen w w', Good pc ps b seen w -> run pc ps w ops = done w' ->
  phase b ops = Some b' -> Good pc ps b' (seen || existsb resets ops) w'.
Proof.
  intros pc ps ops. induction ops as [|o t IH]; intros b b' seen w w' G E Ph.
  - cbn in *. unfold done in E. injection E as <-. injection Ph as <-. rewrite orb_false_r. exact G.
  - destruct (phase_cons b o t b' Ph) as (b1 & P1 & P2). cbn [run existsb] in *.
    destruct (step pc ps w o) as [w1 [e|]] eqn:Es; cbn [and_then] in E; [discriminate|].
    rewrite orb_assoc. eapply IH; [|exact E|exact P2].
    eapply step_good; [exact G|exact Es|exact P1].
Qed.

Lemma empty_good : forall pc ps, Good pc ps true false empty_world.
Proof.
  intros pc ps. split; [|discriminate].
  constructor; unfold wv, ws; cbn [empty_world w_verts w_splits]; intros;
    match goal with H : nth_error [] ?i = Some _ |- _ => destruct i; discriminate H end.
Qed.

Lemma no_reset_seen : forall ops, no_reset ops -> existsb resets ops = false.
Proof.
  intros ops H. destruct (existsb resets ops) eqn:E; [|reflexivity].
  apply existsb_exists in E. destruct E as (o & I & R). destruct o; try discriminate. contradiction.
Qed.

(** A world made by calls in a sensible order, just partitioned or not. *)
Definition made_by (pc ps : Z) (ops : list op) (b : bool) (w : world) : Prop :=
  run pc ps empty_world ops = done w /\ phase true ops = Some b.

Lemma made_by_good : forall pc ps ops b w, made_by pc ps ops b w -> Good pc ps b (existsb resets ops) w.
Proof.
  intros pc ps ops b w [E P]. exact (run_good pc ps ops true b false empty_world w (empty_good pc ps) E P).
Qed.

(** ** What each splitter makes *)

Lemma pair_at : forall pc ps ops w v x, made_by pc ps ops false w -> wv w v = Some x ->
  exists s y, v_split x = Some s /\ ws w s = Some y /\ s_gov y = Some v /\
    pair_ok false (existsb resets ops) x y.
Proof.
  intros pc ps ops w v x M Hx. destruct (made_by_good _ _ _ _ _ M) as [HI _].
  destruct (v_split x) as [s|] eqn:Es.
  - destruct (i_pair _ _ _ HI v x s Hx Es) as (y & A & B & C). exists s, y. auto.
  - destruct (i_lone _ _ _ HI v x Hx Es) as [Q _]. discriminate.
Qed.

Lemma map_desc_slices : forall l, map mv_slice l = map (fun d => fst (fst d)) (map desc l).
Proof. intro l. rewrite map_map. apply map_ext. intros [? ? ? ?]. reflexivity. Qed.

Lemma fixed_spec : forall pc ps ops w v x s c g, made_by pc ps ops false w ->
  wv w v = Some x -> v_split x = Some s -> ws w s = Some (mkS (SFixed c) g) -> sized (v_av x) ->
  exists f, v_kind x = Legacy f /\
    tiles 0 (map mv_slice (v_mvs x)) (av_n (v_av x)) /\
    (forall m, In m (v_mvs x) -> mv_sdram m = f (mv_slice m) /\ mv_role m = Core /\
       Forall2 (fun k lim => (0 < k <= lim)%Z) (sl_shape (mv_slice m)) (limits (v_av x))) /\
    (forall p, in_grid (av_shape (v_av x)) p ->
       exists i m, nth_error (v_mvs x) i = Some m /\ in_slice p (mv_slice m) /\
         forall j m', nth_error (v_mvs x) j = Some m' -> in_slice p (mv_slice m') -> j = i) /\
    (forall m p, In m (v_mvs x) -> in_slice p (mv_slice m) -> in_grid (av_shape (v_av x)) p) /\
    NoDup (map mv_id (v_mvs x)) /\
    (forall i m, nth_error (v_mvs x) i = Some m -> dget Nat.eqb (v_index x) (mv_id m) = Some i) /\
    out_vertices w s = Ok (v_mvs x) /\ in_vertices w s = Ok (v_mvs x) /\
    out_slices w s = (w, Ok (map mv_slice (v_mvs x))) /\
    in_slices w s = (w, Ok (map mv_slice (v_mvs x))).
Proof.
  intros pc ps ops w v x s c g M Hx Es Hy Sz.
  destruct (pair_at _ _ _ _ _ _ M Hx) as (s' & y & A & B & G & P).
  assert (s' = s) by congruence. subst s'. assert (y = mkS (SFixed c) g) by congruence. subst y.
  cbn [s_gov] in G. subst g. unfold pair_ok in P. cbn [s_kind] in P.
  destruct P as (f & Kf & l & -> & El & Ed & Nd & Ix). exists f. split; [exact Kf|].
  assert (Sl : map mv_slice (v_mvs x) = l).
  { rewrite map_desc_slices, Ed, map_map. cbn. apply map_id. }
  destruct (slices_accept_iff (v_av x) Sz) as [[_ Acc] _].
  destruct (slices_partition (v_av x) Sz (Acc (ex_intro _ l El))) as (l' & El' & T & Sh & Cov & In').
  assert (l' = l) by congruence. subst l'.
  split; [rewrite Sl; exact T|]. split; [|split; [|split; [|split; [exact Nd|split; [exact Ix|]]]]].
  - intros m Hm. split; [|split].
    + assert (I : In (desc m) (map desc (v_mvs x))) by (apply in_map; exact Hm).
      rewrite Ed in I. apply in_map_iff in I. destruct I as (sl & E & _). unfold desc in E.
      injection E as E1 E2 E3. congruence.
    + assert (I : In (desc m) (map desc (v_mvs x))) by (apply in_map; exact Hm).
      rewrite Ed in I. apply in_map_iff in I. destruct I as (sl & E & _). unfold desc in E.
      injection E as E1 E2 E3. congruence.
    + apply Sh. rewrite <- Sl. apply in_map. exact Hm.
  - intros p Hp. destruct (Cov p Hp) as (i & sl & Hi & Hin & U). rewrite <- Sl in Hi.
    rewrite nth_error_map in Hi. destruct (nth_error (v_mvs x) i) as [m|] eqn:Em; [|discriminate].
    cbn in Hi. injection Hi as Hi. exists i, m. split; [exact Em|]. rewrite Hi. split; [exact Hin|].
    intros j m' Hj Hin'. apply (U j (mv_slice m')); [|exact Hin'].
    rewrite <- Sl. rewrite nth_error_map, Hj. reflexivity.
  - intros m p Hm Hin. apply (In' (mv_slice m)); [|exact Hin]. rewrite <- Sl. apply in_map. exact Hm.
  - unfold out_vertices, in_vertices, out_slices, in_slices. unfold ws in Hy. rewrite Hy.
    unfold out_vertices. rewrite Hy. cbn [s_kind s_gov]. unfold wv in Hx. rewrite Hx.
    split; [reflexivity|]. split; [reflexivity|].
    unfold fixed_slices. rewrite Hy. rewrite Sl. split; reflexivity.
Qed.

Lemma whole_inv : forall x sl, whole x sl -> sl = mkSlice 0 (av_n (v_av x)) None /\ (1 <= av_n (v_av x))%Z.
Proof.
  intros x sl H. unfold whole, make_slice in H. cbn [Z.ltb] in H.
  destruct (Z.ltb_spec (av_n (v_av x) - 1) 0); [discriminate|].
  destruct (0 <? 0)%Z; [discriminate|]. injection H as <-. split; [f_equal; lia|lia].
Qed.

Lemma one_spec : forall pc ps ops w v x s o g, made_by pc ps ops false w -> no_reset ops ->
  wv w v = Some x -> v_split x = Some s -> ws w s = Some (mkS (SOne o) g) ->
  exists f m, v_kind x = Legacy f /\ v_mvs x = [m] /\
    mv_slice m = mkSlice 0 (av_n (v_av x)) None /\ mv_sdram m = f (mv_slice m) /\ mv_role m = Core /\
    dget Nat.eqb (v_index x) (mv_id m) = Some 0%nat /\
    out_vertices w s = Ok [m] /\ in_vertices w s = Ok [m] /\
    out_slices w s = (w, Ok [mv_slice m]) /\ in_slices w s = (w, Ok [mv_slice m]).
Proof.
  intros pc ps ops w v x s o g M NR Hx Es Hy.
  destruct (pair_at _ _ _ _ _ _ M Hx) as (s' & y & A & B & G & P).
  assert (s' = s) by congruence. subst s'. assert (y = mkS (SOne o) g) by congruence. subst y.
  rewrite (no_reset_seen _ NR) in P. unfold pair_ok in P. cbn [s_kind] in P.
  destruct o as [m|]; [|contradiction].
  destruct P as (f & sl & Kf & Wh & Dm & [[Em Ix]|[Q _]]); [|discriminate].
  destruct (whole_inv _ _ Wh) as [-> Hn]. unfold desc in Dm. injection Dm as D1 D2 D3.
  exists f, m. split; [exact Kf|]. split; [exact Em|]. split; [exact D1|]. split; [congruence|].
  split; [exact D3|]. split; [apply Ix; rewrite Em; reflexivity|].
  unfold out_vertices, in_vertices, out_slices, in_slices, out_vertices. unfold ws in Hy. rewrite Hy.
  cbn [s_kind bind map]. auto.
Qed.

Lemma one_app_spec : forall pc ps ops w v x s g, made_by pc ps ops false w ->
  wv w v = Some x -> v_split x = Some s -> ws w s = Some (mkS SOneApp g) ->
  exists m, v_kind x = OneApp m /\ v_mvs x = [m] /\
    dget Nat.eqb (v_index x) (mv_id m) = Some 0%nat /\
    out_vertices w s = Ok [m] /\ in_vertices w s = Ok [m] /\
    out_slices w s = (w, Ok [mv_slice m]) /\ in_slices w s = (w, Ok [mv_slice m]).
Proof.
  intros pc ps ops w v x s g M Hx Es Hy.
  destruct (pair_at _ _ _ _ _ _ M Hx) as (s' & y & A & B & G & P).
  assert (s' = s) by congruence. subst s'. assert (y = mkS SOneApp g) by congruence. subst y.
  cbn [s_gov] in G. subst g. unfold pair_ok in P. cbn [s_kind] in P. destruct P as (m & Km & Em & Ix).
  exists m. split; [exact Km|]. split; [exact Em|]. split; [apply Ix; rewrite Em; reflexivity|].
  unfold out_vertices, in_vertices, out_slices, in_slices, out_vertices. unfold ws in Hy. rewrite Hy.
  unfold wv in Hx. cbn [s_kind s_gov]. rewrite Hx, Km. cbn [bind map]. auto.
Qed.

(** The machine vertices of a device. *)
Definition fpga_parts (n m : Z) (incoming : list nat) : list (slice * Z * role) :=
  flat_map (fun i => map (fun c => (mkSlice (n / m * i) (n / m) None, 0%Z, FromDevice c)) incoming)
           (zrange 0 m).
Definition link_parts (n m : Z) : list (slice * Z * role) :=
  let per := (- (- n / m))%Z in
  map (fun i => (mkSlice (per * i) (Z.min (per * (i + 1)) n - per * i) None, 0%Z, FromDevice 0%nat))
      (zrange 0 m).
Definition to_part (n : Z) (o : option nat) : list (slice * Z * role) :=
  match o with
  | Some c => [(mkSlice 0 n None, 0%Z, ToDevice c)]
  | None => []
  end.

Lemma in_zrange : forall i m, In i (zrange 0 m) -> (0 <= i < m)%Z.
Proof. intros i m H. unfold zrange in H. apply in_map_iff in H. destruct H as (k & <- & I). apply in_seq in I. lia. Qed.

Lemma fpga_slice_inv : forall n m i s, (0 <= i < m)%Z -> fpga_slice n m i = Ok s ->
  s = mkSlice (n / m * i) (n / m) None.
Proof.
  intros n m i s Hi H. unfold fpga_slice in H. destruct (Z.eqb_spec m 0); [discriminate|].
  assert (Hm : (n / m * m <= n)%Z) by (rewrite Z.mul_comm; apply Z.mul_div_le; lia).
  destruct (Z.ltb_spec (n / m * i) 0) as [Q|Q].
  - unfold make_slice in H. apply Z.ltb_lt in Q. rewrite Q in H. discriminate.
  - unfold make_slice in H. destruct (Z.ltb_spec (n / m * i) 0); [discriminate|].
    remember (n / m)%Z as q eqn:Eq. clear Eq.
    destruct (Z.ltb_spec (Z.min (q * (i + 1) - 1) (n - 1)) (q * i)) as [Q2|Q2]; [discriminate|].
    injection H as <-. f_equal. nia.
Qed.

Lemma link_slice_inv : forall n m i s, (0 <= i < m)%Z -> link_slice n m i = Ok s ->
  s = mkSlice (- (- n / m) * i) (Z.min (- (- n / m) * (i + 1)) n - - (- n / m) * i) None.
Proof.
  intros n m i s Hi H. unfold link_slice, ceil_div in H. destruct (Z.eqb_spec m 0); [discriminate|].
  cbn [bind] in H. unfold make_slice in H. remember (- (- n / m))%Z as q eqn:Eq. clear Eq.
  destruct (q * i <? 0)%Z; [discriminate|].
  destruct (Z.min (q * (i + 1) - 1) (n - 1) <? q * i)%Z; [discriminate|].
  injection H as <-. f_equal. lia.
Qed.

Lemma mapM_map : forall {A B C} (f : A -> res B) (g : B -> C) (h : A -> C) l r,
  (forall a b, In a l -> f a = Ok b -> g b = h a) -> mapM f l = Ok r -> map g r = map h l.
Proof.
  intros A B C f g h. induction l as [|a l IH]; intros r H E; cbn [mapM] in E.
  - injection E as <-. reflexivity.
  - apply bind_Ok_inv in E. destruct E as (b & Eb & E). apply bind_Ok_inv in E.
    destruct E as (bs & Ebs & E). injection E as <-. cbn [map]. f_equal.
    + apply (H a b); [left; reflexivity|exact Eb].
    + apply IH; [|exact Ebs]. intros a' b' I. apply H. right. exact I.
Qed.

Lemma map_flat_map : forall {A B C} (g : B -> C) (f : A -> list B) l,
  map g (flat_map f l) = flat_map (fun a => map g (f a)) l.
Proof. intros. induction l; cbn; [reflexivity|]. rewrite map_app, IHl. reflexivity. Qed.

Definition device_from (x : vertex) : list (slice * Z * role) :=
  match v_kind x with
  | Fpga incoming _ m => fpga_parts (av_n (v_av x)) m incoming
  | Link true _ m => link_parts (av_n (v_av x)) m
  | _ => []
  end.

Lemma device_parts_inv : forall x parts, device_parts x = Ok parts ->
  map (fun p => (fst p, 0%Z, FromDevice (snd p))) parts = device_from x.
Proof.
  intros x parts H. unfold device_parts in H. unfold device_from.
  destruct (v_kind x) as [f|m0|inc o m|inc o m|]; try (injection H as <-; reflexivity).
  - unfold fpga_parts. erewrite (mapM_map _ _
      (fun ic => (mkSlice (av_n (v_av x) / m * fst ic) (av_n (v_av x) / m) None, 0%Z, FromDevice (snd ic))) _ _ _ H).
    Unshelve.
    2:{ intros [i c] [s c'] I E. cbn [fst snd] in E. apply bind_Ok_inv in E.
        destruct E as (s0 & Es & E). injection E as <- <-. cbn [fst snd].
        apply in_flat_map in I. destruct I as (i0 & I0 & I). apply in_map_iff in I.
        destruct I as (c0 & E & _). injection E as <- <-.
        rewrite (fpga_slice_inv _ _ _ _ (in_zrange _ _ I0) Es). reflexivity. }
    rewrite map_flat_map. apply flat_map_ext. intro i. rewrite map_map. reflexivity.
  - destruct inc; [|injection H as <-; reflexivity]. unfold link_parts. cbn zeta.
    eapply mapM_map; [|exact H].
    intros i [s c] I E. apply bind_Ok_inv in E. destruct E as (s0 & Es & E). injection E as <- <-.
    cbn [fst snd]. rewrite (link_slice_inv _ _ _ _ (in_zrange _ _ I) Es). reflexivity.
Qed.

Lemma device_spec : forall pc ps ops w v x s l o g, made_by pc ps ops false w ->
  wv w v = Some x -> v_split x = Some s -> ws w s = Some (mkS (SExt l o) g) ->
  v_mvs x = l ++ opt_list o /\ map desc l = device_from x /\
  map desc (opt_list o) = to_part (av_n (v_av x)) (device_out x) /\
  is_device x /\ NoDup (map mv_id (v_mvs x)) /\
  (forall i m, nth_error (v_mvs x) i = Some m -> dget Nat.eqb (v_index x) (mv_id m) = Some i) /\
  out_vertices w s = (match l with [] => Err NotExist | _ => Ok l end) /\
  in_vertices w s = (match o with None => Err NotExist | Some m => Ok [m] end) /\
  out_slices w s = (w, Ok (map mv_slice l)) /\ in_slices w s = (w, Ok (map mv_slice (opt_list o))).
Proof.
  intros pc ps ops w v x s l o g M Hx Es Hy.
  destruct (pair_at _ _ _ _ _ _ M Hx) as (s' & y & A & B & G & P).
  assert (s' = s) by congruence. subst s'. assert (y = mkS (SExt l o) g) by congruence. subst y.
  unfold pair_ok in P. cbn [s_kind] in P. destruct P as (Dv & Oo & (parts & Ep & Ed) & Nd & _ & Em & Ix).
  split; [exact Em|]. split; [rewrite Ed; apply device_parts_inv; exact Ep|]. split.
  { unfold out_ok in Oo. unfold to_part. destruct (device_out x) as [c|].
    - destruct Oo as (m & sl & -> & Wh & Dm). destruct (whole_inv _ _ Wh) as [-> _].
      cbn [opt_list map]. rewrite Dm. reflexivity.
    - subst o. reflexivity. }
  split; [exact Dv|]. split; [rewrite Em; exact Nd|]. split; [exact Ix|].
  unfold out_vertices, in_vertices, out_slices, in_slices, out_vertices. unfold ws in Hy. rewrite Hy.
  cbn [s_kind]. auto.
Qed.

(** ** The number of chips *)

Lemma flat_map_seq : forall {A B} (f : A -> list B) (g : nat -> list B) (l : list A) k,
  (forall i x, nth_error l i = Some x -> g (k + i)%nat = f x) ->
  flat_map g (seq k (length l)) = flat_map f l.
Proof.
  intros A B f g l. induction l as [|x l IH]; intros k H; cbn [length seq flat_map]; [reflexivity|].
  f_equal.
  - rewrite <- (H 0%nat x eq_refl). f_equal. lia.
  - apply IH. intros i z Hz. rewrite <- (H (S i) z Hz). f_equal. lia.
Qed.

Definition no_one_to_one (w : world) : Prop :=
  forall s y, ws w s = Some y -> match s_kind y with SOne _ => False | _ => True end.

Lemma chips_spec : forall pc ps ops w, made_by pc ps ops false w ->
  no_reset ops \/ no_one_to_one w ->
  w_counter w = count pc ps (flat_map (fun x => map mv_sdram (v_mvs x)) (w_verts w)).
Proof.
  intros pc ps ops w M H. destruct (made_by_good _ _ _ _ _ M) as [HI HC].
  rewrite (HC eq_refl). f_equal. apply flat_map_seq. intros i x Hx.
  destruct (pair_at _ _ _ _ _ _ M Hx) as (s & y & A & B & G & P).
  unfold cost_at. cbn [Nat.add]. unfold wv. rewrite Hx, A, B. unfold costs.
  unfold pair_ok in P. destruct (s_kind y) as [c|[m|]| |l o] eqn:Ky; try reflexivity.
  destruct P as (f & sl & _ & _ & _ & [[Em _]|[Q _]]).
  - rewrite Em. reflexivity.
  - destruct H as [NR|NO].
    + rewrite (no_reset_seen _ NR) in Q. discriminate.
    + specialize (NO s y B). rewrite Ky in NO. contradiction.
Qed.

(** ** Partitioning again *)

Lemma same_pair : forall seen seen' x x' y y', pair_ok false seen x y -> pair_ok false seen' x' y' ->
  v_av x' = v_av x -> v_kind x' = v_kind x -> same_splitter y y' ->
  costs x' y' = costs x y /\
  match s_kind y with SOne _ => True | _ => map desc (v_mvs x') = map desc (v_mvs x) end.
Proof.
  intros seen seen' x x' [k g] [k' g'] P P' Ea Ek [_ Sk]. unfold pair_ok, costs in *. cbn [s_kind] in *.
  assert (CD : map desc (v_mvs x') = map desc (v_mvs x) -> map mv_sdram (v_mvs x') = map mv_sdram (v_mvs x)).
  { intro E. apply (f_equal (map (fun d => snd (fst d)))) in E. rewrite !map_map in E. exact E. }
  destruct k as [c|[m|]| |l o]; destruct k' as [c'|[m'|]| |l' o']; try discriminate Sk; try contradiction.
  - destruct P as (f & Kf & l & _ & El & Ed & _). destruct P' as (f' & Kf' & l' & _ & El' & Ed' & _).
    assert (f' = f) by congruence. assert (l' = l) by congruence. subst.
    assert (D : map desc (v_mvs x') = map desc (v_mvs x)) by congruence. auto.
  - injection Sk as ->. auto.
  - destruct P as (m & Km & Em & _). destruct P' as (m' & Km' & Em' & _).
    assert (m' = m) by congruence. subst. rewrite Em, Em'. auto.
  - injection Sk as -> ->. destruct P as (_ & _ & _ & _ & _ & Em & _).
    destruct P' as (_ & _ & _ & _ & _ & Em' & _). rewrite Em, Em'. auto.
Qed.

Lemma again_spec : forall pc ps ops w, made_by pc ps ops false w ->
  exists w', run pc ps w [Reset; Partition] = done w' /\
    length (w_verts w') = length (w_verts w) /\ w_counter w' = w_counter w /\
    forall v x, wv w v = Some x -> exists x', wv w' v = Some x' /\
      v_av x' = v_av x /\ v_kind x' = v_kind x /\ v_split x' = v_split x /\
      forall s y, v_split x = Some s -> ws w s = Some y ->
        match s_kind y with SOne _ => True | _ => map desc (v_mvs x') = map desc (v_mvs x) end.
Proof.
  intros pc ps ops w M. destruct (made_by_good _ _ _ _ _ M) as [HI HC].
  destruct (reset_spec _ _ _ HI) as (HI1 & F1).
  pose proof (partition_spec pc ps true (reset w) HI1) as P.
  cbn [run step and_then done]. destruct (partition pc ps (reset w)) as [w' [e|]] eqn:E.
  - exfalso. destruct P as (v & x1 & Hx1 & R). destruct F1 as (L1 & F1 & G1).
    assert (Hx : exists x, wv w v = Some x).
    { assert (Lt : (v < length (w_verts w))%nat) by (rewrite <- L1; eapply nth_lt; exact Hx1).
      apply nth_error_Some in Lt. unfold wv. destruct (nth_error (w_verts w) v); [eauto|congruence]. }
    destruct Hx as (x & Hx). destruct (F1 v x Hx) as (x1' & Q1 & Q2 & Q3 & Q4).
    assert (x1' = x1) by congruence. subst x1'.
    destruct (pair_at _ _ _ _ _ _ M Hx) as (s & y & A & B & G & Pr).
    destruct R as [[R _]|(s0 & y0 & c & R1 & R2 & R3 & R4)]; [congruence|].
    assert (s0 = s) by congruence. subst s0. destruct (G1 s y B) as (y1 & B1 & [_ Sk]).
    assert (y1 = y0) by congruence. subst y1. rewrite R3 in Sk.
    unfold pair_ok in Pr. destruct (s_kind y) as [c'| | |]; try discriminate.
    destruct Pr as (f & _ & l & _ & El & _). congruence.
  - destruct P as (HI2 & F2 & Ct). exists w'. split; [reflexivity|].
    pose proof (frame_trans _ _ _ F1 F2) as (L & F & G). split; [exact L|].
    assert (Each : forall v x, wv w v = Some x -> exists x' s y y', wv w' v = Some x' /\
       v_av x' = v_av x /\ v_kind x' = v_kind x /\ v_split x' = v_split x /\ v_split x = Some s /\
       ws w s = Some y /\ ws w' s = Some y' /\ costs x' y' = costs x y /\
       match s_kind y with SOne _ => True | _ => map desc (v_mvs x') = map desc (v_mvs x) end).
    { intros v x Hx. destruct (F v x Hx) as (x' & Q1 & Q2 & Q3 & Q4).
      destruct (pair_at _ _ _ _ _ _ M Hx) as (s & y & A & B & Gv & Pr).
      destruct (G s y B) as (y' & B' & Sk). rewrite A in Q4.
      destruct (i_pair _ _ _ HI2 v x' s Q1 Q4) as (y2 & C1 & C2 & C3).
      assert (y2 = y') by congruence. subst y2.
      destruct (same_pair _ _ x x' y y' Pr C3 Q2 Q3 Sk) as [D1 D2].
      exists x', s, y, y'. rewrite A. auto 12. }
    split.
    + rewrite Ct, (HC eq_refl). rewrite L. f_equal.
      rewrite flat_map_concat_map, (flat_map_concat_map (cost_at w)). f_equal.
      apply map_ext_in. intros v Iv. apply in_seq in Iv.
      assert (Hx : exists x, wv w v = Some x).
      { assert (Lt : (v < length (w_verts w))%nat) by lia.
        apply nth_error_Some in Lt. unfold wv. destruct (nth_error (w_verts w) v); [eauto|congruence]. }
      destruct Hx as (x & Hx). destruct (Each v x Hx) as (x' & s & y & y' & E1 & _ & _ & E4 & E5 & E6 & E7 & E8 & _).
      unfold cost_at. rewrite Hx, E1, E4, E5, E6, E7. exact E8.
    + intros v x Hx. destruct (Each v x Hx) as (x' & s & y & y' & E1 & E2 & E3 & E4 & E5 & E6 & E7 & _ & E9).
      exists x'. split; [exact E1|]. split; [exact E2|]. split; [exact E3|]. split; [exact E4|].
      intros s0 y0 S0 Y0. assert (s0 = s) by congruence. subst s0.
      assert (y0 = y) by congruence. subst y0. exact E9.
Qed.

(** ** Failing *)

Lemma partition_outcome : forall pc ps ops w, made_by pc ps ops true w ->
  (forall v x, wv w v = Some x -> exists s y, v_split x = Some s /\ ws w s = Some y /\
     (forall c, s_kind y = SFixed c -> sized (v_av x) /\ splittable (v_av x))) ->
  exists w', partition pc ps w = done w'.
Proof.
  intros pc ps ops w M H. destruct (made_by_good _ _ _ _ _ M) as [HI _].
  eapply partition_succeeds; [exact HI|]. intros v x Hx.
  destruct (H v x Hx) as (s & y & A & B & C). exists s, y. split; [exact A|]. split; [exact B|].
  intros c Kc. destruct (C c Kc) as [Sz Sp]. destruct (slices_accept_iff (v_av x) Sz) as [[Acc _] _].
  exact (Acc Sp).
Qed.

Lemma partition_fails : forall pc ps ops w w' e, made_by pc ps ops true w ->
  partition pc ps w = raises w' e ->
  exists v x, wv w v = Some x /\
    ((v_split x = None /\ e = ConfigurationException) \/
     exists s c g, v_split x = Some s /\ ws w s = Some (mkS (SFixed c) g) /\
       multi_slices (v_av x) = Err e).
Proof.
  intros pc ps ops w w' e M E. destruct (made_by_good _ _ _ _ _ M) as [HI _].
  pose proof (partition_spec pc ps _ w HI) as P. rewrite E in P. cbn [raises] in P.
  destruct P as (v & x & Hx & R). exists v, x. split; [exact Hx|].
  destruct R as [R|(s & [k g] & c & R1 & R2 & R3 & R4)]; [left; exact R|].
  right. cbn in R3. subst k. exists s, c, g. auto.
Qed.

(** Vertices and splitters point at each other. *)
Lemma links_spec : forall pc ps ops b w, made_by pc ps ops b w ->
  forall v s, (exists x, wv w v = Some x /\ v_split x = Some s) <->
              (exists y, ws w s = Some y /\ s_gov y = Some v).
Proof.
  intros pc ps ops b w M v s. destruct (made_by_good _ _ _ _ _ M) as [HI _]. split.
  - intros (x & Hx & Hs). destruct (i_pair _ _ _ HI v x s Hx Hs) as (y & A & B & _). eauto.
  - intros (y & Hy & Hg). exact (i_back _ _ _ HI s y v Hy Hg).
Qed.

(** ** Setting a splitter *)

(** A splitter of kind [k] can split a vertex [x]. *)
Definition fits (k : skind) (x : vertex) : Prop :=
  match k with
  | SFixed _ => exists f, v_kind x = Legacy f
  | SOne _ => (exists f, v_kind x = Legacy f) /\ (1 <= av_n (v_av x))%Z
  | SOneApp => exists m, v_kind x = OneApp m
  | SExt _ _ => is_device x /\ (exists parts, device_parts x = Ok parts) /\
                (device_out x <> None -> (1 <= av_n (v_av x))%Z)
  end.

(** [w'] differs from [w] only in what vertex [v] and splitter [s] refer to and
    in the machine vertices of [v]. *)
Definition linked (w w' : world) (v s : nat) : Prop :=
  length (w_verts w') = length (w_verts w) /\ length (w_splits w') = length (w_splits w) /\
  (forall x, wv w v = Some x -> exists x', wv w' v = Some x' /\
     v_av x' = v_av x /\ v_kind x' = v_kind x /\ v_split x' = Some s) /\
  (exists y', ws w' s = Some y' /\ s_gov y' = Some v) /\
  (forall u, u <> v -> wv w' u = wv w u) /\ (forall t, t <> s -> ws w' t = ws w t).

Lemma attach_pending : forall w v s x k, nth_error (w_verts w) v = Some x -> (s < length (w_splits w))%nat ->
  forall n, attach (S n) false (set_split (set_vert w v (with_split x (Some s))) s (mkS k (Some v))) v s =
    done (set_split (set_vert w v (with_split x (Some s))) s (mkS k (Some v))).
Proof.
  intros w v s x k Hx Ls n.
  assert (Lv : (v < length (w_verts w))%nat) by (eapply nth_lt; exact Hx).
  unfold set_split, set_vert. cbn [attach w_verts w_splits].
  rewrite nth_error_upd_eq by exact Lv. rewrite nth_error_upd_eq by exact Ls.
  cbn [with_split v_split]. rewrite Nat.eqb_refl. reflexivity.
Qed.

Lemma make_slice_whole : forall n, (1 <= n)%Z <-> exists sl, make_slice 0 (n - 1) = Ok sl.
Proof.
  intro n. unfold make_slice. cbn [Z.ltb]. replace (0 <? 0)%Z with false by reflexivity.
  destruct (Z.ltb_spec (n - 1) 0); split; intro H0; try lia; eauto. destruct H0; discriminate.
Qed.

Lemma set_splitter_iff : forall w v s x y, wv w v = Some x -> ws w s = Some y ->
  v_split x = None -> s_gov y = None ->
  ((exists w', set_splitter w v s = done w') <-> fits (s_kind y) x) /\
  (forall w', set_splitter w v s = done w' -> linked w w' v s).
Proof.
  intros w v s x y Hx Hy Hs Hg. unfold set_splitter. unfold wv, ws in Hx, Hy.
  assert (Lv : (v < length (w_verts w))%nat) by (eapply nth_lt; exact Hx).
  assert (Ls : (s < length (w_splits w))%nat) by (eapply nth_lt; exact Hy).
  remember 3%nat as n3 eqn:E3. cbn [attach]. rewrite Hx, Hy, Hs. subst n3.
  remember 2%nat as n2 eqn:E2. cbn [attach].
  change (w_splits (set_vert w v (with_split x (Some s)))) with (w_splits w).
  change (w_verts (set_vert w v (with_split x (Some s)))) with (upd (w_verts w) v (with_split x (Some s))).
  rewrite nth_error_upd_eq by exact Lv. rewrite Hy, Hg. subst n2.
  change (v_kind (with_split x (Some s))) with (v_kind x).
  rewrite !(attach_pending w v s x _ Hx Ls).
  set (w1 := set_split (set_vert w v (with_split x (Some s))) s (mkS (s_kind y) (Some v))).
  assert (X1 : nth_error (w_verts w1) v = Some (with_split x (Some s))).
  { unfold w1, set_split, set_vert. cbn. apply nth_error_upd_eq. exact Lv. }
  assert (Y1 : nth_error (w_splits w1) s = Some (mkS (s_kind y) (Some v))).
  { unfold w1, set_split, set_vert. cbn. apply nth_error_upd_eq. exact Ls. }
  assert (Lk : forall x' y' c, v_av x' = v_av x -> v_kind x' = v_kind x -> v_split x' = Some s ->
     s_gov y' = Some v -> linked w (mkW (upd (w_verts w) v x') (upd (w_splits w) s y') c) v s).
  { intros x' y' c A B C D. unfold linked, wv, ws. cbn [w_verts w_splits].
    rewrite !upd_length. split; [reflexivity|]. split; [reflexivity|]. split; [|split; [|split]].
    - intros x0 Q. assert (x0 = x) by congruence. subst x0. exists x'.
      rewrite nth_error_upd_eq by exact Lv. auto.
    - exists y'. rewrite nth_error_upd_eq by exact Ls. auto.
    - intros u Hu. apply nth_error_upd_neq. congruence.
    - intros t Ht. apply nth_error_upd_neq. congruence. }
  assert (L1 : linked w w1 v s) by (apply Lk; reflexivity).
  assert (No : forall e w0 (P : Prop), ~ P ->
     ((exists w', raises w0 e = done w') <-> P) /\ (forall w', raises w0 e = done w' -> linked w w' v s)).
  { intros e w0 P NP. split; [split; [intros [w' Q]; discriminate|tauto]|]. intros w' Q. discriminate. }
  assert (Yes : forall w0 (P : Prop), P -> linked w w0 v s ->
     ((exists w', done w0 = done w') <-> P) /\ (forall w', done w0 = done w' -> linked w w' v s)).
  { intros w0 P HP L. split; [split; [auto|intros _; eauto]|]. intros w' Q. unfold done in Q. injection Q as <-. exact L. }
  assert (One : forall f, v_kind x = Legacy f ->
     ((exists w', build_one w1 s v f = done w') <-> (1 <= av_n (v_av x))%Z) /\
     (forall w', build_one w1 s v f = done w' -> linked w w' v s)).
  { intros f Kf. unfold build_one. rewrite X1. change (v_av (with_split x (Some s))) with (v_av x).
    pose proof (make_slice_whole (av_n (v_av x))) as MW.
    destruct (make_slice 0 (av_n (v_av x) - 1)) as [sl|e].
    - unfold remember, set_skind, set_vert. cbn [w_splits]. rewrite Y1. unfold set_split. cbn [w_verts w_splits].
      rewrite nth_error_upd_eq by (rewrite (nth_error_upd_eq (w_verts w1)) || (eapply nth_lt; exact X1)).
      cbn [made v_kind with_split]. rewrite Kf. apply Yes; [apply MW; eauto|].
      unfold w1, set_split, set_vert. cbn [w_verts w_splits]. rewrite !upd_upd.
      apply Lk; cbn; try reflexivity. symmetry; exact Kf.
    - apply No. rewrite MW. intros [sl Q]. discriminate. }
  assert (Dev : ((exists w', build_device w1 s v = done w') <-> fits (SExt [] None) x) /\
     (forall w', build_device w1 s v = done w' -> linked w w' v s)).
  { unfold build_device. rewrite X1. change (v_kind (with_split x (Some s))) with (v_kind x).
    change (device_parts (with_split x (Some s))) with (device_parts x).
    change (device_out (with_split x (Some s))) with (device_out x).
    change (v_av (with_split x (Some s))) with (v_av x).
    assert (G : is_device x ->
      let o := match device_parts x with
          | Err e => raises (set_skind w1 s (SExt [] None)) e
          | Ok parts =>
              let n := length parts in
              let l := new_incoming (v_next (with_split x (Some s))) parts in
              let w2 := set_vert (set_skind w1 s (SExt [] None)) v (made (with_split x (Some s)) n) in
              match device_out x with
              | None => done (set_skind w2 s (SExt l None))
              | Some c =>
                  match make_slice 0 (av_n (v_av x) - 1) with
                  | Err e => raises (set_skind w2 s (SExt l None)) e
                  | Ok sl =>
                      done (set_skind (set_vert (set_skind w1 s (SExt [] None)) v (made (with_split x (Some s)) (S n))) s
                              (SExt l (Some (mkMV (v_next (with_split x (Some s)) + n) sl 0 (ToDevice c)))))
                  end
              end
          end in
      ((exists w', o = done w') <-> fits (SExt [] None) x) /\ (forall w', o = done w' -> linked w w' v s)).
    { intros Dv o. subst o. unfold fits.
      destruct (device_parts x) as [parts|e].
      2:{ apply No. intros (_ & (p & Q) & _). discriminate. }
      assert (LD : forall k x' k', v_av x' = v_av x -> v_kind x' = v_kind x -> v_split x' = Some s ->
         linked w (set_skind (set_vert (set_skind w1 s k) v x') s k') v s).
      { intros k x' k' A B C. unfold set_skind at 2. rewrite Y1. unfold set_skind, set_split, set_vert.
        cbn [w_splits w_verts s_gov]. rewrite nth_error_upd_eq by (eapply nth_lt; exact Y1).
        unfold w1, set_split, set_vert. cbn [w_splits w_verts s_gov]. rewrite !upd_upd.
        apply Lk; auto. }
      cbn zeta. destruct (device_out x) as [c|].
      - pose proof (make_slice_whole (av_n (v_av x))) as MW.
        destruct (make_slice 0 (av_n (v_av x) - 1)) as [sl|e].
        + apply Yes; [|apply LD; reflexivity]. split; [exact Dv|]. split; [eauto|].
          intros _. apply MW. eauto.
        + apply No. intros (_ & _ & Q). destruct (proj1 MW) as [sl Q']; [apply Q; discriminate|discriminate].
      - apply Yes; [|apply LD; reflexivity]. split; [exact Dv|]. split; [eauto|]. congruence. }
    unfold is_device in G. destruct (v_kind x) eqn:Kx; try (apply G; exact I);
      (apply No; unfold fits, is_device; rewrite Kx; intros [[] _]). }
  unfold fits.
  destruct (s_kind y) as [c|o| |l o] eqn:Ky.
  - destruct (v_kind x) as [f|m|i o p|i o p|]; try (apply No; intros [f' Q]; discriminate).
    apply Yes; [eauto|]. exact L1.
  - destruct (v_kind x) as [f|m|i o' p|i o' p|] eqn:Kx; try (apply No; intros [[f' Q] _]; discriminate).
    cbn [and_then done]. destruct (One f eq_refl) as [O1 O2]. split; [|exact O2].
    rewrite O1. split; [intro; split; eauto|intros [_ Q]; exact Q].
  - destruct (v_kind x) as [f|m|i o p|i o p|]; try (apply No; intros [f' Q]; discriminate).
    apply Yes; [eauto|]. exact L1.
  - cbn [and_then done]. exact Dev.
Qed.

(** Otherwise only what is already so can be set again. *)
Lemma set_splitter_taken : forall pc ps ops w v s x y, made_by pc ps ops true w ->
  wv w v = Some x -> ws w s = Some y -> v_split x <> None \/ s_gov y <> None ->
  if match v_split x with Some s' => Nat.eqb s' s | None => false end
  then set_splitter w v s = done w
  else snd (set_splitter w v s) = Some ConfigurationException.
Proof.
  intros pc ps ops w v s x y M Hx Hy T. destruct (made_by_good _ _ _ _ _ M) as [HI _].
  pose proof Hx as Hx'. pose proof Hy as Hy'. unfold wv, ws in Hx', Hy'.
  unfold set_splitter. remember 3%nat as n3 eqn:E3. cbn [attach]. rewrite Hx', Hy'.
  destruct (v_split x) as [s'|] eqn:Es.
  - destruct (Nat.eqb s' s); reflexivity.
  - destruct T as [T|T]; [congruence|]. subst n3. remember 2%nat as n2 eqn:E2. cbn [attach].
    assert (Lv : (v < length (w_verts w))%nat) by (eapply nth_lt; exact Hx).
    change (w_splits (set_vert w v (with_split x (Some s)))) with (w_splits w).
    change (w_verts (set_vert w v (with_split x (Some s)))) with (upd (w_verts w) v (with_split x (Some s))).
    rewrite nth_error_upd_eq by exact Lv. rewrite Hy'.
    destruct (s_gov y) as [v'|] eqn:Eg; [|congruence].
    assert (N : Nat.eqb v' v = false).
    { apply Nat.eqb_neq. intros ->. destruct (i_back _ _ _ HI s y v Hy Eg) as (x0 & A & B). congruence. }
    rewrite N. destruct (s_kind y), (v_kind (with_split x (Some s))); reflexivity.
Qed.

(** After partitioning every vertex has a splitter that fits. *)
Lemma all_split : forall pc ps ops w v x, made_by pc ps ops false w -> wv w v = Some x ->
  exists s y, v_split x = Some s /\ ws w s = Some y /\ s_gov y = Some v /\ fits (s_kind y) x /\
    (forall c, s_kind y = SFixed c -> sized (v_av x) -> splittable (v_av x)).
Proof.
  intros pc ps ops w v x M Hx.
  destruct (pair_at _ _ _ _ _ _ M Hx) as (s & [k g] & A & B & G & P).
  exists s, (mkS k g). split; [exact A|]. split; [exact B|]. split; [exact G|].
  unfold pair_ok in P. cbn [s_kind] in *. destruct k as [c|[m|]| |l o]; cbn [fits].
  - destruct P as (f & Kf & l & _ & El & _). split; [eauto|].
    intros c' _ Sz. apply (slices_accept_iff (v_av x) Sz). eauto.
  - destruct P as (f & sl & Kf & Wh & _). destruct (whole_inv _ _ Wh) as [_ Hn].
    split; [eauto|]. discriminate.
  - contradiction.
  - destruct P as (m & Km & _). split; [eauto|]. discriminate.
  - destruct P as (Dv & Oo & (parts & Ep & _) & _). split; [|discriminate]. split; [exact Dv|]. split; [eauto|].
    unfold out_ok in Oo. destruct (device_out x); [|congruence].
    destruct Oo as (m & sl & _ & Wh & _). intros _. exact (proj2 (whole_inv _ _ Wh)).
Qed.

Lemma partition_frame : forall pc ps ops w w', made_by pc ps ops true w -> partition pc ps w = done w' ->
  length (w_verts w') = length (w_verts w) /\
  forall v x, wv w v = Some x -> exists x', wv w' v = Some x' /\
    v_av x' = v_av x /\ v_kind x' = v_kind x /\ v_split x' = v_split x.
Proof.
  intros pc ps ops w w' M E. destruct (made_by_good _ _ _ _ _ M) as [HI _].
  pose proof (partition_spec pc ps _ w HI) as P. rewrite E in P. cbn [done] in P.
  destruct P as (_ & (L & F & _) & _). split; [exact L|exact F].
Qed.

(** ** Which devices can be split *)
Lemma mapM_all : forall {A B} (f : A -> res B) l, (forall a, In a l -> exists b, f a = Ok b) <-> exists r, mapM f l = Ok r.
Proof.
  intros A B f l. induction l as [|a l IH]; cbn [mapM].
  - split; [eauto|]. intros _ a [].
  - split.
    + intros H. destruct (H a (or_introl eq_refl)) as [b E]. rewrite E. cbn [bind].
      destruct (proj1 IH) as [r R]; [intros a' I; apply H; now right|]. rewrite R. cbn [bind]. eauto.
    + intros [r R]. apply bind_Ok_inv in R. destruct R as (b & E & R). apply bind_Ok_inv in R. destruct R as (bs & Es & _).
      intros a' [<-|I]; [eauto|]. apply (proj2 IH); eauto.
Qed.
Lemma zrange_in : forall i m, (0 <= i < m)%Z -> In i (zrange 0 m).
Proof. intros i m H. unfold zrange. apply in_map_iff. exists (Z.to_nat i). split; [lia|]. apply in_seq. lia. Qed.

Lemma make_slice_iff : forall lo hi, (exists s, make_slice lo hi = Ok s) <-> (0 <= lo <= hi)%Z.
Proof.
  intros lo hi. unfold make_slice. destruct (Z.ltb_spec lo 0); [split; [intros [s E]; discriminate|lia]|].
  destruct (Z.ltb_spec hi lo); split; intros H1; try lia; eauto. destruct H1; discriminate.
Qed.

(** The number of vertices of an FPGA device is at most that of its atoms; the last
    vertex of a SpiNNaker link device still has atoms; what comes in is all atoms. *)
Definition device_fits (x : vertex) : Prop :=
  let n := av_n (v_av x) in
  match v_kind x with
  | Fpga incoming outgoing m => (incoming = [] \/ m <= n \/ m <= 0)%Z /\ (outgoing = None \/ 1 <= n)%Z
  | Link incoming outgoing m => (incoming = false \/ m <= 0 \/ (m - 1) * (- (- n / m)) < n)%Z /\ (outgoing = false \/ 1 <= n)%Z
  | _ => False
  end.

Lemma device_fits_iff : forall x, device_fits x <->
  is_device x /\ (exists parts, device_parts x = Ok parts) /\ (device_out x <> None -> (1 <= av_n (v_av x))%Z).
Proof.
  intros x. unfold device_fits, is_device, device_parts, device_out. remember (av_n (v_av x)) as n eqn:En. clear En.
  destruct (v_kind x) as [f|m0|inc o m|inc o m|]; try tauto.
  - rewrite <- mapM_all. split.
    + intros [A B]. split; [exact I|]. split; [|intros H; destruct B as [B|B]; [contradiction|exact B]].
      intros [i c] H. apply in_flat_map in H. destruct H as (i' & I1 & I2). apply in_map_iff in I2. destruct I2 as (c' & E & Ic). injection E as <- <-.
      apply in_zrange in I1. cbn [fst snd]. destruct A as [->|[A|A]]; [destruct Ic| |lia].
      unfold fpga_slice. destruct (Z.eqb_spec m 0); [lia|].
      assert (Q : (1 <= n / m)%Z) by (apply Z.div_le_lower_bound; lia).
      assert (R : (m * (n / m) <= n)%Z) by (apply Z.mul_div_le; lia).
      destruct (proj2 (make_slice_iff (n / m * i') (Z.min (n / m * (i' + 1) - 1) (n - 1)))) as [s E]; [nia|].
      rewrite E. cbn [bind]. eauto.
    + intros (_ & A & B). split; [|destruct o; [right; apply B; discriminate|now left]].
      destruct inc as [|c inc]; [now left|]. right. destruct (Z.le_gt_cases m 0) as [|M]; [now right|]. left.
      destruct (A (0, c)%Z) as [b E].
      { apply in_flat_map. exists 0%Z. split; [apply zrange_in; lia|now left]. }
      cbn [fst snd] in E. apply bind_Ok_inv in E. destruct E as (s & E & _). unfold fpga_slice in E.
      destruct (Z.eqb_spec m 0); [lia|]. assert (X : exists s, make_slice (n / m * 0) (Z.min (n / m * (0 + 1) - 1) (n - 1)) = Ok s) by eauto.
      apply make_slice_iff in X. assert (Q : (1 <= n / m)%Z) by lia.
      assert (R : (m * (n / m) <= n)%Z) by (apply Z.mul_div_le; lia). nia.
  - destruct inc.
    + rewrite <- mapM_all. split.
      * intros [A B]. split; [exact I|]. split.
        -- intros i H. apply in_zrange in H. destruct A as [A|[A|A]]; [discriminate|lia|].
           unfold link_slice, ceil_div. destruct (Z.eqb_spec m 0); [lia|]. cbn [bind].
           assert (C1 : (n <= m * (- (- n / m)))%Z) by (pose proof (Z.mul_div_le (- n) m); lia).
           remember (- (- n / m))%Z as q eqn:Eq. clear Eq.
           assert (Q : (1 <= q)%Z) by nia.
           destruct (proj2 (make_slice_iff (q * i) (Z.min (q * (i + 1) - 1) (n - 1)))) as [s E]; [nia|]. rewrite E. cbn [bind]. eauto.
        -- destruct B as [->|B]; intros; auto. congruence.
      * intros (_ & A & B). split; [|destruct o; [right; apply B; discriminate|now left]]. right.
        destruct (Z.le_gt_cases m 0) as [|M]; [now left|]. right.
        destruct (A (m - 1)%Z) as [b E]; [apply zrange_in; lia|].
        unfold link_slice, ceil_div in E. destruct (Z.eqb_spec m 0); [lia|]. cbn [bind] in E.
        apply bind_Ok_inv in E. destruct E as (s & E & _).
        assert (X : exists s, make_slice (- (- n / m) * (m - 1)) (Z.min (- (- n / m) * (m - 1 + 1) - 1) (n - 1)) = Ok s) by eauto.
        apply make_slice_iff in X. lia.
    + split.
      * intros [_ B]. split; [exact I|]. split; [eauto|]. destruct B as [->|B]; auto. congruence.
      * intros (_ & _ & B). split; [now left|]. destruct o; [right; apply B; discriminate|now left].
Qed.

(** A splitter of kind [k] can split a vertex [x], in terms of the sizes. *)
Definition suits (k : skind) (x : vertex) : Prop :=
  match k with
  | SFixed _ => exists f, v_kind x = Legacy f
  | SOne _ => (exists f, v_kind x = Legacy f) /\ (1 <= av_n (v_av x))%Z
  | SOneApp => exists m, v_kind x = OneApp m
  | SExt _ _ => device_fits x
  end.
Lemma suits_iff : forall k x, suits k x <-> fits k x.
Proof. intros [c|o| |l o] x; cbn [suits fits]; try tauto. apply device_fits_iff. Qed.

(** ** Governing a vertex *)
Lemma governed_same : forall w v s x y, wv w v = Some x -> ws w s = Some y -> v_split x = None -> s_gov y = None ->
  match s_kind y with SFixed _ | SOneApp => True | _ => False end ->
  (suits (s_kind y) x -> set_governed w s v = set_splitter w v s) /\
  (~ suits (s_kind y) x -> set_governed w s v = raises w ConfigurationException).
Proof.
  intros w v s x y Hx Hy Hs Hg K. unfold wv, ws in Hx, Hy.
  assert (Lv : (v < length (w_verts w))%nat) by (eapply nth_lt; exact Hx).
  assert (Ls : (s < length (w_splits w))%nat) by (eapply nth_lt; exact Hy).
  assert (V : forall k, set_vert (set_split w s (mkS k (Some v))) v (with_split x (Some s)) =
                    set_split (set_vert w v (with_split x (Some s))) s (mkS k (Some v))) by reflexivity.
  assert (G : suits (s_kind y) x -> set_governed w s v = done (set_split (set_vert w v (with_split x (Some s))) s (mkS (s_kind y) (Some v)))).
  { intros F. unfold set_governed. remember 3%nat as n3 eqn:E3. cbn [attach]. rewrite Hx, Hy, Hg. subst n3.
    assert (A : attach 3 false (set_split w s (mkS (s_kind y) (Some v))) v s =
                done (set_split (set_vert w v (with_split x (Some s))) s (mkS (s_kind y) (Some v)))).
    { remember 2%nat as n2 eqn:E2. cbn [attach]. change (w_verts (set_split w s (mkS (s_kind y) (Some v)))) with (w_verts w).
      change (w_splits (set_split w s (mkS (s_kind y) (Some v)))) with (upd (w_splits w) s (mkS (s_kind y) (Some v))).
      rewrite Hx, nth_error_upd_eq by exact Ls. rewrite Hs. subst n2. remember 1%nat as n1 eqn:E1. cbn [attach]. rewrite V.
      unfold set_split, set_vert. cbn [w_verts w_splits].
      rewrite nth_error_upd_eq by exact Lv. rewrite nth_error_upd_eq by exact Ls. cbn [s_gov s_kind]. rewrite Nat.eqb_refl.
      change (v_kind (with_split x (Some s))) with (v_kind x).
      destruct (s_kind y) as [c|o| |l o]; cbn [suits] in F; try contradiction; destruct F as [f F]; rewrite F; reflexivity. }
    rewrite A. destruct (s_kind y) as [c|o| |l o]; cbn [suits] in F; try contradiction; destruct F as [f F]; rewrite F; reflexivity. }
  split; intros F.
  - rewrite (G F). unfold set_splitter. remember 3%nat as n3 eqn:E3. cbn [attach]. rewrite Hx, Hy, Hs. subst n3.
    remember 2%nat as n2 eqn:E2. cbn [attach].
    change (w_splits (set_vert w v (with_split x (Some s)))) with (w_splits w).
    change (w_verts (set_vert w v (with_split x (Some s)))) with (upd (w_verts w) v (with_split x (Some s))).
    rewrite nth_error_upd_eq by exact Lv. rewrite Hy, Hg. subst n2.
    change (v_kind (with_split x (Some s))) with (v_kind x).
    rewrite !(attach_pending w v s x _ Hx Ls).
    destruct (s_kind y) as [c|o| |l o]; cbn [suits] in F; try contradiction; destruct F as [f F]; rewrite F; reflexivity.
  - unfold set_governed. cbn [attach]. rewrite Hx, Hy.
    destruct (s_kind y) as [c|o| |l o]; try contradiction; cbn [suits] in F;
      destruct (v_kind x); try reflexivity; exfalso; apply F; eauto.
Qed.
