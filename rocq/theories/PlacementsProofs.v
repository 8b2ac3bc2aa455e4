(** The placements container behaves as a list of placements with distinct
    vertices and distinct processors. *)
From Coq Require Import List Arith Bool Lia.
From Verif Require Import Base Dict PlacementsModel.
Import ListNotations.

(** ** Specification: the accepted placements in order, and the chips mentioned
    so far in a lookup by chip or in an accepted placement. *)
Definition on (c : xy) (pl : placement) : bool := xy_eqb c (pl_x pl, pl_y pl).
Definition at_proc (x y p : nat) (pl : placement) : bool :=
  Nat.eqb x (pl_x pl) && Nat.eqb y (pl_y pl) && Nat.eqb p (pl_p pl).
Definition has_vertex (v : nat) (pl : placement) : bool := Nat.eqb v (pl_v pl).

Definition remember (c : xy) (cs : list xy) : list xy :=
  if existsb (xy_eqb c) cs then cs else cs ++ [c].

Definition spec_state := (list placement * list xy)%type.

Definition spec_add (s : spec_state) (pl : placement) : spec_state * answer :=
  let '(ps, cs) := s in
  if existsb (at_proc (pl_x pl) (pl_y pl) (pl_p pl)) ps then (s, ARaise ProcessorOccupied)
  else if existsb (has_vertex (pl_v pl)) ps then (s, ARaise AlreadyPlaced)
  else ((ps ++ [pl], remember (pl_x pl, pl_y pl) cs), ANone).

Fixpoint spec_adds (s : spec_state) (l : list placement) : spec_state * answer :=
  match l with
  | [] => (s, ANone)
  | pl :: t =>
      match spec_add s pl with
      | (s', ARaise e) => (s', ARaise e)
      | (s', _) => spec_adds s' t
      end
  end.

Definition spec_step (s : spec_state) (c : call) : spec_state * answer :=
  let '(ps, cs) := s in
  match c with
  | AddPlacement pl => spec_add s pl
  | AddPlacements l => spec_adds s l
  | NPlacements => (s, ANum (length ps))
  | OnProcessor x y p =>
      ((ps, remember (x, y) cs),
       match find (at_proc x y p) ps with
       | Some pl => APlacement pl
       | None => ARaise ProcessorNotOccupied
       end)
  | IsPlaced v => (s, ABool (existsb (has_vertex v) ps))
  | OfVertex v =>
      (s, match find (has_vertex v) ps with
          | Some pl => APlacement pl
          | None => ARaise NotPlaced
          end)
  | IsOccupied x y p => (s, ABool (existsb (at_proc x y p) ps))
  | OnChip c => ((ps, remember c cs), APlacements (filter (on c) ps))
  | OnChipOfType c ty =>
      ((ps, remember c cs), APlacements (filter (fun pl => ty (pl_v pl)) (filter (on c) ps)))
  | OfType ty => (s, APlacements (filter (fun pl => ty (pl_v pl)) ps))
  | NOnChip c => (s, ANum (length (filter (on c) ps)))
  | AllPlacements => (s, APlacements ps)
  | Chips => (s, AChips cs)
  end.

Fixpoint spec_run (s : spec_state) (cs : list call) : spec_state * list answer :=
  match cs with
  | [] => (s, [])
  | c :: t =>
      let '(s1, a) := spec_step s c in
      let '(s2, l) := spec_run s1 t in
      (s2, a :: l)
  end.

(** ** Proof *)

Lemma xy_eqb_spec : forall a b, xy_eqb a b = true <-> a = b.
Proof. apply pair_eqb_spec; apply Nat.eqb_eq. Qed.
Lemma nat_eqb_spec : forall a b, Nat.eqb a b = true <-> a = b.
Proof. apply Nat.eqb_eq. Qed.

Definition mem (c : xy) (cs : list xy) : bool := existsb (xy_eqb c) cs.

Lemma mem_In : forall c cs, mem c cs = true <-> In c cs.
Proof.
  intros. unfold mem. rewrite existsb_exists. split.
  - intros (x & H & E). apply xy_eqb_spec in E. now subst.
  - intro H. exists c. split; [exact H|]. now apply xy_eqb_spec.
Qed.

Lemma NoDup_app_snoc : forall {A} (l : list A) x, NoDup l -> ~ In x l -> NoDup (l ++ [x]).
Proof.
  intros A l x ND N. induction ND; cbn; [repeat constructor; auto|].
  constructor; [rewrite in_app_iff; cbn in *; intuition|]. apply IHND. cbn in N. tauto.
Qed.

Record Rep (s : placements) (ps : list placement) (cs : list xy) : Prop := {
  r_verts : ps_verts s = map (fun pl => (pl_v pl, pl)) ps;
  r_keys : map fst (ps_chips s) = cs;
  r_nodup : NoDup cs;
  r_chips : forall c, In c cs ->
    dget xy_eqb (ps_chips s) c = Some (map (fun pl => (pl_p pl, pl)) (filter (on c) ps));
  r_all : forall pl, In pl ps -> In (pl_x pl, pl_y pl) cs;
  r_v : NoDup (map pl_v ps);
  r_p : NoDup (map (fun pl => (pl_x pl, pl_y pl, pl_p pl)) ps) }.

Lemma rep_none : forall s ps cs c, Rep s ps cs -> ~ In c cs ->
  dget xy_eqb (ps_chips s) c = None /\ filter (on c) ps = [].
Proof.
  intros s ps cs c R N. split.
  - apply (dget_None _ xy_eqb_spec). now rewrite (r_keys _ _ _ R).
  - destruct (filter (on c) ps) as [|pl t] eqn:E; [reflexivity|].
    assert (H : In pl (filter (on c) ps)) by (rewrite E; left; reflexivity).
    apply filter_In in H. destruct H as [H1 H2]. apply xy_eqb_spec in H2.
    exfalso. apply N. rewrite H2. now apply (r_all _ _ _ R).
Qed.

Lemma rep_touch : forall s ps cs c, Rep s ps cs ->
  let '(s', d) := touch c s in
  Rep s' ps (remember c cs) /\ d = map (fun pl => (pl_p pl, pl)) (filter (on c) ps) /\
  In c (remember c cs) /\ ps_verts s' = ps_verts s.
Proof.
  intros s ps cs c R. unfold touch, remember. fold (mem c cs).
  destruct (mem c cs) eqn:M.
  - apply mem_In in M. rewrite (r_chips _ _ _ R c M). auto.
  - assert (N : ~ In c cs) by (rewrite <- mem_In; congruence).
    destruct (rep_none _ _ _ _ R N) as [G F]. rewrite G. split; [|split; [|split]].
    + constructor; cbn.
      * apply (r_verts _ _ _ R).
      * rewrite dset_keys. unfold dmem. rewrite G. now rewrite (r_keys _ _ _ R).
      * pose proof (r_nodup _ _ _ R) as ND. clear -ND N.
        induction ND; cbn; [repeat constructor; auto|].
        constructor; [rewrite in_app_iff; cbn in *; intuition|]. apply IHND. cbn in N. tauto.
      * intros c' H. rewrite (dget_dset _ xy_eqb_spec).
        destruct (xy_eqb c c') eqn:E.
        -- apply xy_eqb_spec in E. subst. now rewrite F.
        -- apply (r_chips _ _ _ R). apply in_app_iff in H. destruct H as [H|[H|[]]]; [exact H|].
           subst. exfalso. assert (xy_eqb c' c' = true) by now apply xy_eqb_spec. congruence.
      * intros pl H. apply in_or_app. left. now apply (r_all _ _ _ R).
      * apply (r_v _ _ _ R).
      * apply (r_p _ _ _ R).
    + now rewrite F.
    + apply in_or_app. right. left. reflexivity.
    + reflexivity.
Qed.

Lemma dget_verts : forall ps v, dget Nat.eqb (map (fun pl => (pl_v pl, pl)) ps) v = find (has_vertex v) ps.
Proof.
  induction ps as [|pl t IH]; intro v; cbn; [reflexivity|].
  unfold has_vertex at 1. rewrite Nat.eqb_sym. destruct (Nat.eqb v (pl_v pl)); auto.
Qed.

Lemma find_existsb : forall {A} (f : A -> bool) l,
  existsb f l = match find f l with Some _ => true | None => false end.
Proof. induction l; cbn; [reflexivity|]. destruct (f a); auto. Qed.

Lemma dget_chip : forall ps x y p,
  dget Nat.eqb (map (fun pl => (pl_p pl, pl)) (filter (on (x, y)) ps)) p = find (at_proc x y p) ps.
Proof.
  induction ps as [|pl t IH]; intros x y p; cbn [filter find]; [reflexivity|].
  unfold on at 1, at_proc at 1, xy_eqb, pair_eqb. cbn [fst snd].
  destruct (Nat.eqb x (pl_x pl) && Nat.eqb y (pl_y pl)); cbn [andb map dget].
  - rewrite Nat.eqb_sym. destruct (Nat.eqb p (pl_p pl)); auto.
  - apply IH.
Qed.

Lemma occupied_spec : forall s ps cs x y p, Rep s ps cs ->
  match dget xy_eqb (ps_chips s) (x, y) with
  | Some d => dmem Nat.eqb d p
  | None => false
  end = existsb (at_proc x y p) ps.
Proof.
  intros s ps cs x y p R. rewrite find_existsb, <- dget_chip.
  destruct (mem (x, y) cs) eqn:M.
  - apply mem_In in M. rewrite (r_chips _ _ _ R _ M). reflexivity.
  - assert (N : ~ In (x, y) cs) by (rewrite <- mem_In; congruence).
    destruct (rep_none _ _ _ _ R N) as [-> ->]. reflexivity.
Qed.

Lemma dset_new : forall {K V} (eqb : K -> K -> bool) (d : list (K * V)) k v,
  dget eqb d k = None -> dset eqb d k v = d ++ [(k, v)].
Proof.
  intros K V eqb. induction d as [|[k' v'] d IH]; intros k v H; cbn in *; [reflexivity|].
  destruct (eqb k' k); [discriminate|]. now rewrite IH.
Qed.

Lemma add_spec : forall s ps cs pl, Rep s ps cs ->
  let '(s', r) := add_placement s pl in
  let '(ps', cs', a) := spec_add (ps, cs) pl in
  Rep s' ps' cs' /\ of_unit r = a /\ (r = Ok tt <-> a = ANone) /\
  (forall e, r = Err e <-> a = ARaise e) /\ (forall e, a = ARaise e -> s' = s).
Proof.
  intros s ps cs pl R. unfold add_placement, spec_add.
  rewrite (occupied_spec _ _ _ _ _ _ R).
  destruct (existsb (at_proc (pl_x pl) (pl_y pl) (pl_p pl)) ps) eqn:O.
  { cbn. split; [exact R|]. split; [reflexivity|]. split; [split; discriminate|].
    split; [|auto]. intro e. split; intro H; inversion H; reflexivity. }
  rewrite (r_verts _ _ _ R). unfold dmem at 1. rewrite dget_verts, (find_existsb (has_vertex _)).
  destruct (find (has_vertex (pl_v pl)) ps) eqn:V.
  { cbn. split; [exact R|]. split; [reflexivity|]. split; [split; discriminate|].
    split; [|auto]. intro e. split; intro H; inversion H; reflexivity. }
  pose proof (rep_touch s ps cs (pl_x pl, pl_y pl) R) as T.
  destruct (touch (pl_x pl, pl_y pl) s) as [s1 d]. destruct T as (R1 & D & IC & Ev).
  cbn. split.
  2: { split; [reflexivity|]. split; [split; reflexivity|].
       split; intros e; [split; discriminate|discriminate]. }
  assert (Od : dget Nat.eqb d (pl_p pl) = None).
  { rewrite D, dget_chip. rewrite find_existsb in O.
    destruct (find (at_proc (pl_x pl) (pl_y pl) (pl_p pl)) ps); [discriminate|reflexivity]. }
  constructor; cbn.
  - rewrite (r_verts _ _ _ R1). rewrite dset_new; [|now rewrite dget_verts].
    now rewrite map_app.
  - rewrite dset_keys. unfold dmem. rewrite (r_chips _ _ _ R1 _ IC). apply (r_keys _ _ _ R1).
  - apply (r_nodup _ _ _ R1).
  - intros c Hc. rewrite (dget_dset _ xy_eqb_spec). rewrite filter_app.
    destruct (xy_eqb (pl_x pl, pl_y pl) c) eqn:E.
    + apply xy_eqb_spec in E. subst c. cbn [filter]. unfold on at 2.
      assert (xy_eqb (pl_x pl, pl_y pl) (pl_x pl, pl_y pl) = true) as -> by now apply xy_eqb_spec.
      rewrite dset_new by exact Od. rewrite map_app, D. reflexivity.
    + cbn [filter]. assert (on c pl = false) as ->.
      { unfold on. destruct (xy_eqb c (pl_x pl, pl_y pl)) eqn:E2; [|reflexivity].
        apply xy_eqb_spec in E2. subst c. assert (xy_eqb (pl_x pl, pl_y pl) (pl_x pl, pl_y pl) = true) by now apply xy_eqb_spec.
        congruence. }
      rewrite app_nil_r. now apply (r_chips _ _ _ R1).
  - intros pl' H. apply in_app_iff in H. destruct H as [H|[<-|[]]]; [now apply (r_all _ _ _ R1)|exact IC].
  - rewrite map_app. cbn. apply NoDup_app_snoc; [apply (r_v _ _ _ R)|].
    intro H. apply in_map_iff in H. destruct H as (q & E & H).
    apply (find_none _ _ V) in H. unfold has_vertex in H. rewrite E, Nat.eqb_refl in H. discriminate.
  - rewrite map_app. cbn. apply NoDup_app_snoc; [apply (r_p _ _ _ R)|].
    intro H. apply in_map_iff in H. destruct H as (q & E & H). inversion E.
    assert (X : existsb (at_proc (pl_x pl) (pl_y pl) (pl_p pl)) ps = true).
    { apply existsb_exists. exists q. split; [exact H|]. unfold at_proc.
      rewrite <- H1, <- H2, <- H3, !Nat.eqb_refl. reflexivity. }
    congruence.
Qed.

Lemma adds_spec : forall l s ps cs, Rep s ps cs ->
  let '(s', r) := add_placements s l in
  let '(ps', cs', a) := spec_adds (ps, cs) l in
  Rep s' ps' cs' /\ of_unit r = a.
Proof.
  induction l as [|pl t IH]; intros s ps cs R; [cbn; auto|].
  cbn [add_placements spec_adds].
  pose proof (add_spec s ps cs pl R) as A.
  destruct (add_placement s pl) as [s1 [[]|e]].
  - destruct (spec_add (ps, cs) pl) as [[ps1 cs1] a] eqn:E. destruct A as (R1 & _ & A & _).
    assert (a = ANone) by (now apply A). subst a. apply IH. exact R1.
  - destruct (spec_add (ps, cs) pl) as [[ps1 cs1] a] eqn:E. destruct A as (R1 & _ & _ & A & _).
    assert (a = ARaise e) by (now apply A). subst a. auto.
Qed.

Lemma step_spec : forall s ps cs c, Rep s ps cs ->
  let '(s', a) := step s c in
  let '(ps', cs', a') := spec_step (ps, cs) c in
  Rep s' ps' cs' /\ a = a'.
Proof.
  intros s ps cs c R.
  assert (VS : forall v, dmem Nat.eqb (ps_verts s) v = existsb (has_vertex v) ps).
  { intro v. unfold dmem. rewrite (r_verts _ _ _ R), dget_verts, find_existsb. reflexivity. }
  assert (SN : map snd (ps_verts s) = ps).
  { rewrite (r_verts _ _ _ R), map_map. apply map_id. }
  destruct c; cbn [step spec_step].
  - pose proof (add_spec s ps cs pl R) as A. destruct (add_placement s pl) as [s1 r].
    destruct (spec_add (ps, cs) pl) as [[ps1 cs1] a]. destruct A as (R1 & E & _). auto.
  - pose proof (adds_spec l s ps cs R) as A. destruct (add_placements s l) as [s1 r].
    destruct (spec_adds (ps, cs) l) as [[ps1 cs1] a]. destruct A as (R1 & E). auto.
  - split; [exact R|]. rewrite (r_verts _ _ _ R), map_length. reflexivity.
  - pose proof (rep_touch s ps cs (x, y) R) as T. destruct (touch (x, y) s) as [s1 d].
    destruct T as (R1 & D & _). split; [exact R1|]. now rewrite D, dget_chip.
  - split; [exact R|]. now rewrite VS.
  - split; [exact R|]. now rewrite (r_verts _ _ _ R), dget_verts.
  - split; [exact R|]. now rewrite (occupied_spec _ _ _ _ _ _ R).
  - pose proof (rep_touch s ps cs c R) as T. destruct (touch c s) as [s1 d].
    destruct T as (R1 & D & _). split; [exact R1|]. rewrite D, map_map. cbn. now rewrite map_id.
  - pose proof (rep_touch s ps cs c R) as T. destruct (touch c s) as [s1 d].
    destruct T as (R1 & D & _). split; [exact R1|]. rewrite D, map_map. cbn. now rewrite map_id.
  - split; [exact R|]. now rewrite SN.
  - split; [exact R|]. destruct (mem c cs) eqn:M.
    + apply mem_In in M. rewrite (r_chips _ _ _ R _ M), map_length. reflexivity.
    + assert (N : ~ In c cs) by (rewrite <- mem_In; congruence).
      destruct (rep_none _ _ _ _ R N) as [-> ->]. reflexivity.
  - split; [exact R|]. now rewrite SN.
  - split; [exact R|]. now rewrite (r_keys _ _ _ R).
Qed.

Lemma empty_rep : Rep empty_placements [] [].
Proof. constructor; cbn; try constructor; intros; contradiction. Qed.

Lemma run_spec : forall calls s ps cs, Rep s ps cs ->
  let '(s', l) := run s calls in
  let '(ps', cs', l') := spec_run (ps, cs) calls in
  Rep s' ps' cs' /\ l = l'.
Proof.
  induction calls as [|c t IH]; intros s ps cs R; [cbn; auto|].
  cbn [run spec_run]. pose proof (step_spec s ps cs c R) as S.
  destruct (step s c) as [s1 a]. destruct (spec_step (ps, cs) c) as [[ps1 cs1] a'].
  destruct S as (R1 & ->). specialize (IH s1 ps1 cs1 R1).
  destruct (run s1 t) as [s2 l]. destruct (spec_run (ps1, cs1) t) as [[ps2 cs2] l'].
  destruct IH as (R2 & ->). auto.
Qed.

Lemma run_is_spec : forall calls,
  snd (run empty_placements calls) = snd (spec_run ([], []) calls).
Proof.
  intro calls. pose proof (run_spec calls _ _ _ empty_rep) as H.
  destruct (run empty_placements calls) as [s l].
  destruct (spec_run ([], []) calls) as [[ps cs] l']. cbn. tauto.
Qed.

(** What the container holds after any calls. *)
Lemma run_one_to_one : forall calls pls,
  let s := fst (run empty_placements calls) in
  snd (step s AllPlacements) = APlacements pls ->
  NoDup (map pl_v pls) /\ NoDup (map (fun pl => (pl_x pl, pl_y pl, pl_p pl)) pls) /\
  (forall pl, In pl pls -> snd (step s (OfVertex (pl_v pl))) = APlacement pl /\
     snd (step s (OnProcessor (pl_x pl) (pl_y pl) (pl_p pl))) = APlacement pl) /\
  (forall v pl, snd (step s (OfVertex v)) = APlacement pl -> In pl pls /\ pl_v pl = v) /\
  (forall x y p pl, snd (step s (OnProcessor x y p)) = APlacement pl ->
     In pl pls /\ (pl_x pl, pl_y pl, pl_p pl) = (x, y, p)).
Proof.
  intros calls pls s E. subst s.
  pose proof (run_spec calls _ _ _ empty_rep) as H.
  destruct (run empty_placements calls) as [s l].
  destruct (spec_run ([], []) calls) as [[ps cs] l']. destruct H as [R _].
  cbn [fst] in *. cbn in E. rewrite (r_verts _ _ _ R), map_map, map_id in E.
  inversion E; subst pls.
  assert (SV : forall v, snd (step s (OfVertex v)) =
    match find (has_vertex v) ps with Some pl => APlacement pl | None => ARaise NotPlaced end).
  { intro v. pose proof (step_spec s ps cs (OfVertex v) R) as S.
    destruct (step s (OfVertex v)) as [s1 a]. cbn in S. destruct S as [_ ->]. reflexivity. }
  assert (SP : forall x y p, snd (step s (OnProcessor x y p)) =
    match find (at_proc x y p) ps with Some pl => APlacement pl | None => ARaise ProcessorNotOccupied end).
  { intros x y p. pose proof (step_spec s ps cs (OnProcessor x y p) R) as S.
    destruct (step s (OnProcessor x y p)) as [s1 a]. cbn in S. destruct S as [_ ->]. reflexivity. }
  assert (UV : forall pl, In pl ps -> find (has_vertex (pl_v pl)) ps = Some pl).
  { pose proof (r_v _ _ _ R) as ND. clear -ND. induction ps as [|q t IH]; intros pl H; [destruct H|].
    cbn in *. inversion ND; subst. unfold has_vertex at 1. destruct H as [->|H].
    - now rewrite Nat.eqb_refl.
    - destruct (Nat.eqb_spec (pl_v pl) (pl_v q)) as [C|C]; [|apply IH; assumption].
      exfalso. apply H2. rewrite <- C. now apply in_map. }
  assert (UP : forall pl, In pl ps -> find (at_proc (pl_x pl) (pl_y pl) (pl_p pl)) ps = Some pl).
  { pose proof (r_p _ _ _ R) as ND. clear -ND. induction ps as [|q t IH]; intros pl H; [destruct H|].
    cbn in *. inversion ND; subst. unfold at_proc at 1. destruct H as [->|H].
    - now rewrite !Nat.eqb_refl.
    - destruct (Nat.eqb_spec (pl_x pl) (pl_x q)) as [C1|C1]; [|apply IH; assumption].
      destruct (Nat.eqb_spec (pl_y pl) (pl_y q)) as [C2|C2]; [|apply IH; assumption].
      destruct (Nat.eqb_spec (pl_p pl) (pl_p q)) as [C3|C3]; [|apply IH; assumption].
      exfalso. apply H2. rewrite <- C1, <- C2, <- C3.
      apply (in_map (fun pl => (pl_x pl, pl_y pl, pl_p pl))). exact H. }
  split; [apply (r_v _ _ _ R)|]. split; [apply (r_p _ _ _ R)|]. split; [|split].
  - intros pl H. rewrite SV, SP, (UV pl H), (UP pl H). auto.
  - intros v pl H. rewrite SV in H. destruct (find (has_vertex v) ps) eqn:F; [|discriminate].
    inversion H; subst. apply find_some in F. destruct F as [F1 F2].
    apply Nat.eqb_eq in F2. auto.
  - intros x y p pl H. rewrite SP in H. destruct (find (at_proc x y p) ps) eqn:F; [|discriminate].
    inversion H; subst. apply find_some in F. destruct F as [F1 F2]. split; [exact F1|].
    unfold at_proc in F2. apply andb_true_iff in F2. destruct F2 as [F2 F3].
    apply andb_true_iff in F2. destruct F2 as [F2 F4].
    apply Nat.eqb_eq in F2, F3, F4. now subst.
Qed.

(** A rejected add changes nothing. *)
Lemma rejected_add : forall s pl e, snd (add_placement s pl) = Err e -> fst (add_placement s pl) = s.
Proof.
  intros s pl e. unfold add_placement.
  destruct (match dget xy_eqb (ps_chips s) (pl_x pl, pl_y pl) with
            | Some d => dmem Nat.eqb d (pl_p pl) | None => false end); [reflexivity|].
  destruct (dmem Nat.eqb (ps_verts s) (pl_v pl)); [reflexivity|].
  destruct (touch (pl_x pl, pl_y pl) s). discriminate.
Qed.

(** ** Read-only calls *)

Definition is_query (c : call) : bool :=
  match c with AddPlacement _ | AddPlacements _ => false | _ => true end.
Definition is_chips (c : call) : bool := match c with Chips => true | _ => false end.

Lemma spec_adds_answer : forall l ps cs cs',
  snd (spec_adds (ps, cs) l) = snd (spec_adds (ps, cs') l).
Proof.
  induction l as [|pl t IH]; intros ps cs cs'; [reflexivity|]. cbn [spec_adds]. unfold spec_add.
  destruct (existsb (at_proc (pl_x pl) (pl_y pl) (pl_p pl)) ps); [reflexivity|].
  destruct (existsb (has_vertex (pl_v pl)) ps); [reflexivity|]. apply IH.
Qed.

Lemma spec_step_answer : forall ps cs cs' c, is_chips c = false ->
  snd (spec_step (ps, cs) c) = snd (spec_step (ps, cs') c).
Proof.
  intros ps cs cs' c H. destruct c; try reflexivity; try discriminate.
  - cbn. destruct (existsb (at_proc (pl_x pl) (pl_y pl) (pl_p pl)) ps); [reflexivity|].
    destruct (existsb (has_vertex (pl_v pl)) ps); reflexivity.
  - apply spec_adds_answer.
Qed.

Lemma run_app1 : forall calls s q, fst (run s (calls ++ [q])) = fst (step (fst (run s calls)) q).
Proof.
  induction calls as [|c t IH]; intros s q; cbn.
  - destruct (step s q). reflexivity.
  - destruct (step s c) as [s1 a]. specialize (IH s1 q).
    destruct (run s1 (t ++ [q])) as [s2 l]. destruct (run s1 t) as [s3 l3]. exact IH.
Qed.

Lemma query_invisible : forall calls q c, is_query q = true -> is_chips c = false ->
  snd (step (fst (run empty_placements (calls ++ [q]))) c) =
  snd (step (fst (run empty_placements calls)) c).
Proof.
  intros calls q c Hq Hc. rewrite run_app1.
  pose proof (run_spec calls _ _ _ empty_rep) as H.
  destruct (run empty_placements calls) as [s l].
  destruct (spec_run ([], []) calls) as [[ps cs] l']. destruct H as [R _]. cbn [fst].
  pose proof (step_spec s ps cs q R) as S. destruct (step s q) as [s1 a].
  assert (E : fst (fst (spec_step (ps, cs) q)) = ps) by (destruct q; try discriminate; reflexivity).
  destruct (spec_step (ps, cs) q) as [[ps1 cs1] a']. cbn in E. subst ps1. destruct S as [R1 _].
  cbn [fst].
  pose proof (step_spec s ps cs c R) as S1. pose proof (step_spec s1 ps cs1 c R1) as S2.
  pose proof (spec_step_answer ps cs cs1 c Hc) as A.
  destruct (step s c) as [? ?], (step s1 c) as [? ?].
  destruct (spec_step (ps, cs) c) as [[? ?] ?], (spec_step (ps, cs1) c) as [[? ?] ?].
  cbn in *. destruct S1 as [_ ->], S2 as [_ ->]. congruence.
Qed.
