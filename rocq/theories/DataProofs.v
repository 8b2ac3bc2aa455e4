(** Proofs about the data shared between the stages. *)
From Coq Require Import String List Arith ZArith QArith Bool Lia Permutation.
From Verif Require Import Base Dict SdramModel SdramProofs GraphModel GraphProofs DataModel.
Import ListNotations.
Local Open Scope nat_scope.

(** What comes after the last element with [p]; everything if there is none. *)
Fixpoint after_last {A} (p : A -> bool) (l : list A) : list A :=
  match l with
  | [] => []
  | x :: r => if existsb p r then after_last p r else if p x then r else l
  end.

Lemma after_last_snoc : forall {A} (p : A -> bool) l x, after_last p (l ++ [x]) = if p x then [] else after_last p l ++ [x].
Proof.
  intros A p l x. induction l as [|y l IH]; cbn [app after_last existsb]; [destruct (p x); reflexivity|].
  rewrite existsb_app. cbn [existsb]. rewrite orb_false_r. rewrite IH. destruct (p x); cbn.
  - rewrite orb_true_r. reflexivity.
  - rewrite orb_false_r. destruct (existsb p l); [reflexivity|]. destruct (p y); reflexivity.
Qed.

Definition is_setup (c : dcall) : bool := match c with DSetup | DMock => true | _ => false end.
Definition is_reset (c : dcall) : bool := match c with DSetup | DMock | DHardReset => true | _ => false end.

(** The calls with their replies. *)
Fixpoint dtrace (cls : nat -> string) (d : data) (cs : list dcall) : list (dcall * reply) :=
  match cs with
  | [] => []
  | c :: rest => (c, snd (dstep cls d c)) :: dtrace cls (fst (dstep cls d c)) rest
  end.

Section Run.
Variable cls : nat -> string.
Notation run := (drun cls).
Notation step := (dstep cls).

Lemma drun_app : forall a b d, run d (a ++ b) = run (run d a) b.
Proof. induction a as [|c a IH]; intros b d; cbn [app drun]; auto. Qed.
Lemma dtrace_app : forall a b d, dtrace cls d (a ++ b) = dtrace cls d a ++ dtrace cls (run d a) b.
Proof. induction a as [|c a IH]; intros b d; cbn [app dtrace drun]; [reflexivity|]. rewrite IH. reflexivity. Qed.

Lemma slot_eqb_eq : forall a b, slot_eqb a b = true <-> a = b.
Proof. intros [] []; cbn; split; intros H; congruence. Qed.

(** * Slots *)
Lemma slot_step : forall d c s, d_slots (fst (step d c)) s =
  if is_reset c then None else match c with DSet s' (Obj v) => if slot_eqb s s' then Some v else d_slots d s | _ => d_slots d s end.
Proof.
  intros d c s. destruct c as [| | | |s' [o|]|[|z|]|[|z|] [|y|]|[|z|]|v []|v|e n|v|e n|v|v l|a m|mp vl]; cbn [dstep is_reset]; try reflexivity.
  - cbn. destruct (Z.ltb z 0); reflexivity.
  - cbn. destruct (Z.leb y 0); [reflexivity|]. destruct (d_boards d), (d_chips d); reflexivity.
  - cbn. destruct (Z.leb z 0); [reflexivity|]. destruct (d_boards d), (d_chips d); reflexivity.
  - cbn. destruct (Z.leb z 0); reflexivity.
  - destruct (d_valid d); reflexivity.
  - destruct (d_valid d); reflexivity.
  - destruct (d_mapping d); reflexivity.
  - destruct (d_mapping d); reflexivity.
Qed.

Lemma slot_last : forall labels h s v, get_slot (run (data_new labels) h) s = Some v <->
  exists h1 h2, h = h1 ++ DSet s (Obj v) :: h2 /\ forall c, In c h2 -> is_reset c = false /\ forall o, c <> DSet s (Obj o).
Proof.
  intros labels h s v. unfold get_slot. induction h as [|c h IH] using rev_ind.
  - cbn. split; [discriminate|]. intros [h1 [h2 [E _]]]. destruct h1; discriminate.
  - rewrite drun_app. cbn [drun]. rewrite slot_step. split.
    + intros H. destruct (is_reset c) eqn:R; [discriminate|].
      assert (KEEP : (forall o, c <> DSet s (Obj o)) -> d_slots (run (data_new labels) h) s = Some v ->
        exists h1 h2, h ++ [c] = h1 ++ DSet s (Obj v) :: h2 /\ forall c', In c' h2 -> is_reset c' = false /\ forall o, c' <> DSet s (Obj o)).
      { intros N X. apply IH in X. destruct X as [h1 [h2 [-> N2]]]. exists h1, (h2 ++ [c]). split; [rewrite <- app_assoc; reflexivity|].
        intros c' I. apply in_app_iff in I. destruct I as [I|[<-|[]]]; auto. }
      destruct c as [| | | |s' [o|]|z|b z|z|w b|w|e n|w|e n|w|w l|a m|mp vl]; try (apply KEEP; [intros o; discriminate | exact H]).
      destruct (slot_eqb s s') eqn:E; [apply slot_eqb_eq in E; subst s'; injection H as ->; exists h, []; split; [reflexivity | intros c []]|].
      apply KEEP; [|exact H]. intros o' X. injection X as <- <-. rewrite (proj2 (slot_eqb_eq s' s') eq_refl) in E. discriminate.
    + intros [h1 [h2 [E N]]]. destruct h2 as [|c2 h2] using rev_ind.
      * apply app_inj_tail in E. destruct E as [_ ->]. cbn [is_reset]. rewrite (proj2 (slot_eqb_eq s s) eq_refl). reflexivity.
      * clear IHh2. rewrite app_comm_cons, app_assoc in E. apply app_inj_tail in E. destruct E as [-> ->].
        destruct (N c2) as [N1 N2]; [apply in_app_iff; right; left; reflexivity|]. rewrite N1.
        assert (X : d_slots (run (data_new labels) (h1 ++ DSet s (Obj v) :: h2)) s = Some v).
        { apply IH. exists h1, h2. split; [reflexivity|]. intros c I. apply N. apply in_app_iff. auto. }
        destruct c2 as [| | | |s' [o|]|z|b z|z|w b|w|e n|w|e n|w|w l|a m|mp vl]; try exact X.
        destruct (slot_eqb s s') eqn:E; [|exact X]. apply slot_eqb_eq in E. subst s'. destruct (N2 o eq_refl).
Qed.

(** * Planned timesteps *)
Definition plan_of (c : dcall) : list (option Z) :=
  match c with DPlan PNone => [None] | DPlan (PInt z) => if Z.ltb z 0 then [] else [Some z] | _ => [] end.
Lemma plan_step : forall d c, d_plan (fst (step d c)) =
  if is_setup c then None else match plan_of c with [] => d_plan d | o :: _ => o end.
Proof.
  intros d c. destruct c as [| | | |s' [o|]|[|z|]|[|z|] [|y|]|[|z|]|v []|v|e n|v|e n|v|v l|a m|mp vl]; cbn [dstep is_setup plan_of]; try reflexivity.
  - cbn. destruct (Z.ltb z 0); reflexivity.
  - cbn. destruct (Z.leb y 0); [reflexivity|]. destruct (d_boards d), (d_chips d); reflexivity.
  - cbn. destruct (Z.leb z 0); [reflexivity|]. destruct (d_boards d), (d_chips d); reflexivity.
  - cbn. destruct (Z.leb z 0); reflexivity.
  - destruct (d_valid d); reflexivity.
  - destruct (d_valid d); reflexivity.
  - destruct (d_mapping d); reflexivity.
  - destruct (d_mapping d); reflexivity.
Qed.
Lemma plan_last : forall labels h, get_plan (run (data_new labels) h) = last (flat_map plan_of (after_last is_setup h)) None.
Proof.
  intros labels h. unfold get_plan. induction h as [|c h IH] using rev_ind; [reflexivity|].
  rewrite drun_app, after_last_snoc. cbn [drun]. rewrite plan_step, IH. destruct (is_setup c); [reflexivity|].
  rewrite flat_map_app. cbn [flat_map]. rewrite app_nil_r.
  destruct c as [| | | |s' [o|]|[|z|]|[|z|] [|y|]|[|z|]|v []|v|e n|v|e n|v|v l|a m|mp vl]; cbn [plan_of]; rewrite ?app_nil_r, ?last_last; try reflexivity.
  destruct (Z.ltb z 0); rewrite ?app_nil_r, ?last_last; reflexivity.
Qed.
Lemma plan_positive : forall labels h z, get_plan (run (data_new labels) h) = Some z -> (0 <= z)%Z.
Proof.
  intros labels h z H. rewrite plan_last in H.
  assert (I : In (Some z) (flat_map plan_of (after_last is_setup h))).
  { destruct (flat_map plan_of (after_last is_setup h)) as [|x l] using rev_ind; [discriminate|]. rewrite last_last in H. subst x.
    apply in_app_iff. right. left. reflexivity. }
  apply in_flat_map in I. destruct I as [c [_ I]]. destruct c as [| | | |s' o|[|y|]|b y|y|v b|v|e n|v|e n|v|v l|a m|mp vl]; cbn [plan_of] in I; try destruct I; try discriminate; try contradiction.
  - destruct (Z.ltb y 0) eqn:E; [contradiction|]. destruct I as [I|[]]. injection I as ->. apply Z.ltb_ge in E. exact E.
Qed.

(** * Boards and chips *)
Inductive request := Boards (z : Z) | Chips (z : Z).
Definition request_of (c : dcall) : list request :=
  match c with
  | DRequired (PInt z) PNone => if Z.leb z 0 then [] else [Boards z]
  | DRequired PNone (PInt z) => if Z.leb z 0 then [] else [Chips z]
  | _ => []
  end.
Definition in_graph_of (c : dcall) : list Z := match c with DInGraph (PInt z) => if Z.leb z 0 then [] else [z] | _ => [] end.
Definition required_is (d : data) (o : option request) : Prop :=
  match o with
  | None => d_boards d = None /\ d_chips d = None
  | Some (Boards z) => d_boards d = Some z /\ d_chips d = None
  | Some (Chips z) => d_boards d = None /\ d_chips d = Some z
  end.
Definition last_opt {A} (l : list A) : option A := match rev l with [] => None | x :: _ => Some x end.

Lemma required_step : forall d c o, required_is d o -> required_is (fst (step d c))
  (if is_setup c then None else match o with Some r => Some r | None => hd_error (request_of c) end).
Proof.
  intros d c o R. destruct c as [| | | |s' [u|]|[|z|]|[|z|] [|y|]|[|z|]|v []|v|e n|v|e n|v|v l|a m|mp vl]; cbn [dstep is_setup request_of];
    try (destruct o as [[w|w]|]; exact R); try (split; reflexivity).
  - cbn. destruct (Z.ltb z 0); destruct o as [[w|w]|]; exact R.
  - cbn. destruct (Z.leb y 0); [destruct o as [[w|w]|]; exact R|]. destruct o as [[w|w]|]; destruct R as [R1 R2]; cbn [required_is hd_error]; rewrite R1; try rewrite R2; cbn; auto.
  - cbn. destruct (Z.leb z 0); [destruct o as [[w|w]|]; exact R|]. destruct o as [[w|w]|]; destruct R as [R1 R2]; cbn [required_is hd_error]; rewrite R1; try rewrite R2; cbn; auto.
  - cbn. destruct (Z.leb z 0); destruct o as [[w|w]|]; exact R.
  - destruct (d_valid d); destruct o as [[w|w]|]; exact R.
  - destruct (d_valid d); destruct o as [[w|w]|]; exact R.
  - destruct (d_mapping d); destruct o as [[w|w]|]; exact R.
  - destruct (d_mapping d); destruct o as [[w|w]|]; exact R.
Qed.
Lemma required_run : forall labels h, required_is (run (data_new labels) h) (hd_error (flat_map request_of (after_last is_setup h))).
Proof.
  intros labels h. induction h as [|c h IH] using rev_ind; [split; reflexivity|].
  rewrite drun_app, after_last_snoc. cbn [drun]. pose proof (required_step _ c _ IH) as X. destruct (is_setup c); [exact X|].
  rewrite flat_map_app. cbn [flat_map]. rewrite app_nil_r. destruct (flat_map request_of (after_last is_setup h)); exact X.
Qed.
Lemma in_graph_step : forall d c, d_in_graph (fst (step d c)) = if is_reset c then None else match in_graph_of c with [] => d_in_graph d | z :: _ => Some z end.
Proof.
  intros d c. destruct c as [| | | |s' [o|]|[|z|]|[|z|] [|y|]|[|z|]|v []|v|e n|v|e n|v|v l|a m|mp vl]; cbn [dstep is_reset in_graph_of]; try reflexivity.
  - cbn. destruct (Z.ltb z 0); reflexivity.
  - cbn. destruct (Z.leb y 0); [reflexivity|]. destruct (d_boards d), (d_chips d); reflexivity.
  - cbn. destruct (Z.leb z 0); [reflexivity|]. destruct (d_boards d), (d_chips d); reflexivity.
  - cbn. destruct (Z.leb z 0); reflexivity.
  - destruct (d_valid d); reflexivity.
  - destruct (d_valid d); reflexivity.
  - destruct (d_mapping d); reflexivity.
  - destruct (d_mapping d); reflexivity.
Qed.
Lemma in_graph_run : forall labels h, d_in_graph (run (data_new labels) h) = last_opt (flat_map in_graph_of (after_last is_reset h)).
Proof.
  intros labels h. induction h as [|c h IH] using rev_ind; [reflexivity|]. rewrite drun_app, after_last_snoc. cbn [drun].
  rewrite in_graph_step, IH. destruct (is_reset c); [reflexivity|]. rewrite flat_map_app. cbn [flat_map]. rewrite app_nil_r.
  unfold last_opt at 2. rewrite rev_app_distr. destruct (in_graph_of c) as [|x [|y l]] eqn:E; [reflexivity | reflexivity|].
  exfalso. destruct c as [| | | |s' o|v|b v|[|z|]|v b|v|e n|v|e n|v|v l'|a m|mp vl]; cbn in E; try discriminate. destruct (Z.leb z 0); discriminate.
Qed.
Lemma request_positive : forall h r, In r (flat_map request_of h) -> match r with Boards z | Chips z => (0 < z)%Z end.
Proof.
  intros h r I. apply in_flat_map in I. destruct I as [c [_ I]].
  destruct c as [| | | |s' o|v|[|z|] [|y|]|v|v b|v|e n|v|e n|v|v l|a m|mp vl]; cbn in I; try contradiction.
  - destruct (Z.leb y 0) eqn:E; [contradiction|]. destruct I as [<-|[]]. apply Z.leb_gt in E. exact E.
  - destruct (Z.leb z 0) eqn:E; [contradiction|]. destruct I as [<-|[]]. apply Z.leb_gt in E. exact E.
Qed.
Lemma in_graph_positive : forall h z, In z (flat_map in_graph_of h) -> (0 < z)%Z.
Proof.
  intros h z I. apply in_flat_map in I. destruct I as [c [_ I]]. destruct c as [| | | |s' o|v|b v|[|y|]|v b|v|e n|v|e n|v|v l|a m|mp vl]; cbn in I; try contradiction.
  destruct (Z.leb y 0) eqn:E; [contradiction|]. destruct I as [<-|[]]. apply Z.leb_gt in E. exact E.
Qed.
Lemma last_opt_In : forall {A} (l : list A) x, last_opt l = Some x -> In x l.
Proof. intros A l x H. unfold last_opt in H. destruct (rev l) as [|y r] eqn:E; [discriminate|]. injection H as ->. apply in_rev. rewrite E. left. reflexivity. Qed.

Lemma required_answers : forall labels h, let d := run (data_new labels) h in
  let asked := hd_error (flat_map request_of (after_last is_setup h)) in
  let needs := last_opt (flat_map in_graph_of (after_last is_reset h)) in
  get_boards d = (match asked with Some (Boards z) => Some z | _ => None end) /\
  get_chips d = (match asked with Some (Chips z) => Some z | _ => needs end) /\
  has_boards d = (match get_boards d with Some _ => true | None => false end) /\
  has_chips d = (match get_chips d with Some _ => true | None => false end) /\
  get_required d = (match asked with Some (Boards z) => AskedBoards z | Some (Chips z) => AskedChips z
    | None => match needs with Some z => GraphRequires z | None => NothingKnown end end) /\
  (forall z, get_boards d = Some z \/ get_chips d = Some z -> (0 < z)%Z).
Proof.
  intros labels h d asked needs. pose proof (required_run labels h) as R. fold d in R. fold asked in R.
  pose proof (in_graph_run labels h) as G. fold d in G. fold needs in G.
  assert (P : forall r, asked = Some r -> match r with Boards z | Chips z => (0 < z)%Z end).
  { intros r E. apply (request_positive (after_last is_setup h)). unfold asked in E. destruct (flat_map request_of (after_last is_setup h)); [discriminate|].
    injection E as ->. left. reflexivity. }
  assert (N : forall z, needs = Some z -> (0 < z)%Z) by (intros z E; apply (in_graph_positive (after_last is_reset h)); apply last_opt_In; exact E).
  unfold get_boards, get_chips, has_boards, has_chips, get_required, truthy.
  destruct asked as [[b|c]|]; destruct R as [-> ->]; rewrite G; [pose proof (P _ eq_refl) as PB; cbn in PB | pose proof (P _ eq_refl) as PC; cbn in PC |].
  - rewrite (proj2 (Z.eqb_neq b 0)) by lia. destruct needs as [n|]; [pose proof (N n eq_refl) as PN; rewrite (proj2 (Z.eqb_neq n 0)) by lia; cbn|cbn];
      repeat (split; [reflexivity|]); intros z [H|H]; try discriminate H; injection H as <-; assumption.
  - rewrite (proj2 (Z.eqb_neq c 0)) by lia. cbn. repeat (split; [reflexivity|]). intros z [H|H]; [discriminate|]. injection H as <-. exact PC.
  - destruct needs as [n|]; [pose proof (N n eq_refl) as PN; rewrite (proj2 (Z.eqb_neq n 0)) by lia; cbn|cbn];
      repeat (split; [reflexivity|]); intros z [H|H]; try discriminate H; injection H as <-; assumption.
Qed.

(** When set_n_required raises. *)
Lemma required_reply : forall d b c, snd (step d (DRequired b c)) = RNone <->
  (b = PNone /\ c = PNone) \/ (request_of (DRequired b c) <> [] /\ d_boards d = None /\ d_chips d = None).
Proof.
  assert (REF : forall (A B C D : Prop) e, ~ A -> ~ B -> (RRaise e = RNone <-> A \/ (B /\ C /\ D))) by (intros; split; [discriminate | tauto]).
  intros d b c. cbn [dstep]. destruct b as [|z|], c as [|y|]; cbn; try (apply REF; [intros [X Y]; congruence | congruence]).
  - split; auto.
  - destruct (Z.leb y 0); cbn; [apply REF; [intros [X Y]; congruence | congruence]|].
    destruct (d_boards d), (d_chips d); cbn; (split; [try discriminate; right; repeat split; congruence | intros [[_ X]|[_ [X Y]]]; congruence]).
  - destruct (Z.leb z 0); cbn; [apply REF; [intros [X Y]; congruence | congruence]|].
    destruct (d_boards d), (d_chips d); cbn; (split; [try discriminate; right; repeat split; congruence | intros [[X _]|[_ [X Y]]]; congruence]).
Qed.

(** * Refused calls *)
Lemma refused_same : forall d c e, snd (step d c) = RRaise e ->
  match c with DSet _ _ | DPlan _ | DRequired _ _ | DInGraph _ => fst (step d c) = d | _ => True end.
Proof.
  intros d c e. destruct c as [| | | |s' [o|]|[|z|]|[|z|] [|y|]|[|z|]|v []|v|f n|v|f n|v|v l|a m|mp vl]; cbn; try discriminate; try reflexivity; try (intros; exact I).
  - destruct (Z.ltb z 0); [reflexivity | discriminate].
  - destruct (Z.leb y 0); [reflexivity|]. destruct (d_boards d), (d_chips d); try reflexivity. discriminate.
  - destruct (Z.leb z 0); [reflexivity|]. destruct (d_boards d), (d_chips d); try reflexivity. discriminate.
  - destruct (Z.leb z 0); [reflexivity | discriminate].
Qed.

(** * Monitors *)
Definition monitor_of (only_all : bool) (c : dcall) : list nat :=
  match c with DMonitor v all_chips => if (all_chips || negb only_all)%bool then [v] else [] | _ => [] end.
Lemma monitor_step : forall d c, let d' := fst (step d c) in
  d_all d' = (if is_reset c then [] else d_all d ++ monitor_of true c) /\ d_eth d' = (if is_reset c then [] else d_eth d ++ monitor_of false c).
Proof.
  intros d c. destruct c as [| | | |s' [o|]|[|z|]|[|z|] [|y|]|[|z|]|v []|v|e n|v|e n|v|v l|a m|mp vl]; cbn [dstep is_reset monitor_of negb orb]; rewrite ?app_nil_r;
    try (split; reflexivity).
  - cbn. destruct (Z.ltb z 0); split; reflexivity.
  - cbn. destruct (Z.leb y 0); [split; reflexivity|]. destruct (d_boards d), (d_chips d); split; reflexivity.
  - cbn. destruct (Z.leb z 0); [split; reflexivity|]. destruct (d_boards d), (d_chips d); split; reflexivity.
  - cbn. destruct (Z.leb z 0); split; reflexivity.
  - destruct (d_valid d); split; reflexivity.
  - destruct (d_valid d); split; reflexivity.
  - destruct (d_mapping d); split; reflexivity.
  - destruct (d_mapping d); split; reflexivity.
Qed.
Lemma monitor_run : forall labels h, let d := run (data_new labels) h in
  d_all d = flat_map (monitor_of true) (after_last is_reset h) /\ d_eth d = flat_map (monitor_of false) (after_last is_reset h).
Proof.
  intros labels h d. subst d. induction h as [|c h IH] using rev_ind; [split; reflexivity|]. rewrite drun_app, after_last_snoc. cbn [drun].
  destruct (monitor_step (run (data_new labels) h) c) as [-> ->]. destruct IH as [-> ->]. destruct (is_reset c); [split; reflexivity|].
  rewrite !flat_map_app. cbn [flat_map]. rewrite !app_nil_r. split; reflexivity.
Qed.

(** * Machine vertices *)
Lemma n_machine : forall d, get_n_machine_vertices d = length (iterate_machine_vertices d).
Proof.
  intros d. unfold get_n_machine_vertices, iterate_machine_vertices.
  enough (X : forall l s, fold_left (fun s v => s + length (macs_of d v)) l s = s + length (flat_map (macs_of d) l)) by apply (X _ 0).
  induction l as [|v l IH]; intros s; cbn [fold_left flat_map length]; [lia|]. rewrite IH, app_length. lia.
Qed.
Lemma reset_macs : forall g macs v, dget Nat.eqb (reset_vertices g macs) v =
  if existsb (Nat.eqb v) (vertices g) then Some [] else dget Nat.eqb macs v.
Proof.
  intros g macs v. unfold reset_vertices. generalize (vertices g). intros l. revert macs. induction l as [|w l IH]; intros macs; cbn [fold_left existsb]; [reflexivity|].
  rewrite IH. destruct (existsb (Nat.eqb v) l) eqn:E; [rewrite orb_true_r; reflexivity|]. rewrite orb_false_r.
  rewrite (dget_dset _ Nat.eqb_eq). rewrite Nat.eqb_sym. reflexivity.
Qed.
Lemma hard_reset_macs : forall d v, In v (vertices (d_graph d)) -> macs_of (hard_reset d) v = [].
Proof.
  intros d v I. unfold macs_of, hard_reset. cbn [d_macs]. rewrite reset_macs.
  assert (E : existsb (Nat.eqb v) (vertices (d_graph d)) = true) by (apply existsb_exists; exists v; split; [exact I | apply Nat.eqb_refl]).
  rewrite E. reflexivity.
Qed.
Lemma hard_reset_graph : forall d, let d' := hard_reset d in
  iterate_vertices d' = iterate_vertices d /\ get_n_vertices d' = get_n_vertices d /\ iterate_partitions d' = iterate_partitions d /\ get_edges d' = get_edges d /\
  iterate_machine_vertices d' = [] /\ get_n_machine_vertices d' = 0.
Proof.
  intros d d'. assert (M : iterate_machine_vertices d' = []).
  { unfold iterate_machine_vertices. cbn [d' hard_reset d_graph].
    assert (X : forall l, (forall v, In v l -> In v (vertices (d_graph d))) -> flat_map (macs_of d') l = []).
    { induction l as [|v l IH]; intros H; [reflexivity|]. cbn [flat_map]. unfold d' at 1. rewrite hard_reset_macs by (apply H; left; reflexivity).
      apply IH. intros w W. apply H. right. exact W. }
    apply X. auto. }
  repeat (split; [reflexivity|]). split; [exact M|]. rewrite n_machine, M. reflexivity.
Qed.

(** Machine vertices that are remembered once have their place as their index. *)
Definition remembered (c : dcall) : list nat := match c with DRemember _ m => [m] | _ => [] end.
Lemma macs_step : forall d c, let d' := fst (step d c) in
  match c with
  | DRemember a m => d' = remember d a m
  | _ => d_index d' = d_index d /\ (d_macs d' = d_macs d \/ exists g, d_macs d' = reset_vertices g (d_macs d))
  end.
Proof.
  intros d c. destruct c as [| | | |s' [o|]|[|z|]|[|z|] [|y|]|[|z|]|v []|v|e n|v|e n|v|v l|a m|mp vl]; cbn [dstep];
    try (split; [reflexivity | left; reflexivity]); try reflexivity.
  - split; [reflexivity | right; eexists; reflexivity].
  - cbn. destruct (Z.ltb z 0); split; auto.
  - cbn. destruct (Z.leb y 0); [split; auto|]. destruct (d_boards d), (d_chips d); split; auto.
  - cbn. destruct (Z.leb z 0); [split; auto|]. destruct (d_boards d), (d_chips d); split; auto.
  - cbn. destruct (Z.leb z 0); split; auto.
  - destruct (d_valid d); split; auto.
  - destruct (d_valid d); split; auto.
  - destruct (d_mapping d); split; auto.
  - destruct (d_mapping d); split; auto.
Qed.
Lemma index_run : forall labels h, NoDup (flat_map remembered h) -> let d := run (data_new labels) h in
  (forall a m, In m (macs_of d a) -> In m (flat_map remembered h)) /\
  forall a n m, nth_error (macs_of d a) n = Some m -> dget Nat.eqb (d_index d) m = Some n.
Proof.
  intros labels h. induction h as [|c h IH] using rev_ind; intros ND d; subst d.
  - split; [intros a m [] | intros a [|n] m H; discriminate].
  - rewrite flat_map_app in ND. assert (ND' : NoDup (flat_map remembered h)).
    { clear - ND. revert ND. generalize (flat_map remembered [c]). induction (flat_map remembered h) as [|x l IH]; intros l' ND; [constructor|].
      cbn in ND. inversion ND as [|? ? N1 N2]; subst. constructor; [|exact (IH _ N2)]. intros I. apply N1. apply in_app_iff. auto. }
    specialize (IH ND'). cbn zeta in IH. rewrite drun_app. cbn [drun]. remember (run (data_new labels) h) as d eqn:D. clear D. destruct IH as [IN IX].
    rewrite flat_map_app. pose proof (macs_step d c) as S. cbn zeta in S.
    assert (SAME : d_index (fst (step d c)) = d_index d ->
      (d_macs (fst (step d c)) = d_macs d \/ exists g, d_macs (fst (step d c)) = reset_vertices g (d_macs d)) ->
      (forall a m, In m (macs_of (fst (step d c)) a) -> In m (flat_map remembered h ++ flat_map remembered [c])) /\
      (forall a n m, nth_error (macs_of (fst (step d c)) a) n = Some m -> dget Nat.eqb (d_index (fst (step d c))) m = Some n)).
    { intros E1 [E2|[g E2]].
      - assert (M : forall a, macs_of (fst (step d c)) a = macs_of d a) by (intros a; unfold macs_of; rewrite E2; reflexivity).
        split; [intros a m I; rewrite M in I; apply in_app_iff; left; eauto | intros a n m I; rewrite M in I; rewrite E1; eauto].
      - assert (M : forall a, macs_of (fst (step d c)) a = if existsb (Nat.eqb a) (vertices g) then [] else macs_of d a).
        { intros a. unfold macs_of. rewrite E2, reset_macs. destruct (existsb (Nat.eqb a) (vertices g)); reflexivity. }
        split; [intros a m I | intros a n m I]; rewrite M in I; destruct (existsb (Nat.eqb a) (vertices g)).
        + destruct I.
        + apply in_app_iff. left. eauto.
        + destruct n; discriminate.
        + rewrite E1. eauto. }
    destruct c as [| | | |s' o|z|b z|z|w b|w|e n|w|e n|w|w l|a m|mp vl]; try (exact (SAME (proj1 S) (proj2 S))).
    clear SAME. rewrite S. clear S. cbn [flat_map remembered app] in *.
    assert (NM : ~ In m (flat_map remembered h)).
    { intros I. clear - ND I. induction (flat_map remembered h) as [|x l IH]; [destruct I|]. cbn in ND. inversion ND as [|? ? N1 N2]; subst.
      destruct I as [->|I]; [apply N1; apply in_app_iff; right; left; reflexivity | exact (IH N2 I)]. }
    assert (F : mem_nat m (macs_of d a) = false).
    { apply not_true_iff_false. intros X. apply (mem_nat_spec) in X. apply NM. exact (IN a m X). }
    assert (M : forall b, macs_of (remember d a m) b = if Nat.eqb a b then macs_of d a ++ [m] else macs_of d b).
    { intros b. unfold remember. cbv zeta. rewrite F. unfold macs_of at 1. cbn [d_macs]. rewrite (dget_dset _ Nat.eqb_eq). destruct (Nat.eqb a b); reflexivity. }
    split.
    + intros b k I. rewrite M in I. apply in_app_iff. destruct (Nat.eqb a b); [|left; eauto]. apply in_app_iff in I. destruct I as [I|I]; [left; eauto | right; exact I].
    + intros b n k I. rewrite M in I. unfold remember. cbv zeta. cbn [d_index]. rewrite (dget_dset _ Nat.eqb_eq).
      assert (OLD : nth_error (macs_of d b) n = Some k -> (if Nat.eqb m k then Some (length (macs_of d a)) else dget Nat.eqb (d_index d) k) = Some n).
      { intros X. destruct (Nat.eqb m k) eqn:E; [|eauto]. apply Nat.eqb_eq in E. subst k. destruct NM. apply (IN b). eapply nth_error_In. exact X. }
      destruct (Nat.eqb a b) eqn:E; [|exact (OLD I)]. apply Nat.eqb_eq in E. subst b.
      destruct (lt_dec n (length (macs_of d a))) as [L|L]; [apply OLD; rewrite nth_error_app1 in I by exact L; exact I|].
      rewrite nth_error_app2 in I by lia. remember (n - length (macs_of d a)) as q eqn:Q. destruct q as [|q]; [|destruct q; discriminate I].
      injection I as <-. rewrite Nat.eqb_refl. f_equal. lia.
Qed.

(** * Edges *)
Definition edge_added (x : dcall * reply) : list (gedge * string) :=
  match x with (DViewEdge e n, RNone) | (DWriterEdge e n, RNone) => [(e, n)] | _ => [] end.
Definition setup_entry (x : dcall * reply) : bool := is_setup (fst x).

Lemma edges_run : forall labels h, einv (d_graph (run (data_new labels) h)) (flat_map edge_added (after_last setup_entry (dtrace cls (data_new labels) h))).
Proof.
  intros labels h. induction h as [|c h IH] using rev_ind; [exact (new_einv labels)|].
  rewrite drun_app, dtrace_app. cbn [drun dtrace]. rewrite after_last_snoc. remember (run (data_new labels) h) as d eqn:D. clear D.
  remember (flat_map edge_added (after_last setup_entry (dtrace cls (data_new labels) h))) as acc eqn:A. unfold setup_entry at 1. cbn [fst].
  assert (NEW : forall g, einv (mkGraph (lab g) (added g) [] 0 [] 0) []) by (intros g; exact (einv_ext (graph_new []) (mkGraph (lab g) (added g) [] 0 [] 0) [] eq_refl eq_refl (new_einv []))).
  assert (KEEP : forall d', d_graph d' = d_graph d -> forall r, edge_added (c, r) = [] -> is_setup c = false ->
    einv (d_graph d') (flat_map edge_added (if is_setup c then [] else after_last setup_entry (dtrace cls (data_new labels) h) ++ [(c, r)]))).
  { intros d' E r N S. rewrite S, E, flat_map_app. cbn [flat_map]. rewrite N, <- A, !app_nil_r. exact IH. }
  assert (EDGE : forall d' e n, d_graph d' = d_graph d -> is_setup c = false ->
    edge_added (c, snd (on_graph d' (add_edge (d_graph d') e n))) = match snd (add_edge (d_graph d) e n) with Ok _ => [(e, n)] | Err _ => [] end ->
    einv (d_graph (fst (on_graph d' (add_edge (d_graph d') e n))))
      (flat_map edge_added (if is_setup c then [] else after_last setup_entry (dtrace cls (data_new labels) h) ++ [(c, snd (on_graph d' (add_edge (d_graph d') e n)))]))).
  { intros d' e n E S X. rewrite S, flat_map_app. cbn [flat_map]. rewrite X, <- A, app_nil_r. cbn [on_graph fst with_graph d_graph]. rewrite E.
    pose proof (add_edge_inv cls (d_graph d) acc e n IH) as Y. destruct (snd (add_edge (d_graph d) e n)); [exact Y | rewrite app_nil_r; exact Y]. }
  assert (OTHER : forall g', out g' = out (d_graph d) -> n_parts g' = n_parts (d_graph d) -> forall r, edge_added (c, r) = [] -> is_setup c = false ->
    einv g' (flat_map edge_added (if is_setup c then [] else after_last setup_entry (dtrace cls (data_new labels) h) ++ [(c, r)]))).
  { intros g' E1 E2 r N S. rewrite S, flat_map_app. cbn [flat_map]. rewrite N, <- A, !app_nil_r. exact (einv_ext _ _ _ E1 E2 IH). }
  destruct c as [| | | |s' [o|]|[|z|]|[|z|] [|y|]|[|z|]|v []|v|e n|v|e n|v|v l|a m|mp vl]; try (apply KEEP; reflexivity); cbn [dstep].
  - apply NEW.
  - apply NEW.
  - cbn. destruct (Z.ltb z 0); apply KEEP; reflexivity.
  - cbn. destruct (Z.leb y 0); [apply KEEP; reflexivity|]. destruct (d_boards d), (d_chips d); apply KEEP; reflexivity.
  - cbn. destruct (Z.leb z 0); [apply KEEP; reflexivity|]. destruct (d_boards d), (d_chips d); apply KEEP; reflexivity.
  - cbn. destruct (Z.leb z 0); apply KEEP; reflexivity.
  - destruct (d_valid d); [|apply KEEP; reflexivity]. cbn [on_graph fst snd with_graph with_flags d_graph]. destruct (add_vertex_out cls (d_graph d) v) as [E1 E2].
    apply OTHER; auto.
  - destruct (d_valid d); [|apply KEEP; reflexivity]. cbv zeta. apply EDGE; [reflexivity | reflexivity|].
    cbn [on_graph snd with_flags d_graph]. destruct (snd (add_edge (d_graph d) e n)); reflexivity.
  - destruct (d_mapping d); [|apply KEEP; reflexivity]. cbn [on_graph fst snd with_graph d_graph]. destruct (add_vertex_out cls (d_graph d) v) as [E1 E2].
    apply OTHER; auto.
  - destruct (d_mapping d); [|apply KEEP; reflexivity]. apply EDGE; [reflexivity | reflexivity|].
    cbn [on_graph snd d_graph]. destruct (snd (add_edge (d_graph d) e n)); reflexivity.
  - cbn [fst snd with_graph d_graph is_setup]. rewrite flat_map_app. cbn [flat_map edge_added]. rewrite !app_nil_r, <- A. apply (einv_starting cls). exact IH.
  - cbn [on_graph fst snd with_graph d_graph]. unfold set_label. destruct (mem_nat v (added (d_graph d))); apply OTHER; reflexivity.
Qed.

(** Nothing is added while mapping is not required or before the simulator is set up. *)
Lemma writer_refused : forall d c, d_mapping d = false -> (exists v, c = DWriterVertex v) \/ (exists e n, c = DWriterEdge e n) ->
  step d c = (d, RRaise ConfigurationException).
Proof. intros d c M [[v ->]|[e [n ->]]]; cbn [dstep]; rewrite M; reflexivity. Qed.
Lemma view_marks : forall d c, d_valid d = true -> (exists v, c = DViewVertex v) \/ (exists e n, c = DViewEdge e n) -> d_mapping (fst (step d c)) = true.
Proof. intros d c M [[v ->]|[e [n ->]]]; cbn [dstep]; rewrite M; reflexivity. Qed.
End Run.

(** * The SDRAM of monitors *)
Definition sum_fixed (l : list sdram) : Z := fold_right (fun s z => (fixed s + z)%Z) 0%Z l.
Definition sum_per (l : list sdram) : Q := fold_right (fun s q => (per_timestep s + q)%Q) 0%Q l.

Lemma sum_plain_from : forall l a, plain a -> Forall plain l -> exists r, foldM add a l = Ok r /\ plain r /\
  fixed r = (fixed a + sum_fixed l)%Z /\ (per_timestep r == per_timestep a + sum_per l)%Q.
Proof.
  induction l as [|x l IH]; intros a Pa Pl; cbn [foldM sum_fixed sum_per fold_right].
  - exists a. split; [reflexivity|]. split; [exact Pa|]. split; [lia | ring].
  - inversion Pl as [|? ? P1 P2]; subst. destruct (add_plain a x Pa P1) as [c [E [Pc [F G]]]]. rewrite E. cbn [bind].
    destruct (IH c Pc P2) as [r [E' [Pr [F' G']]]]. exists r. split; [exact E'|]. split; [exact Pr|]. split.
    + rewrite F', F. unfold sum_fixed. lia.
    + rewrite G', G. unfold sum_per. ring.
Qed.
Lemma sum_plain : forall l, Forall plain l -> exists r, sum l = Ok r /\ plain r /\
  fixed r = sum_fixed l /\ (per_timestep r == sum_per l)%Q /\ forall t, total t r = cost t (sum_fixed l) (sum_per l).
Proof.
  intros l P. destruct (sum_plain_from l (Const 0) I P) as [r [E [Pr [F G]]]]. exists r. cbn [fixed per_timestep] in F, G.
  assert (G' : (per_timestep r == sum_per l)%Q) by (rewrite G; ring).
  split; [exact E|]. split; [exact Pr|]. split; [lia|]. split; [exact G'|]. intros t. rewrite (total_plain r t Pr).
  replace (fixed r) with (sum_fixed l) by lia. apply cost_comp. exact G'.
Qed.

(** The monitors of all chips are among those of the Ethernet chips. *)
Lemma monitors_among : forall h f, (forall v, (0 <= fixed (f v))%Z /\ (0 <= per_timestep (f v))%Q) ->
  (sum_fixed (map f (flat_map (monitor_of true) h)) <= sum_fixed (map f (flat_map (monitor_of false) h)))%Z /\
  (sum_per (map f (flat_map (monitor_of true) h)) <= sum_per (map f (flat_map (monitor_of false) h)))%Q.
Proof.
  intros h f P. induction h as [|c h [IH1 IH2]]; [split; [cbn; lia | apply Qle_refl]|]. cbn [flat_map].
  destruct c as [| | | |s' o|z|b z|z|v b|w|e n|w|e n|w|w l|a m|mp vl]; cbn [monitor_of app]; try (split; assumption).
  destruct (P v) as [P1 P2]. destruct b; cbn [orb negb app map sum_fixed sum_per fold_right]; fold sum_fixed; fold sum_per.
  - split; [unfold sum_fixed in *; lia|]. apply Qplus_le_compat; [apply Qle_refl | exact IH2].
  - split; [unfold sum_fixed in *; lia|]. apply (Qle_trans _ (0 + sum_per (map f (flat_map (monitor_of true) h)))%Q); [rewrite Qplus_0_l; apply Qle_refl|].
    apply Qplus_le_compat; [exact P2 | exact IH2].
Qed.
Lemma cost_mono : forall t f p f' p', (forall n, t = Some n -> 0 <= n)%Z -> (f <= f')%Z -> (0 <= p)%Q -> (p <= p')%Q ->
  forall c', cost t f' p' = Ok c' -> exists c, cost t f p = Ok c /\ (c <= c')%Z.
Proof.
  intros [n|] f p f' p' T F P0 P c' H; cbn [cost] in *.
  - injection H as <-. eexists. split; [reflexivity|]. apply Qround.Qceiling_resp_le. apply Qplus_le_compat; [rewrite <- Zle_Qle; exact F|].
    apply Qmult_le_compat_r; [exact P|]. change 0%Q with (inject_Z 0). rewrite <- Zle_Qle. apply T. reflexivity.
  - destruct (Qeq_bool p' 0) eqn:E; [|discriminate]. injection H as <-. apply Qeq_bool_eq in E.
    assert (Z0 : (p == 0)%Q) by (apply Qle_antisym; [rewrite <- E; exact P | exact P0]).
    rewrite (proj2 (Qeq_bool_iff p 0) Z0). exists f. split; [reflexivity | exact F].
Qed.
Lemma sum_per_nonneg : forall l, (forall s, In s l -> 0 <= per_timestep s)%Q -> (0 <= sum_per l)%Q.
Proof.
  induction l as [|s l IH]; intros P; [apply Qle_refl|]. cbn [sum_per fold_right]. fold sum_per. apply (Qle_trans _ (0 + 0)%Q); [apply Qle_refl|].
  apply Qplus_le_compat; [apply P; left; reflexivity | apply IH; intros x X; apply P; right; exact X].
Qed.
Lemma monitor_sdram : forall cls labels h f, (forall v, plain (f v)) -> let d := drun cls (data_new labels) h in
  let every := flat_map (monitor_of true) (after_last is_reset h) in let eth := flat_map (monitor_of false) (after_last is_reset h) in
  exists a e, all_monitor_sdram f d = Ok a /\ ethernet_monitor_sdram f d = Ok e /\
    (forall t, total t a = cost t (sum_fixed (map f every)) (sum_per (map f every))) /\
    (forall t, total t e = cost t (sum_fixed (map f eth)) (sum_per (map f eth))) /\
    ((forall v, (0 <= fixed (f v))%Z /\ (0 <= per_timestep (f v))%Q) ->
      forall t z, (forall n, t = Some n -> (0 <= n)%Z) -> total t e = Ok z -> exists y, total t a = Ok y /\ (y <= z)%Z).
Proof.
  intros cls labels h f P d every eth. destruct (monitor_run cls labels h) as [A E]. fold d in A, E. fold every in A. fold eth in E.
  assert (PL : forall l, Forall plain (map f l)) by (intros l; apply Forall_forall; intros s I; apply in_map_iff in I; destruct I as [v [<- _]]; apply P).
  destruct (sum_plain (map f every) (PL every)) as [a [A1 [_ [_ [_ A2]]]]]. destruct (sum_plain (map f eth) (PL eth)) as [e [E1 [_ [_ [_ E2]]]]].
  exists a, e. unfold all_monitor_sdram, ethernet_monitor_sdram. rewrite A, E.
  split; [exact A1|]. split; [exact E1|]. split; [exact A2|]. split; [exact E2|]. intros NN t z T H. rewrite E2 in H. rewrite A2.
  destruct (monitors_among (after_last is_reset h) f NN) as [M1 M2]. fold every in M1, M2. fold eth in M1, M2.
  refine (cost_mono t _ _ _ _ T M1 _ M2 z H). apply sum_per_nonneg. intros s I. apply in_map_iff in I. destruct I as [v [<- _]]. apply NN.
Qed.
