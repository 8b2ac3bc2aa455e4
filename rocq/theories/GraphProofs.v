(** Proofs about the application graph. *)
From Coq Require Import String Ascii List Arith Bool Lia Permutation DecimalString DecimalNat.
From Verif Require Import Base Dict GraphModel.
Import ListNotations.
Local Open Scope nat_scope.

(** * Labels *)
Definition is_digit (c : ascii) : bool :=
  let n := nat_of_ascii c in (48 <=? n) && (n <=? 57).

(** Does the string end with a digit? *)
Fixpoint ends_with_digit (s : string) : bool :=
  match s with
  | EmptyString => false
  | String c EmptyString => is_digit c
  | String _ r => ends_with_digit r
  end.

Fixpoint all_digits (s : string) : bool :=
  match s with EmptyString => true | String c r => is_digit c && all_digits r end.

Fixpoint trailing (s : string) : string :=
  match s with
  | EmptyString => EmptyString
  | String c r => if is_digit c && all_digits r then String c r else trailing r
  end.

Lemma trailing_digits : forall d, all_digits d = true -> trailing d = d.
Proof.
  intros [|c d] H; [reflexivity|]. cbn [all_digits] in H. cbn [trailing]. rewrite H. reflexivity.
Qed.

Lemma ends_not_all : forall c r d, ends_with_digit (String c r) = false -> all_digits (String c r ++ d) = false.
Proof.
  intros c r d. revert c. induction r as [|c' r IH]; intros c H.
  - cbn [ends_with_digit] in H. cbn [append all_digits]. rewrite H. reflexivity.
  - change (ends_with_digit (String c' r) = false) in H.
    change (is_digit c && all_digits (String c' r ++ d) = false). rewrite (IH c' H). apply andb_false_r.
Qed.

Lemma trailing_app : forall b d, ends_with_digit b = false -> all_digits d = true -> trailing (b ++ d) = d.
Proof.
  induction b as [|c b IH]; intros d H D; [apply trailing_digits; exact D|].
  cbn [append trailing]. pose proof (ends_not_all c b d H) as X. cbn [append all_digits] in X. rewrite X.
  apply IH; [|exact D]. destruct b as [|c' b]; [reflexivity | exact H].
Qed.

Lemma all_digits_uint : forall u, all_digits (NilEmpty.string_of_uint u) = true.
Proof. induction u; cbn [NilEmpty.string_of_uint all_digits]; rewrite ?IHu; reflexivity. Qed.

Lemma all_digits_dec : forall n, all_digits (dec n) = true.
Proof. intros n. apply all_digits_uint. Qed.

Lemma dec_inj : forall n m, dec n = dec m -> n = m.
Proof.
  intros n m H. unfold dec in H.
  assert (X : Nat.to_uint n = Nat.to_uint m).
  { assert (Some (Nat.to_uint n) = Some (Nat.to_uint m)) as Y; [|congruence].
    rewrite <- (NilEmpty.usu (Nat.to_uint n)), <- (NilEmpty.usu (Nat.to_uint m)), H. reflexivity. }
  rewrite <- (Unsigned.of_to n), <- (Unsigned.of_to m), X. reflexivity.
Qed.

Lemma dec_nonempty : forall n, dec n <> EmptyString.
Proof.
  intros n H. unfold dec in H. destruct (Nat.to_uint n) as [| | | | | | | | | |] eqn:E; try discriminate.
  pose proof (Unsigned.of_to n) as X. rewrite E in X. cbn in X. subst n. discriminate.
Qed.

Lemma trailing_none : forall b, ends_with_digit b = false -> trailing b = EmptyString.
Proof.
  intros b H. pose proof (trailing_app b EmptyString H eq_refl) as X.
  assert (E : (b ++ EmptyString)%string = b); [|rewrite E in X; exact X].
  clear. induction b as [|c b IH]; [reflexivity|]. cbn [append]. f_equal. exact IH.
Qed.

Lemma ends_underscore : forall s, ends_with_digit (s ++ "_") = false.
Proof.
  induction s as [|c s IH]; [reflexivity|]. cbn [append].
  destruct (s ++ "_")%string eqn:E; [destruct s; discriminate|]. exact IH.
Qed.

Lemma append_nonempty : forall b d, d <> EmptyString -> (b ++ d)%string <> EmptyString.
Proof. intros [|c b] d H; cbn [append]; [exact H | discriminate]. Qed.

Section Vertices.
Variable cls : nat -> string.

Definition user_label (c : gcall) : Prop :=
  match c with SetLabel _ l => ends_with_digit l = false | _ => True end.

(** Vertices that are in the graph. *)
Record vinv (g : graph) : Prop := mkVInv {
  vi_keys : NoDup (map fst (by_label g));
  vi_vals : NoDup (map snd (by_label g));
  vi_added : forall v, In v (added g) <-> In v (map snd (by_label g));
  vi_lab : forall l v, In (l, v) (by_label g) -> dget Nat.eqb (lab g) v = Some l /\ l <> EmptyString;
  vi_post : forall l, In l (map fst (by_label g)) ->
     trailing l = EmptyString \/ exists n, n <= count g /\ trailing l = dec n;
  vi_user : forall v l, ~ In v (added g) -> dget Nat.eqb (lab g) v = Some l -> ends_with_digit l = false
}.

Lemma mem_nat_spec : forall v l, mem_nat v l = true <-> In v l.
Proof.
  intros v l. unfold mem_nat. rewrite existsb_exists. split.
  - intros [x [H E]]. apply Nat.eqb_eq in E. subst. exact H.
  - intros H. exists v. split; [exact H | apply Nat.eqb_refl].
Qed.

Lemma seqb : forall a b, String.eqb a b = true <-> a = b.
Proof. intros. apply String.eqb_eq. Qed.

Lemma dset_fresh : forall {K V} (eqb : K -> K -> bool) (d : list (K * V)) k v,
  dmem eqb d k = false -> dset eqb d k v = d ++ [(k, v)].
Proof.
  intros K V eqb d k v. unfold dmem. induction d as [|[k' v'] d IH]; cbn [dget dset app]; [reflexivity|].
  destruct (eqb k' k); [discriminate|]. intros H. f_equal. apply IH. exact H.
Qed.

Lemma NoDup_snoc : forall {A} (l : list A) x, NoDup l -> ~ In x l -> NoDup (l ++ [x]).
Proof.
  intros A l x N H. apply (Permutation_NoDup (l := x :: l)); [|constructor; assumption].
  apply Permutation_cons_append.
Qed.

(** Adding a vertex not in the graph yet under a label that is not in use. *)
Lemma register_inv : forall g v l, vinv g -> ~ In v (added g) -> ~ In l (map fst (by_label g)) ->
  dget Nat.eqb (lab g) v = Some l -> l <> EmptyString ->
  (trailing l = EmptyString \/ exists n, n <= count g /\ trailing l = dec n) ->
  vinv (register g v l).
Proof.
  intros g v l [K V A L P U] Nv Nl E NE T.
  assert (D : dset String.eqb (by_label g) l v = by_label g ++ [(l, v)]).
  { apply dset_fresh. destruct (dmem String.eqb (by_label g) l) eqn:X; [|reflexivity].
    apply (dmem_true _ seqb) in X. contradiction. }
  unfold register. constructor; cbn [by_label added lab count]; rewrite ?D, ?map_app; cbn [map fst snd].
  - apply NoDup_snoc; assumption.
  - apply NoDup_snoc; [exact V|]. rewrite <- A. exact Nv.
  - intros w. rewrite in_app_iff. cbn [In]. rewrite <- A. tauto.
  - intros l' w H. rewrite in_app_iff in H. destruct H as [H|[H|[]]]; [exact (L l' w H)|].
    injection H as <- <-. split; assumption.
  - intros l' H. rewrite in_app_iff in H. destruct H as [H|[<-|[]]]; [exact (P l' H) | exact T].
  - intros w l' H. apply U. cbn [In] in H. tauto.
Qed.

Lemma relabel_inv : forall g v base, vinv g -> ~ In v (added g) -> ends_with_digit base = false ->
  let l := (base ++ dec (S (count g)))%string in
  exists g2, set_label (bump g) v l = (g2, Ok tt) /\ vinv (register g2 v l) /\ added (register g2 v l) = v :: added g.
Proof.
  intros g v base V Nv Hb l. pose proof V as [K Va A L P U].
  assert (M : mem_nat v (added (bump g)) = false).
  { destruct (mem_nat v (added (bump g))) eqn:X; [|reflexivity]. apply mem_nat_spec in X. contradiction. }
  unfold set_label. rewrite M. eexists. split; [reflexivity|]. split; [|reflexivity].
  assert (T : trailing l = dec (S (count g))) by (apply trailing_app; [exact Hb | apply all_digits_dec]).
  assert (Nl : ~ In l (map fst (by_label g))).
  { intros H. destruct (P l H) as [X|[n [X1 X2]]].
    - rewrite T in X. exact (dec_nonempty _ X).
    - rewrite T in X2. apply dec_inj in X2. lia. }
  assert (D : dset String.eqb (by_label g) l v = by_label g ++ [(l, v)]).
  { apply dset_fresh. destruct (dmem String.eqb (by_label g) l) eqn:X; [|reflexivity].
    apply (dmem_true _ seqb) in X. contradiction. }
  unfold register. constructor; cbn [by_label added lab count bump]; rewrite ?D, ?map_app; cbn [map fst snd].
  - apply NoDup_snoc; assumption.
  - apply NoDup_snoc; [exact Va|]. rewrite <- A. exact Nv.
  - intros w. rewrite in_app_iff. cbn [In]. rewrite <- A. tauto.
  - intros l' w H. rewrite in_app_iff in H. destruct H as [H|[H|[]]].
    + destruct (L l' w H) as [L1 L2]. split; [|exact L2].
      rewrite (dget_dset_neq _ Nat.eqb_eq); [exact L1|]. intros ->. apply Nv. apply A.
      apply in_map_iff. exists (l', w). auto.
    + injection H as <- <-. split; [apply (dget_dset_eq _ Nat.eqb_eq)|]. apply append_nonempty. apply dec_nonempty.
  - intros l' H. rewrite in_app_iff in H. destruct H as [H|[<-|[]]].
    + destruct (P l' H) as [X|[n [X1 X2]]]; [left; exact X|]. right. exists n. split; [lia | exact X2].
    + right. exists (S (count g)). split; [lia | exact T].
  - intros w l' H E. cbn [In] in H. rewrite (dget_dset_neq _ Nat.eqb_eq) in E by tauto. apply (U w); tauto.
Qed.

(** A vertex in the graph is refused, any other is added. *)
Lemma add_vertex_inv : forall g v, vinv g ->
  (In v (added g) -> add_vertex cls g v = (g, Err AlreadyExists)) /\
  (~ In v (added g) -> exists g', add_vertex cls g v = (g', Ok tt) /\ vinv g' /\ added g' = v :: added g).
Proof.
  intros g v V. pose proof V as [K Va A L P U]. split.
  - intros H. pose proof H as H0. apply A in H. apply in_map_iff in H. destruct H as [[l w] [E H]]. cbn [snd] in E. subst w.
    destruct (L l v H) as [L1 L2]. unfold add_vertex. rewrite L1.
    apply (dget_Some_iff _ seqb _ _ _ K) in H.
    destruct l as [|c l]; [contradiction|]. rewrite H, Nat.eqb_refl. reflexivity.
  - intros H. unfold add_vertex.
    assert (R : forall base, ends_with_digit base = false ->
      exists g', match set_label (bump g) v (base ++ dec (count (bump g))) with
       | (g2, Ok _) => (register g2 v (base ++ dec (count (bump g))), Ok tt)
       | (g2, Err e) => (g2, Err e)
       end = (g', Ok tt) /\ vinv g' /\ added g' = v :: added g).
    { intros base Hb. destruct (relabel_inv g v base V H Hb) as [g2 [E1 [E2 E3]]].
      cbn [bump count] in *. rewrite E1. eexists. split; [reflexivity|]. split; assumption. }
    destruct (dget Nat.eqb (lab g) v) as [[|c l]|] eqn:E.
    + apply R. apply ends_underscore.
    + destruct (dget String.eqb (by_label g) (String c l)) as [v'|] eqn:G.
      * destruct (Nat.eqb v' v) eqn:X.
        { apply Nat.eqb_eq in X. subst v'. exfalso. apply H. apply A. apply in_map_iff.
          exists (String c l, v). split; [reflexivity | exact (dget_In _ seqb _ _ _ G)]. }
        apply R. exact (U v _ H E).
      * eexists. split; [reflexivity|]. split; [|reflexivity]. apply register_inv; auto.
        -- apply (dget_None _ seqb). exact G.
        -- discriminate.
        -- left. apply trailing_none. exact (U v _ H E).
    + apply R. apply ends_underscore.
Qed.

Lemma add_edge_same : forall g e n, lab (fst (add_edge g e n)) = lab g /\ added (fst (add_edge g e n)) = added g /\
  by_label (fst (add_edge g e n)) = by_label g /\ count (fst (add_edge g e n)) = count g.
Proof.
  intros g e n. unfold add_edge, starting_at.
  destruct (negb (label_known g (g_pre e))); [auto|]. destruct (negb (label_known g (g_post e))); [auto|].
  destruct (dget Nat.eqb (out g) (g_pre e)) as [ps|].
  - destruct (find_part ps n) as [p|]; [destruct (has_edge p e)|]; auto.
  - cbn [find_part]. auto.
Qed.

Lemma vinv_ext : forall g g', lab g' = lab g -> added g' = added g -> by_label g' = by_label g -> count g' = count g ->
  vinv g -> vinv g'.
Proof.
  intros g g' E1 E2 E3 E4 [K V A L P U]. constructor; rewrite ?E1, ?E2, ?E3, ?E4; assumption.
Qed.

Lemma step_vinv : forall g c, vinv g -> user_label c ->
  vinv (fst (step cls g c)) /\
  (forall v, In v (added (fst (step cls g c))) <-> In v (added g) \/ c = AddVertex v).
Proof.
  intros g [v|v l|e n|v] V H; cbn [step].
  - destruct (add_vertex_inv g v V) as [A1 A2].
    destruct (in_dec Nat.eq_dec v (added g)) as [D|D].
    + rewrite (A1 D). cbn [fst]. split; [exact V|]. intros w. split; [auto|]. intros [X|X]; [exact X|].
      injection X as ->. exact D.
    + destruct (A2 D) as [g' [E [V' Ad]]]. rewrite E. cbn [fst]. split; [exact V'|].
      intros w. rewrite Ad. cbn [In]. split; intros [X|X]; [right; congruence | left; exact X | right; exact X | left; congruence].
  - unfold set_label. destruct (mem_nat v (added g)) eqn:M; cbn [fst].
    + split; [exact V|]. intros w. split; [auto|]. intros [X|X]; [exact X | discriminate].
    + assert (Nv : ~ In v (added g)) by (rewrite <- mem_nat_spec; congruence).
      split; [|intros w; cbn [added]; split; [auto|]; intros [X|X]; [exact X | discriminate]].
      destruct V as [K Va A L P U]. constructor; cbn [by_label added lab count]; auto.
      * intros l' w X. destruct (L l' w X) as [L1 L2]. split; [|exact L2].
        rewrite (dget_dset_neq _ Nat.eqb_eq); [exact L1|]. intros ->. apply Nv. apply A.
        apply in_map_iff. exists (l', w). auto.
      * intros w l' Nw X. rewrite (dget_dset _ Nat.eqb_eq) in X. destruct (Nat.eqb v w) eqn:E; [|exact (U w l' Nw X)].
        injection X as <-. exact H.
  - destruct (add_edge_same g e n) as [E1 [E2 [E3 E4]]]. split; [exact (vinv_ext _ _ E1 E2 E3 E4 V)|].
    intros w. rewrite E2. split; [auto|]. intros [X|X]; [exact X | discriminate].
  - split.
    + apply (vinv_ext g); unfold starting_at; destruct (dget Nat.eqb (out g) v); try reflexivity; exact V.
    + intros w. unfold starting_at. destruct (dget Nat.eqb (out g) v); cbn [fst added];
      (split; [auto|]; intros [X|X]; [exact X | discriminate]).
Qed.

Lemma run_vinv : forall cs g, vinv g -> (forall c, In c cs -> user_label c) ->
  vinv (run cls g cs) /\
  (forall v, In v (added (run cls g cs)) <-> In v (added g) \/ In (AddVertex v) cs).
Proof.
  induction cs as [|c cs IH]; intros g V H; cbn [run].
  - split; [exact V|]. intros v. cbn [In]. tauto.
  - destruct (step_vinv g c V (H c (or_introl eq_refl))) as [V1 A1].
    destruct (IH _ V1 (fun x Hx => H x (or_intror Hx))) as [V2 A2]. split; [exact V2|].
    intros v. rewrite A2, A1. cbn [In]. tauto.
Qed.

Lemma new_vinv : forall labels, (forall v l, dget Nat.eqb labels v = Some l -> ends_with_digit l = false) ->
  vinv (graph_new labels).
Proof.
  intros labels H. constructor; cbn [graph_new by_label added lab count map]; try constructor; try (intros; contradiction); auto.
  intros v l _ E. exact (H v l E).
Qed.

Lemma vertices_unique : forall labels cs,
  (forall v l, dget Nat.eqb labels v = Some l -> ends_with_digit l = false) ->
  (forall v l, In (SetLabel v l) cs -> ends_with_digit l = false) ->
  let g := run cls (graph_new labels) cs in
  (forall v, In v (vertices g) <-> In (AddVertex v) cs) /\
  NoDup (vertices g) /\
  (forall v, In v (vertices g) -> exists l, dget Nat.eqb (lab g) v = Some l /\ vertex_by_label g l = Ok v) /\
  n_vertices g = length (vertices g) /\
  (forall v, snd (add_vertex cls g v) = Err AlreadyExists <-> In (AddVertex v) cs) /\
  (forall v, snd (add_vertex cls g v) = Ok tt <-> ~ In (AddVertex v) cs).
Proof.
  intros labels cs H1 H2 g.
  destruct (run_vinv cs (graph_new labels) (new_vinv labels H1)) as [V A].
  { intros [v|v l|e n|v] Hc; try exact I. cbn. exact (H2 v l Hc). }
  fold g in V, A. pose proof V as [K Va Ad L P U].
  assert (A' : forall v, In v (added g) <-> In (AddVertex v) cs).
  { intros v. rewrite A. cbn [graph_new added In]. tauto. }
  split; [|split; [|split; [|split; [|split]]]].
  - intros v. unfold vertices. rewrite <- Ad. apply A'.
  - exact Va.
  - intros v Hv. apply in_map_iff in Hv. destruct Hv as [[l w] [E Hv]]. cbn [snd] in E. subst w.
    exists l. split; [exact (proj1 (L l v Hv))|]. unfold vertex_by_label, dgetE.
    apply (dget_Some_iff _ seqb _ _ _ K) in Hv. rewrite Hv. reflexivity.
  - unfold n_vertices, vertices. rewrite map_length. reflexivity.
  - intros v. rewrite <- A'. destruct (add_vertex_inv g v V) as [B1 B2]. split.
    + intros X. destruct (in_dec Nat.eq_dec v (added g)) as [D|D]; [exact D|].
      destruct (B2 D) as [g' [E _]]. rewrite E in X. discriminate.
    + intros X. rewrite (B1 X). reflexivity.
  - intros v. rewrite <- A'. destruct (add_vertex_inv g v V) as [B1 B2]. split.
    + intros X D. rewrite (B1 D) in X. discriminate.
    + intros D. destruct (B2 D) as [g' [E _]]. rewrite E. reflexivity.
Qed.
End Vertices.

(** * Edges *)
Section Edges.
Variable cls : nat -> string.

Definition parts_of (g : graph) (v : nat) : list part :=
  match dget Nat.eqb (out g) v with Some ps => ps | None => [] end.

Definition wanted (acc : list (gedge * string)) (v : nat) (n : string) : list gedge :=
  map fst (filter (fun en => Nat.eqb (g_pre (fst en)) v && String.eqb (snd en) n) acc).

Record einv (g : graph) (acc : list (gedge * string)) : Prop := mkEInv {
  ei_keys : NoDup (map fst (out g));
  ei_names : forall v, NoDup (map p_name (parts_of g v));
  ei_part : forall v p, In p (parts_of g v) -> p_edges p = wanted acc v (p_name p) /\ p_edges p <> [];
  ei_none : forall v n, find_part (parts_of g v) n = None -> wanted acc v n = [];
  ei_ids : forall v p, In p (parts_of g v) -> NoDup (map g_id (p_edges p));
  ei_n : n_parts g = length (partitions g);
  ei_all : Permutation (edges g) (map fst acc)
}.

Lemma find_part_In : forall ps n p, find_part ps n = Some p -> In p ps /\ p_name p = n.
Proof.
  induction ps as [|q ps IH]; intros n p H; cbn [find_part] in H; [discriminate|].
  destruct (String.eqb (p_name q) n) eqn:E.
  - injection H as ->. apply String.eqb_eq in E. split; [left; reflexivity | exact E].
  - destruct (IH n p H) as [A B]. split; [right; exact A | exact B].
Qed.

Lemma find_part_unique : forall ps p, NoDup (map p_name ps) -> In p ps -> find_part ps (p_name p) = Some p.
Proof.
  induction ps as [|q ps IH]; intros p N H; [destruct H|]. cbn [map] in N. inversion N as [|? ? Nq Np]; subst.
  cbn [find_part]. destruct H as [->|H].
  - rewrite String.eqb_refl. reflexivity.
  - destruct (String.eqb (p_name q) (p_name p)) eqn:E; [|apply IH; assumption].
    apply String.eqb_eq in E. exfalso. apply Nq. rewrite E. apply in_map. exact H.
Qed.

Lemma find_part_none : forall ps n, find_part ps n = None -> ~ In n (map p_name ps).
Proof.
  induction ps as [|q ps IH]; intros n H; [intros []|]. cbn [find_part] in H. cbn [map In].
  destruct (String.eqb (p_name q) n) eqn:E; [discriminate|]. apply String.eqb_neq in E.
  intros [X|X]; [contradiction | exact (IH n H X)].
Qed.

Lemma wanted_snoc : forall acc e n v m,
  wanted (acc ++ [(e, n)]) v m = wanted acc v m ++ (if Nat.eqb (g_pre e) v && String.eqb n m then [e] else []).
Proof.
  intros. unfold wanted. rewrite filter_app, map_app. cbn [filter fst snd].
  destruct (Nat.eqb (g_pre e) v && String.eqb n m); reflexivity.
Qed.

(** Replacing the partitions of a vertex. *)
Lemma dset_parts : forall d v ps0 ps,
  (dget Nat.eqb d v = Some ps0 \/ dget Nat.eqb d v = None /\ ps0 = []) ->
  exists l1 l2, concat (map (@snd nat (list part)) d) = l1 ++ ps0 ++ l2 /\
    concat (map snd (dset Nat.eqb d v ps)) = l1 ++ ps ++ l2.
Proof.
  induction d as [|[v' q] d IH]; intros v ps0 ps H; cbn [dget dset] in *.
  - destruct H as [H|[_ ->]]; [discriminate|]. exists [], []. cbn. rewrite app_nil_r. auto.
  - destruct (Nat.eqb v' v) eqn:E.
    + destruct H as [H|[H _]]; [|discriminate]. injection H as ->. exists [], (concat (map snd d)). cbn. auto.
    + destruct (IH v ps0 ps H) as [l1 [l2 [E1 E2]]]. exists (q ++ l1), l2. cbn [map snd concat].
      rewrite E1, E2, !app_assoc. auto.
Qed.

Lemma edges_split : forall l, concat (map p_edges l) = concat (map p_edges l).
Proof. reflexivity. Qed.

Lemma upd_part_edges : forall ps p e, NoDup (map p_name ps) -> In p ps ->
  Permutation (concat (map p_edges (upd_part ps (p_name p) (mkPart (p_name p) (p_edges p ++ [e])))))
              (e :: concat (map p_edges ps)).
Proof.
  induction ps as [|q ps IH]; intros p e N H; [destruct H|]. cbn [map] in N. inversion N as [|? ? Nq Np]; subst.
  unfold upd_part in *. cbn [map]. destruct H as [->|H].
  - rewrite String.eqb_refl. cbn [p_edges concat map].
    assert (X : map (fun q => if String.eqb (p_name q) (p_name p) then mkPart (p_name p) (p_edges p ++ [e]) else q) ps = ps).
    { clear - Nq. induction ps as [|r ps IH]; [reflexivity|]. cbn [map In] in *.
      destruct (String.eqb (p_name r) (p_name p)) eqn:E; [apply String.eqb_eq in E; tauto|]. f_equal. apply IH. tauto. }
    rewrite X, <- app_assoc. cbn [app]. apply Permutation_sym. apply Permutation_middle.
  - destruct (String.eqb (p_name q) (p_name p)) eqn:E.
    + apply String.eqb_eq in E. exfalso. apply Nq. rewrite E. apply in_map. exact H.
    + cbn [concat map]. eapply Permutation_trans; [apply Permutation_app_head; apply IH; assumption|].
      apply Permutation_sym. apply Permutation_middle.
Qed.

Lemma upd_part_names : forall ps n es, map p_name (upd_part ps n (mkPart n es)) = map p_name ps.
Proof.
  induction ps as [|q ps IH]; intros n es; [reflexivity|]. unfold upd_part in *. cbn [map].
  f_equal; [|apply IH]. destruct (String.eqb (p_name q) n) eqn:E; [|reflexivity].
  apply String.eqb_eq in E. cbn. auto.
Qed.

Lemma upd_part_In : forall ps n p x, In x (upd_part ps n p) -> x = p \/ (In x ps /\ p_name x <> n).
Proof.
  intros ps n p x H. unfold upd_part in H. apply in_map_iff in H. destruct H as [q [E H]].
  destruct (String.eqb (p_name q) n) eqn:X; [left; auto|]. right. subst q. apply String.eqb_neq in X. auto.
Qed.

Lemma starting_same : forall g v, snd (starting_at g v) = parts_of g v /\
  (forall w, parts_of (fst (starting_at g v)) w = parts_of g w) /\
  partitions (fst (starting_at g v)) = partitions g /\
  n_parts (fst (starting_at g v)) = n_parts g /\
  dget Nat.eqb (out (fst (starting_at g v))) v = Some (parts_of g v) /\
  (NoDup (map fst (out g)) -> NoDup (map fst (out (fst (starting_at g v))))).
Proof.
  intros g v. unfold starting_at, parts_of at 1 4, parts_of, partitions.
  destruct (dget Nat.eqb (out g) v) as [ps|] eqn:E; cbn [fst snd out n_parts].
  - intuition congruence.
  - assert (D : forall w, dget Nat.eqb (out g ++ [(v, [])]) w =
        match dget Nat.eqb (out g) w with Some x => Some x | None => if Nat.eqb v w then Some [] else None end).
    { intros w. induction (out g) as [|[a b] d IH]; [reflexivity|]. cbn [app dget]. cbn [dget] in E.
      destruct (Nat.eqb a w); [reflexivity|]. apply IH. destruct (Nat.eqb a v); [discriminate | exact E]. }
    split; [reflexivity|]. split; [|split; [|split; [reflexivity|split]]].
    + intros w. rewrite D. destruct (dget Nat.eqb (out g) w); [reflexivity|]. destruct (Nat.eqb v w); reflexivity.
    + rewrite map_app, concat_app. cbn. apply app_nil_r.
    + rewrite D, E, Nat.eqb_refl. reflexivity.
    + intros N. rewrite map_app. cbn [map fst]. apply NoDup_snoc; [exact N|]. apply (dget_None _ Nat.eqb_eq). exact E.
Qed.

Lemma einv_starting : forall g acc v, einv g acc -> einv (fst (starting_at g v)) acc.
Proof.
  intros g acc v [K N P O I C A]. destruct (starting_same g v) as [_ [S1 [S2 [S3 [_ S5]]]]].
  constructor.
  - exact (S5 K).
  - intros w. rewrite S1. apply N.
  - intros w p. rewrite S1. apply P.
  - intros w n. rewrite S1. apply O.
  - intros w p. rewrite S1. apply I.
  - rewrite S2, S3. exact C.
  - unfold edges. rewrite S2. exact A.
Qed.

Lemma add_edge_inv : forall g acc e n, einv g acc ->
  einv (fst (add_edge g e n)) (match snd (add_edge g e n) with Ok _ => acc ++ [(e, n)] | Err _ => acc end).
Proof.
  intros g acc e n E0. unfold add_edge.
  destruct (negb (label_known g (g_pre e))); [exact E0|]. destruct (negb (label_known g (g_post e))); [exact E0|].
  pose proof (einv_starting g acc (g_pre e) E0) as E1.
  destruct (starting_same g (g_pre e)) as [Sps [_ [_ [_ [Sg _]]]]].
  destruct (starting_at g (g_pre e)) as [g1 ps]. cbn [fst snd] in *. subst ps.
  pose proof E1 as [K N P O I C A].
  assert (PS : parts_of g1 (g_pre e) = parts_of g (g_pre e)) by (unfold parts_of at 1; rewrite Sg; reflexivity).
  remember (parts_of g (g_pre e)) as ps eqn:Eps. clear Eps.
  assert (PO : forall q w, (match dget Nat.eqb (dset Nat.eqb (out g1) (g_pre e) q) w with Some x => x | None => [] end)
               = if Nat.eqb (g_pre e) w then q else parts_of g1 w).
  { intros q w. rewrite (dget_dset _ Nat.eqb_eq). destruct (Nat.eqb (g_pre e) w); reflexivity. }
  destruct (find_part ps n) as [p|] eqn:F.
  - destruct (find_part_In _ _ _ F) as [Fi Fn].
    destruct (has_edge p e) eqn:HE; cbn [fst snd]; [exact E1|]. subst n.
    rewrite <- PS in Fi.
    destruct (P _ p Fi) as [Pe Pne]. pose proof (I _ p Fi) as Pi.
    constructor; cbn [out n_parts].
    + apply (dset_NoDup _ Nat.eqb_eq). exact K.
    + intros v. unfold parts_of; cbn [out]. rewrite PO. destruct (Nat.eqb (g_pre e) v); [|apply N].
      rewrite upd_part_names. rewrite <- PS. apply N.
    + intros v q Hq. unfold parts_of in Hq; cbn [out] in Hq. rewrite PO in Hq. rewrite wanted_snoc.
      destruct (Nat.eqb (g_pre e) v) eqn:Ev; cbn [andb].
      * apply Nat.eqb_eq in Ev. subst v. apply upd_part_In in Hq. destruct Hq as [->|[Hq Nq]]; cbn [p_name p_edges].
        -- rewrite String.eqb_refl, <- Pe. split; [reflexivity|]. destruct (p_edges p); discriminate.
        -- rewrite <- PS in Hq. assert (X : String.eqb (p_name p) (p_name q) = false) by (apply String.eqb_neq; auto).
           rewrite X, app_nil_r. apply P. exact Hq.
      * rewrite app_nil_r. apply P. exact Hq.
    + intros v m Hm. unfold parts_of in Hm; cbn [out] in Hm. rewrite PO in Hm. rewrite wanted_snoc.
      destruct (Nat.eqb (g_pre e) v) eqn:Ev; cbn [andb].
      * apply Nat.eqb_eq in Ev. subst v. apply find_part_none in Hm. rewrite upd_part_names in Hm.
        assert (X : String.eqb (p_name p) m = false).
        { apply String.eqb_neq. intros <-. apply Hm. rewrite <- PS. apply in_map. exact Fi. }
        rewrite X, app_nil_r. apply O. rewrite PS. clear - Hm. induction ps as [|q ps IH]; [reflexivity|].
        cbn [map In find_part] in *. destruct (String.eqb (p_name q) m) eqn:E; [apply String.eqb_eq in E; tauto|]. apply IH. tauto.
      * rewrite app_nil_r. apply O. exact Hm.
    + intros v q Hq. unfold parts_of in Hq; cbn [out] in Hq. rewrite PO in Hq.
      destruct (Nat.eqb (g_pre e) v) eqn:Ev; [|exact (I v q Hq)].
      apply upd_part_In in Hq. destruct Hq as [->|[Hq _]]; cbn [p_edges].
      * rewrite map_app. cbn [map]. apply NoDup_snoc; [exact Pi|]. intros X. apply in_map_iff in X.
        destruct X as [x [Ex X]]. unfold has_edge in HE. apply Bool.not_true_iff_false in HE. apply HE.
        apply existsb_exists. exists x. split; [exact X|]. apply Nat.eqb_eq. exact Ex.
      * apply (I (g_pre e)). rewrite PS. exact Hq.
    + rewrite C. unfold partitions; cbn [out].
      destruct (dset_parts (out g1) (g_pre e) ps (upd_part ps (p_name p) (mkPart (p_name p) (p_edges p ++ [e]))) (or_introl Sg))
        as [l1 [l2 [Q1 Q2]]]. rewrite Q1, Q2, !app_length. unfold upd_part. rewrite map_length. reflexivity.
    + unfold edges, partitions in *; cbn [out].
      destruct (dset_parts (out g1) (g_pre e) ps (upd_part ps (p_name p) (mkPart (p_name p) (p_edges p ++ [e]))) (or_introl Sg))
        as [l1 [l2 [Q1 Q2]]]. rewrite Q1 in A. rewrite Q2. rewrite !map_app, !concat_app in *. cbn [map fst].
      eapply Permutation_trans; [|apply Permutation_cons_append].
      eapply Permutation_trans; [|apply perm_skip; exact A].
      eapply Permutation_trans; [apply Permutation_app_head; apply Permutation_app_tail; apply upd_part_edges|].
      * rewrite <- PS. apply N.
      * rewrite <- PS. exact Fi.
      * cbn [app]. apply Permutation_sym. apply Permutation_middle.
  - cbn [fst snd]. pose proof (find_part_none _ _ F) as Fn.
    assert (W0 : wanted acc (g_pre e) n = []) by (apply O; rewrite PS; exact F).
    constructor; cbn [out n_parts].
    + apply (dset_NoDup _ Nat.eqb_eq). exact K.
    + intros v. unfold parts_of; cbn [out]. rewrite PO. destruct (Nat.eqb (g_pre e) v); [|apply N].
      rewrite map_app. cbn [map p_name]. apply NoDup_snoc; [rewrite <- PS; apply N | exact Fn].
    + intros v q Hq. unfold parts_of in Hq; cbn [out] in Hq. rewrite PO in Hq. rewrite wanted_snoc.
      destruct (Nat.eqb (g_pre e) v) eqn:Ev; cbn [andb].
      * apply Nat.eqb_eq in Ev. subst v. apply in_app_iff in Hq. destruct Hq as [Hq|[<-|[]]]; cbn [p_name p_edges].
        -- assert (X : String.eqb n (p_name q) = false).
           { apply String.eqb_neq. intros ->. apply Fn. apply in_map. exact Hq. }
           rewrite X, app_nil_r. apply P. rewrite PS. exact Hq.
        -- rewrite String.eqb_refl, W0. split; [reflexivity | discriminate].
      * rewrite app_nil_r. apply P. exact Hq.
    + intros v m Hm. unfold parts_of in Hm; cbn [out] in Hm. rewrite PO in Hm. rewrite wanted_snoc.
      destruct (Nat.eqb (g_pre e) v) eqn:Ev; cbn [andb].
      * apply Nat.eqb_eq in Ev. subst v. apply find_part_none in Hm. rewrite map_app, in_app_iff in Hm. cbn [map p_name In] in Hm.
        assert (X : String.eqb n m = false) by (apply String.eqb_neq; tauto).
        rewrite X, app_nil_r. apply O. rewrite PS. assert (Hm' : ~ In m (map p_name ps)) by tauto. clear - Hm'.
        induction ps as [|q ps IH]; [reflexivity|].
        cbn [map In find_part] in *. destruct (String.eqb (p_name q) m) eqn:E; [apply String.eqb_eq in E; tauto|]. apply IH. tauto.
      * rewrite app_nil_r. apply O. exact Hm.
    + intros v q Hq. unfold parts_of in Hq; cbn [out] in Hq. rewrite PO in Hq.
      destruct (Nat.eqb (g_pre e) v) eqn:Ev; [|exact (I v q Hq)].
      apply in_app_iff in Hq. destruct Hq as [Hq|[<-|[]]]; cbn [p_edges].
      * apply (I (g_pre e)). rewrite PS. exact Hq.
      * cbn. constructor; [intros [] | constructor].
    + rewrite C. unfold partitions; cbn [out].
      destruct (dset_parts (out g1) (g_pre e) ps (ps ++ [mkPart n [e]]) (or_introl Sg)) as [l1 [l2 [Q1 Q2]]].
      rewrite Q1, Q2, !app_length. cbn [length]. lia.
    + unfold edges, partitions in *; cbn [out].
      destruct (dset_parts (out g1) (g_pre e) ps (ps ++ [mkPart n [e]]) (or_introl Sg)) as [l1 [l2 [Q1 Q2]]].
      rewrite Q1 in A. rewrite Q2. rewrite !map_app, !concat_app in *. cbn [map fst concat p_edges app].
      eapply Permutation_trans; [|apply Permutation_cons_append].
      eapply Permutation_trans; [|apply perm_skip; exact A].
      rewrite <- !app_assoc. cbn [app].
      rewrite !(app_assoc (concat (map p_edges l1)) (concat (map p_edges ps))).
      apply Permutation_sym. apply Permutation_middle.
Qed.

Lemma add_vertex_out : forall g v, out (fst (add_vertex cls g v)) = out g /\ n_parts (fst (add_vertex cls g v)) = n_parts g.
Proof.
  intros g v. unfold add_vertex, set_label.
  destruct (dget Nat.eqb (lab g) v) as [[|c l]|]; [|destruct (dget String.eqb (by_label g) (String c l)) as [v'|]; [destruct (Nat.eqb v' v)|]|];
  try destruct (mem_nat v (added (bump g))); auto.
Qed.

Lemma einv_ext : forall g g' acc, out g' = out g -> n_parts g' = n_parts g -> einv g acc -> einv g' acc.
Proof.
  intros g g' acc E1 E2 [K N P O I C A]. unfold edges, partitions, parts_of in *.
  constructor; unfold edges, partitions, parts_of; rewrite ?E1, ?E2; assumption.
Qed.

Lemma run_einv : forall cs g acc, einv g acc -> einv (run cls g cs) (acc ++ accepted cls g cs).
Proof.
  induction cs as [|c cs IH]; intros g acc E; cbn [run accepted]; [rewrite app_nil_r; exact E|].
  destruct c as [v|v l|e n|v]; cbn [step].
  - apply IH. destruct (add_vertex_out g v) as [E1 E2]. exact (einv_ext _ _ _ E1 E2 E).
  - apply IH. unfold set_label. destruct (mem_nat v (added g)); [exact E|].
    apply (einv_ext g); [reflexivity | reflexivity | exact E].
  - pose proof (add_edge_inv g acc e n E) as X. destruct (add_edge g e n) as [g' [[]|x]]; cbn [fst snd] in *.
    + specialize (IH _ _ X). rewrite <- app_assoc in IH. exact IH.
    + apply IH. exact X.
  - apply IH. apply einv_starting. exact E.
Qed.

Lemma new_einv : forall labels, einv (graph_new labels) [].
Proof.
  intros. constructor; cbn; try constructor; try (intros; contradiction); try reflexivity.
Qed.

Lemma edges_partitioned : forall labels cs,
  let g := run cls (graph_new labels) cs in
  let acc := accepted cls (graph_new labels) cs in
  (forall v name,
     match snd (partition_at g v name) with
     | Some p => p_name p = name /\ p_edges p <> [] /\ NoDup (map g_id (p_edges p)) /\
         p_edges p = map fst (filter (fun en => Nat.eqb (g_pre (fst en)) v && String.eqb (snd en) name) acc)
     | None => forall e, In (e, name) acc -> g_pre e <> v
     end) /\
  (forall v, NoDup (map p_name (snd (starting_at g v)))) /\
  n_parts g = length (partitions g) /\
  Permutation (edges g) (map fst acc).
Proof.
  intros labels cs g acc. pose proof (run_einv cs _ _ (new_einv labels)) as V. cbn [app] in V. fold g acc in V.
  pose proof V as [K N P O I C A].
  split; [|split; [|split; [exact C | exact A]]].
  - intros v name. unfold partition_at. destruct (starting_same g v) as [S _].
    destruct (starting_at g v) as [g1 ps]. cbn [snd] in *. subst ps.
    destruct (find_part (parts_of g v) name) as [p|] eqn:F.
    + destruct (find_part_In _ _ _ F) as [Fi Fn]. destruct (P v p Fi) as [P1 P2].
      split; [exact Fn|]. split; [exact P2|]. split; [exact (I v p Fi)|]. rewrite P1, Fn. reflexivity.
    + intros e He Ev. pose proof (O v name F) as W. unfold wanted in W. apply map_eq_nil in W.
      assert (X : In (e, name) []) by (rewrite <- W; apply filter_In; split;
        [exact He | cbn [fst snd]; rewrite Ev, Nat.eqb_refl, String.eqb_refl; reflexivity]).
      destruct X.
  - intros v. rewrite (proj1 (starting_same g v)). apply N.
Qed.

(** Which edges are accepted. *)
Lemma add_edge_iff : forall g e name,
  (snd (add_edge g e name) = Ok tt <->
   label_known g (g_pre e) = true /\ label_known g (g_post e) = true /\
   forall p, snd (partition_at g (g_pre e) name) = Some p -> ~ In (g_id e) (map g_id (p_edges p))) /\
  (snd (add_edge g e name) <> Ok tt ->
     partitions (fst (add_edge g e name)) = partitions g /\ n_parts (fst (add_edge g e name)) = n_parts g).
Proof.
  intros g e name. unfold add_edge, partition_at.
  destruct (label_known g (g_pre e)) eqn:L1; cbn [negb].
  2:{ split; [split; [discriminate | intros [X _]; discriminate] | auto]. }
  destruct (label_known g (g_post e)) eqn:L2; cbn [negb].
  2:{ split; [split; [discriminate | intros [_ [X _]]; discriminate] | auto]. }
  destruct (starting_same g (g_pre e)) as [_ [_ [S2 [S3 _]]]].
  destruct (starting_at g (g_pre e)) as [g1 ps]. cbn [fst snd] in *.
  destruct (find_part ps name) as [p|] eqn:F.
  - destruct (has_edge p e) eqn:HE; cbn [fst snd].
    + split; [|auto]. split; [discriminate|]. intros [_ [_ X]]. exfalso. apply (X p eq_refl).
      unfold has_edge in HE. apply existsb_exists in HE. destruct HE as [x [Hx Ex]]. apply Nat.eqb_eq in Ex.
      rewrite <- Ex. apply in_map. exact Hx.
    + split; [|intros X; exfalso; apply X; reflexivity]. split; [|reflexivity]. intros _. split; [reflexivity|]. split; [reflexivity|].
      intros q Hq X. injection Hq as <-. apply in_map_iff in X. destruct X as [x [Ex Hx]].
      apply Bool.not_true_iff_false in HE. apply HE. unfold has_edge. apply existsb_exists. exists x.
      split; [exact Hx|]. apply Nat.eqb_eq. exact Ex.
  - split; [|intros X; exfalso; apply X; reflexivity]. split; [|reflexivity]. intros _. split; [reflexivity|]. split; [reflexivity|].
    discriminate.
Qed.
End Edges.

Lemma label_known_iff : forall g v,
  label_known g v = true <-> exists l w, dget Nat.eqb (lab g) v = Some l /\ vertex_by_label g l = Ok w.
Proof.
  intros g v. unfold label_known, vertex_by_label, dgetE, dmem. destruct (dget Nat.eqb (lab g) v) as [l|].
  - destruct (dget String.eqb (by_label g) l) as [w|] eqn:E.
    + split; [intros _|auto]. exists l, w. rewrite E. auto.
    + split; [discriminate|]. intros (l' & w & [= <-] & H). rewrite E in H. discriminate.
  - split; [discriminate|]. intros (l & w & H & _). discriminate.
Qed.

Lemma add_edge_labels : forall g e name,
  (snd (add_edge g e name) = Ok tt <->
   (exists l v, dget Nat.eqb (lab g) (g_pre e) = Some l /\ vertex_by_label g l = Ok v) /\
   (exists l v, dget Nat.eqb (lab g) (g_post e) = Some l /\ vertex_by_label g l = Ok v) /\
   forall p, snd (partition_at g (g_pre e) name) = Some p -> ~ In (g_id e) (map g_id (p_edges p))) /\
  (snd (add_edge g e name) <> Ok tt ->
     partitions (fst (add_edge g e name)) = partitions g /\ n_parts (fst (add_edge g e name)) = n_parts g).
Proof.
  intros g e name. rewrite <- !label_known_iff. exact (add_edge_iff (fun _ => EmptyString) g e name).
Qed.
