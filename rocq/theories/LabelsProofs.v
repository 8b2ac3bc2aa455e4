(** Vertices whose labels all differ stay in the graph under these labels. *)
From Coq Require Import String List Arith Bool.
From Verif Require Import Base Dict GraphModel GraphProofs.
Import ListNotations.
Local Open Scope nat_scope.

Section Labels.
Variable cls : nat -> string.
Variable labels : list (nat * string).
Variable cs : list gcall.
Hypothesis named : forall v, In (AddVertex v) cs -> exists l, dget Nat.eqb labels v = Some l /\ l <> EmptyString.
Hypothesis differ : forall v w, In (AddVertex v) cs -> In (AddVertex w) cs -> dget Nat.eqb labels v = dget Nat.eqb labels w -> v = w.
Hypothesis kept : forall v l, ~ In (SetLabel v l) cs.

(** The vertices of a list of calls in the order in which they were first added. *)
Fixpoint firsts (seen : list nat) (l : list gcall) : list nat :=
  match l with
  | [] => seen
  | AddVertex v :: rest => firsts (if mem_nat v seen then seen else seen ++ [v]) rest
  | _ :: rest => firsts seen rest
  end.

Record linv (g : graph) (vs : list nat) : Prop := mkLInv {
  li_lab : lab g = labels;
  li_in : forall v, In v vs -> In (AddVertex v) cs;
  li_nodup : NoDup vs;
  li_by : map fst (by_label g) = map (fun v => match dget Nat.eqb labels v with Some l => l | None => EmptyString end) vs /\
          map snd (by_label g) = vs }.

Definition name_of (v : nat) : string := match dget Nat.eqb labels v with Some l => l | None => EmptyString end.
Lemma by_is : forall g vs, linv g vs -> by_label g = map (fun v => (name_of v, v)) vs.
Proof.
  intros g vs [_ _ _ [A B]]. fold name_of in A. revert vs A B. induction (by_label g) as [|[l v] d IH]; intros [|w vs] A B; try discriminate; [reflexivity|].
  cbn [map fst snd] in *. injection A as A1 A2. injection B as B1 B2. subst. f_equal. apply IH; auto.
Qed.
Lemma dget_named : forall vs l, dget String.eqb (map (fun v => (name_of v, v)) vs) l = find (fun v => String.eqb (name_of v) l) vs.
Proof. induction vs as [|v vs IH]; intros l; [reflexivity|]. cbn [map dget find]. destruct (String.eqb (name_of v) l); [reflexivity | apply IH]. Qed.

Lemma add_named : forall g vs v, linv g vs -> In (AddVertex v) cs ->
  linv (fst (add_vertex cls g v)) (if mem_nat v vs then vs else vs ++ [v]) /\
  snd (add_vertex cls g v) = (if mem_nat v vs then Err AlreadyExists else Ok tt).
Proof.
  intros g vs v V I. destruct (named v I) as [l [L NE]].
  assert (B := by_is g vs V). destruct V as [VL VI VN VB]. unfold add_vertex. rewrite VL, L.
  destruct l as [|c l']; [congruence|]. remember (String c l') as l eqn:El. rewrite B, dget_named.
  assert (E : match find (fun w => String.eqb (name_of w) l) vs with Some w => w = v /\ In v vs | None => ~ In v vs end).
  { destruct (find _ vs) as [w|] eqn:F.
    - apply find_some in F. destruct F as [F1 F2]. apply String.eqb_eq in F2.
      assert (w = v); [|subst; auto]. apply differ; [exact (VI w F1) | exact I|]. unfold name_of in F2.
      destruct (dget Nat.eqb labels w) as [lw|]; [congruence|]. subst l. congruence.
    - intros X. apply (find_none _ _ F) in X. unfold name_of in X. rewrite L, String.eqb_refl in X. discriminate. }
  destruct (find (fun w => String.eqb (name_of w) l) vs) as [w|].
  - destruct E as [-> E]. rewrite Nat.eqb_refl. replace (mem_nat v vs) with true by (symmetry; apply mem_nat_spec; exact E).
    split; [|reflexivity]. constructor; assumption.
  - assert (MF : mem_nat v vs = false) by (apply not_true_iff_false; rewrite mem_nat_spec; exact E). rewrite MF. split; [|reflexivity].
    cbn [fst]. unfold register. constructor; cbn [lab by_label]; [exact VL | | |].
    + intros w X. apply in_app_iff in X. destruct X as [X|[<-|[]]]; auto.
    + apply NoDup_snoc; assumption.
    + assert (NK : dmem String.eqb (by_label g) l = false).
      { unfold dmem. rewrite B, dget_named. destruct (find _ vs) as [w|] eqn:F; [|reflexivity]. exfalso.
        apply find_some in F. destruct F as [F1 F2]. apply String.eqb_eq in F2. apply E. replace v with w; [exact F1|].
        apply differ; [exact (VI w F1) | exact I|]. unfold name_of in F2. destruct (dget Nat.eqb labels w) as [lw|]; [congruence|]. subst l. congruence. }
      split.
      * rewrite (dset_keys String.eqb), NK, map_app, (proj1 VB). cbn [map]. rewrite L. reflexivity.
      * clear - NK VB. destruct VB as [_ <-]. revert NK. unfold dmem. induction (by_label g) as [|[k w] d IH]; intros NK; [reflexivity|].
        cbn [dget] in NK. cbn [dset]. destruct (String.eqb k l); [discriminate|]. cbn [map snd app]. rewrite IH by exact NK. reflexivity.
Qed.

Lemma run_named : forall l g vs, (forall c, In c l -> In c cs) -> linv g vs -> linv (run cls g l) (firsts vs l).
Proof.
  induction l as [|c l IH]; intros g vs SUB V; cbn [run firsts]; [exact V|].
  assert (S1 : forall x, In x l -> In x cs) by (intros x X; apply SUB; right; exact X).
  assert (SAME : forall g', lab g' = lab g -> by_label g' = by_label g -> linv (run cls g' l) (firsts vs l)).
  { intros g' E1 E2. apply (IH _ _ S1). destruct V as [VL VI VN VB]. constructor; rewrite ?E1, ?E2; assumption. }
  destruct c as [v|v s|e n|v]; cbn [step fst].
  - apply (IH _ _ S1). apply add_named; [exact V|]. apply SUB. left. reflexivity.
  - exfalso. apply (kept v s). apply SUB. left. reflexivity.
  - destruct (add_edge_same g e n) as [E1 [E2 [E3 E4]]]. apply SAME; assumption.
  - apply SAME; unfold starting_at; destruct (dget Nat.eqb (out g) v); reflexivity.
Qed.
Lemma firsts_In : forall l vs v, In v (firsts vs l) <-> In v vs \/ In (AddVertex v) l.
Proof.
  induction l as [|c l IH]; intros vs v; cbn [firsts In]; [tauto|]. destruct c as [w|w s|e n|w].
  2-4: rewrite IH; split; [intros [X|X]; auto | intros [X|[X|X]]; [auto | discriminate | auto]].
  rewrite IH. destruct (mem_nat w vs) eqn:M.
  - apply mem_nat_spec in M. split; [intros [X|X]; auto|]. intros [X|[X|X]]; [auto | injection X as <-; auto | auto].
  - rewrite in_app_iff. cbn [In]. split; [intros [[X|[X|[]]]|X]; subst; auto|]. intros [X|[X|X]]; [auto | injection X as <-; auto | auto].
Qed.

Lemma distinct_kept : let g := run cls (graph_new labels) cs in
  vertices g = firsts [] cs /\ (forall v, In v (vertices g) <-> In (AddVertex v) cs) /\ NoDup (vertices g) /\ n_vertices g = length (vertices g) /\
  (forall v, In (AddVertex v) cs -> dget Nat.eqb (lab g) v = dget Nat.eqb labels v /\
     exists l, dget Nat.eqb labels v = Some l /\ vertex_by_label g l = Ok v /\ snd (add_vertex cls g v) = Err AlreadyExists).
Proof.
  intros g.
  assert (V0 : linv (graph_new labels) []) by (constructor; cbn; auto; [intros v [] | constructor]).
  assert (V : linv g (firsts [] cs)) by (apply run_named; auto).
  assert (B := by_is g _ V). pose proof V as [VL VI VN VB].
  assert (E : vertices g = firsts [] cs) by (unfold vertices; exact (proj2 VB)).
  split; [exact E|]. rewrite E. split; [intros v; rewrite firsts_In; cbn [In]; tauto|]. split; [exact VN|]. split.
  { unfold n_vertices. rewrite B, map_length. reflexivity. }
  intros v I. rewrite VL. split; [reflexivity|]. destruct (named v I) as [l [L NE]]. exists l. split; [exact L|].
  assert (IV : In v (firsts [] cs)) by (apply firsts_In; auto). split.
  - unfold vertex_by_label, dgetE. rewrite B, dget_named. destruct (find _ _) as [w|] eqn:F.
    + apply find_some in F. destruct F as [F1 F2]. apply String.eqb_eq in F2. f_equal. apply differ; [exact (VI w F1) | exact I|].
      unfold name_of in F2. destruct (dget Nat.eqb labels w) as [lw|]; congruence.
    + apply (find_none _ _ F) in IV. unfold name_of in IV. rewrite L, String.eqb_refl in IV. discriminate.
  - destruct (add_named g _ v V I) as [_ A]. rewrite A. replace (mem_nat v (firsts [] cs)) with true by (symmetry; apply mem_nat_spec; exact IV). reflexivity.
Qed.
End Labels.
