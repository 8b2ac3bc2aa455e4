(** Properties C175, C176 and C186: what a failing call of the placer leaves behind. *)
From Coq Require Import List Arith ZArith Bool Lia Permutation.
From Verif Require Import Base Dict SdramModel PlacementsModel PlacementsProofs PlacerModel PlacerProofs PlacerFinal FailModel FailProofs PlacerProps.
Import ListNotations.
Local Open Scope nat_scope.

(** The call is that of PlacerModel, with the state of the object that it was given. *)
Theorem C176_call : forall e sys apps, snd (place_call e sys apps) = place_graph e sys apps /\
  forall p, snd (place_call e sys apps) = Ok p -> fst (place_call e sys apps) = p.
Proof. intros e sys apps. split; [apply place_call_result | apply place_call_same]. Qed.
Print Assumptions C176_call.

(** Whether the call fails or not: all that was in the object is still there, in the
    same order, and what comes after it are vertices of the graph. *)
Theorem C176_kept_partial : forall e sys apps,
  exists m, abs (fst (place_call e sys apps)) = abs sys ++ m /\
    forall pl, In pl m -> exists a g, In a apps /\ In g (a_groups a) /\ In (pl_v pl) (fst g).
Proof.
  intros e sys apps. destruct (place_call_more e sys apps) as [[m [E H]] _]. exists m. split; [exact E|].
  intros pl P. specialize (H pl P). apply in_flat_map in H. destruct H as [a [A H]].
  apply in_flat_map in H. destruct H as [g [G H]]. exists a, g. auto.
Qed.
Print Assumptions C176_kept_partial.

(** Without fixed locations: the vertices before the one that cannot be placed are
    placed as if the graph had only them, the others not at all. *)
Theorem C176_first_ones_partial : forall e sys apps after x,
  (forall a, In a apps -> not_fixed e a) -> chip_cores e <> 0%Z ->
  place_call e sys apps = (after, Err x) -> x = NoSpace \/ x = TooBig ->
  exists pre a post p, apps = pre ++ a :: post /\ place_graph e sys pre = Ok p /\ abs after = abs p /\
    place_graph e sys (pre ++ [a]) = Err x.
Proof.
  intros e sys apps after x NF MC H X. destruct (first_ones e sys apps after x) as (pre & a & post & p & E & G & EQ & Y); auto.
  - intros a A. specialize (NF a A). apply has_fixed_not in NF. exact NF.
  - destruct X as [-> | ->]; discriminate.
  - destruct X as [-> | ->]; discriminate.
  - exists pre, a, post, p. subst. auto.
Qed.
Print Assumptions C176_first_ones_partial.

(** Four chips with two free cores each: the first vertex is placed, and the second, of
    seven machine vertices, is not. *)
Definition seven : list appv :=
  [mkApp None [10; 11] [([10; 11], xq 21)];
   mkApp None [4; 5; 6; 7; 8; 9; 12] (map (fun v => ([v], xq (Z.of_nat v))) [4; 5; 6; 7; 8; 9; 12])].
Theorem C176_unchanged_refuted : exists e sys apps after l,
  wf_machine e /\ set_ok e /\ made l sys /\ separate apps /\ (forall a, In a apps -> not_system l a) /\
  place_call e sys apps = (after, Err NoSpace) /\ abs after <> abs sys.
Proof.
  exists xenv, xsys, seven. eexists. exists xmon. split; [exact xwf|]. split; [exact xset|]. split; [exact xmade|].
  split; [unfold separate, all_of, seven; cbn; repeat constructor; cbn; lia|].
  split; [intros a A v V; cbn in A; intuition (subst; cbn in *; lia)|].
  split; [vm_compute; reflexivity|]. vm_compute. discriminate.
Qed.
Print Assumptions C176_unchanged_refuted.
Example C176_example : exists after, place_call xenv xsys seven = (after, Err NoSpace) /\
  abs after = xmon ++ [mkPl 10 0 0 2; mkPl 11 0 0 3] /\
  (forall a, In a seven -> not_fixed xenv a) /\ chip_cores xenv <> 0%Z.
Proof.
  eexists. split; [vm_compute; reflexivity|]. split; [vm_compute; reflexivity|]. split; [|discriminate].
  intros a A. cbn in A. destruct A as [<-|[<-|[]]]; (split; [reflexivity|]); intros v V; cbn in V; intuition (subst; reflexivity).
Qed.

(** * C175: the report *)
(** The object of the placer is the one given as system placements, so that the report
    takes all placements for those of the system. *)
Theorem C175_lists_nothing : forall e sys l apps r, made l sys -> error_report e sys apps = Some (Ok r) ->
  rp_listed r = [] /\
  map fst (rp_unused r) = map c_xy (chip_order (pe_machine e)).
Proof.
  intros e sys l apps r M H. unfold error_report in H. pose proof (place_call_more e sys apps) as [_ K].
  destruct (place_call e sys apps) as [p [q|[]]]; try discriminate. cbn [fst] in K. injection H as H.
  unfold place_report in H. apply bind_Ok_inv in H. destruct H as [u [_ H]]. apply bind_Ok_inv in H. destruct H as [n [_ H]]. injection H as <-. cbn [rp_listed rp_unused].
  split; [|rewrite all_unused, map_map; reflexivity]. apply lists_nothing. apply K. clear - M.
  assert (E : known empty_placements) by (intros c d q []).
  destruct (adds_more (map pl_v l) l empty_placements (fun pl I => in_map pl_v l pl I)) as [_ X].
  unfold made in M. rewrite M in X. exact (X E).
Qed.
Print Assumptions C175_lists_nothing.

Theorem C175_report_refuted : exists e sys l apps r pl,
  made l sys /\ error_report e sys apps = Some (Ok r) /\ In pl (abs (fst (place_call e sys apps))) /\ ~ In pl l /\
  rp_listed r = [] /\ In ((pl_x pl, pl_y pl), 0%Z) (rp_unused r).
Proof.
  exists xenv, xsys, xmon, seven. eexists. exists (mkPl 10 0 0 2). split; [exact xmade|]. split; [vm_compute; reflexivity|].
  split; [vm_compute; tauto|]. split; [intros H; cbn in H; intuition discriminate|]. split; [reflexivity|].
  vm_compute. tauto.
Qed.
Print Assumptions C175_report_refuted.

(** Groups that are not empty and have no virtual vertices: the application vertices
    given as not placed are those with a group of which the first is not. *)
Theorem C175_not_placed_partial : forall e sys apps after,
  (forall a g, In a apps -> In g (a_groups a) -> fst g <> [] /\ forall v, In v (fst g) -> pe_virtual e v = false) ->
  place_call e sys apps = (after, Err NoSpace) ->
  exists r, error_report e sys apps = Some (Ok r) /\ forall a, In a (rp_not_placed r) <->
    In a apps /\ exists g v rest, In g (a_groups a) /\ fst g = v :: rest /\ snd (step after (IsPlaced v)) = ABool false.
Proof.
  intros e sys apps after H C. unfold error_report. rewrite C. unfold place_report.
  destruct (unplaceable_spec e after apps H) as (l & -> & L). cbn [bind].
  destruct (half_some e after apps (0, 0) H) as [n ->]. cbn [bind]. eexists. split; [reflexivity|]. cbn [rp_not_placed].
  intros a. rewrite L. split; intros [A (g & v & r & G & E & P)]; (split; [exact A|]); exists g, v, r; (split; [exact G|]);
    (split; [exact E|]); unfold is_placed in *; cbn [step snd] in *.
  - rewrite P. reflexivity.
  - injection P as P. exact P.
Qed.
Print Assumptions C175_not_placed_partial.
Example C175_example : exists r, error_report xenv xsys seven = Some (Ok r) /\ rp_not_placed r = tl seven /\
  rp_unused r = [((0, 0), 0%Z); ((0, 1), 2%Z); ((1, 0), 2%Z); ((1, 1), 2%Z)] /\
  (forall a g, In a seven -> In g (a_groups a) -> fst g <> [] /\ forall v, In v (fst g) -> pe_virtual xenv v = false).
Proof.
  eexists. split; [vm_compute; reflexivity|]. split; [reflexivity|]. split; [reflexivity|].
  intros a g A G. cbn in A. destruct A as [<-|[<-|[]]]; cbn in G; intuition (subst; try discriminate; cbn in *; intuition (subst; reflexivity)).
Qed.

(** * C186: the counts of the report *)
(** The report is to tell how many vertices of the last application vertex were not
    placed.  Nothing of that vertex is placed, and the counts are 0 of 0: for every
    graph without fixed locations and virtual vertices that is placed from scratch.
    The vertices named as not placed are the one that failed and all after it. *)
Theorem C186_zero : forall e sys l apps after, wf_machine e -> set_ok e -> made l sys ->
  (forall a, In a apps -> not_fixed e a) -> separate apps -> (forall a, In a apps -> not_system l a) ->
  (forall a g, In a apps -> In g (a_groups a) -> fst g <> [] /\ forall v, In v (fst g) -> pe_virtual e v = false) ->
  place_call e sys apps = (after, Err NoSpace) ->
  exists pre a post r, apps = pre ++ a :: post /\ place_graph e sys (pre ++ [a]) = Err NoSpace /\
    error_report e sys apps = Some (Ok r) /\
    rp_not_placed r = filter (fun b => match a_groups b with [] => false | _ => true end) (a :: post) /\
    rp_counts r = (0, 0).
Proof.
  intros e sys l apps after W SO M NF. apply counts_zero; auto. intros a A. apply has_fixed_not, NF, A.
Qed.
Print Assumptions C186_zero.

Theorem C186_counts_refuted : exists e sys l apps a after r,
  made l sys /\ separate apps /\ place_call e sys apps = (after, Err NoSpace) /\
  error_report e sys apps = Some (Ok r) /\ In a apps /\ length (a_vertices a) = 7 /\
  (forall v, In v (a_vertices a) -> snd (step after (IsPlaced v)) = ABool false) /\
  rp_not_placed r = [a] /\ rp_counts r = (0, 0).
Proof.
  exists xenv, xsys, xmon, seven, (nth 1 seven (mkApp None [] [])). do 2 eexists. split; [exact xmade|].
  split; [unfold separate, all_of, seven; cbn; repeat constructor; cbn; lia|].
  split; [vm_compute; reflexivity|]. split; [vm_compute; reflexivity|]. split; [right; left; reflexivity|].
  split; [reflexivity|]. split; [|split; reflexivity].
  intros v V. cbn in V. intuition (subst; reflexivity).
Qed.
Print Assumptions C186_counts_refuted.
(** The hypotheses of the theorem are met by that graph too. *)
Example C186_example : wf_machine xenv /\ set_ok xenv /\ made xmon xsys /\ separate seven /\
  (forall a, In a seven -> not_fixed xenv a) /\ (forall a, In a seven -> not_system xmon a) /\
  exists after, place_call xenv xsys seven = (after, Err NoSpace).
Proof.
  split; [exact xwf|]. split; [exact xset|]. split; [exact xmade|].
  split; [unfold separate, all_of, seven; cbn; repeat constructor; cbn; lia|].
  split.
  - intros a A. cbn in A. destruct A as [<-|[<-|[]]]; (split; [reflexivity|]); intros v V; cbn in V; intuition (subst; reflexivity).
  - split; [intros a A v V; cbn in A; intuition (subst; cbn in *; lia)|]. eexists. vm_compute. reflexivity.
Qed.
