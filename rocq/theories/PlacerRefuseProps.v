(** Properties C197 and C198: graphs that the placer does not support. *)
From Coq Require Import List Arith ZArith QArith Bool Lia Permutation Sorted.
From Verif Require Import Base Dict SdramModel SdramProofs SdramBelow PlacementsModel PlacementsProofs PlacerModel PlacerProofs PlacerFinal PlacerFixed PlacerTotal PlacerProps Counted Spread PlacerRefuse.
Import ListNotations.
Local Open Scope nat_scope.

(** An application vertex with a fixed location, its own or one of its machine vertices,
    that has no groups, or a group in which no vertex that is still to be placed has one;
    or any application vertex with a group of which the system placements [l] have a part. *)
Definition not_supported (e : penv) (l : list placement) (a : appv) : Prop :=
  (~ not_fixed e a /\ a_groups a = []) \/
  (exists g, In g (a_groups a) /\
     (exists v, In v (fst g) /\ In v (map pl_v l)) /\ exists v, In v (fst g) /\ ~ In v (map pl_v l)) \/
  (~ not_fixed e a /\ exists g, In g (a_groups a) /\
     forall v x y o, In v (fst g) -> fixed_at e v x y o -> pe_virtual e v = true \/ In v (map pl_v l)).

Lemma supported_iff : forall e l a, not_supported e l a <-> unsupported e l a.
Proof.
  intros e l a. assert (HF : has_fixed e a = true <-> ~ not_fixed e a).
  { split.
    - intros X Y. apply has_fixed_not in Y. congruence.
    - intro X. destruct (has_fixed e a) eqn:Z; [reflexivity|]. exfalso. apply X, has_fixed_not, Z. }
  assert (LO : forall vs, (forall v x y o, In v vs -> fixed_at e v x y o -> pe_virtual e v = true \/ In v (map pl_v l)) <-> loose e l vs).
  { intro vs. split.
    - intros H v V R N. destruct (get_fixed e v) as [((x, y), o)|] eqn:G; [|reflexivity]. apply get_fixed_at in G.
      destruct (H v x y o V G) as [X|X]; [congruence|]. exfalso. apply N, vplaced_map, X.
    - intros H v x y o V F. apply get_fixed_at in F. destruct (pe_virtual e v) eqn:R; [auto|]. right.
      destruct (in_dec Nat.eq_dec v (map pl_v l)) as [I|I]; [exact I|]. rewrite (H v V R) in F; [discriminate|]. rewrite vplaced_map. exact I. }
  unfold not_supported, unsupported, half_placed. split.
  - intros [(X & Y)|[(g & G & (v & V1 & V2) & (w & W1 & W2))|(X & g & G & Y)]].
    + left. split; [apply HF, X|exact Y].
    + right. exists g. split; [exact G|]. left. split; [exists v|exists w]; (split; [assumption|]); rewrite vplaced_map; assumption.
    + right. exists g. split; [exact G|]. right. split; [apply HF, X|apply LO, Y].
  - intros [(X & Y)|(g & G & [((v & V1 & V2) & (w & W1 & W2))|(X & Y)])].
    + left. split; [apply HF, X|exact Y].
    + right. left. exists g. split; [exact G|]. split; [exists v|exists w]; (split; [assumption|]); rewrite <- vplaced_map; assumption.
    + right. right. split; [apply HF, X|]. exists g. split; [exact G|]. apply LO, Y.
Qed.

(** * C197 *)
Theorem C197_only_these : forall e sys l, wf_machine e -> set_ok e -> made l sys ->
  forall apps, strict e l apps -> separate apps ->
  place_graph e sys apps = Err NotImplemented -> exists a, In a apps /\ not_supported e l a.
Proof.
  intros e sys l W SO M apps S SEP H. destruct (unsupported_when e W SO sys l M apps S SEP H) as (a & A & U).
  exists a. split; [exact A|]. apply supported_iff, U.
Qed.
Print Assumptions C197_only_these.

Theorem C197_never_placed : forall e sys l, wf_machine e -> set_ok e -> made l sys ->
  forall apps p, separate apps -> place_graph e sys apps = Ok p ->
  forall a, In a apps -> ~ not_supported e l a.
Proof.
  intros e sys l W SO M apps p SEP H a A U. apply supported_iff in U. exact (unsupported_fails e W SO sys l M apps p SEP H a A U).
Qed.
Print Assumptions C197_never_placed.

(** 50 is a device and 0 the monitor on chip (0, 0), core 1; both belong to application
    vertices with a fixed location, which is the place of the monitor. *)
Definition c197_env : penv := mkPenv xmachine (Some 10%Z) 120 20 5 1 1 (fun v => Nat.leb 50 v) (fun _ => None)
  (fun v => match v with 0 | 50 | 40 => Some (0, 0, Some 1) | 41 => Some (0, 0, Some 2) | _ => None end)
  (fun v => Const (Z.of_nat v)) (fun l => l).
Definition c197_device : appv := mkApp (Some (0, 0, Some 1)) [50] [([50], xq 0)].
Definition c197_monitor : appv := mkApp (Some (0, 0, Some 1)) [0] [([0], xq 0)].
Definition c197_part : appv := mkApp None [1; 12] [([1; 12], xq 13)].

Lemma c197_wf : wf_machine c197_env.
Proof. exact xwf. Qed.
Lemma c197_links : links_ok c197_env.
Proof.
  intros c d H I. unfold mchip in H. destruct (c_xy c) as (x, y). cbn in H. destruct x as [|[|x]], y as [|[|y]]; cbn in H; try discriminate; injection H as <-; cbn in I;
    repeat (destruct I as [<-|I]; [eexists; reflexivity|]); destruct I.
Qed.
Lemma c197_placable : placable c197_env xmon.
Proof.
  intros pl c I H X. unfold mchip in H. cbn in I. repeat (destruct I as [<-|I]; [rewrite X in H; cbn in H; injection H as <-; cbn; auto|]). destruct I.
Qed.
Example C197_ex : place_graph c197_env xsys [c197_part] = Err NotImplemented /\ not_supported c197_env xmon c197_part /\
  strict c197_env xmon [c197_part] /\ separate [c197_part].
Proof.
  split; [vm_compute; reflexivity|]. split; [|split; [split; [exact c197_links|split; [exact c197_placable|]]|]].
  - right. left. exists ([1; 12], xq 13). split; [now left|]. split; [exists 1|exists 12]; cbn; intuition lia.
  - intros a [<-|[]]. split; [constructor; [|constructor]; right; intros v [<-|[<-|[]]]; reflexivity|]. repeat constructor; cbn; intuition lia.
  - unfold separate. repeat constructor; cbn; intuition lia.
Qed.
Example C197_ex_placed : exists p, place_graph c197_env xsys [mkApp (Some (0, 0, Some 2)) [41] [([41], xq 0)]; mkApp None [10] [([10], xq 10)]] = Ok p /\
  In (mkPl 41 0 0 2) (abs p).
Proof. eexists. split; [vm_compute; reflexivity|]. vm_compute. auto 6. Qed.

(** * C198 *)
(** Nothing of the vertex is left to place. *)
Definition nothing_left (e : penv) (l : list placement) (a : appv) : Prop :=
  forall g, In g (a_groups a) ->
    (forall v, In v (fst g) -> pe_virtual e v = true /\ ~ In v (map pl_v l)) \/ forall v, In v (fst g) -> In v (map pl_v l).

Theorem C198_fixed_device_refuted : exists e sys l a b,
  wf_machine e /\ set_ok e /\ made l sys /\ strict e l [a] /\ strict e l [b] /\ nothing_left e l a /\ nothing_left e l b /\
  (forall v, In v (a_vertices a ++ a_vertices b) -> exists x y q, pe_app_loc e v = Some (x, y, Some q) /\ (In v (map pl_v l) -> In (mkPl v x y q) l)) /\
  place_graph e sys [a] = Err NotImplemented /\ place_graph e sys [b] = Err NotImplemented.
Proof.
  exists c197_env, xsys, xmon, c197_device, c197_monitor.
  split; [exact c197_wf|]. split; [exact xset|]. split; [exact xmade|].
  split; [split; [exact c197_links|split; [exact c197_placable|]]; intros a [<-|[]]; split; [constructor; [|constructor]; left; intros v [<-|[]]; reflexivity|repeat constructor; cbn; lia]|].
  split; [split; [exact c197_links|split; [exact c197_placable|]]; intros a [<-|[]]; split; [constructor; [|constructor]; right; intros v [<-|[]]; reflexivity|repeat constructor; cbn; lia]|].
  split; [intros g [<-|[]]; left; intros v [<-|[]]; split; [reflexivity|cbn; lia]|].
  split; [intros g [<-|[]]; right; intros v [<-|[]]; cbn; auto|].
  split; [|split; vm_compute; reflexivity].
  intros v [<-|[<-|[]]]; exists 0, 0, 1; (split; [reflexivity|]); cbn; [lia|auto].
Qed.
Print Assumptions C198_fixed_device_refuted.

Theorem C198_without_location_partial : forall e sys l, wf_machine e -> set_ok e -> made l sys -> placable e l ->
  forall apps p a, place_graph e sys apps = Ok p -> not_fixed e a -> nothing_left e (abs p) a ->
  place_graph e sys (apps ++ [a]) = Ok p.
Proof.
  intros e sys l W SO M PL apps p a H NF NL.
  destruct (graph_step e sys l W SO M PL apps p a H NF) as (st & G & <- & PA & IFF). apply IFF.
  destruct (nothing_vertex e st a (ni_ok _ _ (gi_n _ _ G))) as (s' & E & X).
  - intros g Hg. destruct (NL g Hg) as [Y|Y]; [left; split|right].
    + intros v V. apply Y, V.
    + apply Forall_forall. intros v V. rewrite vplaced_map. apply Y, V.
    + apply Forall_forall. intros v V. rewrite vplaced_map. apply Y, V.
  - exists s'. auto.
Qed.
Print Assumptions C198_without_location_partial.

Example C198_ex : nothing_left xenv xmon (mkApp None [50; 0] [([50], xq 0); ([0; 1], xq 0)]) /\
  not_fixed xenv (mkApp None [50; 0] [([50], xq 0); ([0; 1], xq 0)]) /\
  place_graph xenv xsys [mkApp None [50; 0] [([50], xq 0); ([0; 1], xq 0)]] = Ok xsys.
Proof.
  split; [|split].
  - intros g [<-|[<-|[]]]; [left|right]; intros v H; cbn in H |- *; repeat (destruct H as [<-|H]; [intuition lia|]); destruct H.
  - apply has_fixed_not. reflexivity.
  - vm_compute. reflexivity.
Qed.
