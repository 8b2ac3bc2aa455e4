(** Property C210: which application vertices the report of a failed placement names
    (application_placer.py 288-311, modelled in FailModel). *)
From Coq Require Import List Arith ZArith Bool Lia.
From Verif Require Import Base Dict TreeModel SdramModel PlacementsModel PlacementsProofs PlacerModel PlacerProofs PlacerFinal FailModel FailProofs PlacerProps FailProps.
Import ListNotations.
Local Open Scope nat_scope.

(** The second application vertex has a device (vertex 50) first; it is the one for which
    there is no space. *)
Definition device_first : list appv :=
  [mkApp None [10; 11] [([10; 11], xq 21)];
   mkApp None [50; 4; 5; 6; 7; 8; 9; 12] (([50], xq 0) :: map (fun v => ([v], xq (Z.of_nat v))) [4; 5; 6; 7; 8; 9; 12])].

(** None of the real vertices of an application vertex is placed, and the report does not
    name it: it names no application vertex at all. *)
Theorem C210_virtual_refuted : exists e sys l apps after r a,
  made l sys /\ place_call e sys apps = (after, Err NoSpace) /\ error_report e sys apps = Some (Ok r) /\ In a apps /\
  (exists g v, In g (a_groups a) /\ In v (fst g) /\ pe_virtual e v = false) /\
  (forall g v, In g (a_groups a) -> In v (fst g) -> snd (step after (IsPlaced v)) = ABool false) /\
  rp_not_placed r = [].
Proof.
  exists xenv, xsys, xmon, device_first. do 2 eexists. exists (nth 1 device_first (mkApp None [] [])).
  split; [exact xmade|]. split; [vm_compute; reflexivity|]. split; [vm_compute; reflexivity|].
  split; [right; left; reflexivity|].
  split; [exists ([4], xq 4), 4; cbn; split; [tauto | split; [tauto | reflexivity]]|].
  split; [|reflexivity].
  intros g v G V. cbn in G. decompose [or] G; clear G; subst; cbn in V; try contradiction; decompose [or] V; subst; try contradiction; vm_compute; reflexivity.
Qed.
Print Assumptions C210_virtual_refuted.

Lemma seems_exact : forall e p gs, (forall g, In g gs -> fst g <> []) ->
  exists b, seems_placed e p gs = Ok b /\
    (b = false <-> exists pre g post v rest, gs = pre ++ g :: post /\ fst g = v :: rest /\ pe_virtual e v = false /\
       is_placed p v = false /\
       forall h, In h pre -> exists w more, fst h = w :: more /\ pe_virtual e w = false /\ is_placed p w = true).
Proof.
  intros e p. induction gs as [|[[|v vs] q] gs IH]; intros N; cbn [seems_placed].
  - exists true. split; [reflexivity|]. split; [discriminate|]. intros ([|? ?] & g & post & v & rest & E & _); discriminate.
  - exfalso. exact (N _ (or_introl eq_refl) eq_refl).
  - destruct (pe_virtual e v) eqn:V.
    + exists true. split; [reflexivity|]. split; [discriminate|].
      intros ([|h pre] & g & post & w & rest & E & F & W & P & Q).
      * injection E as <- _. cbn in F. injection F as <- _. congruence.
      * injection E as <- _. destruct (Q _ (or_introl eq_refl)) as (z & more & Z & Y & _). cbn in Z. injection Z as <- _. congruence.
    + destruct (is_placed p v) eqn:P.
      * destruct (IH (fun g G => N g (or_intror G))) as (b & B & X). exists b. split; [exact B|]. rewrite X. split.
        -- intros (pre & g & post & w & rest & -> & F & W & U & Q).
           exists ((v :: vs, q) :: pre), g, post, w, rest. repeat (split; [first [reflexivity | assumption]|]).
           intros h [<-|H]; [exists v, vs; auto | exact (Q h H)].
        -- intros ([|h pre] & g & post & w & rest & E & F & W & U & Q).
           ++ injection E as <- _. cbn in F. injection F as <- _. congruence.
           ++ injection E as _ ->. exists pre, g, post, w, rest. repeat (split; [first [reflexivity | assumption]|]).
              intros z H. exact (Q z (or_intror H)).
      * exists false. split; [reflexivity|]. split; [|reflexivity]. intros _.
        exists [], (v :: vs, q), gs, v, vs. repeat (split; [first [reflexivity | assumption]|]). intros h [].
Qed.

(** What the report names, for all graphs whose groups are not empty: an application
    vertex with a group whose first vertex is real and not placed, if all groups before
    that one begin with a real vertex that is placed.  The report is always written. *)
Theorem C210_exact_partial : forall e sys apps after,
  (forall a g, In a apps -> In g (a_groups a) -> fst g <> []) ->
  place_call e sys apps = (after, Err NoSpace) ->
  exists r, error_report e sys apps = Some (Ok r) /\ forall a, In a (rp_not_placed r) <->
    In a apps /\ exists pre g post v rest, a_groups a = pre ++ g :: post /\ fst g = v :: rest /\ pe_virtual e v = false /\
      snd (step after (IsPlaced v)) = ABool false /\
      forall h, In h pre -> exists w more, fst h = w :: more /\ pe_virtual e w = false /\ snd (step after (IsPlaced w)) = ABool true.
Proof.
  intros e sys apps after N C. unfold error_report. rewrite C. unfold place_report.
  assert (X : exists l, unplaceable e after apps = Ok l /\ forall a, In a l <-> In a apps /\ seems_placed e after (a_groups a) = Ok false).
  { clear C. induction apps as [|a apps IH]; cbn [unplaceable].
    - exists []. split; [reflexivity|]. intros a. split; [intros [] | intros [[] _]].
    - destruct (seems_exact e after (a_groups a) (fun g G => N a g (or_introl eq_refl) G)) as (b & B & _).
      destruct IH as (l & L & M); [intros c g I; exact (N c g (or_intror I))|]. rewrite B, L. cbn [bind]. eexists. split; [reflexivity|].
      intros c. destruct b; cbn [In]; rewrite M; split.
      + intros [I J]. auto.
      + intros [[<-|I] J]; [congruence | auto].
      + intros [<-|[I J]]; auto.
      + intros [[<-|I] J]; auto. }
  destruct X as (l & -> & L). cbn [bind].
  assert (X : forall acc, exists n, half_counts e after apps acc = Ok n).
  { clear C L l. induction apps as [|a apps IH]; intros acc; cbn [half_counts]; [eauto|].
    assert (Y : forall gs b, (forall g, In g gs -> fst g <> []) -> exists o, half_placed e after gs b = Ok o).
    { clear. induction gs as [|[[|v vs] q] gs IH]; intros b N; cbn [half_placed]; [eauto | exfalso; exact (N _ (or_introl eq_refl) eq_refl)|].
      destruct (pe_virtual e v); [eauto|]. destruct (is_placed after v); [|eauto]. apply IH. intros g G. exact (N g (or_intror G)). }
    destruct (Y (a_groups a) false (fun g G => N a g (or_introl eq_refl) G)) as [o ->]. cbn [bind].
    apply IH. intros c g I. exact (N c g (or_intror I)). }
  destruct (X (0, 0)) as [n ->]. cbn [bind]. eexists. split; [reflexivity|]. cbn [rp_not_placed].
  intros a. rewrite L. assert (K : forall v b, snd (step after (IsPlaced v)) = ABool b <-> is_placed after v = b).
  { intros v b. unfold is_placed. cbn [step snd]. split; [intros Z; injection Z as Z; exact Z | intros ->; reflexivity]. }
  split; intros [A Z]; (split; [exact A|]);
    destruct (seems_exact e after (a_groups a) (fun g G => N a g A G)) as (b & B & Q).
  - rewrite B in Z. injection Z as ->. destruct (proj1 Q eq_refl) as (pre & g & post & v & rest & E & F & V & P & H).
    exists pre, g, post, v, rest. repeat (split; [assumption|]). split; [apply K; exact P|].
    intros h I. destruct (H h I) as (w & more & W & W' & T). exists w, more. repeat (split; [assumption|]). apply K. exact T.
  - destruct Z as (pre & g & post & v & rest & E & F & V & P & H). rewrite B. f_equal. apply Q.
    exists pre, g, post, v, rest. repeat (split; [assumption|]). split; [apply K; exact P|].
    intros h I. destruct (H h I) as (w & more & W & W' & T). exists w, more. repeat (split; [assumption|]). apply K. exact T.
Qed.
Print Assumptions C210_exact_partial.

(** The same application vertex with the device in the last place is named; an empty group
    makes the report fail, so that the caller sees an IndexError. *)
Definition device_last : list appv :=
  [mkApp None [10; 11] [([10; 11], xq 21)];
   mkApp None [4; 5; 6; 7; 8; 9; 12; 50] (map (fun v => ([v], xq (Z.of_nat v))) [4; 5; 6; 7; 8; 9; 12] ++ [([50], xq 0)])].
Definition empty_group : list appv :=
  mkApp None [10; 11] [([10; 11], xq 21); ([], xq 0)] :: tl device_last.
Example C210_example :
  (exists r, error_report xenv xsys device_last = Some (Ok r) /\ rp_not_placed r = tl device_last) /\
  snd (place_call xenv xsys device_last) = Err NoSpace /\
  (forall a g, In a device_last -> In g (a_groups a) -> fst g <> []) /\
  snd (place_call xenv xsys empty_group) = Err NoSpace /\
  error_report xenv xsys empty_group = Some (Err IndexError).
Proof.
  split; [eexists; split; [vm_compute; reflexivity | reflexivity]|]. split; [vm_compute; reflexivity|].
  split; [|split; vm_compute; reflexivity].
  intros a g A G. cbn in A. destruct A as [<-|[<-|[]]]; cbn in G; intuition (subst; discriminate).
Qed.
