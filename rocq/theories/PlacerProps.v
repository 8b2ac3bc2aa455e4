(** Properties C25 to C28 and C85 to C89: the placer. *)
From Coq Require Import List Arith ZArith QArith Bool Lia Permutation Sorted.
From Verif Require Import Base Dict SdramModel SdramProofs SdramBelow PlacementsModel PlacementsProofs PlacerModel PlacerProofs PlacerFinal PlacerFixed PlacerTotal.
Import ListNotations.
Local Open Scope nat_scope.

(** * What the statements below speak of *)

(** The cores and the SDRAM that the monitors and SCAMP leave on a chip; the SDRAM
    used above which a chip is given up is that less an even share for one core. *)
Definition chip_cores (e : penv) : Z :=
  (pe_chip_cores e - pe_scamp_cores e - pe_monitor_cores e)%Z.
Definition chip_sdram (e : penv) : Z := (pe_chip_sdram e - pe_monitor_sdram e)%Z.
Definition given_up (e : penv) : Z := (chip_sdram e - chip_sdram e / chip_cores e)%Z.

(** The SDRAM costs of the vertices placed on a chip, and that costs can be added up
    and make at most so much for the planned timesteps. *)
Definition costs_on (e : penv) (l : list placement) (c : chip) : list sdram :=
  map (fun pl => pe_sdram e (pl_v pl)) (filter (on (c_xy c)) l).
Definition at_most (e : penv) (l : list sdram) (z : Z) : Prop :=
  exists r x, sum l = Ok r /\ total (pe_steps e) r = Ok x /\ (x <= z)%Z.

Definition could_fit (e : penv) (n : nat) (q : sdram) : Prop :=
  (exists x, total (pe_steps e) q = Ok x /\ (x <= chip_sdram e)%Z) /\ (Z.of_nat n <= chip_cores e)%Z.
Definition has_room (e : penv) (l : list placement) (c : chip) (n : nat) (q : sdram) : Prop :=
  length (used_on l c) + n <= length (c_procs c) /\
  at_most e (costs_on e l c) (given_up e) /\ at_most e (costs_on e l c ++ [q]) (c_sdram c).

(** The costs of the vertices are as a user makes them, have one value for each shared
    label, and can be counted for the planned timesteps. *)
Definition fit_together (e : penv) : Prop :=
  (forall v, wf (pe_sdram e v) /\ exists z, total (pe_steps e) (pe_sdram e v) = Ok z) /\
  forall v v' k x y, In (k, x) (shared_of (pe_sdram e v)) -> In (k, y) (shared_of (pe_sdram e v')) ->
    eq x y = true.
(** The cost of each group is the sum of those of its vertices. *)
Definition summed (e : penv) (apps : list appv) : Prop :=
  forall a g, In a apps -> In g (a_groups a) -> sum (map (pe_sdram e) (fst g)) = Ok (snd g).

Lemma fit_coh : forall e, fit_together e -> coh e.
Proof.
  intros e (A & B). constructor.
  - intros s (v & ->). apply A.
  - intros s s' k x y (v & ->) (v' & ->). apply B.
  - intros s (v & ->). apply A.
Qed.
Lemma summed_covered : forall e apps, fit_together e -> summed e apps ->
  forall a g, In a apps -> In g (a_groups a) -> covered e g.
Proof. intros e apps F S a g A G. apply sum_covered; [now apply fit_coh|]. exact (S a g A G). Qed.
(** A chip of the machine. *)
Definition chip_at (e : penv) (x y : nat) (c : chip) : Prop :=
  x < m_width (pe_machine e) /\ y < m_height (pe_machine e) /\
  m_chip (pe_machine e) (x, y) = Some c.

Lemma chip_at_order : forall e x y c, chip_at e x y c -> In c (chip_order (pe_machine e)).
Proof.
  intros e x y c (X & Y & H). unfold chip_order. apply in_flat_map. exists x.
  split; [apply in_seq; lia|]. apply in_flat_map. exists y. split; [apply in_seq; lia|].
  rewrite H. now left.
Qed.

(** * C25 *)

(** [l] are the system placements, [abs p] the placements in the result, in order. *)
Theorem C25_cores : forall e sys l, wf_machine e -> set_ok e -> made l sys ->
  forall apps p, place_graph e sys apps = Ok p ->
  NoDup (map triple (abs p)) /\ NoDup (map pl_v (abs p)) /\
  exists m, abs p = l ++ m /\ forall pl, In pl m -> exists c,
    m_chip (pe_machine e) (pl_x pl, pl_y pl) = Some c /\ In (pl_p pl) (c_procs c).
Proof. exact place_cores. Qed.
Print Assumptions C25_cores.

Theorem C25_errors : forall e sys l, wf_machine e -> set_ok e -> made l sys ->
  forall apps x, strict e l apps -> place_graph e sys apps = Err x ->
  (x = ZeroDivision /\ chip_cores e = 0%Z) \/
  (x = ConfigurationException /\
     ((exists a, In a apps /\ ~ not_fixed e a) \/ ~ (fit_together e /\ summed e apps))) \/
  x = NotImplemented \/ x = NoSpace \/
  (x = TooBig /\ exists a g, In a apps /\ In g (a_groups a) /\
     ~ could_fit e (length (fst g)) (snd g)).
Proof.
  intros e sys l W SO M apps x S H.
  assert (HF : forall a, has_fixed e a = true -> ~ not_fixed e a).
  { intros a X Y. apply has_fixed_not in Y. congruence. }
  destruct (place_errors e sys l W SO M (fit_together e /\ summed e apps) apps x) as [X|[(-> & [(a & A & F)|X])|[X|[X|X]]]]; auto.
  - intros (F & G). split; [now apply fit_coh|]. intros a A. apply Forall_forall. intros g I.
    exact (summed_covered e apps F G a g A I).
  - right. left. split; [reflexivity|]. left. exists a. auto.
Qed.
Print Assumptions C25_errors.

(** * C26 *)

(** Groups may ask for more than the sum of what their vertices need: [covered] says
    that a group asks for at least as much not shared, and for the same labels. *)
Theorem C26_covered : forall e sys l, wf_machine e -> set_ok e -> made l sys ->
  forall apps p, place_graph e sys apps = Ok p ->
  fit_together e -> (forall a g, In a apps -> In g (a_groups a) -> covered e g) ->
  forall pl c, In pl (abs p) -> ~ In (pl_v pl) (map pl_v l) ->
  (forall a, In a apps -> In (pl_v pl) (flat_map fst (a_groups a)) -> not_fixed e a) ->
  m_chip (pe_machine e) (pl_x pl, pl_y pl) = Some c ->
  at_most e (costs_on e (abs p) c) (c_sdram c).
Proof.
  intros e sys l W SO M apps p H FT G pl c P V F C.
  apply (place_sdram e sys l W SO M apps p H (fit_coh e FT) G pl c P V); [|exact C].
  intros a A HF I. specialize (F a A I). apply has_fixed_not in F. congruence.
Qed.
Print Assumptions C26_covered.

Theorem C26_sdram : forall e sys l, wf_machine e -> set_ok e -> made l sys ->
  forall apps p, place_graph e sys apps = Ok p ->
  fit_together e -> summed e apps ->
  forall pl c, In pl (abs p) -> ~ In (pl_v pl) (map pl_v l) ->
  (forall a, In a apps -> In (pl_v pl) (flat_map fst (a_groups a)) -> not_fixed e a) ->
  m_chip (pe_machine e) (pl_x pl, pl_y pl) = Some c ->
  at_most e (costs_on e (abs p) c) (c_sdram c).
Proof.
  intros e sys l W SO M apps p H FT G. apply (C26_covered e sys l W SO M apps p H FT).
  now apply summed_covered.
Qed.
Print Assumptions C26_sdram.

(** * C27 *)
(** Whatever machine, graph and earlier placements, no search of the placer goes on for
    ever: the bounds of its loops in the model are never reached. *)
Theorem C27_terminates : forall e sys apps, place_graph e sys apps <> Err OutOfFuel.
Proof. exact place_graph_ends. Qed.
Print Assumptions C27_terminates.

Theorem C27_placed_once : forall e sys l, wf_machine e -> set_ok e -> made l sys ->
  forall apps p, place_graph e sys apps = Ok p ->
  forall a g v, In a apps -> In g (a_groups a) -> In v (fst g) -> pe_virtual e v = false ->
  exists! pl, In pl (abs p) /\ pl_v pl = v.
Proof.
  intros e sys l W SO M apps p H a g v A G V R.
  destruct (place_all e sys l W SO M apps p H a g v A G V R) as (pl & P1 & P2).
  exists pl. split; [auto|]. intros q (Q1 & Q2).
  destruct (place_cores e sys l W SO M apps p H) as (_ & ND & _).
  revert P1 Q1 ND. rewrite <- P2 in Q2. clear - Q2. generalize (abs p). induction l as [|z l IH]; intros P Q N; [destruct P|].
  cbn [map] in N. inversion N as [|? ? NI ND]; subst. destruct P as [->|P], Q as [->|Q]; auto.
  - exfalso. apply NI. rewrite <- Q2. now apply in_map.
  - exfalso. apply NI. rewrite Q2. now apply in_map.
Qed.
Print Assumptions C27_placed_once.

Theorem C27_together : forall e sys l, wf_machine e -> set_ok e -> made l sys ->
  forall apps p, place_graph e sys apps = Ok p -> separate apps ->
  forall a g, In a apps -> not_system l a -> In g (a_groups a) ->
  exists x y, forall v, In v (fst g) -> pe_virtual e v = false -> exists q, In (mkPl v x y q) (abs p).
Proof. exact place_together. Qed.
Print Assumptions C27_together.

Theorem C27_fixed : forall e sys l, wf_machine e -> set_ok e -> made l sys ->
  forall apps p, place_graph e sys apps = Ok p ->
  forall a g v x y o, In a apps -> In g (a_groups a) -> In v (fst g) -> In v (a_vertices a) ->
  pe_virtual e v = false -> fixed_at e v x y o ->
  (forall w x' y' o', In w (fst g) -> pe_virtual e w = false -> fixed_at e w x' y' o' -> (x', y') = (x, y)) ->
  exists q, In (mkPl v x y q) (abs p) /\ forall r, o = Some r -> q = r.
Proof.
  intros e sys l W SO M apps p H a g v x y o A G V VA R F S.
  apply (place_at_fixed e sys l W SO M apps p H a g v x y o A G V VA R).
  - now apply get_fixed_at.
  - intros w x' y' o' V' R' F'. apply get_fixed_at in F'. eauto.
Qed.
Print Assumptions C27_fixed.

(** * C28 *)

(** From one of the chips used for an application vertex all of them can be reached
    over links between chips used for it. *)
Theorem C28_connected : forall e sys l, wf_machine e -> set_ok e -> made l sys ->
  forall apps p, place_graph e sys apps = Ok p -> separate apps ->
  forall a, In a apps -> not_fixed e a -> not_system l a ->
  exists start, forall c, chip_of p a c -> chip_of p a start /\ reach e (chip_of p a) start c.
Proof.
  intros e sys l W SO M apps p H S a A F. apply has_fixed_not in F.
  exact (place_connected e sys l W SO M apps p H S a A F).
Qed.
Print Assumptions C28_connected.

(** After any vertices, another with one group is placed when a chip has room. *)
Theorem C28_room_is_found : forall e sys l, wf_machine e -> set_ok e -> made l sys ->
  forall apps p vs q av x y d, place_graph e sys apps = Ok p ->
  links_ok e -> placable e l -> fit_together e -> (forall v, parts_nonneg (pe_steps e) (pe_sdram e v)) ->
  sum (map (pe_sdram e) vs) = Ok q ->
  not_fixed e (mkApp None av [(vs, q)]) ->
  vs <> [] -> NoDup vs -> (forall v, In v vs -> pe_virtual e v = false /\ ~ In v (map pl_v (abs p))) ->
  could_fit e (length vs) q -> chip_at e x y d -> has_room e (abs p) d (length vs) q ->
  exists p', place_graph e sys (apps ++ [mkApp None av [(vs, q)]]) = Ok p'.
Proof.
  intros e sys l W SO M apps p vs q av x y d H LO PL CO NN SQ F N ND V FT C R.
  apply has_fixed_not in F. apply chip_at_order in C.
  exact (place_fits e sys l W SO M apps p vs q None av d H LO PL (conj (fit_coh e CO) NN)
           (proj1 (sum_covered e (fit_coh e CO) (vs, q) SQ)) F N ND V FT C R).
Qed.
Print Assumptions C28_room_is_found.

(** * A machine of four chips with three cores for vertices *)
Definition xchip (x y : nat) : chip :=
  mkChip (x, y) [1; 2; 3] 100 (0, 0) [(1 - x, y); (x, 1 - y)].
Definition xmachine : machine := mkMachine 2 2 (fun c =>
  match c with (0, 0) => Some (xchip 0 0) | (0, 1) => Some (xchip 0 1) | (1, 0) => Some (xchip 1 0)
             | (1, 1) => Some (xchip 1 1) | _ => None end).
(** Vertices from 50 are virtual; 30 to 34 have fixed locations. *)
Definition xloc (v : nat) : option loc :=
  match v with
  | 30 => Some (1, 1, Some 2) | 31 => Some (1, 1, None) | 32 => Some (0, 0, Some 1)
  | 33 => Some (0, 0, Some 3) | 34 => Some (0, 0, Some 2) | _ => None
  end.
Definition xenv : penv := mkPenv xmachine (Some 10%Z) 120 20 5 1 1 (fun v => Nat.leb 50 v) xloc (fun _ => None)
  (fun v => Const (Z.of_nat v)) (fun l => l).

Lemma xwf : wf_machine xenv.
Proof.
  intros (x, y) c H. destruct x as [|[|x]], y as [|[|y]]; cbn in H; try discriminate; injection H as <-;
    (split; [reflexivity|]); repeat constructor; cbn; lia.
Qed.
Lemma xset : set_ok xenv.
Proof. intro l. apply Permutation_refl. Qed.

(** A monitor on each chip. *)
Definition xmon : list placement := [mkPl 0 0 0 1; mkPl 1 0 1 1; mkPl 2 1 0 1; mkPl 3 1 1 1].
Definition xsys : placements := fst (add_placements empty_placements xmon).
Lemma xmade : made xmon xsys.
Proof. vm_compute. reflexivity. Qed.

Definition xq (n : Z) : sdram := Const n.
(** Two unfixed application vertices around one with fixed locations. *)
Definition xapps : list appv :=
  [mkApp None [10; 11; 12] [([10; 11], xq 21); ([12], xq 12)];
   mkApp None [30; 31] [([31; 30], xq 61)];
   mkApp None [13] [([13], xq 13)]].
Definition xresult : list placement :=
  match place_graph xenv xsys xapps with Ok p => abs p | Err _ => [] end.

Example place_example : exists p, place_graph xenv xsys xapps = Ok p /\
  abs p = xmon ++ [mkPl 30 1 1 2; mkPl 31 1 1 3; mkPl 10 0 0 2; mkPl 11 0 0 3; mkPl 12 1 0 2; mkPl 13 0 1 2].
Proof. eexists. split; vm_compute; reflexivity. Qed.

Example place_example_separate : separate xapps.
Proof. unfold separate, all_of, xapps. cbn. repeat constructor; cbn; lia. Qed.

Example place_example_strict : strict xenv xmon xapps.
Proof.
  split; [|split].
  - intros (cxy, pr, sd, et, lk) (x, y) M I. unfold mchip in M. cbn in M.
    destruct cxy as (a, b). destruct a as [|[|a]], b as [|[|b]]; cbn in M; try discriminate;
      injection M as <- <- <- <-; cbn in I; destruct I as [I|[I|[]]]; injection I as <- <-; eexists; reflexivity.
  - intros pl c I C X. unfold mchip in C. rewrite X in C.
    cbn in I. destruct I as [<-|[<-|[<-|[<-|[]]]]]; cbn in C; injection C as <-; cbn; auto.
  - intros a A. split.
    + apply Forall_forall. intros g G. right. intros v V. cbn in A.
      destruct A as [<-|[<-|[<-|[]]]]; cbn in G; repeat (destruct G as [<-|G]); try destruct G;
        cbn in V; repeat (destruct V as [<-|V]; [reflexivity|]); destruct V.
    + cbn in A. destruct A as [<-|[<-|[<-|[]]]]; cbn; repeat (constructor; [cbn; lia|]); constructor.
Qed.

Example place_example_room : forall p, place_graph xenv xsys xapps = Ok p ->
  has_room xenv (abs p) (xchip 0 1) 1 (xq 40) /\ could_fit xenv 1 (xq 40) /\
  chip_at xenv 0 1 (xchip 0 1).
Proof.
  intros p H. vm_compute in H. injection H as <-. split; [|split].
  - split; [vm_compute; lia|]. split; eexists; eexists; (split; [vm_compute; reflexivity|]);
      (split; [vm_compute; reflexivity|]); vm_compute; discriminate.
  - split; [eexists; split; [vm_compute; reflexivity|]|]; vm_compute; discriminate.
  - split; [|split; [|reflexivity]]; cbn; lia.
Qed.

Example place_example_fails :
  place_graph xenv xsys [mkApp None [10; 11; 12] [([10; 11; 12], xq 33)]] = Err NoSpace /\
  place_graph xenv xsys [mkApp None [10; 11; 12; 13] [([10; 11; 12; 13], xq 46)]] = Err TooBig.
Proof. split; vm_compute; reflexivity. Qed.

(** * C85: fixed locations of one group on two chips *)
Theorem C85_fixed_locations_refuted : exists e sys apps p a g v,
  wf_machine e /\ set_ok e /\ made xmon sys /\ place_graph e sys apps = Ok p /\
  In a apps /\ In g (a_groups a) /\ In v (fst g) /\ In v (a_vertices a) /\ pe_virtual e v = false /\
  fixed_at e v 0 0 (Some 2) /\ In (mkPl v 1 1 2) (abs p).
Proof.
  exists xenv, xsys, [mkApp None [31; 34] [([31; 34], xq 65)]].
  eexists. eexists. exists ([31; 34], xq 65), 34.
  split; [exact xwf|]. split; [exact xset|]. split; [exact xmade|].
  split; [vm_compute; reflexivity|]. split; [left; reflexivity|]. cbn. split; [auto|]. split; [auto|]. split; [auto|].
  split; [reflexivity|]. split; [left; reflexivity|]. vm_compute. auto 8.
Qed.
Print Assumptions C85_fixed_locations_refuted.

(** * C86: a free fixed core *)

(** A group of one vertex. *)
Theorem C86_single_vertex_partial : forall e sys l, set_ok e -> made l sys ->
  forall v s x y q c, fixed_at e v x y (Some q) -> m_chip (pe_machine e) (x, y) = Some c ->
  In q (c_procs c) -> ~ occupied l x y q -> ~ vplaced l v -> pe_virtual e v = false ->
  exists p, fixed_group e sys ([v], s) = Ok p /\ abs p = l ++ [mkPl v x y q].
Proof.
  intros e sys l SO M v s x y q c F. apply get_fixed_at in F.
  exact (fixed_single e sys l SO M v s x y q c F).
Qed.
Print Assumptions C86_single_vertex_partial.

(** The cores asked for by the vertices of a group, in its order; its other vertices;
    and the free cores of a chip in the order in which the set of them is run through. *)
Definition asked_cores (e : penv) (vs : list nat) : list nat :=
  flat_map (fun v => match pe_own_loc e v, pe_app_loc e v with
                     | Some (_, _, Some q), _ | None, Some (_, _, Some q) => [q] | _, _ => [] end) vs.
Definition without_core (e : penv) (vs : list nat) : list nat :=
  filter (fun v => match pe_own_loc e v, pe_app_loc e v with
                   | Some (_, _, Some q), _ | None, Some (_, _, Some q) => false | _, _ => true end) vs.
Definition free_cores (e : penv) (l : list placement) (x y : nat) (c : chip) : list nat :=
  pe_set_order e (filter (fun q => negb (existsb (Nat.eqb q) (map pl_p (filter (on (x, y)) l)))) (c_procs c)).

Lemma asked_pins : forall e vs, asked_cores e vs = pins e vs.
Proof.
  intros e vs. unfold asked_cores, pins. apply flat_map_ext. intro v. unfold get_fixed.
  destruct (pe_own_loc e v) as [((x, y), [q|])|]; [reflexivity|reflexivity|].
  destruct (pe_app_loc e v) as [((x, y), [q|])|]; reflexivity.
Qed.
Lemma without_pinned : forall e vs, without_core e vs = filter (fun v => negb (pinned e v)) vs.
Proof.
  intros e vs. unfold without_core. apply filter_ext. intro v. unfold pinned, get_fixed.
  destruct (pe_own_loc e v) as [((x, y), [q|])|]; [reflexivity|reflexivity|].
  destruct (pe_app_loc e v) as [((x, y), [q|])|]; reflexivity.
Qed.

(** A group with fixed locations on one chip is placed exactly if the cores asked for
    are free and come in the order of the set of free cores, with a core for each other
    vertex after the last of them. *)
Theorem C86_exact : forall e sys l, wf_machine e -> set_ok e -> made l sys ->
  forall vs s x y c, vs <> [] -> NoDup vs ->
  (forall v, In v vs -> pe_virtual e v = false /\ ~ vplaced l v) ->
  (exists v o, In v vs /\ fixed_at e v x y o) ->
  (forall v x' y' o, In v vs -> fixed_at e v x' y' o -> (x', y') = (x, y)) ->
  m_chip (pe_machine e) (x, y) = Some c ->
  let fits := exists pre suf, free_cores e l x y c = pre ++ suf /\ subseq (asked_cores e vs) pre /\
                length (without_core e vs) <= length suf in
  ((exists p, fixed_group e sys (vs, s) = Ok p) <-> fits) /\
  (~ fits -> fixed_group e sys (vs, s) = Err ConfigurationException).
Proof.
  intros e sys l W SO M vs s x y c NE ND RV (w & o & Iw & Fw) AG C. cbn zeta.
  rewrite asked_pins, without_pinned. apply get_fixed_at in Fw.
  assert (AG' : forall v x' y' o, In v vs -> get_fixed e v = Some (x', y', o) -> (x', y') = (x, y)).
  { intros v x' y' o' V F. apply get_fixed_at in F. eauto. }
  pose proof (fixed_group_exact e W SO sys l vs s x y c M NE ND RV (ex_intro _ w (ex_intro _ o (conj Iw Fw))) AG' C) as D.
  change (tried e l (x, y) c) with (free_cores e l x y c) in D.
  destruct (fixed_group e sys (vs, s)) as [p|ex].
  - split; [split; [intros _; exact D|intros _; exists p; reflexivity]|]. intro X. destruct (X D).
  - destruct D as (-> & D). split; [|reflexivity]. split; [intros (p & X); discriminate|]. intro X. destruct (D X).
Qed.
Print Assumptions C86_exact.

(** If sets of cores are run through in increasing order, then free cores asked for in
    increasing order are given. *)
Theorem C86_ascending : forall e sys l, wf_machine e -> set_ok e -> made l sys ->
  (forall s, NoDup s -> StronglySorted lt (pe_set_order e s)) ->
  forall vs s x y c, vs <> [] -> NoDup vs ->
  (forall v, In v vs -> pe_virtual e v = false /\ ~ vplaced l v) ->
  (forall v, In v vs -> exists q, fixed_at e v x y (Some q) /\ In q (c_procs c) /\ ~ occupied l x y q) ->
  m_chip (pe_machine e) (x, y) = Some c -> StronglySorted lt (asked_cores e vs) ->
  exists p, fixed_group e sys (vs, s) = Ok p.
Proof.
  intros e sys l W SO M SS vs s x y c NE ND RV AL C SA.
  assert (G : forall v, In v vs -> exists q, get_fixed e v = Some (x, y, Some q) /\ In q (c_procs c) /\ ~ occupied l x y q).
  { intros v V. destruct (AL v V) as (q & F & R). apply get_fixed_at in F. eauto. }
  assert (X := C86_exact e sys l W SO M vs s x y c NE ND RV). cbn zeta in X. apply X; clear X; [..|exact C|].
  - destruct vs as [|v vs]; [congruence|]. destruct (AL v (or_introl eq_refl)) as (q & F & _).
    exists v, (Some q). split; [now left|exact F].
  - intros v x' y' o V F. destruct (G v V) as (q & F' & _). apply get_fixed_at in F. congruence.
  - pose proof (SO (filter (fun q => negb (existsb (Nat.eqb q) (map pl_p (filter (on (x, y)) l)))) (c_procs c))) as PM.
    exists (free_cores e l x y c), []. split; [now rewrite app_nil_r|]. split.
    + apply sorted_subseq; [|exact SA|].
      * apply SS. apply NoDup_filter. apply (W _ _ C).
      * intros q Q. rewrite asked_pins in Q. unfold pins in Q. apply in_flat_map in Q. destruct Q as (v & V & Q).
        destruct (G v V) as (q' & F & I & NO). rewrite F in Q. destruct Q as [<-|[]].
        apply (Permutation_in _ (Permutation_sym PM)). apply filter_In. split; [exact I|]. apply Bool.negb_true_iff.
        destruct (existsb (Nat.eqb q') (map pl_p (filter (on (x, y)) l))) eqn:EX; [|reflexivity]. exfalso. apply NO.
        apply existsb_exists in EX. destruct EX as (z & Z1 & Z2). apply Nat.eqb_eq in Z2. subst z.
        apply in_map_iff in Z1. destruct Z1 as (pl & Z1 & Z2). apply filter_In in Z2.
        destruct Z2 as (Z2 & Z3). apply xy_eqb_spec in Z3. injection Z3 as Z3 Z4. exists pl. auto.
    + rewrite without_pinned. replace (filter (fun v => negb (pinned e v)) vs) with (@nil nat); [cbn [length]; lia|].
      clear - G. induction vs as [|v vs IH]; [reflexivity|]. cbn [filter]. unfold pinned at 1.
      destruct (G v (or_introl eq_refl)) as (q & F & _). rewrite F. cbn [negb]. apply IH. intros w I. apply G. now right.
Qed.
Print Assumptions C86_ascending.

Example ascending_example : exists p, fixed_group xenv xsys ([34; 33], xq 67) = Ok p /\
  abs p = xmon ++ [mkPl 34 0 0 2; mkPl 33 0 0 3] /\ asked_cores xenv [34; 33] = [2; 3] /\
  free_cores xenv xmon 0 0 (xchip 0 0) = [2; 3].
Proof. eexists. split; [vm_compute; reflexivity|]. repeat split. Qed.

Theorem C86_free_core_refuted : exists e sys g,
  wf_machine e /\ set_ok e /\ made xmon sys /\
  (forall v, In v (fst g) -> exists q, fixed_at e v 0 0 (Some q) /\
     In q (c_procs (xchip 0 0)) /\ ~ occupied xmon 0 0 q) /\
  m_chip (pe_machine e) (0, 0) = Some (xchip 0 0) /\ NoDup (map (pe_own_loc e) (fst g)) /\
  fixed_group e sys g = Err ConfigurationException.
Proof.
  exists xenv, xsys, ([33; 34], xq 67).
  split; [exact xwf|]. split; [exact xset|]. split; [exact xmade|]. split; [|split; [reflexivity|split]].
  - intros v [<-|[<-|[]]]; [exists 3|exists 2]; (split; [left; reflexivity|]); (split; [cbn; auto|]);
      intros (pl & I & X); cbn in I; destruct I as [<-|[<-|[<-|[<-|[]]]]]; cbn in X; lia.
  - cbn. repeat constructor; cbn; intuition discriminate.
  - vm_compute. reflexivity.
Qed.
Print Assumptions C86_free_core_refuted.

(** * C87: SDRAM of fixed vertices *)
Theorem C87_fixed_sdram_refuted : exists e sys apps p c,
  wf_machine e /\ set_ok e /\ made [] sys /\ place_graph e sys apps = Ok p /\
  fit_together e /\ summed e apps /\
  m_chip (pe_machine e) (0, 0) = Some c /\ ~ at_most e (costs_on e (abs p) c) (c_sdram c).
Proof.
  exists (mkPenv xmachine (Some 10%Z) 120 20 5 1 1 (fun v => Nat.leb 50 v) (fun _ => Some (0, 0, None)) (fun _ => None)
    (fun v => Const (Z.of_nat v)) (fun l => l)), empty_placements,
    [mkApp None [40; 41; 42] [([40; 41; 42], xq 123)]].
  eexists. exists (xchip 0 0). split; [exact xwf|]. split; [intro l; apply Permutation_refl|]. split; [reflexivity|].
  split; [vm_compute; reflexivity|]. split; [|split].
  - split; [|intros v v' k x y []]. intro v. split; [exact I|]. eexists. reflexivity.
  - intros a g [<-|[]] [<-|[]]. vm_compute. reflexivity.
  - split; [reflexivity|]. intros (r & x & R & X & L). vm_compute in R. injection R as <-.
    vm_compute in X. injection X as <-. vm_compute in L. now apply L.
Qed.
Print Assumptions C87_fixed_sdram_refuted.

(** * C88: virtual vertices *)
Theorem C88_unmixed_partial : forall e sys l, wf_machine e -> set_ok e -> made l sys ->
  forall apps p, place_graph e sys apps = Ok p ->
  (forall a g, In a apps -> In g (a_groups a) -> unmixed e (fst g)) ->
  forall pl, In pl (abs p) -> In pl l \/ pe_virtual e (pl_v pl) = false.
Proof. exact place_real. Qed.
Print Assumptions C88_unmixed_partial.

Example virtual_group_skipped : exists p,
  place_graph xenv xsys [mkApp None [50; 51; 10] [([50; 51], xq 10); ([10], xq 10)]] = Ok p /\
  abs p = xmon ++ [mkPl 10 0 0 2].
Proof. eexists. split; vm_compute; reflexivity. Qed.

Theorem C88_virtual_placed_refuted : exists e sys apps p pl,
  wf_machine e /\ set_ok e /\ made xmon sys /\ place_graph e sys apps = Ok p /\
  In pl (abs p) /\ pe_virtual e (pl_v pl) = true.
Proof.
  exists xenv, xsys, [mkApp None [10; 50] [([10; 50], xq 10)]].
  eexists. exists (mkPl 50 0 0 3). split; [exact xwf|]. split; [exact xset|]. split; [exact xmade|].
  split; [vm_compute; reflexivity|]. split; [vm_compute; auto 8|reflexivity].
Qed.
Print Assumptions C88_virtual_placed_refuted.

Theorem C88_internal_error_refuted : exists e sys apps,
  wf_machine e /\ set_ok e /\ made xmon sys /\ links_ok e /\ placable e xmon /\
  place_graph e sys apps = Err IndexError.
Proof.
  exists xenv, xsys, [mkApp None [10; 11; 50] [([10; 11; 50], xq 21)]].
  split; [exact xwf|]. split; [exact xset|]. split; [exact xmade|].
  destruct place_example_strict as (L & P & _). split; [exact L|]. split; [exact P|]. vm_compute. reflexivity.
Qed.
Print Assumptions C88_internal_error_refuted.

(** * C89: a chip with space *)
Theorem C89_space_refused_refuted : exists e sys apps p vs q d,
  wf_machine e /\ set_ok e /\ made [] sys /\ fit_together e /\ (forall v, parts_nonneg (pe_steps e) (pe_sdram e v)) /\
  place_graph e sys apps = Ok p /\
  could_fit e (length vs) q /\ chip_at e 0 0 d /\
  length (used_on (abs p) d) + length vs <= length (c_procs d) /\
  at_most e (costs_on e (abs p) d ++ [q]) (c_sdram d) /\
  (forall v, In v vs -> ~ In v (map pl_v (abs p)) /\ pe_own_loc e v = None /\ pe_app_loc e v = None) /\
  place_graph e sys (apps ++ [mkApp None vs [(vs, q)]]) = Err NoSpace.
Proof.
  exists (mkPenv (mkMachine 1 1 (fun c => match c with (0, 0) => Some (mkChip (0, 0) [1; 2; 3] 100 (0, 0) []) | _ => None end))
    (Some 10%Z) 120 20 5 1 1 (fun v => Nat.leb 100 v) (fun _ => None) (fun _ => None) (fun v => Const (Z.of_nat v)) (fun l => l)),
    empty_placements, [mkApp None [70] [([70], xq 70)]].
  eexists. exists [10], (xq 10), (mkChip (0, 0) [1; 2; 3] 100 (0, 0) []).
  split.
  { intros (x, y) c H. destruct x as [|x], y as [|y]; cbn in H; try discriminate; injection H as <-.
    split; [reflexivity|]. repeat constructor; cbn; lia. }
  split; [intro l; apply Permutation_refl|]. split; [reflexivity|].
  split; [split; [|intros v v' k x y []]; intro v; split; [exact I|]; eexists; reflexivity|].
  split.
  { intro v. split; [|intros k x z []]. unfold own. cbn [core_of fixed per_timestep pe_steps pe_sdram].
    setoid_replace (0 * inject_Z 10)%Q with 0%Q by reflexivity. rewrite Qplus_0_r, <- (Zle_Qle 0). lia. }
  split; [vm_compute; reflexivity|].
  split; [split; [eexists; split; [vm_compute; reflexivity|]|]; vm_compute; discriminate|]. split; [split; [|split; [|reflexivity]]; cbn; lia|].
  split; [vm_compute; lia|].
  split; [eexists; eexists; split; [vm_compute; reflexivity|]; split; [vm_compute; reflexivity|vm_compute; discriminate]|]. split.
  - intros v [<-|[]]. split; [vm_compute; lia|split; reflexivity].
  - vm_compute. reflexivity.
Qed.
Print Assumptions C89_space_refused_refuted.

(** * Shared SDRAM *)

(** Vertices below 20 share 60 bytes with a label, above it there is only their own. *)
Definition shenv : penv := mkPenv xmachine None 120 20 5 1 1 (fun v => Nat.leb 50 v) xloc (fun _ => None)
  (fun v => if Nat.leb v 20 then Shared [(7, Const 60)] (Const (Z.of_nat v)) else Const (Z.of_nat v)) (fun l => l).

Example shared_counted_once : exists p, place_graph shenv empty_placements
    [mkApp None [10; 11] [([10; 11], Shared [(7, Const 60)] (Const 21))];
     mkApp None [12] [([12], Shared [(7, Const 60)] (Const 12))]] = Ok p /\
  abs p = [mkPl 10 0 0 1; mkPl 11 0 0 2; mkPl 12 0 1 1] /\
  at_most shenv (costs_on shenv (abs p) (xchip 0 0)) 81.
Proof.
  eexists. split; [vm_compute; reflexivity|]. split; [vm_compute; reflexivity|].
  eexists. eexists. split; [vm_compute; reflexivity|]. split; [vm_compute; reflexivity|]. vm_compute. discriminate.
Qed.
Example shared_fit_together : fit_together shenv.
Proof.
  split.
  - intro v. unfold shenv, pe_sdram, pe_steps. destruct (Nat.leb v 20); (split; [|eexists; reflexivity]); [|exact I].
    split; [exact I|]. split; [repeat constructor; intros []|]. intros k x [[= <- <-]|[]]. exact I.
  - intros v v' k x y. unfold shenv, pe_sdram. destruct (Nat.leb v 20), (Nat.leb v' 20); cbn [shared_of];
      intros H H'; try contradiction; destruct H as [[= <- <-]|[]], H' as [[= <-]|[]]. reflexivity.
Qed.

(** * C172: costs that cannot be added up *)
Theorem C172_disagreeing_labels_refuted : exists e sys apps p v q x y d,
  wf_machine e /\ set_ok e /\ made [] sys /\ place_graph e sys apps = Ok p /\
  (forall w, wf (pe_sdram e w) /\ exists z, total (pe_steps e) (pe_sdram e w) = Ok z) /\
  (forall w, not_fixed e (mkApp None [w] [([w], pe_sdram e w)])) /\
  ~ In v (map pl_v (abs p)) /\ q = pe_sdram e v /\ could_fit e 1 q /\
  chip_at e x y d /\ has_room e (abs p) d 1 q /\
  place_graph e sys (apps ++ [mkApp None [v] [([v], q)]]) = Err ConfigurationException.
Proof.
  exists (mkPenv xmachine None 120 20 5 1 1 (fun v => Nat.leb 50 v) (fun _ => None) (fun _ => None)
    (fun v => Shared [(7, Const (Z.of_nat v))] (Const 1)) (fun l => l)), empty_placements,
    [mkApp None [10] [([10], Shared [(7, Const 10)] (Const 1))]].
  eexists. exists 11. eexists. exists 1, 1, (xchip 1 1).
  split; [exact xwf|]. split; [intro l; apply Permutation_refl|]. split; [reflexivity|].
  split; [vm_compute; reflexivity|]. split.
  { intro w. split; [|eexists; reflexivity]. cbn. split; [exact I|]. split; [repeat constructor; intros []|].
    intros k x [[= <- <-]|[]]. exact I. }
  split; [intro w; split; [reflexivity|intros v _; split; reflexivity]|].
  split; [vm_compute; lia|]. split; [reflexivity|].
  split; [split; [eexists; split; [vm_compute; reflexivity|]|]; vm_compute; discriminate|].
  split; [split; [|split; [|reflexivity]]; cbn; lia|].
  split; [split; [vm_compute; lia|]; split; eexists; eexists; (split; [vm_compute; reflexivity|]);
      (split; [vm_compute; reflexivity|]); vm_compute; discriminate|].
  vm_compute. reflexivity.
Qed.
Print Assumptions C172_disagreeing_labels_refuted.
