(** Properties C193 and C194: how many chips and cores light vertices need. *)
From Coq Require Import List Arith ZArith QArith Bool Lia Permutation Sorted.
From Verif Require Import Base Dict SdramModel SdramProofs SdramBelow SdramProps PlacementsModel PlacementsProofs PlacerModel PlacerProofs PlacerFinal PlacerFixed PlacerTotal PlacerProps Counted.
Import ListNotations.
Local Open Scope nat_scope.

(** A vertex that needs a core, may be placed anywhere and is not yet placed. *)
Definition to_place (e : penv) (l : list placement) (v : nat) : Prop :=
  pe_virtual e v = false /\ pe_own_loc e v = None /\ pe_app_loc e v = None /\ ~ In v (map pl_v l).

(** The setting: [l] are the placements made beforehand (the monitors); the chips [cs]
    each have [k] cores left by them, of which they use at most [m] bytes, and any
    vertex needs at most [s] bytes, none of them shared. *)
Record lightly (e : penv) (sys : placements) (l : list placement) (k : nat) (m s : Z) (cs : list xy) : Prop := {
  li_machine : wf_machine e /\ links_ok e;
  li_set : set_ok e;
  li_made : made l sys /\ placable e l;
  li_cores : chip_cores e = Z.of_nat k /\ 1 <= k;
  li_costs : forall v, light e s (pe_sdram e v) /\ parts_nonneg (pe_steps e) (pe_sdram e v);
  li_small : (0 <= s <= chip_sdram e)%Z;
  li_chips : NoDup cs /\ forall x y, In (x, y) cs -> exists c, chip_at e x y c /\ free_chip e l k m s c
}.

(** * C194: all cores are used *)
Theorem C194_light_partial : forall e sys l k m s cs, lightly e sys l k m s cs ->
  (m + (Z.of_nat k - 1) * s <= given_up e)%Z ->
  forall vs, NoDup vs -> (forall v, In v vs -> to_place e l v) ->
  length vs <= k * length cs -> exists p, place_graph e sys (map (alone e) vs) = Ok p.
Proof.
  intros e sys l k m s cs [(A & B) C (D & E) (F & G) H (I & J) (K & L)] CAP vs ND V LE.
  exact (light_placed e sys l A C D B E k m s F G I H CAP J cs K L vs ND V LE).
Qed.
Print Assumptions C194_light_partial.

(** If the monitors need no SDRAM, an even share each is little enough. *)
Theorem C194_even_share_partial : forall e sys l k s cs, lightly e sys l k 0 s cs ->
  s = (chip_sdram e / Z.of_nat k)%Z ->
  forall vs, NoDup vs -> (forall v, In v vs -> to_place e l v) ->
  length vs <= k * length cs -> exists p, place_graph e sys (map (alone e) vs) = Ok p.
Proof.
  intros e sys l k s cs L S. apply (C194_light_partial e sys l k 0 s cs L).
  destruct (li_cores _ _ _ _ _ _ _ L) as (K1 & K2). unfold given_up. rewrite K1, S.
  pose proof (Z.mul_div_le (chip_sdram e) (Z.of_nat k) ltac:(lia)). nia.
Qed.
Print Assumptions C194_even_share_partial.

(** A chip of three cores for vertices after a monitor that needs 20 of its 120 bytes:
    the placer compares what the monitor and the vertices need with what the monitor
    leaves, so that two vertices of 33 bytes make the chip full. *)
Definition c194_env : penv := mkPenv
  (mkMachine 1 1 (fun c => match c with (0, 0) => Some (mkChip (0, 0) [1; 2; 3; 4] 120 (0, 0) []) | _ => None end))
  (Some 10%Z) 120 20 5 1 1 (fun _ => false) (fun _ => None) (fun _ => None)
  (fun v => Const (if Nat.eqb v 0 then 20 else 33)%Z) (fun l => l).
Definition c194_mon : list placement := [mkPl 0 0 0 1].
Definition c194_sys : placements := fst (add_placements empty_placements c194_mon).

Theorem C194_share_refused_refuted : exists e sys l c,
  wf_machine e /\ links_ok e /\ set_ok e /\ made l sys /\ placable e l /\
  chip_at e 0 0 c /\ chip_cores e = 3%Z /\ length (used_on l c) + 3 = length (c_procs c) /\
  c_sdram c = pe_chip_sdram e /\ at_most e (costs_on e l c) (pe_monitor_sdram e) /\
  (forall v, In v [1; 2; 3] -> to_place e l v /\ light e (chip_sdram e / 3) (pe_sdram e v)) /\
  place_graph e sys (map (alone e) [1; 2; 3]) = Err NoSpace.
Proof.
  exists c194_env, c194_sys, c194_mon, (mkChip (0, 0) [1; 2; 3; 4] 120 (0, 0) []).
  split. { intros (x, y) c H. destruct x as [|x], y as [|y]; cbn in H; try discriminate; injection H as <-.
    split; [reflexivity|]. repeat constructor; cbn; lia. }
  split. { intros c d H I. unfold mchip in H. destruct (c_xy c) as (x, y). destruct x as [|x], y as [|y]; cbn in H; try discriminate.
    injection H as <-. destruct I. }
  split; [intro l; apply Permutation_refl|]. split; [reflexivity|].
  split. { intros pl c [<-|[]] H X. unfold mchip in H. rewrite X in H. cbn in H. injection H as <-. cbn. lia. }
  split; [split; [|split; [|reflexivity]]; cbn; lia|]. split; [reflexivity|]. split; [reflexivity|]. split; [reflexivity|].
  split; [exists (Const 20), 20%Z; split; [reflexivity|]; split; [reflexivity|]; cbn; lia|].
  split; [|vm_compute; reflexivity].
  intros v [<-|[<-|[<-|[]]]]; (split; [split; [reflexivity|]; split; [reflexivity|]; split; [reflexivity|]; cbn; lia|]);
    (split; [exact I|]; exists 33%Z; split; [reflexivity|]; vm_compute; discriminate).
Qed.
Print Assumptions C194_share_refused_refuted.

(** * C193: as many chips as the counter says *)
Theorem C193_light_partial : forall e sys l k m s cs, lightly e sys l k m s cs ->
  (m + (Z.of_nat k - 1) * s <= given_up e)%Z ->
  forall vs zs, NoDup vs -> (forall v, In v vs -> to_place e l v) ->
  Forall2 (fun v z => total (pe_steps e) (pe_sdram e v) = Ok z) vs zs ->
  (cc_chips (count (chip_cores e) (chip_sdram e) zs) <= Z.of_nat (length cs))%Z ->
  exists p, place_graph e sys (map (alone e) vs) = Ok p.
Proof.
  intros e sys l k m s cs L CAP vs zs ND V T N. apply (C194_light_partial e sys l k m s cs L CAP vs ND V).
  destruct L as [_ _ _ (K1 & K2) LI (S1 & S2) _].
  assert (LZ : length zs = length vs) by (clear - T; induction T; cbn [length]; congruence).
  assert (SM : Forall (fun x => (x <= chip_sdram e)%Z) zs).
  { clear - T LI S2. induction T as [|v z vs zs H T IH]; constructor; [|exact IH].
    destruct (LI v) as ((_ & z' & X & Y) & _). assert (z' = z) by congruence. lia. }
  destruct (C43_feasible_and_greedy (chip_cores e) (chip_sdram e) zs ltac:(lia) SM) as (chips & C1 & C2 & C3 & _).
  rewrite <- LZ, <- C2. rewrite <- C1 in N. apply Nat2Z.inj_le in N.
  assert (B : length (concat chips) <= k * length chips).
  { clear - C3 K1. induction C3 as [|ch chips (H & _) C IH]; cbn [concat length]; [lia|]. rewrite app_length. nia. }
  nia.
Qed.
Print Assumptions C193_light_partial.

(** One chip for a vertex of 70 bytes and one of 10, says the counter; the placer
    takes a chip with more than 67 of 100 bytes used as full. *)
Theorem C193_too_few_refuted : exists e c vs zs,
  wf_machine e /\ links_ok e /\ set_ok e /\ chip_at e 0 0 c /\
  Z.of_nat (length (c_procs c)) = chip_cores e /\ c_sdram c = chip_sdram e /\
  NoDup vs /\ (forall v, In v vs -> to_place e [] v) /\
  Forall2 (fun v z => total (pe_steps e) (pe_sdram e v) = Ok z) vs zs /\
  cc_chips (count (chip_cores e) (chip_sdram e) zs) = 1%Z /\
  place_graph e empty_placements (map (alone e) vs) = Err NoSpace.
Proof.
  exists (mkPenv (mkMachine 1 1 (fun c => match c with (0, 0) => Some (mkChip (0, 0) [1; 2; 3] 100 (0, 0) []) | _ => None end))
    (Some 10%Z) 120 20 5 1 1 (fun v => Nat.leb 100 v) (fun _ => None) (fun _ => None) (fun v => Const (Z.of_nat v)) (fun l => l)),
    (mkChip (0, 0) [1; 2; 3] 100 (0, 0) []), [70; 10], [70; 10]%Z.
  split. { intros (x, y) c H. destruct x as [|x], y as [|y]; cbn in H; try discriminate; injection H as <-.
    split; [reflexivity|]. repeat constructor; cbn; lia. }
  split. { intros c d H I. unfold mchip in H. destruct (c_xy c) as (x, y). destruct x as [|x], y as [|y]; cbn in H; try discriminate.
    injection H as <-. destruct I. }
  split; [intro l; apply Permutation_refl|].
  split; [split; [|split; [|reflexivity]]; cbn; lia|]. split; [reflexivity|]. split; [reflexivity|].
  split; [repeat constructor; cbn; lia|].
  split. { intros v [<-|[<-|[]]]; (split; [reflexivity|]; split; [reflexivity|]; split; [reflexivity|]; intros []). }
  split; [repeat constructor|]. split; vm_compute; reflexivity.
Qed.
Print Assumptions C193_too_few_refuted.

(** * An example: two chips after a monitor each, vertices of at most 23 bytes *)
Definition c193_chip (x : nat) : chip := mkChip (x, 0) [1; 2; 3; 4] 120 (0, 0) [(1 - x, 0)].
Definition c193_env : penv := mkPenv
  (mkMachine 2 1 (fun c => match c with (0, 0) => Some (c193_chip 0) | (1, 0) => Some (c193_chip 1) | _ => None end))
  (Some 10%Z) 120 20 5 1 1 (fun _ => false) (fun _ => None) (fun _ => None)
  (fun v => if v <? 2 then Const 20 else Var 13 (Qmake (Z.of_nat (Nat.min v 8)) 8)) (fun l => l).
Definition c193_mon : list placement := [mkPl 0 0 0 1; mkPl 1 1 0 1].
Definition c193_sys : placements := fst (add_placements empty_placements c193_mon).

Lemma c193_lightly : lightly c193_env c193_sys c193_mon 3 20 23 [(0, 0); (1, 0)].
Proof.
  constructor.
  - split.
    + intros (x, y) c H. destruct x as [|[|x]], y as [|y]; cbn in H; try discriminate; injection H as <-;
        (split; [reflexivity|]); repeat constructor; cbn; lia.
    + intros c d H I. unfold mchip in H. destruct (c_xy c) as (x, y). destruct x as [|[|x]], y as [|y]; cbn in H; try discriminate;
        injection H as <-; destruct I as [<-|[]]; eexists; reflexivity.
  - intro l. apply Permutation_refl.
  - split; [reflexivity|]. intros pl c [<-|[<-|[]]] H X; unfold mchip in H; rewrite X in H; cbn in H; injection H as <-; cbn; lia.
  - split; [reflexivity|lia].
  - intro v. unfold light, parts_nonneg, own. cbn [c193_env pe_sdram pe_steps]. destruct (v <? 2) eqn:E.
    + split; [split; [exact I|exists 20%Z; split; [reflexivity|lia]]|]. split; [|intros k w z []]. cbn. discriminate.
    + assert (B : Nat.min v 8 <= 8) by lia. remember (Nat.min v 8) as n eqn:EN. clear EN E.
      do 9 (destruct n as [|n]; [split; [split; [exact I|eexists; split; [vm_compute; reflexivity|vm_compute; discriminate]]|split; [vm_compute; discriminate|intros k w z []]]|]).
      lia.
  - vm_compute. split; discriminate.
  - split; [repeat constructor; cbn; intuition discriminate|].
    intros x y [[= <- <-]|[[= <- <-]|[]]]; [exists (c193_chip 0)|exists (c193_chip 1)];
      (split; [split; [cbn; lia|]; split; [cbn; lia|reflexivity]|]);
      (split; [cbn; lia|]; split; [exists (Const 20), 20%Z; split; [reflexivity|]; split; [reflexivity|]; lia|]; cbn; lia).
Qed.

Example C194_ex : (20 + (Z.of_nat 3 - 1) * 23 <= given_up c193_env)%Z /\
  (forall v, In v [2; 3; 4; 5; 6; 7] -> to_place c193_env c193_mon v) /\
  match place_graph c193_env c193_sys (map (alone c193_env) [2; 3; 4; 5; 6; 7]) with
  | Ok p => map (fun pl => (pl_v pl, (pl_x pl, pl_p pl))) (abs p) =
      [(0, (0, 1)); (1, (1, 1)); (2, (0, 2)); (3, (0, 3)); (4, (0, 4)); (5, (1, 2)); (6, (1, 3)); (7, (1, 4))]
  | Err _ => False
  end.
Proof.
  split; [vm_compute; discriminate|]. split; [|vm_compute; reflexivity].
  intros v H. repeat (destruct H as [<-|H]; [split; [reflexivity|]; split; [reflexivity|]; split; [reflexivity|]; cbn; lia|]). destruct H.
Qed.

Example C193_ex : Forall2 (fun v z => total (pe_steps c193_env) (pe_sdram c193_env v) = Ok z) [2; 3; 4; 5; 6; 7] [16; 17; 18; 20; 21; 22]%Z /\
  cc_chips (count (chip_cores c193_env) (chip_sdram c193_env) [16; 17; 18; 20; 21; 22]%Z) = 2%Z.
Proof. split; [repeat constructor|reflexivity]. Qed.

(** Without monitors, vertices of up to 33 bytes each on the same chips. *)
Lemma c193_lightly_share : lightly c193_env empty_placements [] 3 0 33 [(0, 0); (1, 0)].
Proof.
  destruct c193_lightly as [A B C D E F (G & _)]. constructor; [exact A|exact B| |exact D| |vm_compute; split; discriminate|].
  - split; [reflexivity|]. intros pl c [].
  - intro v. destruct (E v) as ((P & z & T & L) & N). split; [split; [exact P|exists z; split; [exact T|lia]]|exact N].
  - split; [exact G|].
    intros x y [[= <- <-]|[[= <- <-]|[]]]; [exists (c193_chip 0)|exists (c193_chip 1)];
      (split; [split; [cbn; lia|]; split; [cbn; lia|reflexivity]|]);
      (split; [cbn; lia|]; split; [exists (Const 0), 0%Z; split; [reflexivity|]; split; [reflexivity|]; lia|]; cbn; lia).
Qed.
Example C194_share_ex : 33%Z = (chip_sdram c193_env / Z.of_nat 3)%Z.
Proof. reflexivity. Qed.
