(** Properties C202, C203 and C204: ordered covering of tables whose entries overlap:
    its own results and those of the range compressor. *)
From Coq Require Import List Arith NArith ZArith Bool Lia Sorted Permutation.
From Verif Require Import Base RouteSpec KeyMask PairSort DefaultModel OrderedModel OrderedProofs OrderedMax
  OrderedAgain RangeModel RangeProofs RangeProps RangeCover.
Import ListNotations.
Local Open Scope N_scope.

Lemma gsorted_free : forall t, Forall entry_ok t ->
  StronglySorted (fun a b => (free_bits (e_mask a) <= free_bits (e_mask b))%nat) t -> gsorted t.
Proof.
  intros t F H. induction H as [|x t H IH G]; constructor; inversion F as [|? ? Fx Ft]; subst; [apply IH; exact Ft|].
  apply Forall_forall. intros y Hy. rewrite Forall_forall in Ft, G. unfold gle, entry_generality.
  rewrite !gen_free by (first [exact Fx | apply Ft; exact Hy]). apply inj_le. now apply G.
Qed.

Lemma free_gsorted : forall t, Forall entry_ok t -> gsorted t ->
  StronglySorted (fun a b => (free_bits (e_mask a) <= free_bits (e_mask b))%nat) t.
Proof.
  intros t F H. induction H as [|x t H IH G]; constructor; inversion F as [|? ? Fx Ft]; subst; [apply IH; exact Ft|].
  apply Forall_forall. intros y Hy. rewrite Forall_forall in Ft, G. specialize (G y Hy). unfold gle, entry_generality in G.
  rewrite !gen_free in G by (first [exact Fx | apply Ft; exact Hy]). now apply Nat2Z.inj_le.
Qed.

(** C202.  A table need not be free of overlaps for ordered covering: it is enough that no
    entry has fewer don't-care bits than an earlier one and no key and mask come twice.
    Then the first entry to match a packet is still one of the same route, and the table
    returned is such a table again. *)
Theorem C202_sorted : forall table target no_raise out al,
  Forall entry_ok table ->
  StronglySorted (fun a b => (free_bits (e_mask a) <= free_bits (e_mask b))%nat) table ->
  NoDup (map (fun e => (e_key e, e_mask e)) table) ->
  ordered_covering table target [] no_raise = Ok (out, al) ->
  (forall k o, first_match table k = Some o ->
    exists e, first_match out k = Some e /\ e_route e = e_route o /\ (e_def e = true -> e_def o = true)) /\
  Forall entry_ok out /\
  StronglySorted (fun a b => (free_bits (e_mask a) <= free_bits (e_mask b))%nat) out /\
  NoDup (map (fun e => (e_key e, e_mask e)) out).
Proof.
  intros table target nr out al F HS N E.
  destruct (covering_keeps table target nr out al F (gsorted_free _ F HS) N E) as (A & B & C & D).
  split; [exact D|]. split; [exact C|]. split; [now apply free_gsorted|exact B].
Qed.
Print Assumptions C202_sorted.

(** In particular the aliases of an earlier run need not be handed to the next. *)
Theorem C202_again : forall table target target' no_raise no_raise' mid al out al',
  Forall entry_ok table -> orthogonal table ->
  ordered_covering table target [] no_raise = Ok (mid, al) ->
  ordered_covering mid target' [] no_raise' = Ok (out, al') ->
  forall o k, In o table -> entry_matches k o ->
    exists e, first_match out k = Some e /\ e_route e = e_route o /\ (e_def e = true -> e_def o = true).
Proof.
  intros table target target' nr nr' mid al out al' F O E E' o k Ho M.
  destruct (oc_preserves table target nr mid al F O E o k Ho M) as (m & Fm & Rm & Dm).
  destruct (covering_result table target nr mid al F O E) as (A & B & C).
  destruct (covering_keeps mid target' nr' out al' C A B E') as (_ & _ & _ & D).
  destruct (D k m Fm) as (e & Fe & Re & De). exists e. split; [exact Fe|]. split; [congruence|auto].
Qed.
Print Assumptions C202_again.

(** The second run merges what the first, asked for five entries, had left, and two
    entries of its table overlap. *)
Example C202_example : exists mid al,
  Forall entry_ok mid /\
  StronglySorted (fun a b => (free_bits (e_mask a) <= free_bits (e_mask b))%nat) mid /\
  NoDup (map (fun e => (e_key e, e_mask e)) mid) /\
  ordered_covering
    [ mkEntry 0 15 1 false; mkEntry 4 15 2 false; mkEntry 5 15 2 false;
      mkEntry 6 15 2 false; mkEntry 7 15 4 true; mkEntry 8 12 1 false;
      mkEntry 12 14 2 true; mkEntry 14 15 4 false ] (Some 5%nat) [] true = Ok (mid, al) /\
  mid = [ mkEntry 0 15 1 false; mkEntry 7 15 4 true; mkEntry 14 15 4 false;
          mkEntry 8 12 1 false; mkEntry 4 4 2 false ] /\
  (exists al', ordered_covering mid None [] true =
     Ok ([ mkEntry 7 15 4 true; mkEntry 14 15 4 false; mkEntry 0 4 1 false; mkEntry 4 4 2 false ], al')).
Proof.
  eexists _, _. split; [|split; [|split; [|split; [vm_compute; reflexivity|split; [reflexivity|]]]]].
  - repeat constructor.
  - repeat (constructor; [|repeat (constructor; [vm_compute; lia|]); constructor]). constructor.
  - cbn [map e_key e_mask]. repeat (constructor; [cbn [In]; intuition discriminate|]). constructor.
  - eexists. vm_compute. reflexivity.
Qed.

(** C203.  The compressor as a whole also drops default routes, and a second run knows
    nothing of the keys of the entries dropped by the first: it may route them elsewhere. *)
Theorem C203_default_refuted : exists table mid out o k e,
  Forall entry32 table /\ orthogonal table /\
  oc_compress_table table None = Ok mid /\ oc_compress_table mid None = Ok out /\
  In o table /\ entry_matches k o /\ e_def o = true /\
  first_match mid k = None /\ first_match out k = Some e /\ e_route e <> e_route o.
Proof.
  exists [ mkEntry 0 (F32 - 3) 8 true; mkEntry 4 F32 1 false; mkEntry 8 F32 1 false ],
    [ mkEntry 4 F32 1 false; mkEntry 8 F32 1 false ], [ mkEntry 0 4294967283 1 false ],
    (mkEntry 0 (F32 - 3) 8 true), 0, (mkEntry 0 4294967283 1 false).
  split; [repeat constructor|]. split; [apply orthogonalb_sound; vm_compute; reflexivity|].
  split; [vm_compute; reflexivity|]. split; [vm_compute; reflexivity|]. split; [now left|].
  repeat (split; [vm_compute; reflexivity|]). discriminate.
Qed.
Print Assumptions C203_default_refuted.

(** All other packets keep their routes: those that still match in the first result. *)
Theorem C203_matched_partial : forall table target target' mid out,
  Forall entry_ok table -> orthogonal table ->
  oc_compress_table table target = Ok mid -> oc_compress_table mid target' = Ok out ->
  forall o k, In o table -> entry_matches k o -> (e_def o = false \/ first_match mid k <> None) ->
    (exists e, first_match out k = Some e /\ e_route e = e_route o /\ (e_def e = true -> e_def o = true)) \/
    (first_match out k = None /\ e_def o = true).
Proof.
  intros table target target' mid out F O C C' o k Ho M Q.
  destruct (compress_result table target mid F O C) as (A & B & G).
  destruct (compress_keeps_sorted mid target' out G A B C') as (_ & _ & _ & D).
  destruct (oc_compress_keeps table target mid F O C o k Ho M) as [(m & Fm & Rm & Dm)|[X Y]].
  - destruct (D k m Fm) as [(e & Fe & Re & De)|[U W]].
    + left. exists e. split; [exact Fe|]. split; [congruence|auto].
    + right. auto.
  - destruct Q as [Q|Q]; [congruence|contradiction].
Qed.
Print Assumptions C203_matched_partial.

Example C203_example : exists mid,
  oc_compress_table
    [ mkEntry 0 15 1 false; mkEntry 4 15 2 false; mkEntry 5 15 2 false;
      mkEntry 6 15 2 false; mkEntry 7 15 4 true; mkEntry 8 12 1 false;
      mkEntry 12 14 2 true; mkEntry 14 15 4 false ] (Some 5%nat) = Ok mid /\
  oc_compress_table mid None =
    Ok [ mkEntry 7 15 4 true; mkEntry 14 15 4 false; mkEntry 0 4 1 false; mkEntry 4 4 2 false ] /\
  first_match mid 7 <> None.
Proof. eexists. split; [vm_compute; reflexivity|]. split; [vm_compute; reflexivity|]. vm_compute. discriminate. Qed.

(** C204.  The entries that the range compressor writes may overlap with different routes,
    which pair compression then confuses (C91).  Ordered covering may follow it: the
    entries that overlap are sorted by it so that the first stays the first. *)
Theorem C204_range_then_ordered : forall fuel as_far target table mid target' out,
  Forall entry32 table -> orthogonal table -> Forall block_mask table ->
  range_compress fuel as_far target table = Ok mid ->
  oc_compress_table mid target' = Ok out ->
  forall o k, In o table -> k < 2 ^ 32 -> entry_matches k o ->
    (exists e, first_match out k = Some e /\ e_route e = e_route o /\ (e_def e = true -> e_def o = true)) \/
    (first_match out k = None /\ e_def o = true).
Proof. exact range_then_cover. Qed.
Print Assumptions C204_range_then_ordered.

(** The table that pair compression misroutes (C91). *)
Example C204_example :
  Forall entry32 C05_table /\ orthogonal C05_table /\ Forall block_mask C05_table /\
  range_compress (length C05_table) true 0 C05_table =
    Ok [ mkEntry 0 F32 1 false; mkEntry 0 (F32 - 3) 2 false; mkEntry 7 F32 1 false ] /\
  oc_compress_table [ mkEntry 0 F32 1 false; mkEntry 0 (F32 - 3) 2 false; mkEntry 7 F32 1 false ] None =
    Ok [ mkEntry 0 F32 1 false; mkEntry 7 F32 1 false; mkEntry 0 (F32 - 3) 2 false ].
Proof.
  split; [repeat constructor|]. split; [apply orthogonalb_sound; vm_compute; reflexivity|].
  split; [repeat (constructor; [exists 0%nat; split; [lia|reflexivity]|]); constructor|].
  split; vm_compute; reflexivity.
Qed.
