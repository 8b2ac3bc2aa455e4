(** Properties of the conversions to JSON and text: C49, C82-C84. *)
From Coq Require Import String Ascii List NArith ZArith Bool Lia.
From Verif Require Import Base AllocModel Json SliceModel TextModel TextProofs.
Import ListNotations.
Local Open Scope string_scope.

(** C49: tags of resources come back as they were. *)
Theorem C49_iptag : forall t, iptag_from_json (iptag_to_json t) = Ok t.
Proof. exact iptag_round. Qed.
Print Assumptions C49_iptag.

Theorem C49_iptags : forall l, iptags_from_json (iptags_to_json l) = Ok l.
Proof. intro l. apply mapM_round, iptag_round. Qed.
Print Assumptions C49_iptags.

Theorem C49_reverse_iptags : forall l, reverses_from_json (reverses_to_json l) = Ok l.
Proof. intro l. apply mapM_round, reverse_round. Qed.
Print Assumptions C49_reverse_iptags.

(** C49: a placement comes back with the label of its vertex and its location. *)
Theorem C49_placement : forall l x y p,
  placement_from_json (placement_to_json (mkPlaced (Some l) x y p)) = Ok (mkPlaced (Some l) x y p).
Proof. reflexivity. Qed.
Print Assumptions C49_placement.

(** C49: the JSON of a key and mask determines them. *)
Theorem C49_key_mask : forall k m, key_mask_to_json k = key_mask_to_json m -> k = m.
Proof.
  intros [k m] [k' m'] H. unfold key_mask_to_json in H. cbn [km_key km_mask] in H.
  injection H as A B. apply N2Z.inj in A, B. congruence.
Qed.
Print Assumptions C49_key_mask.

Example C49_ex :
  iptags_from_json (iptags_to_json [mkIptagRes "1.2.3.4" (Some 0%Z) true None "DEFAULT";
                                    mkIptagRes "host" None false (Some 0%Z) ""]) =
    Ok [mkIptagRes "1.2.3.4" (Some 0%Z) true None "DEFAULT"; mkIptagRes "host" None false (Some 0%Z) ""] /\
  reverses_to_json [mkReverseRes (Some 0%Z) 1 None] = JList [JObj [("port", JInt 0); ("sdp_port", JInt 1)]].
Proof. split; reflexivity. Qed.

(** C82: the text of a slice can be read back, also by the method for slices of
    several dimensions. *)
Theorem C82_slice_text : forall lo hi s, make_slice lo hi = Ok s ->
  slice_from_string (mdslice_str s) = Ok s /\ mdslice_from_string (mdslice_str s) = Ok s.
Proof.
  intros lo hi s H. unfold make_slice in H.
  destruct (Z.ltb_spec lo 0); [discriminate|]. destruct (Z.ltb_spec hi lo); [discriminate|].
  injection H as <-. unfold mdslice_str. cbn [sl_md].
  assert (R : slice_from_string (slice_str (mkSlice lo (hi - lo + 1) None)) =
              Ok (mkSlice lo (hi - lo + 1) None)) by (apply slice_round; cbn; lia || reflexivity).
  split; [exact R|]. exact R.
Qed.
Print Assumptions C82_slice_text.

(** C82: so can the text of a slice of an array of two or more dimensions that has
    as many atoms as its shape says. *)
Theorem C82_mdslice_text : forall lo shape start atoms_shape s,
  make_mdslice lo (lo + prod shape - 1) shape start atoms_shape = Ok s ->
  (2 <= length atoms_shape)%nat ->
  mdslice_from_string (mdslice_str s) = Ok s.
Proof.
  intros lo sh st a s H L. unfold make_mdslice in H. apply bind_Ok_inv in H. destruct H as (s0 & H0 & H).
  unfold make_slice in H0. destruct (Z.ltb_spec lo 0); [discriminate|].
  destruct (Z.ltb_spec (lo + prod sh - 1) lo); [discriminate|]. injection H0 as <-.
  destruct (Nat.eqb_spec (length sh) (length st)); [|discriminate]. injection H as <-.
  eapply mdslice_round; cbn [sl_md sl_lo sl_n]; try reflexivity; try assumption; lia.
Qed.
Print Assumptions C82_mdslice_text.

Example C82_ex : exists s, make_mdslice 12 17 [3; 2]%Z [3; 4]%Z [9; 10]%Z = Ok s /\
  mdslice_str s = "12(9, 10)(3:6)(4:6)" /\ mdslice_from_string "12(9, 10)(3:6)(4:6)" = Ok s.
Proof. eexists. repeat split; vm_compute; reflexivity. Qed.

(** C83: false for arrays of one dimension: the comma of the text of a tuple of one
    is followed by nothing. *)
Theorem C83_one_dimension_refuted : exists s,
  make_mdslice 0 4 [5]%Z [0]%Z [10]%Z = Ok s /\ mdslice_str s = "0(10,)(0:5)" /\
  mdslice_from_string (mdslice_str s) = Err ValueError.
Proof. eexists. repeat split; vm_compute; reflexivity. Qed.
Print Assumptions C83_one_dimension_refuted.

(** C84: for slices of one dimension the end is the stop of the slice in that
    dimension... *)
Theorem C84_end_partial : forall lo hi s, make_slice lo hi = Ok s ->
  exists a b, get_dim s 0 = Ok (a, b) /\ slice_end s = [b].
Proof.
  intros lo hi s H. unfold make_slice in H.
  destruct (Z.ltb_spec lo 0); [discriminate|]. destruct (Z.ltb_spec hi lo); [discriminate|].
  injection H as <-. eexists. eexists. split; reflexivity.
Qed.
Print Assumptions C84_end_partial.

(** ... but for the others it is one less, in every dimension... *)
Theorem C84_mdslice_end : forall lo hi shape start atoms_shape s,
  make_mdslice lo hi shape start atoms_shape = Ok s ->
  length (slice_end s) = length start /\
  forall n a w, nth_error start n = Some a -> nth_error shape n = Some w ->
    get_dim s n = Ok (a, (a + w)%Z) /\ nth_error (slice_end s) n = Some (a + w - 1)%Z.
Proof.
  intros lo hi shape start sh s H. unfold make_mdslice, make_slice, bind in H.
  destruct (Z.ltb_spec lo 0); [discriminate|]. destruct (Z.ltb_spec hi lo); [discriminate|].
  destruct (Nat.eqb_spec (length shape) (length start)) as [L | L]; [|discriminate].
  injection H as <-. unfold slice_end, get_dim. cbn [sl_md]. split.
  - rewrite map_length, combine_length, L. apply Nat.min_id.
  - intros n a w A W. rewrite A, W. split; [reflexivity|].
    clear L. revert shape start A W. induction n as [|n IH]; intros [|w' shape] [|a' start] A W;
      try discriminate; cbn in *.
    + injection A as ->. injection W as ->. reflexivity.
    + apply IH; assumption.
Qed.
Print Assumptions C84_mdslice_end.
Example C84_mdslice_end_ex : exists s, make_mdslice 0 5 [3; 2]%Z [3; 4]%Z [9; 10]%Z = Ok s /\
  get_dim s 1 = Ok (4, 6)%Z /\ slice_end s = [5; 5]%Z /\ get_dim s 2 = Err IndexError.
Proof. eexists. repeat split; vm_compute; reflexivity. Qed.

(** ... which is not the stop. *)
Theorem C84_end_refuted : exists s a b,
  make_mdslice 0 5 [3; 2]%Z [3; 4]%Z [9; 10]%Z = Ok s /\ get_dim s 0 = Ok (a, b) /\
  nth_error (slice_end s) 0 = Some (b - 1)%Z.
Proof. eexists. eexists. eexists. repeat split; vm_compute; reflexivity. Qed.
Print Assumptions C84_end_refuted.
