(** Properties C20, C21, C22, C23 and C50: slices and index orders. *)
From Coq Require Import List ZArith Bool Lia.
From Verif Require Import Base SliceModel SliceProofs.
Import ListNotations.
Local Open Scope Z_scope.

(** [sized v]: n_atoms is the product of the shape, all sizes and limits are
    positive.  [limits v]: the limits set on the vertex, or its shape.
    [tiles lo l hi]: consecutive non-empty blocks from lo up to hi. *)

(** C20: one dimension. *)
Theorem C20_one_dimension : forall v n m, sized v -> av_shape v = [n] -> limits v = [m] ->
  exists l, multi_slices v = Ok l /\ single_slices v = Ok l /\ tiles 0 l n /\
    Z.of_nat (length l) = - (- n / m) /\
    (forall s, In s l -> 0 < sl_n s <= m /\ hi_atom s = Ok (sl_lo s + sl_n s - 1)) /\
    (forall a, 0 <= a < n -> exists i s, nth_error l i = Some s /\
       sl_lo s <= a < sl_lo s + sl_n s /\
       forall j s', nth_error l j = Some s' -> sl_lo s' <= a < sl_lo s' + sl_n s' -> j = i).
Proof. exact one_dim_slices. Qed.
Print Assumptions C20_one_dimension.

Example C20_example :
  sized (mkAV 10 [10] (Some [4])) /\
  multi_slices (mkAV 10 [10] (Some [4])) =
    Ok [mkSlice 0 4 None; mkSlice 4 4 None; mkSlice 8 2 None].
Proof.
  split; [|reflexivity].
  split; [reflexivity|]. split; repeat constructor.
Qed.

(** C21: any number of dimensions. *)
Theorem C21_partition : forall v, sized v -> splittable v ->
  exists l, multi_slices v = Ok l /\ tiles 0 l (av_n v) /\
    (forall s, In s l -> sl_n s = prod (sl_shape s) /\
       Forall2 (fun x m => 0 < x <= m) (sl_shape s) (limits v) /\
       length (sl_start s) = length (av_shape v)) /\
    (forall g, in_grid (av_shape v) g ->
       exists i s, nth_error l i = Some s /\ in_slice g s /\
         forall j s', nth_error l j = Some s' -> in_slice g s' -> j = i) /\
    (forall s g, In s l -> in_slice g s -> in_grid (av_shape v) g).
Proof. exact slices_partition. Qed.
Print Assumptions C21_partition.

(** C21: exactly the vertices whose limits have one entry per dimension that
    divides it (any limit in one dimension) are accepted. *)
Theorem C21_accepts_iff : forall v, sized v ->
  (splittable v <-> exists l, multi_slices v = Ok l) /\
  (~ splittable v <-> multi_slices v = Err ValueError).
Proof. exact slices_accept_iff. Qed.
Print Assumptions C21_accepts_iff.

Example C21_example :
  let v := mkAV 24 [6; 4] (Some [3; 2]) in
  sized v /\ splittable v /\
  multi_slices v = Ok
    [mkSlice 0 6 (Some ([3; 2], [0; 0], [6; 4])); mkSlice 6 6 (Some ([3; 2], [3; 0], [6; 4]));
     mkSlice 12 6 (Some ([3; 2], [0; 2], [6; 4])); mkSlice 18 6 (Some ([3; 2], [3; 2], [6; 4]))].
Proof.
  split; [|split].
  - split; [reflexivity|]. split; repeat constructor.
  - split; [reflexivity|]. intros _. constructor; [exists 2; reflexivity|].
    constructor; [exists 2; reflexivity|constructor].
  - reflexivity.
Qed.

(** C22: going to key order and back, and the other way round. *)
Theorem C22_key_then_raster : forall v ixs, sized v -> splittable v -> av_n v <= 2 ^ 32 ->
  in_range (av_n v) ixs ->
  exists ks, key_ordered v (Some ixs) = Ok ks /\ in_range (av_n v) ks /\
    length ks = length ixs /\ raster_ordered v ks = Ok ixs.
Proof. exact key_raster. Qed.
Print Assumptions C22_key_then_raster.

Theorem C22_raster_then_key : forall v ixs, sized v -> splittable v -> av_n v <= 2 ^ 32 ->
  in_range (av_n v) ixs ->
  exists rs, raster_ordered v ixs = Ok rs /\ in_range (av_n v) rs /\
    length rs = length ixs /\ key_ordered v (Some rs) = Ok ixs.
Proof. exact raster_key. Qed.
Print Assumptions C22_raster_then_key.

(** C22: without an argument all atoms are converted in raster order. *)
Theorem C22_default_indices : forall v,
  key_ordered v None = key_ordered v (Some (map Z.of_nat (seq 0 (Z.to_nat (av_n v))))).
Proof. exact key_ordered_all. Qed.
Print Assumptions C22_default_indices.

(** C22: key order is the order of the slices. *)
Theorem C22_key_order_of_slices : forall v l r, sized v -> av_n v <= 2 ^ 32 ->
  multi_slices v = Ok l -> 0 <= r < av_n v ->
  exists s k j, In s l /\ slice_ok s /\ raster_in s r /\
    key_ordered v (Some [r]) = Ok [k] /\ relative_indices s [r] = [j] /\
    0 <= j < sl_n s /\ k = sl_lo s + j.
Proof. exact key_order_slices. Qed.
Print Assumptions C22_key_order_of_slices.

Example C22_example :
  key_ordered (mkAV 24 [6; 4] (Some [3; 2])) (Some [0; 5; 6; 14; 23]) = Ok [0; 8; 3; 14; 23] /\
  raster_ordered (mkAV 24 [6; 4] (Some [3; 2])) [0; 8; 3; 14; 23] = Ok [0; 5; 6; 14; 23].
Proof. split; reflexivity. Qed.

(** C23: within one slice. *)
Theorem C23_relative_then_raster : forall s ixs, slice_ok s -> Forall (raster_in s) ixs ->
  in_range (sl_n s) (relative_indices s ixs) /\ raster_indices s (relative_indices s ixs) = ixs.
Proof. exact slice_raster_relative. Qed.
Print Assumptions C23_relative_then_raster.

Theorem C23_raster_then_relative : forall s ixs, slice_ok s -> in_range (sl_n s) ixs ->
  Forall (raster_in s) (raster_indices s ixs) /\ relative_indices s (raster_indices s ixs) = ixs.
Proof. exact slice_relative_raster. Qed.
Print Assumptions C23_raster_then_relative.

(** C23: get_raster_ids lists the atoms of the slice, each once, in the order of
    their relative index. *)
Theorem C23_raster_ids : forall s, slice_ok s ->
  raster_ids s = raster_indices s (map Z.of_nat (seq 0 (Z.to_nat (sl_n s)))) /\
  NoDup (raster_ids s) /\ (forall r, In r (raster_ids s) <-> raster_in s r).
Proof. exact raster_ids_spec. Qed.
Print Assumptions C23_raster_ids.

Example C23_example :
  let s := mkSlice 6 6 (Some ([3; 2], [3; 1], [6; 4])) in
  slice_ok s /\ raster_ids s = [9; 10; 11; 15; 16; 17] /\
  relative_indices s [9; 10; 11; 15; 16; 17] = [0; 1; 2; 3; 4; 5] /\
  raster_indices s [5; 0] = [17; 9].
Proof.
  split; [|split; [|split]]; try reflexivity.
  unfold slice_ok. cbn [sl_md sl_n]. repeat (split; [reflexivity|]).
  split; [|cbv; discriminate].
  repeat constructor; unfold dim3_ok; cbn; lia.
Qed.

(** C50, FPGA devices with [c] connections per vertex index: with at least as
    many atoms as vertices the slices are consecutive from 0, but they stop at
    m * (n / m); with fewer atoms than vertices an exception is raised. *)
Theorem C50_fpga_slices : forall n m c, 1 <= m -> 0 <= n ->
  (m <= n -> exists l, fpga_slices n m c = Ok (flat_map (fun s => repeat s c) l) /\
     tiles 0 l (m * (n / m)) /\ Z.of_nat (length l) = m) /\
  (n < m -> (0 < c)%nat -> fpga_slices n m c = Err ValueError).
Proof. exact fpga_slices_spec. Qed.
Print Assumptions C50_fpga_slices.

(** C50, SpiNNaker link devices: the slices tile all atoms when the last one is
    not empty; otherwise an exception is raised. *)
Theorem C50_link_slices : forall n m, 1 <= m -> 1 <= n ->
  let per := - (- n / m) in
  (per * (m - 1) < n -> exists l, link_slices n m = Ok l /\ tiles 0 l n /\ Z.of_nat (length l) = m) /\
  (n <= per * (m - 1) -> link_slices n m = Err ValueError).
Proof. exact link_slices_spec. Qed.
Print Assumptions C50_link_slices.

Example C50_example :
  fpga_slices 8 2 2 = Ok [mkSlice 0 4 None; mkSlice 0 4 None; mkSlice 4 4 None; mkSlice 4 4 None] /\
  link_slices 10 3 = Ok [mkSlice 0 4 None; mkSlice 4 4 None; mkSlice 8 2 None].
Proof. split; reflexivity. Qed.

(** FPGA slices can miss the last atoms. *)
Theorem C100_fpga_atoms_lost_refuted : exists n m l, 1 <= m <= n /\ fpga_slices n m 1 = Ok l /\
  exists a, 0 <= a < n /\ forall s, In s l -> ~ (sl_lo s <= a < sl_lo s + sl_n s).
Proof.
  exists 5, 2. eexists. split; [lia|]. split; [reflexivity|].
  exists 4. split; [lia|]. cbn. intros s [<-|[<-|[]]]; cbn; lia.
Qed.
Print Assumptions C100_fpga_atoms_lost_refuted.

(** A link device with more atoms than vertices can still raise. *)
Theorem C100_link_raises_refuted : exists n m, 1 <= m <= n /\ link_slices n m = Err ValueError.
Proof. exists 5, 4. split; [lia|reflexivity]. Qed.
Print Assumptions C100_link_raises_refuted.
