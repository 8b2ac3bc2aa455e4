(** Property C212: the region of memory that an SDRAM partition reports for a vertex. *)
From Coq Require Import List ZArith Bool Lia.
From Verif Require Import Base Dict PartModel PartProofs PartProps PartRegionModel.
Import ListNotations.
Local Open Scope Z_scope.

(** A vertex that has nothing to do with the partition is given a region: the whole block
    of a source-segmented partition, the memory of a constant one. *)
Theorem C212_stranger_refuted :
  (exists pre s0 cs v, src_new pre = Ok s0 /\ let s := fold_left src_call cs s0 in
     ~ In v pre /\ (forall e, In e (s_edges s) -> e_pre e <> v /\ e_post e <> v) /\ s_edges s <> [] /\
     src_base_for s v = Ok 1000 /\ src_size_for s v = Ok 148) /\
  (exists pre cs v, let s := fold_left con_call cs (con_new pre) in
     v <> pre /\ (forall e, In e (c_edges s) -> e_pre e <> v /\ e_post e <> v) /\ c_edges s <> [] /\
     con_base_for s v = Ok 1000 /\ con_size_for s v = Ok 40).
Proof.
  split.
  - exists [1; 2; 3]%nat. eexists. exists (map Add ex_edges ++ [SetBase 1000]), 77%nat. split; [reflexivity|]. cbv zeta.
    split; [cbn; intuition discriminate|]. split; [|split; [vm_compute; discriminate | vm_compute; auto]].
    intros e E. vm_compute in E. intuition (subst; cbn in *; discriminate).
  - exists 2%nat, [Add (mkEdge 0 2 9 40); SetBase 1000], 77%nat. cbv zeta. split; [discriminate|].
    split; [|split; [vm_compute; discriminate | vm_compute; auto]].
    intros e E. vm_compute in E. intuition (subst; cbn in *; discriminate).
Qed.
Print Assumptions C212_stranger_refuted.

(** Two edges to one vertex are accepted by a destination-segmented partition; the vertex
    is told only of the segment of the first. *)
Theorem C212_two_edges_refuted : exists pre cs v x e, let s := fold_left dst_call cs (dst_new pre) in
  d_base s = Some 1000 /\ In e (d_edges s) /\ e_post e = v /\
  (exists a, dget Nat.eqb (d_addr s) (e_id e) = Some a /\ a <= x < a + e_size e) /\
  exists b z, dst_base_for s v = Ok b /\ dst_size_for s v = Ok z /\ ~ b <= x < b + z.
Proof.
  exists 2%nat, [Add (mkEdge 0 2 9 40); Add (mkEdge 1 2 9 8); SetBase 1000], 9%nat, 1044, (mkEdge 1 2 9 8). cbv zeta.
  split; [reflexivity|]. split; [vm_compute; auto|]. split; [reflexivity|]. split; [exists 1040; split; [reflexivity | vm_compute; split; [discriminate | reflexivity]]|].
  exists 1000, 40. repeat split; try reflexivity. lia.
Qed.
Print Assumptions C212_two_edges_refuted.

Lemma find_post_some : forall l v, (exists e, In e l /\ e_post e = v) <-> find_post l v <> None.
Proof.
  induction l as [|e l IH]; intros v; cbn [find_post].
  - split; [intros [e [[] _]] | congruence].
  - destruct (Nat.eqb_spec (e_post e) v) as [E|E].
    + split; [discriminate | intros _; exists e; split; [left; reflexivity | exact E]].
    + rewrite <- IH. split.
      * intros [f [[->|F] P]]; [contradiction | exists f; auto].
      * intros [f [F P]]. exists f. split; [right; exact F | exact P].
Qed.

(** A destination-segmented partition answers for its own vertices only: a size always,
    an address once the base is set; otherwise it is a PacmanValueError. *)
Theorem C212_destination_partial : forall pre cs v, let s := fold_left dst_call cs (dst_new pre) in
  let mine := v = pre \/ exists e, In e (d_edges s) /\ e_post e = v in
  ((exists z, dst_size_for s v = Ok z) <-> mine) /\ (~ mine -> dst_size_for s v = Err ValueError) /\
  ((exists b, d_base s = Some b) -> (forall e, In e (d_edges s) -> 0 <= e_size e) ->
     ((exists a, dst_base_for s v = Ok a) <-> mine) /\ (~ mine -> dst_base_for s v = Err ValueError)).
Proof.
  intros pre cs v s mine.
  assert (P : d_pre s = pre).
  { unfold s. clear. generalize (dst_new pre), (eq_refl : d_pre (dst_new pre) = pre). induction cs as [|c cs IH]; intros t T; cbn; [exact T|].
    apply IH. destruct c as [e|a]; unfold dst_call; cbn [fst].
    - unfold dst_add. destruct (d_base t); [exact T|]. destruct (negb (Nat.eqb (d_pre t) (e_pre e))); [exact T|]. destruct (edge_in e (d_edges t)); exact T.
    - unfold dst_set_base. destruct (d_edges t); exact T. }
  assert (Q : mine <-> Nat.eqb pre v = true \/ find_post (d_edges s) v <> None).
  { unfold mine. rewrite find_post_some, Nat.eqb_eq. intuition. }
  unfold dst_size_for. rewrite P. split; [|split].
  - rewrite Q. destruct (Nat.eqb pre v); [intuition eauto|]. destruct (find_post (d_edges s) v); split; eauto.
    + intros _. right. discriminate.
    + intros [z Z]. discriminate.
    + intros [H|H]; [discriminate | congruence].
  - rewrite Q. intros N. destruct (Nat.eqb pre v); [exfalso; apply N; auto|].
    destruct (find_post (d_edges s) v); [exfalso; apply N; right; discriminate | reflexivity].
  - intros [b B] H. destruct (C42_destination_segments pre cs b B H) as (start & _ & A & _). fold s in A.
    unfold dst_base_for. rewrite P, B.
    assert (F : forall e, find_post (d_edges s) v = Some e -> In e (d_edges s)).
    { generalize (d_edges s). clear. induction l as [|f l IH]; intros e; cbn; [discriminate|].
      destruct (Nat.eqb (e_post f) v); [intros E; injection E as ->; auto | intros E; right; exact (IH e E)]. }
    split.
    + rewrite Q. destruct (Nat.eqb pre v); [intuition eauto|].
      destruct (find_post (d_edges s) v) as [e|]; split.
      * intros _. right. discriminate.
      * intros _. rewrite (A e (F e eq_refl)). eauto.
      * intros [a X]. discriminate.
      * intros [X|X]; [discriminate | congruence].
    + rewrite Q. intros N. destruct (Nat.eqb pre v); [exfalso; apply N; auto|].
      destruct (find_post (d_edges s) v); [exfalso; apply N; right; discriminate | reflexivity].
Qed.
Print Assumptions C212_destination_partial.

(** The region told is that of the edges of the vertex: in a source-segmented partition,
    unless a vertex is both source and destination ... *)
Theorem C212_source_region_partial : forall pre s0 cs b v, src_new pre = Ok s0 ->
  let s := fold_left src_call cs s0 in
  s_base s = Some b -> (forall e, In e (s_edges s) -> 0 <= e_size e) ->
  (forall e e', In e (s_edges s) -> In e' (s_edges s) -> e_post e <> e_pre e' /\ e_post e = e_post e') ->
  (exists e, In e (s_edges s) /\ (e_pre e = v \/ e_post e = v)) ->
  exists a z, src_base_for s v = Ok a /\ src_size_for s v = Ok z /\
    forall x, a <= x < a + z <->
      exists e c, In e (s_edges s) /\ (e_pre e = v \/ e_post e = v) /\ dget Nat.eqb (s_addr s) (e_id e) = Some c /\ c <= x < c + e_size e.
Proof.
  intros pre s0 cs b v N s B SZ D [e [E V]].
  destruct (C42_source_segments pre s0 cs b N B SZ) as (start & [X _] & A & M & O). fold s in X, A, M, O.
  destruct V as [V|V].
  - destruct (A e E) as (A1 & A2 & A3). rewrite V in *. exists (start e), (e_size e). split; [exact A2|]. split; [exact A3|].
    intros x. split.
    + intros H. exists e, (start e). auto.
    + intros (f & c & F & W & C & R). destruct W as [W|W].
      * destruct (A f F) as (F1 & F2 & F3). rewrite W in F2, F3. rewrite F2 in A2. rewrite F3 in A3. injection A2 as A2. injection A3 as A3.
        rewrite F1 in C. injection C as <-. rewrite <- A2, <- A3. exact R.
      * exfalso. destruct (D f e F E) as [Y _]. congruence.
  - assert (NP : ~ In v pre).
    { intros I. destruct (M v I) as [f [F Y]]. destruct (D e f E F) as [Z _]. congruence. }
    destruct (O v NP) as [O1 O2]. exists b, (total_size (s_edges s)). split; [exact O1|]. split; [exact O2|].
    intros x. rewrite X. split.
    + intros (f & F & R). exists f, (start f). split; [exact F|]. split; [right; destruct (D e f E F) as [_ Y]; congruence|].
      split; [exact (proj1 (A f F)) | exact R].
    + intros (f & c & F & W & C & R). exists f. split; [exact F|]. rewrite (proj1 (A f F)) in C. injection C as <-. exact R.
Qed.
Print Assumptions C212_source_region_partial.

(** ... and in a destination-segmented one, unless two edges have the same destination or
    one goes to its own source. *)
Theorem C212_destination_region_partial : forall pre cs b v,
  let s := fold_left dst_call cs (dst_new pre) in
  d_base s = Some b -> (forall e, In e (d_edges s) -> 0 <= e_size e) ->
  (forall e, In e (d_edges s) -> e_pre e = pre /\ e_post e <> pre) ->
  (forall e e', In e (d_edges s) -> In e' (d_edges s) -> e_post e = e_post e' -> e = e') ->
  (exists e, In e (d_edges s) /\ (e_pre e = v \/ e_post e = v)) ->
  exists a z, dst_base_for s v = Ok a /\ dst_size_for s v = Ok z /\
    forall x, a <= x < a + z <->
      exists e c, In e (d_edges s) /\ (e_pre e = v \/ e_post e = v) /\ dget Nat.eqb (d_addr s) (e_id e) = Some c /\ c <= x < c + e_size e.
Proof.
  intros pre cs b v s B SZ P U [e [E V]].
  destruct (C42_destination_segments pre cs b B SZ) as (start & [X _] & A & R & O1 & O2). fold s in X, A, R, O1, O2.
  destruct V as [V|V].
  - rewrite (proj1 (P e E)) in V. subst v. exists b, (total_size (d_edges s)). split; [exact O1|]. split; [exact O2|].
    intros x. rewrite X. split.
    + intros (f & F & Y). exists f, (start f). split; [exact F|]. split; [left; exact (proj1 (P f F))|]. split; [exact (A f F) | exact Y].
    + intros (f & c & F & _ & C & Y). exists f. split; [exact F|]. rewrite (A f F) in C. injection C as <-. exact Y.
  - destruct (R e E (proj2 (P e E)) (fun f F Q => U f e F E Q)) as [R1 R2]. rewrite V in R1, R2.
    exists (start e), (e_size e). split; [exact R1|]. split; [exact R2|]. intros x. split.
    + intros Y. exists e, (start e). split; [exact E|]. split; [right; exact V|]. split; [exact (A e E) | exact Y].
    + intros (f & c & F & W & C & Y). assert (Q : e_post f = v).
      { destruct W as [W|W]; [|exact W]. exfalso. rewrite (proj1 (P f F)) in W. apply (proj2 (P e E)). congruence. }
      assert (f = e) by (apply U; auto; congruence). subst f. rewrite (A e E) in C. injection C as <-. exact Y.
Qed.
Print Assumptions C212_destination_region_partial.

Example C212_example : let s := match src_new [1; 2; 3]%nat with Ok s0 => fold_left src_call (map Add ex_edges ++ [SetBase 1000]) s0 | Err _ => mkSrc [] [] [] None [] end in
  s_base s = Some 1000 /\ (forall e, In e (s_edges s) -> 0 <= e_size e) /\
  (forall e e', In e (s_edges s) -> In e' (s_edges s) -> e_post e <> e_pre e' /\ e_post e = e_post e') /\
  src_base_for s 1 = Ok 1000 /\ src_size_for s 1 = Ok 8 /\ src_base_for s 9 = Ok 1000 /\ src_size_for s 9 = Ok 148.
Proof.
  cbv zeta. split; [reflexivity|]. split; [|split].
  - intros e E. vm_compute in E. intuition (subst; vm_compute; discriminate).
  - intros e e' E E'. vm_compute in E, E'. intuition (subst; cbn in *; congruence).
  - repeat split; reflexivity.
Qed.
Example C212_destination_example : let s := fold_left dst_call [Add (mkEdge 0 2 9 40); Add (mkEdge 1 2 8 8); SetBase 1000] (dst_new 2) in
  d_base s = Some 1000 /\ (forall e, In e (d_edges s) -> 0 <= e_size e) /\
  (forall e, In e (d_edges s) -> e_pre e = 2%nat /\ e_post e <> 2%nat) /\
  (forall e e', In e (d_edges s) -> In e' (d_edges s) -> e_post e = e_post e' -> e = e') /\
  dst_base_for s 8 = Ok 1040 /\ dst_size_for s 8 = Ok 8 /\ dst_base_for s 77 = Err ValueError.
Proof.
  cbv zeta. split; [reflexivity|]. split; [|split; [|split]].
  - intros e E. vm_compute in E. intuition (subst; vm_compute; discriminate).
  - intros e E. vm_compute in E. intuition (subst; cbn in *; congruence).
  - intros e e' E E'. vm_compute in E, E'. intuition (subst; cbn in *; congruence).
  - repeat split; reflexivity.
Qed.
