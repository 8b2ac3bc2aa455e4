(** Key allocation ends. *)
From Coq Require Import List NArith ZArith Arith Bool Lia.
From Verif Require Import Base Ends Dict AllocModel.
Import ListNotations.
Local Open Scope nat_scope.

Lemma dgetE_ends : forall {K V} (eqb : K -> K -> bool) (d : list (K * V)) k, ends (dgetE eqb d k).
Proof. intros. unfold dgetE. destruct (dget eqb d k); discriminate. Qed.

Lemma skip_used_ends : forall fuel used idx,
  length (nodup N.eq_dec (filter (fun u => N.leb idx u) used)) < fuel -> ends (skip_used fuel used idx).
Proof.
  induction fuel as [|f IH]; intros used idx L; [lia|]. cbn [skip_used].
  destruct (existsb (N.eqb idx) used) eqn:E; [|discriminate]. apply IH.
  apply existsb_exists in E. destruct E as [u [I X]]. apply N.eqb_eq in X. subst u.
  set (A := nodup N.eq_dec (filter (fun u => N.leb idx u) used)) in *.
  set (B := nodup N.eq_dec (filter (fun u => N.leb (idx + 1) u) used)).
  enough (length (idx :: B) <= length A) by (cbn [length] in *; lia).
  apply NoDup_incl_length.
  - constructor; [|apply NoDup_nodup]. intro J. apply nodup_In in J. apply filter_In in J.
    destruct J as [_ J]. apply N.leb_le in J. lia.
  - intros x [<-|J]; apply nodup_In; apply filter_In.
    + split; [exact I|]. apply N.leb_refl.
    + apply nodup_In in J. apply filter_In in J. destruct J as [J1 J2]. split; [exact J1|].
      apply N.leb_le in J2. apply N.leb_le. lia.
Qed.
Lemma skip_ends : forall used idx, ends (skip_used (S (length used)) used idx).
Proof.
  intros. apply skip_used_ends. apply Nat.lt_succ_r.
  apply NoDup_incl_length; [apply NoDup_nodup|]. intros x H. apply nodup_In in H.
  apply filter_In in H. tauto.
Qed.

Lemma make_km_ends : forall k m, ends (make_km k m).
Proof. intros. unfold make_km. destruct (N.eqb _ _); discriminate. Qed.
Lemma add_info_ends : forall l i, ends (add_info l i).
Proof. intros. unfold add_info. destruct (existsb _ _); discriminate. Qed.

Lemma find_fixed_inner_ends : forall e pre ident app verts fixed f u v,
  ends (find_fixed_inner e pre ident app verts fixed f u v).
Proof.
  intros e pre ident app verts. induction verts as [|x verts IH]; intros; cbn [find_fixed_inner]; [discriminate|].
  destruct (ae_mac_fixed e pre x ident).
  - destruct u; [discriminate|]. destruct app; [|discriminate]. destruct (negb _); [discriminate|]. apply IH.
  - destruct f; [discriminate|]. apply IH.
Qed.
Lemma find_fixed_ends : forall e parts fixed a v, ends (find_fixed_loop e parts fixed a v).
Proof.
  intros e parts. induction parts as [|[pre ident] parts IH]; intros; cbn [find_fixed_loop]; [discriminate|].
  apply ends_bind; [apply find_fixed_inner_ends|]. intros [[fx isf] vert] _.
  destruct (ae_app_fixed e pre ident); [|apply IH]. apply ends_bind; [|intros; apply IH].
  destruct isf; [discriminate|]. destruct (Nat.ltb 1 _); [discriminate|]. destruct vert; discriminate.
Qed.
Lemma alloc_machines_ends : forall fixed ident idx nba nbm mvs mi infos,
  ends (alloc_machines fixed ident idx nba nbm mi mvs infos).
Proof.
  intros fixed ident idx nba nbm mvs. induction mvs as [|m mvs IH]; intros; cbn [alloc_machines]; [discriminate|].
  apply ends_bind.
  - destruct (dget fk_eqb fixed (ident, Mac m)); [discriminate|]. destruct nbm; [apply make_km_ends|discriminate].
  - intros k _. apply ends_bind; [apply add_info_ends|]. intros. apply IH.
Qed.
Lemma allocate_loop_ends : forall e flexible fixed z used parts idx infos,
  ends (allocate_loop e flexible fixed z used parts idx infos).
Proof.
  intros e flexible fixed z used parts. induction parts as [|[pre ident] parts IH]; intros; cbn [allocate_loop]; [discriminate|].
  apply ends_bind; [apply skip_ends|]. intros idx' _.
  destruct (ae_outgoing e pre ident) as [|o out]; [apply IH|].
  apply ends_bind; [apply dgetE_ends|]. intros bits _. destruct (field_sizes flexible z bits) as [nba nbm].
  apply ends_bind; [apply alloc_machines_ends|]. intros infos' _.
  apply ends_bind; [destruct (dget fk_eqb fixed (ident, App pre)); [discriminate|apply make_km_ends]|].
  intros k _. apply ends_bind; [apply add_info_ends|]. intros. apply IH.
Qed.
Lemma allocate_ends : forall flexible e parts, ends (allocate flexible e parts).
Proof.
  intros flexible e parts. unfold allocate. apply ends_bind; [apply find_fixed_ends|].
  intros [fixed all] _. apply ends_bind.
  { unfold check_zones. repeat apply ends_match; discriminate. }
  intros [z used] _. destruct all; [|apply allocate_loop_ends].
  apply ends_foldM. intros infos [[ident [a|m]] k] _; [|apply add_info_ends].
  apply ends_bind; [apply dgetE_ends|]. intros. apply add_info_ends.
Qed.
