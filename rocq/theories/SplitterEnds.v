(** A vertex and its splitter set each other and stop. *)
From Coq Require Import List ZArith Arith Bool Lia.
From Verif Require Import Base Ends SliceModel SplitterModel SplitterProofs.
Import ListNotations.
Local Open Scope nat_scope.

Definition oends (o : outcome) : Prop := snd o <> Some OutOfFuel.

Lemma and_then_ends : forall o f, oends o -> (forall w, oends (f w)) -> oends (and_then o f).
Proof. intros [w [e|]] f H K; cbn [and_then]; [exact H | apply K]. Qed.
Lemma remember_ends : forall w v m, oends (remember w v m).
Proof.
  intros w v m. unfold remember. destruct (nth_error (w_verts w) v) as [x|]; [|discriminate].
  destruct (v_kind x); try discriminate. destruct (Nat.eqb _ _); discriminate.
Qed.
Lemma make_slice_ends : forall a b, ends (make_slice a b).
Proof. intros a b. unfold make_slice. destruct (a <? 0)%Z; [discriminate|]. destruct (b <? a)%Z; discriminate. Qed.
Lemma build_one_ends : forall w s v f, oends (build_one w s v f).
Proof.
  intros w s v f. unfold build_one. destruct (nth_error (w_verts w) v) as [x|]; [|discriminate].
  pose proof (make_slice_ends 0 (av_n (v_av x) - 1)) as M. destruct (make_slice _ _) as [sl|e]; [apply remember_ends|].
  intros H. cbn in H. injection H as ->. exact (M eq_refl).
Qed.
Lemma mapM_ends : forall {A B} (f : A -> res B) l, (forall a, ends (f a)) -> ends (mapM f l).
Proof.
  intros A B f l H. induction l as [|a l IH]; cbn [mapM]; [discriminate|]. apply ends_bind; [apply H|]. intros b _.
  apply ends_bind; [exact IH|]. discriminate.
Qed.
Lemma parts_ends : forall x, ends (device_parts x).
Proof.
  intros x. unfold device_parts. destruct (v_kind x) as [| |i o m|i o m|]; try discriminate.
  - apply mapM_ends. intros [j c]. apply ends_bind; [|discriminate]. unfold fpga_slice. destruct (m =? 0)%Z; [discriminate | apply make_slice_ends].
  - destruct i; [|discriminate]. apply mapM_ends. intros j. apply ends_bind; [|discriminate]. unfold link_slice.
    apply ends_bind; [|intros; apply make_slice_ends]. unfold ceil_div. destruct (_ =? _)%Z; discriminate.
Qed.
Lemma build_device_ends : forall w s v, oends (build_device w s v).
Proof.
  intros w s v. unfold build_device. destruct (nth_error (w_verts w) v) as [x|]; [|discriminate]. cbn zeta.
  assert (P := parts_ends x). assert (M := make_slice_ends 0 (av_n (v_av x) - 1)).
  assert (G : forall w0, oends (match device_parts x with
          | Err e => raises w0 e
          | Ok parts =>
              match device_out x with
              | None => done (set_skind (set_vert w0 v (made x (length parts))) s (SExt (new_incoming (v_next x) parts) None))
              | Some c =>
                  match make_slice 0 (av_n (v_av x) - 1) with
                  | Err e => raises (set_skind (set_vert w0 v (made x (length parts))) s (SExt (new_incoming (v_next x) parts) None)) e
                  | Ok sl => done (set_skind (set_vert w0 v (made x (S (length parts)))) s
                              (SExt (new_incoming (v_next x) parts) (Some (mkMV (v_next x + length parts) sl 0 (ToDevice c)))))
                  end
              end
          end)).
  { intros w0. destruct (device_parts x) as [parts|e]; [|intros H; cbn in H; injection H as ->; exact (P eq_refl)].
    destruct (device_out x); [|discriminate]. destruct (make_slice _ _) as [sl|e]; [discriminate|].
    intros H. cbn in H. injection H as ->. exact (M eq_refl). }
  destruct (v_kind x); try discriminate; apply G.
Qed.

Definition has_split (w : world) (v : nat) : Prop := forall x, nth_error (w_verts w) v = Some x -> v_split x <> None.
Definition has_gov (w : world) (s : nat) : Prop := forall y, nth_error (w_splits w) s = Some y -> s_gov y <> None.
Lemma set_has_gov : forall w s k v, has_gov (set_split w s (mkS k (Some v))) s.
Proof.
  intros w s k v y H. cbn [set_split w_splits] in H. destruct (Nat.lt_ge_cases s (length (w_splits w))) as [L|L].
  - rewrite ws_upd in H by exact L. rewrite Nat.eqb_refl in H. injection H as <-. discriminate.
  - assert (X : nth_error (upd (w_splits w) s (mkS k (Some v))) s = None); [|rewrite X in H; discriminate].
    apply nth_error_None. rewrite upd_length. exact L.
Qed.
Lemma set_has_split : forall w v x s, has_split (set_vert w v (with_split x (Some s))) v.
Proof.
  intros w v x s y H. cbn [set_vert w_verts] in H. destruct (Nat.lt_ge_cases v (length (w_verts w))) as [L|L].
  - rewrite wv_upd in H by exact L. rewrite Nat.eqb_refl in H. injection H as <-. discriminate.
  - assert (X : nth_error (upd (w_verts w) v (with_split x (Some s))) v = None); [|rewrite X in H; discriminate].
    apply nth_error_None. rewrite upd_length. exact L.
Qed.

(** One call from the vertex, given that the calls it makes end; and from the splitter. *)
Lemma from_vertex : forall f w v s, (has_split w v \/ forall w', has_split w' v -> (has_gov w s -> has_gov w' s) -> oends (attach f true w' v s)) ->
  oends (attach (S f) false w v s).
Proof.
  intros f w v s H. cbn [attach]. destruct (nth_error (w_verts w) v) as [x|] eqn:X; [|discriminate].
  destruct (nth_error (w_splits w) s) as [y|] eqn:Y; [|discriminate].
  destruct (v_split x) as [s'|] eqn:V; [destruct (Nat.eqb s' s); discriminate|].
  destruct H as [H|H]; [destruct (H x X V)|]. apply H; [apply set_has_split | exact (fun K => K)].
Qed.
Lemma from_splitter : forall f w v s, (has_gov w s \/ forall w', has_gov w' s -> (has_split w v -> has_split w' v) -> oends (attach f false w' v s)) ->
  oends (attach (S f) true w v s).
Proof.
  intros f w v s H. cbn [attach]. destruct (nth_error (w_verts w) v) as [x|] eqn:X; [|discriminate].
  destruct (nth_error (w_splits w) s) as [y|] eqn:Y; [|discriminate]. cbn zeta.
  assert (B : oends (match s_gov y with
              | Some v' => if Nat.eqb v' v then done w else raises w ConfigurationException
              | None => attach f false (set_split w s (mkS (s_kind y) (Some v))) v s
              end)).
  { destruct (s_gov y) as [v'|] eqn:V; [destruct (Nat.eqb v' v); discriminate|].
    destruct H as [H|H]; [destruct (H y Y V)|]. apply H; [apply set_has_gov | exact (fun K => K)]. }
  destruct (s_kind y), (v_kind x); try discriminate; try exact B;
    (apply and_then_ends; [exact B|]); intros w'; (apply build_one_ends || apply build_device_ends).
Qed.
Lemma set_splitter_ends : forall w v s, oends (set_splitter w v s).
Proof.
  intros w v s. apply from_vertex. right. intros w1 H1 _. apply from_splitter. right. intros w2 _ H2.
  apply from_vertex. left. exact (H2 H1).
Qed.
Lemma set_governed_ends : forall w s v, oends (set_governed w s v).
Proof.
  intros w s v. apply from_splitter. right. intros w1 H1 _. apply from_vertex. right. intros w2 _ H2.
  apply from_splitter. left. exact (H2 H1).
Qed.
