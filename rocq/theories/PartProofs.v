(** Proofs about the SDRAM edge partitions. *)
From Coq Require Import List ZArith Bool Lia Permutation.
From Verif Require Import Base Dict PartModel.
Import ListNotations.
Local Open Scope Z_scope.

(** The edges of [l], in this order, have addresses one after the other from [b]. *)
Fixpoint tiles (addr : list (nat * Z)) (b : Z) (l : list edge) : Prop :=
  match l with
  | [] => True
  | e :: r => dget Nat.eqb addr (e_id e) = Some b /\ tiles addr (b + e_size e) r
  end.

Lemma total_size_acc : forall l a, fold_left (fun a e => a + e_size e) l a = a + total_size l.
Proof.
  unfold total_size. induction l as [|e l IH]; intros a; cbn [fold_left]; [lia|].
  rewrite IH, (IH (0 + e_size e)). lia.
Qed.
Lemma total_size_cons : forall e l, total_size (e :: l) = e_size e + total_size l.
Proof. intros. unfold total_size at 1. cbn [fold_left]. rewrite total_size_acc. lia. Qed.

Lemma total_size_perm : forall l l', Permutation l l' -> total_size l = total_size l'.
Proof.
  induction 1; rewrite ?total_size_cons in *; try lia; reflexivity.
Qed.

Definition nonneg (l : list edge) : Prop := forall e, In e l -> 0 <= e_size e.

Lemma total_nonneg : forall l, nonneg l -> 0 <= total_size l.
Proof.
  induction l as [|e l IH]; intros H; [cbn; lia|]. rewrite total_size_cons.
  specialize (IH (fun x Hx => H x (or_intror Hx))). specialize (H e (or_introl eq_refl)). lia.
Qed.

Lemma tiles_In : forall addr l b e, tiles addr b l -> nonneg l -> In e l ->
  exists a, dget Nat.eqb addr (e_id e) = Some a /\ b <= a /\ a + e_size e <= b + total_size l.
Proof.
  induction l as [|x l IH]; intros b e T P Hin; [destruct Hin|].
  destruct T as [T1 T2]. rewrite total_size_cons.
  assert (Pl : nonneg l) by (intros y Hy; apply P; right; exact Hy).
  pose proof (P x (or_introl eq_refl)). pose proof (total_nonneg l Pl).
  destruct Hin as [<-|Hin].
  - exists b. split; [exact T1|]. lia.
  - destruct (IH _ e T2 Pl Hin) as [a [A [B C]]]. exists a. split; [exact A|]. lia.
Qed.

(** Segments of two different edges do not overlap. *)
Lemma tiles_disjoint : forall addr l b e e' a a', tiles addr b l -> nonneg l -> NoDup (map e_id l) ->
  In e l -> In e' l -> e_id e <> e_id e' ->
  dget Nat.eqb addr (e_id e) = Some a -> dget Nat.eqb addr (e_id e') = Some a' ->
  a + e_size e <= a' \/ a' + e_size e' <= a.
Proof.
  induction l as [|x l IH]; intros b e e' a a' T P N H1 H2 NE A A'; [destruct H1|].
  destruct T as [T1 T2]. cbn [map] in N. inversion N as [|? ? Nx Nl]; subst.
  assert (Pl : nonneg l) by (intros y Hy; apply P; right; exact Hy).
  destruct H1 as [<-|H1], H2 as [<-|H2].
  - contradiction.
  - left. assert (a = b) by congruence. subst a.
    destruct (tiles_In _ _ _ _ T2 Pl H2) as [a2 [A2 [B2 _]]]. assert (a2 = a') by congruence. lia.
  - right. assert (a' = b) by congruence. subst a'.
    destruct (tiles_In _ _ _ _ T2 Pl H1) as [a2 [A2 [B2 _]]]. assert (a2 = a) by congruence. lia.
  - exact (IH _ e e' a a' T2 Pl Nl H1 H2 NE A A').
Qed.

Lemma tiles_cover : forall addr l b x, tiles addr b l -> nonneg l ->
  b <= x < b + total_size l ->
  exists e a, In e l /\ dget Nat.eqb addr (e_id e) = Some a /\ a <= x < a + e_size e.
Proof.
  induction l as [|y l IH]; intros b x T P H; [cbn in H; lia|].
  destruct T as [T1 T2]. rewrite total_size_cons in H.
  destruct (Z.lt_ge_cases x (b + e_size y)) as [L|L].
  - exists y, b. split; [left; reflexivity|]. split; [exact T1 | lia].
  - destruct (IH _ x T2) as [e [a [H1 [H2 H3]]]].
    + intros z Hz. apply P. right. exact Hz.
    + lia.
    + exists e, a. split; [right; exact H1 | auto].
Qed.

Lemma edge_in_spec : forall e l, edge_in e l = true <-> In (e_id e) (map e_id l).
Proof.
  intros e l. unfold edge_in. rewrite existsb_exists. split.
  - intros [x [I E]]. apply Nat.eqb_eq in E. apply in_map_iff. exists x. auto.
  - intros I. apply in_map_iff in I. destruct I as [x [E I]]. exists x. split; [exact I|].
    unfold edge_eqb. apply Nat.eqb_eq. auto.
Qed.

Lemma tiles_ext : forall addr addr' l b,
  (forall e, In e l -> dget Nat.eqb addr (e_id e) = dget Nat.eqb addr' (e_id e)) ->
  tiles addr b l -> tiles addr' b l.
Proof.
  induction l as [|e l IH]; intros b H T; [exact I|]. destruct T as [T1 T2]. split.
  - rewrite <- (H e (or_introl eq_refl)). exact T1.
  - apply IH; [|exact T2]. intros x Hx. apply H. right. exact Hx.
Qed.

(** * Destination-segmented *)
Lemma dst_assign_other : forall l addr a k, ~ In k (map e_id l) ->
  dget Nat.eqb (dst_assign l addr a) k = dget Nat.eqb addr k.
Proof.
  induction l as [|e l IH]; intros addr a k N; cbn [dst_assign]; [reflexivity|].
  cbn [map In] in N. rewrite IH by tauto. apply (dget_dset_neq _ Nat.eqb_eq). tauto.
Qed.

Lemma dst_assign_tiles : forall l addr a, NoDup (map e_id l) -> tiles (dst_assign l addr a) a l.
Proof.
  induction l as [|e l IH]; intros addr a N; [exact I|]. cbn [map] in N. inversion N as [|? ? Ne Nl]; subst.
  cbn [dst_assign tiles]. split.
  - rewrite dst_assign_other by exact Ne. apply (dget_dset_eq _ Nat.eqb_eq).
  - apply IH. exact Nl.
Qed.

Definition dst_run (pre : nat) (cs : list call) : dst := fold_left dst_call cs (dst_new pre).

Record dst_inv (pre : nat) (s : dst) : Prop := mkDInv {
  di_pre : d_pre s = pre;
  di_nodup : NoDup (map e_id (d_edges s));
  di_from : forall e, In e (d_edges s) -> e_pre e = pre;
  di_base : forall b, d_base s = Some b -> tiles (d_addr s) b (d_edges s)
}.

Lemma NoDup_snoc : forall {A} (l : list A) x, NoDup l -> ~ In x l -> NoDup (l ++ [x]).
Proof.
  intros A l x N H. apply (Permutation_NoDup (l := x :: l)); [|constructor; assumption].
  apply Permutation_cons_append.
Qed.

Lemma dst_call_inv : forall pre s c, dst_inv pre s -> dst_inv pre (dst_call s c).
Proof.
  intros pre s [e|a] V; pose proof V as [P N F B]; unfold dst_call.
  - unfold dst_add. destruct (d_base s) as [b|] eqn:Eb; [exact V|].
    destruct (Nat.eqb (d_pre s) (e_pre e)) eqn:Ep; cbn [negb]; [|exact V].
    destruct (edge_in e (d_edges s)) eqn:Ei; [exact V|].
    cbn [fst]. apply Nat.eqb_eq in Ep.
    assert (Ni : ~ In (e_id e) (map e_id (d_edges s))) by (rewrite <- edge_in_spec; congruence).
    constructor; cbn [d_pre d_edges d_base d_addr].
    + exact P.
    + rewrite map_app. apply NoDup_snoc; assumption.
    + intros x Hx. apply in_app_iff in Hx. destruct Hx as [Hx|[<-|[]]]; [auto | congruence].
    + discriminate.
  - unfold dst_set_base. destruct (d_edges s) as [|e l] eqn:El; cbn [fst].
    + exact V.
    + constructor; cbn [d_pre d_edges d_base d_addr]; auto.
      intros b E. injection E as <-. apply dst_assign_tiles. exact N.
Qed.

Lemma dst_run_inv : forall pre cs, dst_inv pre (dst_run pre cs).
Proof.
  intros pre cs. unfold dst_run. assert (I0 : dst_inv pre (dst_new pre)).
  { constructor; cbn; [reflexivity | constructor | tauto | discriminate]. }
  revert I0. generalize (dst_new pre). induction cs as [|c cs IH]; intros s I0; [exact I0|].
  cbn [fold_left]. apply IH. apply dst_call_inv. exact I0.
Qed.

(** * Source-segmented *)
Definition src_run (s0 : src) (cs : list call) : src := fold_left src_call cs s0.

Record src_inv (pre : list nat) (s : src) : Prop := mkSInv {
  si_pre : map fst (s_pre s) = pre;
  si_one : forall v l, In (v, l) (s_pre s) -> l = [] \/ exists e, l = [e] /\ e_pre e = v;
  si_edges : Permutation (s_edges s) (concat (map snd (s_pre s)));
  si_nodup : NoDup (map e_id (s_edges s));
  si_dest : (s_edges s = [] -> s_dest s = []) /\
            forall e, In e (s_edges s) -> map fst (s_dest s) = [e_post e];
  si_base : forall b, s_base s = Some b ->
              (forall v l, In (v, l) (s_pre s) -> l <> []) /\
              tiles (s_addr s) b (concat (map snd (s_pre s)))
}.

Lemma concat_dset : forall (d : list (nat * list edge)) v e, NoDup (map fst d) ->
  dget Nat.eqb d v = Some [] -> Permutation (concat (map snd (dset Nat.eqb d v [e]))) (e :: concat (map snd d)).
Proof.
  induction d as [|[v' l'] d IH]; intros v e N H; cbn [dget] in H; [discriminate|].
  cbn [map fst] in N. inversion N as [|? ? Nv Nd]; subst. cbn [dset].
  destruct (Nat.eqb v' v) eqn:E.
  - injection H as ->. cbn [map snd concat app]. apply Permutation_refl.
  - cbn [map snd concat]. eapply Permutation_trans; [apply Permutation_app_head; apply IH; assumption|].
    apply Permutation_sym. apply Permutation_middle.
Qed.

Lemma concat_ones : forall (d : list (nat * list edge)),
  (forall v l, In (v, l) d -> l = [] \/ exists e, l = [e] /\ e_pre e = v) ->
  (length (concat (map snd d)) <= length d)%nat /\
  (length (concat (map snd d)) = length d -> forall v l, In (v, l) d -> l <> []).
Proof.
  induction d as [|[v l] d IH]; intros H; cbn [map snd concat length].
  - split; [lia|]. intros _ v l [].
  - rewrite app_length. destruct IH as [I1 I2]; [intros v' l' Hin; apply H; right; exact Hin|].
    destruct (H v l (or_introl eq_refl)) as [-> | [e [-> _]]]; cbn [length].
    + split; [lia|]. intros E. exfalso. lia.
    + split; [lia|]. intros E v' l' [X|X]; [injection X as <- <-; discriminate | apply (I2 ltac:(lia) v' l' X)].
Qed.

Lemma src_assign_ok : forall pre addr a,
  (forall v l, In (v, l) pre -> exists e, l = [e]) ->
  NoDup (map e_id (concat (map snd pre))) ->
  exists addr', src_assign pre addr a = Ok addr' /\ tiles addr' a (concat (map snd pre)) /\
    forall k, ~ In k (map e_id (concat (map snd pre))) -> dget Nat.eqb addr' k = dget Nat.eqb addr k.
Proof.
  induction pre as [|[v l] pre IH]; intros addr a H N; cbn [src_assign].
  - exists addr. split; [reflexivity|]. split; [exact I | reflexivity].
  - destruct (H v l (or_introl eq_refl)) as [e ->]. cbn [map snd concat app] in N |- *.
    inversion N as [|? ? Ne Np]; subst.
    destruct (IH (dset Nat.eqb addr (e_id e) a) (a + e_size e)) as [addr' [E [T O]]]; [|exact Np|].
    + intros v' l' Hin. apply (H v' l'). right. exact Hin.
    + exists addr'. split; [exact E|]. split; [|].
      * cbn [tiles]. split; [|exact T]. rewrite (O _ Ne). apply (dget_dset_eq _ Nat.eqb_eq).
      * intros k Hk. cbn [map In] in Hk. rewrite O by tauto. apply (dget_dset_neq _ Nat.eqb_eq). tauto.
Qed.

Lemma src_call_inv : forall pre s c, NoDup pre -> src_inv pre s -> src_inv pre (src_call s c).
Proof.
  intros pre s [e|a] Npre V; pose proof V as [P O E N [D0 D1] B]; unfold src_call.
  - unfold src_add.
    destruct (negb match s_dest s with [] => true | _ => false end && negb (dmem Nat.eqb (s_dest s) (e_post e))) eqn:C;
      [exact V|].
    destruct (dget Nat.eqb (s_pre s) (e_pre e)) as [[|e0 l0]|] eqn:G; [|exact V|exact V].
    destruct (edge_in e (s_edges s)) eqn:Ei; [exact V|]. cbn [fst].
    assert (Ni : ~ In (e_id e) (map e_id (s_edges s))) by (rewrite <- edge_in_spec; congruence).
    assert (NP : NoDup (map fst (s_pre s))) by (rewrite P; exact Npre).
    assert (BN : s_base s = None).
    { destruct (s_base s) as [b|] eqn:Eb; [|reflexivity]. exfalso.
      destruct (B b eq_refl) as [B1 _]. apply (B1 (e_pre e) []); [|reflexivity].
      exact (dget_In _ Nat.eqb_eq _ _ _ G). }
    constructor; cbn [s_pre s_edges s_dest s_base s_addr].
    + rewrite dset_keys. unfold dmem. rewrite G. exact P.
    + intros v l Hin. apply (dset_In _ Nat.eqb_eq) in Hin. destruct Hin as [[-> ->]|Hin]; [|exact (O v l Hin)].
      right. exists e. auto.
    + eapply Permutation_trans; [apply Permutation_sym; apply Permutation_cons_append|].
      eapply Permutation_trans; [apply perm_skip; exact E|].
      apply Permutation_sym. apply concat_dset; assumption.
    + rewrite map_app. apply NoDup_snoc; assumption.
    + split; [intros X; destruct (s_edges s); discriminate|].
      assert (K : map fst (s_dest s) = [] \/ map fst (s_dest s) = [e_post e]).
      { destruct (s_edges s) as [|e1 l1] eqn:El.
        - left. rewrite (D0 eq_refl). reflexivity.
        - right. pose proof (D1 e1 (or_introl eq_refl)) as X.
          destruct (s_dest s) as [|kv r] eqn:Ed; [discriminate|]. cbn [negb] in C.
          cbn [andb] in C. apply negb_false_iff in C. apply (dmem_true _ Nat.eqb_eq) in C.
          rewrite X in C |- *. destruct C as [->|[]]. reflexivity. }
      assert (KK : map fst (dset Nat.eqb (s_dest s) (e_post e)
          (match dget Nat.eqb (s_dest s) (e_post e) with Some l => l | None => [] end ++ [e])) = [e_post e]).
      { rewrite dset_keys. destruct (dmem Nat.eqb (s_dest s) (e_post e)) eqn:M.
        - destruct K as [K|K]; [|exact K]. apply (dmem_true _ Nat.eqb_eq) in M. rewrite K in M. destruct M.
        - destruct K as [K|K]; [rewrite K; reflexivity|]. exfalso. apply Bool.not_true_iff_false in M.
          apply M. apply (dmem_true _ Nat.eqb_eq). rewrite K. left. reflexivity. }
      intros x Hx. rewrite KK. apply in_app_iff in Hx. destruct Hx as [Hx|[<-|[]]]; [|reflexivity].
      f_equal. pose proof (D1 x Hx) as X. destruct K as [K|K]; congruence.
    + rewrite BN. discriminate.
  - unfold src_set_base.
    destruct (Nat.eqb (length (s_pre s)) (length (s_edges s))) eqn:L; cbn [negb]; [|exact V].
    apply Nat.eqb_eq in L.
    assert (LC : length (concat (map snd (s_pre s))) = length (s_pre s))
      by (rewrite <- (Permutation_length E); lia).
    destruct (concat_ones (s_pre s) O) as [_ ALL]. specialize (ALL LC).
    destruct (src_assign_ok (s_pre s) (s_addr s) a) as [addr [EA [T _]]].
    + intros v l Hin. destruct (O v l Hin) as [-> | [e [-> _]]]; [|eauto]. exfalso. exact (ALL v [] Hin eq_refl).
    + apply (Permutation_NoDup (l := map e_id (s_edges s))); [|exact N]. apply Permutation_map. exact E.
    + rewrite EA. cbn [fst]. constructor; cbn [s_pre s_edges s_dest s_base s_addr]; auto.
      intros b X. injection X as <-. split; [exact ALL | exact T].
Qed.

Lemma src_new_inv : forall pre s, src_new pre = Ok s -> NoDup pre /\ src_inv pre s.
Proof.
  intros pre s H. unfold src_new in H.
  remember (fold_left (fun d v => dset Nat.eqb d v ([] : list edge)) pre []) as d eqn:Ed.
  destruct (Nat.eqb (length d) (length pre)) eqn:L; [|discriminate]. injection H as <-.
  apply Nat.eqb_eq in L.
  (* the dictionary holds the distinct vertices in order of first appearance *)
  assert (G : forall l d0, (length (fold_left (fun d v => dset Nat.eqb d v ([] : list edge)) l d0) <= length d0 + length l)%nat /\
     (length (fold_left (fun d v => dset Nat.eqb d v ([] : list edge)) l d0) = length d0 + length l ->
      NoDup l /\ (forall v, In v l -> ~ In v (map fst d0)) /\
      fold_left (fun d v => dset Nat.eqb d v ([] : list edge)) l d0 = d0 ++ map (fun v => (v, [])) l)%nat).
  { induction l as [|v l IH]; intros d0; cbn [fold_left length].
    - split; [lia|]. intros _. split; [constructor|]. split; [intros v []|]. cbn. rewrite app_nil_r. reflexivity.
    - destruct (IH (dset Nat.eqb d0 v [])) as [I1 I2]. rewrite dset_length in I1, I2.
      destruct (dmem Nat.eqb d0 v) eqn:M.
      + split; [lia|]. intros X. exfalso. lia.
      + split; [lia|]. intros X. destruct I2 as [J1 [J2 J3]]; [lia|].
        assert (Nv : ~ In v (map fst d0)).
        { intros Y. apply (dmem_true _ Nat.eqb_eq) in Y. congruence. }
        assert (Dv : forall d1, ~ In v (map fst d1) -> dset Nat.eqb d1 v ([] : list edge) = d1 ++ [(v, [])]).
        { clear. induction d1 as [|[v' l'] d1 IH]; intros N; [reflexivity|]. cbn [dset map fst] in *.
          destruct (Nat.eqb v' v) eqn:E; [apply Nat.eqb_eq in E; subst; exfalso; apply N; left; reflexivity|].
          cbn [app]. f_equal. apply IH. intros Y. apply N. right. exact Y. }
        rewrite (Dv d0 Nv) in J2, J3 |- *.
        split; [|split].
        * constructor; [|exact J1]. intros Y. apply (J2 v Y). rewrite map_app, in_app_iff. right. left. reflexivity.
        * intros v' [<-|Hv]; [exact Nv|]. intros Y. apply (J2 v' Hv). rewrite map_app, in_app_iff. left. exact Y.
        * rewrite J3. rewrite <- app_assoc. reflexivity. }
  destruct (G pre []) as [_ G2]. rewrite <- Ed in G2. cbn [length] in G2.
  destruct (G2 L) as [N [_ E]]. cbn [app] in E. split; [exact N|].
  assert (C0 : concat (map snd d) = []).
  { rewrite E. clear. induction pre as [|v pre IH]; [reflexivity|]. cbn [map snd concat app]. exact IH. }
  constructor; cbn [s_pre s_edges s_dest s_base s_addr].
  - rewrite E, map_map. cbn [fst]. apply map_id.
  - intros v l Hin. left. rewrite E in Hin. apply in_map_iff in Hin. destruct Hin as [x [X _]]. congruence.
  - rewrite C0. constructor.
  - constructor.
  - split; [reflexivity | intros e []].
  - discriminate.
Qed.

Lemma src_run_inv : forall pre s0 cs, src_new pre = Ok s0 -> src_inv pre (src_run s0 cs).
Proof.
  intros pre s0 cs H. destruct (src_new_inv pre s0 H) as [N V]. unfold src_run. clear H. revert s0 V.
  induction cs as [|c cs IH]; intros s0 V; [exact V|]. cbn [fold_left]. apply IH. apply src_call_inv; assumption.
Qed.

(** * The properties as the user sees them *)
Definition segmented (b : Z) (edges : list edge) (start : edge -> Z) : Prop :=
  (* fill exactly [b, b + total) *)
  (forall x, b <= x < b + total_size edges <-> exists e, In e edges /\ start e <= x < start e + e_size e) /\
  (* no overlap *)
  (forall e e', In e edges -> In e' edges -> e <> e' ->
     start e + e_size e <= start e' \/ start e' + e_size e' <= start e).

Lemma tiles_segmented : forall addr b l edges start,
  tiles addr b l -> Permutation edges l -> NoDup (map e_id edges) -> nonneg edges ->
  (forall e, In e edges -> dget Nat.eqb addr (e_id e) = Some (start e)) ->
  segmented b edges start.
Proof.
  intros addr b l edges start T Q N P S.
  assert (Pl : nonneg l) by (intros e He; apply P; eapply Permutation_in; [apply Permutation_sym; exact Q | exact He]).
  assert (Nl : NoDup (map e_id l)) by (eapply Permutation_NoDup; [apply Permutation_map; exact Q | exact N]).
  assert (IN : forall e, In e edges <-> In e l).
  { intros e. split; apply Permutation_in; [exact Q | apply Permutation_sym; exact Q]. }
  split.
  - intros x. rewrite (total_size_perm _ _ Q). split.
    + intros H. destruct (tiles_cover addr l b x T Pl H) as [e [a [I1 [I2 I3]]]].
      exists e. apply IN in I1. split; [exact I1|]. assert (a = start e) by (rewrite (S e I1) in I2; congruence). subst a. exact I3.
    + intros [e [I1 I2]]. destruct (tiles_In addr l b e T Pl) as [a [A1 [A2 A3]]]; [apply IN; exact I1|].
      assert (a = start e) by (rewrite (S e I1) in A1; congruence). subst a. lia.
  - intros e e' I1 I2 NE. apply (tiles_disjoint addr l b e e'); auto; try (apply IN; assumption).
    intros X. apply NE. clear - N I1 I2 X.
    induction edges as [|y r IH]; [destruct I1|]. cbn [map] in N. inversion N as [|? ? Ny Nr]; subst.
    destruct I1 as [<-|I1], I2 as [<-|I2]; auto.
    + exfalso. apply Ny. rewrite X. apply in_map. exact I2.
    + exfalso. apply Ny. rewrite <- X. apply in_map. exact I1.
Qed.


(** The SDRAM base address of an edge (0 while it has none). *)
Definition addr_of (addr : list (nat * Z)) (e : edge) : Z :=
  match dget Nat.eqb addr (e_id e) with Some a => a | None => 0 end.

Lemma tiles_addr_of : forall addr l b e, tiles addr b l -> In e l ->
  dget Nat.eqb addr (e_id e) = Some (addr_of addr e).
Proof.
  induction l as [|x l IH]; intros b e T H; [destruct H|]. destruct T as [T1 T2]. destruct H as [<-|H].
  - unfold addr_of. rewrite T1. reflexivity.
  - exact (IH _ e T2 H).
Qed.

Lemma src_edge_pre : forall pre s e, NoDup pre -> src_inv pre s -> In e (s_edges s) ->
  dget Nat.eqb (s_pre s) (e_pre e) = Some [e].
Proof.
  intros pre s e N V H. pose proof V as [P O E _ _ _].
  apply (Permutation_in _ E) in H. apply in_concat in H. destruct H as [l [H1 H2]].
  apply in_map_iff in H1. destruct H1 as [[v l'] [X H1]]. cbn [snd] in X. subst l'.
  destruct (O v l H1) as [-> | [e' [-> Q]]]; [destruct H2|]. destruct H2 as [->|[]]. subst v.
  apply (dget_Some_iff _ Nat.eqb_eq); [rewrite P; exact N | exact H1].
Qed.

Lemma source_segments : forall pre s0 cs b, src_new pre = Ok s0 ->
  let s := src_run s0 cs in
  s_base s = Some b -> nonneg (s_edges s) ->
  exists start,
    segmented b (s_edges s) start /\
    (forall e, In e (s_edges s) ->
       dget Nat.eqb (s_addr s) (e_id e) = Some (start e) /\
       src_base_for s (e_pre e) = Ok (start e) /\ src_size_for s (e_pre e) = Ok (e_size e)) /\
    (forall v, In v pre -> exists e, In e (s_edges s) /\ e_pre e = v) /\
    (forall v, ~ In v pre -> src_base_for s v = Ok b /\ src_size_for s v = Ok (total_size (s_edges s))).
Proof.
  intros pre s0 cs b H s Hb P.
  destruct (src_new_inv pre s0 H) as [N _]. pose proof (src_run_inv pre s0 cs H) as V. fold s in V.
  pose proof V as [P1 O E ND _ B]. destruct (B b Hb) as [B1 T].
  exists (addr_of (s_addr s)).
  assert (S : forall e, In e (s_edges s) -> dget Nat.eqb (s_addr s) (e_id e) = Some (addr_of (s_addr s) e)).
  { intros e He. eapply tiles_addr_of; [exact T|]. eapply Permutation_in; [exact E | exact He]. }
  split; [exact (tiles_segmented _ _ _ _ _ T E ND P S)|]. split; [|split].
  - intros e He. split; [exact (S e He)|].
    pose proof (src_edge_pre pre s e N V He) as G. unfold src_base_for, src_size_for.
    rewrite Hb, G, (S e He). split; reflexivity.
  - intros v Hv. rewrite <- P1 in Hv. apply in_map_iff in Hv. destruct Hv as [[v' l] [X Hv]]. cbn [fst] in X. subst v'.
    destruct (O v l Hv) as [-> | [e [-> Q]]]; [exfalso; exact (B1 v [] Hv eq_refl)|].
    exists e. split; [|exact Q]. eapply Permutation_in; [apply Permutation_sym; exact E|].
    apply in_concat. exists [e]. split; [|left; reflexivity]. apply in_map_iff. exists (v, [e]). auto.
  - intros v Hv. rewrite <- P1 in Hv. apply (dget_None _ Nat.eqb_eq) in Hv.
    unfold src_base_for, src_size_for. rewrite Hb, Hv. split; reflexivity.
Qed.

Lemma find_post_In : forall l v e, find_post l v = Some e -> In e l /\ e_post e = v.
Proof.
  induction l as [|x l IH]; intros v e H; cbn [find_post] in H; [discriminate|].
  destruct (Nat.eqb (e_post x) v) eqn:E.
  - injection H as ->. apply Nat.eqb_eq in E. split; [left; reflexivity | exact E].
  - destruct (IH v e H) as [A C]. split; [right; exact A | exact C].
Qed.
Lemma find_post_some : forall l e, In e l -> exists e', find_post l (e_post e) = Some e'.
Proof.
  induction l as [|x l IH]; intros e H; [destruct H|]. cbn [find_post].
  destruct (Nat.eqb (e_post x) (e_post e)) eqn:E; [eauto|].
  destruct H as [->|H]; [rewrite Nat.eqb_refl in E; discriminate|]. exact (IH e H).
Qed.

Lemma destination_segments : forall pre cs b,
  let s := dst_run pre cs in
  d_base s = Some b -> nonneg (d_edges s) ->
  exists start,
    segmented b (d_edges s) start /\
    (forall e, In e (d_edges s) -> dget Nat.eqb (d_addr s) (e_id e) = Some (start e)) /\
    (forall e, In e (d_edges s) -> e_post e <> pre ->
       (forall e', In e' (d_edges s) -> e_post e' = e_post e -> e' = e) ->
       dst_base_for s (e_post e) = Ok (start e) /\ dst_size_for s (e_post e) = Ok (e_size e)) /\
    dst_base_for s pre = Ok b /\ dst_size_for s pre = Ok (total_size (d_edges s)).
Proof.
  intros pre cs b s Hb P. pose proof (dst_run_inv pre cs) as [P1 ND F B]. fold s in P1, ND, F, B.
  pose proof (B b Hb) as T. exists (addr_of (d_addr s)).
  assert (S : forall e, In e (d_edges s) -> dget Nat.eqb (d_addr s) (e_id e) = Some (addr_of (d_addr s) e)).
  { intros e He. eapply tiles_addr_of; [exact T | exact He]. }
  split; [exact (tiles_segmented _ _ _ _ _ T (Permutation_refl _) ND P S)|]. split; [exact S|]. split; [|split].
  - intros e He NE U. destruct (find_post_some _ _ He) as [e' G].
    destruct (find_post_In _ _ _ G) as [G1 G2]. assert (e' = e) by (apply U; assumption). subst e'.
    unfold dst_base_for, dst_size_for. rewrite P1, Hb.
    assert (X : Nat.eqb pre (e_post e) = false) by (apply Nat.eqb_neq; auto). rewrite X, G, (S e He). split; reflexivity.
  - unfold dst_base_for. rewrite P1, Nat.eqb_refl, Hb. reflexivity.
  - unfold dst_size_for. rewrite P1, Nat.eqb_refl. reflexivity.
Qed.

(** * Constant-size *)
Definition con_run (pre : nat) (cs : list call) : con := fold_left con_call cs (con_new pre).

Record con_inv (s : con) : Prop := mkCInv {
  ci_size : forall e, In e (c_edges s) -> c_size s = Some (e_size e);
  ci_base : forall b, c_base s = Some b ->
     forall e, In e (c_edges s) -> dget Nat.eqb (c_addr s) (e_id e) = Some b
}.

Lemma con_addr : forall l (d : list (nat * Z)) (a : Z) e,
  (In (e_id e) (map e_id l) \/ dget Nat.eqb d (e_id e) = Some a) ->
  dget Nat.eqb (fold_left (fun d e => dset Nat.eqb d (e_id e) a) l d) (e_id e) = Some a.
Proof.
  induction l as [|x l IH]; intros d a e H; cbn [fold_left].
  - destruct H as [[]|H]; exact H.
  - apply IH. rewrite (dget_dset _ Nat.eqb_eq). destruct (Nat.eqb (e_id x) (e_id e)) eqn:E; [right; reflexivity|].
    cbn [map In] in H. destruct H as [[H|H]|H]; [apply Nat.eqb_neq in E; contradiction | left; exact H | right; exact H].
Qed.

Lemma con_call_inv : forall s c, con_inv s -> con_inv (con_call s c).
Proof.
  intros s [e|a] V; pose proof V as [Z B]; unfold con_call.
  - unfold con_add. destruct (c_size s) as [z|] eqn:Ez.
    + destruct (z =? e_size e) eqn:Q; [|exact V]. apply Z.eqb_eq in Q. subst z.
      destruct (c_base s) as [b|] eqn:Eb; [exact V|]. destruct (edge_in e (c_edges s)) eqn:Ei; [exact V|].
      destruct (Nat.eqb (e_pre e) (c_pre s)); cbn [fst];
      (constructor; cbn [c_edges c_size c_base c_addr]; [|discriminate];
       intros x Hx; apply in_app_iff in Hx; destruct Hx as [Hx|[<-|[]]]; [exact (Z x Hx) | reflexivity]).
    + assert (NE : c_edges s = []).
      { destruct (c_edges s) as [|x l]; [reflexivity|]. specialize (Z x (or_introl eq_refl)). congruence. }
      cbn [c_base c_edges c_pre c_size c_addr]. rewrite NE. cbn [edge_in existsb app].
      destruct (c_base s) as [b|] eqn:Eb.
      * constructor; cbn [fst c_edges c_size c_base c_addr]; intros; contradiction.
      * destruct (Nat.eqb (e_pre e) (c_pre s)); cbn [fst];
        (constructor; cbn [c_edges c_size c_base c_addr]; [|discriminate];
         intros x [<-|[]]; reflexivity).
  - unfold con_set_base. destruct (c_edges s) as [|e l] eqn:El; cbn [fst]; [exact V|].
    constructor; cbn [c_edges c_size c_base c_addr]; [exact Z|].
    intros b X x Hx. injection X as <-. apply con_addr. left. apply in_map. exact Hx.
Qed.

Lemma con_run_inv : forall pre cs, con_inv (con_run pre cs).
Proof.
  intros pre cs. unfold con_run. assert (I0 : con_inv (con_new pre)) by (constructor; cbn; intros; contradiction).
  revert I0. generalize (con_new pre). induction cs as [|c cs IH]; intros s I0; [exact I0|].
  cbn [fold_left]. apply IH. apply con_call_inv. exact I0.
Qed.

Lemma constant_shared : forall pre cs e, let s := con_run pre cs in In e (c_edges s) ->
  con_total s = Ok (e_size e) /\
  (forall b, c_base s = Some b -> dget Nat.eqb (c_addr s) (e_id e) = Some b).
Proof.
  intros pre cs e s H. destruct (con_run_inv pre cs) as [Z B]. fold s in Z, B. split.
  - unfold con_total. rewrite (Z e H). reflexivity.
  - intros b Hb. exact (B b Hb e H).
Qed.

(** What the segmented partitions refuse leaves them as they were. *)
Lemma src_rejected : forall s e, snd (src_add s e) <> Ok tt -> fst (src_add s e) = s.
Proof.
  intros s e. unfold src_add.
  destruct (negb match s_dest s with [] => true | _ => false end && negb (dmem Nat.eqb (s_dest s) (e_post e)));
    [reflexivity|].
  destruct (dget Nat.eqb (s_pre s) (e_pre e)) as [[|e0 l0]|]; try reflexivity.
  destruct (edge_in e (s_edges s)); [reflexivity|]. cbn [snd]. intros X. exfalso. apply X. reflexivity.
Qed.
Lemma dst_rejected : forall s e, snd (dst_add s e) <> Ok tt -> fst (dst_add s e) = s.
Proof.
  intros s e. unfold dst_add. destruct (d_base s); [reflexivity|].
  destruct (Nat.eqb (d_pre s) (e_pre e)); cbn [negb]; [|reflexivity].
  destruct (edge_in e (d_edges s)); [reflexivity|]. cbn [snd]. intros X. exfalso. apply X. reflexivity.
Qed.

(** ** Which calls are accepted *)

Lemma run_pre : forall pre cs, d_pre (dst_run pre cs) = pre.
Proof. intros. apply (di_pre _ _ (dst_run_inv pre cs)). Qed.

Lemma src_add_iff : forall pre s0 cs e, src_new pre = Ok s0 ->
  let s := src_run s0 cs in
  (snd (src_add s e) = Ok tt <->
     In (e_pre e) pre /\
     forall e', In e' (s_edges s) -> e_pre e' <> e_pre e /\ e_post e' = e_post e /\ e_id e' <> e_id e) /\
  (snd (src_add s e) = Ok tt -> s_edges (fst (src_add s e)) = s_edges s ++ [e]).
Proof.
  intros pre s0 cs e H. cbv zeta. pose proof (src_run_inv pre s0 cs H) as V.
  destruct (src_new_inv pre s0 H) as [Npre _]. set (s := src_run s0 cs) in *.
  pose proof V as [P O E N [D0 D1] B].
  assert (PRE : forall e', In e' (s_edges s) -> dget Nat.eqb (s_pre s) (e_pre e') = Some [e'])
    by (intros e' I'; exact (src_edge_pre pre s e' Npre V I')).
  assert (DEST : negb match s_dest s with [] => true | _ => false end && negb (dmem Nat.eqb (s_dest s) (e_post e)) = false
    <-> forall e', In e' (s_edges s) -> e_post e' = e_post e).
  { destruct (s_edges s) as [|x l] eqn:EE.
    - rewrite (D0 eq_refl). cbn [negb andb]. split; [intros _ e' []|auto].
    - pose proof (D1 x (or_introl eq_refl)) as DX.
      destruct (s_dest s) as [|[v l'] d] eqn:ED; [discriminate|]. cbn [map fst] in DX. injection DX as -> DX.
      destruct d; [|discriminate]. cbn [negb andb dmem existsb fst].
      assert (AL : forall e', In e' (x :: l) -> e_post e' = e_post x).
      { intros e' I'. specialize (D1 e' I'). cbn [map fst] in D1. congruence. }
      unfold dmem. cbn [dget]. destruct (Nat.eqb_spec (e_post x) (e_post e)) as [Q|Q]; cbn [negb].
      + split; [intros _ e' I'; rewrite (AL e' I'); auto|auto].
      + split; [discriminate|]. intros C. exfalso. apply Q. apply (C x). left; auto. }
  unfold src_add.
  destruct (negb match s_dest s with [] => true | _ => false end && negb (dmem Nat.eqb (s_dest s) (e_post e))) eqn:C.
  { split; [|discriminate]. split; [discriminate|]. intros [_ Q]. exfalso.
    assert (true = false) by (apply DEST; intros e' I'; apply (Q e' I')). discriminate. }
  assert (DP : forall e', In e' (s_edges s) -> e_post e' = e_post e) by (apply DEST; auto).
  destruct (dget Nat.eqb (s_pre s) (e_pre e)) as [[|e0 l0]|] eqn:G.
  - destruct (edge_in e (s_edges s)) eqn:Ei.
    + split; [|discriminate]. split; [discriminate|]. intros [_ Q]. exfalso.
      apply edge_in_spec in Ei. apply in_map_iff in Ei. destruct Ei as (e' & X & I').
      destruct (Q e' I') as (_ & _ & Y). contradiction.
    + cbn [snd fst s_edges]. split; [|auto]. split; [intros _|auto]. split.
      * rewrite <- P. apply (dget_In _ Nat.eqb_eq) in G. apply in_map_iff. exists (e_pre e, []). auto.
      * intros e' I'. split; [|split; [auto|]].
        -- intros X. rewrite <- X, (PRE e' I') in G. discriminate.
        -- intros X. assert (edge_in e (s_edges s) = true); [|congruence].
           apply edge_in_spec. rewrite <- X. now apply in_map.
  - split; [|discriminate]. split; [discriminate|]. intros [_ Q]. exfalso.
    apply (dget_In _ Nat.eqb_eq) in G. destruct (O _ _ G) as [X|(e1 & X & Y)]; [discriminate|].
    injection X as -> ->. assert (I1 : In e1 (s_edges s)).
    { apply (Permutation_in _ (Permutation_sym E)). apply in_concat. exists [e1]. split; [|left; auto].
      apply in_map_iff. exists (e_pre e, [e1]). auto. }
    destruct (Q e1 I1) as (Z & _). contradiction.
  - split; [|discriminate]. split; [discriminate|]. intros [I' _]. exfalso.
    apply (dget_None _ Nat.eqb_eq) in G. apply G. rewrite P. exact I'.
Qed.

Lemma src_base_iff : forall pre s0 cs a, src_new pre = Ok s0 ->
  let s := src_run s0 cs in
  (snd (src_set_base s a) = Ok tt <-> forall v, In v pre -> exists e, In e (s_edges s) /\ e_pre e = v) /\
  (snd (src_set_base s a) = Ok tt -> s_base (fst (src_set_base s a)) = Some a /\
     s_edges (fst (src_set_base s a)) = s_edges s) /\
  (snd (src_set_base s a) <> Ok tt -> fst (src_set_base s a) = s).
Proof.
  intros pre s0 cs a H. cbv zeta. pose proof (src_run_inv pre s0 cs H) as V.
  destruct (src_new_inv pre s0 H) as [Npre _]. set (s := src_run s0 cs) in *.
  pose proof V as [P O E N D B].
  assert (LE : length (s_edges s) = length (concat (map snd (s_pre s)))) by now apply Permutation_length.
  destruct (concat_ones (s_pre s) O) as [C1 C2].
  unfold src_set_base. destruct (Nat.eqb_spec (length (s_pre s)) (length (s_edges s))) as [Q|Q]; cbn [negb].
  - assert (NE : forall v l, In (v, l) (s_pre s) -> l <> []) by (apply C2; congruence).
    destruct (src_assign_ok (s_pre s) (s_addr s) a) as (addr & A1 & _).
    { intros v l I. destruct (O v l I) as [-> |(e & -> & _)]; [exfalso; now apply (NE v [])|eauto]. }
    { apply (Permutation_NoDup (l := map e_id (s_edges s))); [apply Permutation_map; exact E|exact N]. }
    rewrite A1. cbn [snd fst s_base s_edges]. split; [|split; [auto|intros X; exfalso; now apply X]].
    split; [intros _|auto]. intros v I. rewrite <- P in I. apply in_map_iff in I.
    destruct I as ([v' l] & X & I). cbn [fst] in X. subst v'.
    destruct (O v l I) as [-> |(e & -> & EV)]; [exfalso; now apply (NE v [])|].
    exists e. split; [|auto]. apply (Permutation_in _ (Permutation_sym E)). apply in_concat.
    exists [e]. split; [|left; auto]. apply in_map_iff. exists (v, [e]). auto.
  - cbn [snd fst]. split; [|split; [discriminate|auto]]. split; [discriminate|]. intros AL. exfalso. apply Q.
    assert (AL' : forall v l, In (v, l) (s_pre s) -> exists e, l = [e]).
    { intros v l I. destruct (O v l I) as [-> |(e & -> & _)]; [exfalso|eauto].
      destruct (AL v) as (e & I1 & I2). { rewrite <- P. apply in_map_iff. exists (v, []). auto. }
      pose proof (src_edge_pre pre s e Npre V I1) as G. rewrite I2 in G.
      assert (G' : dget Nat.eqb (s_pre s) v = Some []).
      { apply (dget_Some_iff _ Nat.eqb_eq); [rewrite P; exact Npre|exact I]. }
      congruence. }
    rewrite LE. clear - AL'. induction (s_pre s) as [|[v l] d IH]; [reflexivity|].
    cbn [map snd concat length]. rewrite app_length. destruct (AL' v l (or_introl eq_refl)) as [e ->].
    cbn [length]. rewrite <- IH; [reflexivity|]. intros v' l' I. apply (AL' v' l'). now right.
Qed.

Lemma dst_add_iff : forall pre cs e, let s := dst_run pre cs in
  (snd (dst_add s e) = Ok tt <->
     d_base s = None /\ e_pre e = pre /\ forall e', In e' (d_edges s) -> e_id e' <> e_id e) /\
  (snd (dst_add s e) = Ok tt -> d_edges (fst (dst_add s e)) = d_edges s ++ [e]).
Proof.
  intros pre cs e. cbv zeta. pose proof (run_pre pre cs) as P. set (s := dst_run pre cs) in *.
  unfold dst_add. destruct (d_base s) as [b|].
  { split; [|discriminate]. split; [discriminate|]. intros [X _]. discriminate. }
  rewrite P. destruct (Nat.eqb_spec pre (e_pre e)) as [Q|Q]; cbn [negb].
  2: { split; [|discriminate]. split; [discriminate|]. intros (_ & X & _). congruence. }
  destruct (edge_in e (d_edges s)) eqn:Ei.
  - split; [|discriminate]. split; [discriminate|]. intros (_ & _ & X). exfalso.
    apply edge_in_spec in Ei. apply in_map_iff in Ei. destruct Ei as (e' & Y & I). now apply (X e').
  - cbn [snd fst d_edges]. split; [|auto]. split; [intros _|auto]. split; [auto|]. split; [auto|].
    intros e' I X. assert (edge_in e (d_edges s) = true); [|congruence].
    apply edge_in_spec. rewrite <- X. now apply in_map.
Qed.

Lemma dst_base_iff : forall s a,
  (snd (dst_set_base s a) = Ok tt <-> d_edges s <> []) /\
  (snd (dst_set_base s a) = Ok tt -> d_base (fst (dst_set_base s a)) = Some a /\
     d_edges (fst (dst_set_base s a)) = d_edges s) /\
  (snd (dst_set_base s a) <> Ok tt -> fst (dst_set_base s a) = s).
Proof.
  intros s a. unfold dst_set_base. destruct (d_edges s) as [|e l] eqn:E; cbn [snd fst d_base d_edges].
  - split; [split; [discriminate|congruence]|]. split; [discriminate|auto].
  - split; [split; [discriminate|auto]|]. split; [auto|]. intros X. exfalso. now apply X.
Qed.

Lemma con_run_pre : forall pre cs, c_pre (con_run pre cs) = pre.
Proof.
  intros pre cs. unfold con_run. assert (I0 : c_pre (con_new pre) = pre) by reflexivity.
  revert I0. generalize (con_new pre). induction cs as [|c cs IH]; intros s I0; [exact I0|].
  cbn [fold_left]. apply IH. destruct c as [e|a]; unfold con_call.
  - unfold con_add. destruct (c_size s) as [z|]; [destruct (z =? e_size e); [|exact I0]|];
      cbn [c_base c_edges c_pre]; destruct (c_base s); cbn [fst c_pre]; auto;
      destruct (edge_in e (c_edges s)); cbn [fst c_pre]; auto;
      destruct (Nat.eqb (e_pre e) (c_pre s)); cbn [fst c_pre]; auto.
  - unfold con_set_base. destruct (c_edges s); exact I0.
Qed.

Lemma con_add_iff : forall pre cs e, let s := con_run pre cs in
  (snd (con_add s e) = Ok tt <->
     c_base s = None /\ e_pre e = pre /\ (forall e', In e' (c_edges s) -> e_id e' <> e_id e) /\
     (forall z, con_total s = Ok z -> z = e_size e)) /\
  (snd (con_add s e) = Ok tt -> c_edges (fst (con_add s e)) = c_edges s ++ [e]).
Proof.
  intros pre cs e. cbv zeta. pose proof (con_run_pre pre cs) as P. set (s := con_run pre cs) in *.
  assert (EI : edge_in e (c_edges s) = false <-> forall e', In e' (c_edges s) -> e_id e' <> e_id e).
  { split.
    - intros Ei e' I X. assert (edge_in e (c_edges s) = true); [|congruence].
      apply edge_in_spec. rewrite <- X. now apply in_map.
    - intros X. destruct (edge_in e (c_edges s)) eqn:Ei; [exfalso|auto].
      apply edge_in_spec in Ei. apply in_map_iff in Ei. destruct Ei as (e' & Y & I). now apply (X e'). }
  unfold con_add, con_total. destruct (c_size s) as [z|].
  - destruct (Z.eqb_spec z (e_size e)) as [Q|Q].
    2: { split; [|discriminate]. split; [discriminate|]. intros (_ & _ & _ & X). exfalso. apply Q. auto. }
    destruct (c_base s) as [b|].
    { split; [|discriminate]. split; [discriminate|]. intros [X _]. discriminate. }
    destruct (edge_in e (c_edges s)) eqn:Ei.
    { split; [|discriminate]. split; [discriminate|]. intros (_ & _ & X & _). apply EI in X. congruence. }
    rewrite P. destruct (Nat.eqb_spec (e_pre e) pre) as [R|R]; cbn [snd fst c_edges].
    + split; [|auto]. split; [intros _|auto]. split; [auto|]. split; [auto|]. split; [now apply EI|].
      intros z' [= <-]. auto.
    + split; [|discriminate]. split; [discriminate|]. intros (_ & X & _). contradiction.
  - cbn [c_base c_edges c_pre]. destruct (c_base s) as [b|].
    { split; [|discriminate]. split; [discriminate|]. intros [X _]. discriminate. }
    destruct (edge_in e (c_edges s)) eqn:Ei.
    { split; [|discriminate]. split; [discriminate|]. intros (_ & _ & X & _). apply EI in X. congruence. }
    rewrite P. destruct (Nat.eqb_spec (e_pre e) pre) as [R|R]; cbn [snd fst c_edges].
    + split; [|auto]. split; [intros _|auto]. split; [auto|]. split; [auto|]. split; [now apply EI|discriminate].
    + split; [|discriminate]. split; [discriminate|]. intros (_ & X & _). contradiction.
Qed.

Lemma con_base_iff : forall s a,
  (snd (con_set_base s a) = Ok tt <-> c_edges s <> []) /\
  (snd (con_set_base s a) = Ok tt -> c_base (fst (con_set_base s a)) = Some a /\
     c_edges (fst (con_set_base s a)) = c_edges s) /\
  (snd (con_set_base s a) <> Ok tt -> fst (con_set_base s a) = s).
Proof.
  intros s a. unfold con_set_base. destruct (c_edges s) as [|e l] eqn:E; cbn [snd fst c_base c_edges].
  - split; [split; [discriminate|congruence]|]. split; [discriminate|auto].
  - split; [split; [discriminate|auto]|]. split; [auto|]. intros X. exfalso. now apply X.
Qed.
