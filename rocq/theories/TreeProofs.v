(** Proofs about RoutingTree. *)
From Coq Require Import List ZArith Arith Bool Lia Permutation.
From Verif Require Import Base TreeModel.
Import ListNotations.
Local Open Scope nat_scope.

(** * Induction on trees *)
Definition sub_tree (c : child) : list tree := match c with Sub t => [t] | Vertex _ => [] end.

Lemma tree_ind' : forall (P : tree -> Prop),
  (forall chip l, (forall d t, In (d, Sub t) l -> P t) -> P (Tree chip l)) -> forall t, P t.
Proof.
  intros P H. fix IH 1. intros [chip l]. apply H.
  induction l as [|[d c] l IHl].
  - intros d t [].
  - intros d' t' [E|E]; [|exact (IHl d' t' E)].
    destruct c as [s|v]; [|discriminate].
    injection E as _ <-. apply IH.
Qed.

(** The sub-trees directly under a node with their directions. *)
Definition subs (t : tree) : list (option nat * tree) :=
  flat_map (fun dc => match snd dc with Sub s => [(fst dc, s)] | Vertex _ => [] end) (tchildren t).

(** The nodes [k] hops below, from left to right. *)
Fixpoint nodes_at (k : nat) (dt : option nat * tree) : list (option nat * tree) :=
  match k with
  | 0 => [dt]
  | S k' => flat_map (nodes_at k') (subs (snd dt))
  end.

(** All nodes with their directions, each before the ones below it. *)
Fixpoint preorder (d : option nat) (t : tree) : list (option nat * tree) :=
  (d, t) ::
  match t with
  | Tree _ l =>
      (fix go (l : list (option nat * child)) : list (option nat * tree) :=
         match l with
         | [] => []
         | (d', Sub s) :: r => preorder d' s ++ go r
         | (_, Vertex _) :: r => go r
         end) l
  end.

Lemma preorder_eq : forall d t,
  preorder d t = (d, t) :: flat_map (fun dt => preorder (fst dt) (snd dt)) (subs t).
Proof.
  intros d [chip l]. cbn [preorder]. f_equal. unfold subs. cbn [tchildren].
  induction l as [|[d' [s|v]] l IH]; [reflexivity| |].
  - cbn [flat_map snd fst app]. rewrite IH. reflexivity.
  - cbn [flat_map snd fst app]. exact IH.
Qed.

Fixpoint height (t : tree) : nat :=
  match t with
  | Tree _ l =>
      S ((fix go (l : list (option nat * child)) : nat :=
         match l with
         | [] => 0
         | (_, Sub s) :: r => Nat.max (height s) (go r)
         | (_, Vertex _) :: r => go r
         end) l)
  end.

Lemma height_sub : forall t d s, In (d, s) (subs t) -> height s < height t.
Proof.
  intros [chip l] d s H. unfold subs in H. cbn [tchildren] in H. cbn [height].
  apply Nat.lt_succ_r. induction l as [|[d' [s'|v]] l IH]; cbn [flat_map snd fst app In] in *; [destruct H| |].
  - destruct H as [H|H]; [injection H as _ ->; lia|]. specialize (IH H). lia.
  - exact (IH H).
Qed.

Lemma nodes_at_high : forall k dt, height (snd dt) <= k -> nodes_at k dt = [].
Proof.
  induction k as [|k IH]; intros [d t] H; cbn [snd] in H; [destruct t; cbn in H; lia|].
  cbn [nodes_at snd].
  assert (G : forall l, (forall x, In x l -> nodes_at k x = []) -> flat_map (nodes_at k) l = []).
  { induction l as [|x l IHl]; intros G; [reflexivity|]. cbn [flat_map]. rewrite G by (left; reflexivity).
    apply IHl. intros y Hy. apply G. right. exact Hy. }
  apply G. intros [d' s] Hs. apply IH. cbn [snd]. pose proof (height_sub t d' s Hs). lia.
Qed.

(** * scan_children *)
(** Every sub-tree has a direction. *)
Definition directed (t : tree) : Prop :=
  forall d s, In (d, s) (preorder (Some 0) t) -> d <> None.

Fixpoint dirs (l : list (option nat * child)) (acc : list nat) : list nat :=
  match l with
  | [] => acc
  | (Some n, _) :: r => dirs r (if existsb (Nat.eqb n) acc then acc else acc ++ [n])
  | (None, _) :: r => dirs r acc
  end.

Lemma scan_ok : forall l outs next,
  (forall s, ~ In (None, Sub s) l) ->
  scan_children l outs next =
  Ok (dirs l outs, next ++ flat_map (fun dc => match snd dc with Sub s => [(fst dc, s)] | Vertex _ => [] end) l).
Proof.
  induction l as [|[d c] l IH]; intros outs next H; cbn [scan_children dirs flat_map].
  - rewrite app_nil_r. reflexivity.
  - assert (H' : forall s, ~ In (None, Sub s) l) by (intros s X; apply (H s); right; exact X).
    destruct c as [s|v]; cbn [snd fst].
    + destruct d as [n|]; [|exfalso; apply (H s); left; reflexivity].
      rewrite IH by exact H'. rewrite <- app_assoc. reflexivity.
    + destruct d as [n|]; rewrite IH by exact H'; reflexivity.
Qed.

Lemma existsb_In : forall n l, existsb (Nat.eqb n) l = true <-> In n l.
Proof.
  intros. rewrite existsb_exists. split; [intros [x [A B]]; apply Nat.eqb_eq in B; subst; exact A|].
  intros H. exists n. split; [exact H | apply Nat.eqb_refl].
Qed.

Lemma dirs_spec : forall l acc n, In n (dirs l acc) <-> In n acc \/ exists c, In (Some n, c) l.
Proof.
  induction l as [|[[m|] c] l IH]; intros acc n; cbn [dirs].
  - split; [auto|]. intros [H|[c []]]; exact H.
  - rewrite IH. destruct (existsb (Nat.eqb m) acc) eqn:E.
    + apply existsb_In in E. split.
      * intros [H|[c' H]]; [auto|]. right. exists c'. right. exact H.
      * intros [H|[c' [H|H]]]; [auto | injection H as <- <-; auto | eauto].
    + rewrite in_app_iff. cbn [In]. split.
      * intros [[H|[<-|[]]]|[c' H]]; [auto | right; exists c; left; reflexivity | right; exists c'; right; exact H].
      * intros [H|[c' [H|H]]]; [auto | injection H as <- <-; auto | eauto].
  - rewrite IH. split.
    + intros [H|[c' H]]; [auto|]. right. exists c'. right. exact H.
    + intros [H|[c' [H|H]]]; [auto | discriminate | eauto].
Qed.

Lemma dirs_NoDup : forall l acc, NoDup acc -> NoDup (dirs l acc).
Proof.
  induction l as [|[[m|] c] l IH]; intros acc H; cbn [dirs]; [exact H| |exact (IH acc H)].
  apply IH. destruct (existsb (Nat.eqb m) acc) eqn:E; [exact H|].
  apply (Permutation_NoDup (l := m :: acc)); [apply Permutation_cons_append|]. constructor; [|exact H].
  rewrite <- existsb_In. congruence.
Qed.

(** What traverse reports about a node. *)
Definition report (dt : option nat * tree) : option nat * xy * list nat :=
  (fst dt, tchip (snd dt), dirs (tchildren (snd dt)) []).

(** * Order of the visits *)
(** Number of nodes. *)
Definition n_nodes (t : tree) : nat := length (preorder None t).

Lemma preorder_length : forall t d d', length (preorder d t) = length (preorder d' t).
Proof. intros t d d'. rewrite !preorder_eq. reflexivity. Qed.

Lemma n_nodes_eq : forall t, n_nodes t = S (list_sum (map (fun dt => n_nodes (snd dt)) (subs t))).
Proof.
  intros t. unfold n_nodes. rewrite preorder_eq. cbn [length]. f_equal.
  induction (subs t) as [|[d s] l IH]; [reflexivity|].
  cbn [flat_map map list_sum fst snd fold_right]. rewrite app_length, IH. f_equal. apply preorder_length.
Qed.

Lemma tree_len_eq : forall t, tree_len t = length (iter t).
Proof.
  apply tree_ind'. intros chip l H. cbn [tree_len iter length].
  assert (G : forall l c, (forall d t, In (d, Sub t) l -> tree_len t = length (iter t)) ->
    (fix go (l : list (option nat * child)) (count : nat) : nat :=
         match l with
         | [] => count
         | (_, Sub s) :: r => go r (count + tree_len s)
         | (_, Vertex _) :: r => go r (count + 1)
         end) l c =
    c + length ((fix go (l : list (option nat * child)) : list child :=
         match l with
         | [] => []
         | (_, Sub s) :: r => iter s ++ go r
         | (_, Vertex v) :: r => Vertex v :: go r
         end) l)).
  { clear. induction l as [|[d [s|v]] l IH]; intros c H.
    - cbn [length]. lia.
    - rewrite IH by (intros d' t' X; apply (H d'); right; exact X).
      rewrite app_length, (H d s (or_introl eq_refl)). lia.
    - rewrite IH by (intros d' t' X; apply (H d'); right; exact X). cbn [length]. lia. }
  rewrite (G l 1 H). reflexivity.
Qed.

(** The nodes in iteration order are the nodes of preorder. *)
Lemma iter_nodes : forall t d,
  flat_map sub_tree (iter t) = map snd (preorder d t).
Proof.
  apply (tree_ind' (fun t => forall d, flat_map sub_tree (iter t) = map snd (preorder d t))).
  intros chip l H d. cbn [iter preorder flat_map sub_tree map snd app]. f_equal.
  induction l as [|[d' [s|v]] l IH]; [reflexivity| |].
  - rewrite flat_map_app, map_app. rewrite (H d' s (or_introl eq_refl) d').
    f_equal. apply IH. intros d2 t2 X. apply (H d2). right. exact X.
  - cbn [flat_map sub_tree app]. apply IH. intros d2 t2 X. apply (H d2). right. exact X.
Qed.

Lemma n_nodes_le : forall t, n_nodes t <= tree_len t.
Proof.
  intros t. rewrite tree_len_eq. unfold n_nodes. rewrite <- (map_length snd), <- iter_nodes.
  induction (iter t) as [|[s|v] l IH]; cbn [flat_map sub_tree app length]; lia.
Qed.

(** Breadth-first order of a queue, level by level. *)
Fixpoint bfs (k : nat) (q : list (option nat * tree)) : list (option nat * tree) :=
  match k with
  | 0 => []
  | S k' => q ++ bfs k' (flat_map (fun dt => subs (snd dt)) q)
  end.

Definition size (q : list (option nat * tree)) : nat := list_sum (map (fun dt => n_nodes (snd dt)) q).
Definition hmax (q : list (option nat * tree)) : nat := list_max (map (fun dt => height (snd dt)) q).

Definition dir_ok (q : list (option nat * tree)) : Prop :=
  forall dt, In dt q -> forall d s, In (d, s) (preorder (Some 0) (snd dt)) -> d <> None.

Lemma size_app : forall a b, size (a ++ b) = size a + size b.
Proof. intros. unfold size. rewrite map_app, list_sum_app. reflexivity. Qed.

Lemma sub_None : forall t, (forall d s, In (d, s) (preorder (Some 0) t) -> d <> None) ->
  forall s, ~ In (None, Sub s) (tchildren t).
Proof.
  intros t H s X. apply (H None s); [|reflexivity]. rewrite preorder_eq. right.
  apply in_flat_map. exists (None, s). split.
  - unfold subs. apply in_flat_map. exists (None, Sub s). split; [exact X | left; reflexivity].
  - cbn [fst snd]. rewrite preorder_eq. left. reflexivity.
Qed.

Lemma dir_ok_subs : forall t, (forall d s, In (d, s) (preorder (Some 0) t) -> d <> None) -> dir_ok (subs t).
Proof.
  intros t H [d0 s0] Hs d s X. cbn [snd] in X. rewrite preorder_eq in X.
  destruct X as [X|X]; [injection X as <- <-; discriminate|].
  apply (H d s). rewrite preorder_eq. right. apply in_flat_map. exists (d0, s0). split; [exact Hs|].
  cbn [fst snd]. rewrite preorder_eq. right. exact X.
Qed.

Lemma subs_eq : forall node, subs node =
  flat_map (fun dc => match snd dc with Sub s => [(fst dc, s)] | Vertex _ => [] end) (tchildren node).
Proof. reflexivity. Qed.

Lemma subs_size : forall node, S (size (subs node)) = n_nodes node.
Proof. intros. rewrite n_nodes_eq. reflexivity. Qed.

(** Working off the rest [q1] of a level while the next level [q2] grows. *)
Lemma traverse_level : forall q1 q2 fuel, dir_ok q1 -> dir_ok q2 -> size q1 + size q2 <= fuel ->
  exists fuel', size (flat_map (fun dt => subs (snd dt)) q1) + size q2 <= fuel' /\ fuel' <= fuel - length q1 /\
  traverse_loop fuel (q1 ++ q2) =
  let* l := traverse_loop fuel' (q2 ++ flat_map (fun dt => subs (snd dt)) q1) in
  Ok (map report q1 ++ l).
Proof.
  induction q1 as [|[d t] q1 IH]; intros q2 fuel D1 D2 F.
  - exists fuel. cbn [flat_map app map length]. rewrite app_nil_r. split; [exact F|]. split; [lia|].
    destruct (traverse_loop fuel q2); reflexivity.
  - assert (Dt : forall d0 s, In (d0, s) (preorder (Some 0) t) -> d0 <> None) by (apply (D1 (d, t)); left; reflexivity).
    assert (D1' : dir_ok q1) by (intros x Hx; apply D1; right; exact Hx).
    pose proof (subs_size t) as ST.
    assert (SZ : size ((d, t) :: q1) = n_nodes t + size q1) by reflexivity.
    destruct fuel as [|f]; [lia|].
    destruct (IH (q2 ++ subs t) f) as [f' [A [B C]]].
    { exact D1'. }
    { intros x Hx. apply in_app_iff in Hx. destruct Hx as [Hx|Hx]; [exact (D2 x Hx) | exact (dir_ok_subs t Dt x Hx)]. }
    { rewrite size_app. lia. }
    exists f'. cbn [flat_map snd length]. rewrite size_app in *. split; [lia|]. split; [lia|].
    cbn [app traverse_loop]. rewrite (scan_ok _ _ _ (sub_None t Dt)). cbn [bind fst snd].
    rewrite <- subs_eq, <- app_assoc. rewrite C. rewrite <- app_assoc.
    destruct (traverse_loop f' (q2 ++ subs t ++ flat_map (fun dt => subs (snd dt)) q1)); cbn [bind map]; reflexivity.
Qed.

Lemma hmax_subs : forall q h, hmax q <= S h -> hmax (flat_map (fun dt => subs (snd dt)) q) <= h.
Proof.
  intros q h H. unfold hmax in *. apply list_max_le, Forall_forall. intros n Hn.
  apply in_map_iff in Hn. destruct Hn as [[d s] [<- Hs]]. apply in_flat_map in Hs. destruct Hs as [[d' t] [Ht Hs]].
  cbn [snd] in *. pose proof (height_sub t d s Hs).
  assert (height t <= S h); [|lia]. apply list_max_le in H. rewrite Forall_forall in H. apply H.
  apply in_map_iff. exists (d', t). auto.
Qed.

Lemma height_pos : forall t, 0 < height t.
Proof. intros [c l]. cbn. lia. Qed.

Lemma bfs_nil : forall k, bfs k [] = [].
Proof. induction k as [|k IH]; [reflexivity|]. cbn [bfs flat_map app]. exact IH. Qed.

Lemma traverse_bfs : forall h q fuel, dir_ok q -> size q <= fuel -> hmax q <= h ->
  traverse_loop fuel q = Ok (map report (bfs h q)).
Proof.
  induction h as [|h IH]; intros q fuel D F H.
  - destruct q as [|[d t] q]; [destruct fuel; reflexivity|].
    exfalso. unfold hmax in H. cbn [map list_max fold_right snd] in H. pose proof (height_pos t). lia.
  - destruct (traverse_level q [] fuel D) as [f' [A [B C]]].
    + intros x [].
    + unfold size at 2. cbn. lia.
    + rewrite app_nil_r in C. rewrite C. cbn [app]. rewrite IH.
      * cbn [bind]. rewrite <- map_app. reflexivity.
      * intros [d s] Hs. apply in_flat_map in Hs. destruct Hs as [[d' t] [Ht Hs]]. cbn [snd] in Hs.
        apply (dir_ok_subs t); [|exact Hs]. exact (D (d', t) Ht).
      * unfold size at 2 in A. cbn in A. lia.
      * apply hmax_subs. exact H.
Qed.

(** The levels of the queue are the nodes at each depth. *)
Lemma flat_map_flat_map : forall {A B C} (f : A -> list B) (g : B -> list C) l,
  flat_map g (flat_map f l) = flat_map (fun x => flat_map g (f x)) l.
Proof.
  induction l as [|x l IH]; [reflexivity|]. cbn [flat_map]. rewrite flat_map_app, IH. reflexivity.
Qed.

Lemma bfs_levels : forall h q, bfs h q = flat_map (fun k => flat_map (nodes_at k) q) (seq 0 h).
Proof.
  induction h as [|h IH]; intros q; [reflexivity|]. cbn [bfs seq flat_map]. f_equal.
  - induction q as [|x q IHq]; [reflexivity|]. cbn [flat_map nodes_at app]. f_equal. exact IHq.
  - rewrite IH, <- seq_shift. clear. induction (seq 0 h) as [|k ks IHk]; [reflexivity|].
    cbn [flat_map map]. rewrite IHk. f_equal. rewrite flat_map_flat_map. reflexivity.
Qed.

(** Every node is in exactly one level. *)
Lemma flat_map_perm_cons : forall {A B} (f g : A -> list B) l,
  Permutation (flat_map (fun x => f x ++ g x) l) (flat_map f l ++ flat_map g l).
Proof.
  induction l as [|x l IH]; [constructor|]. cbn [flat_map].
  rewrite <- !app_assoc. apply Permutation_app_head.
  eapply Permutation_trans; [apply Permutation_app_head; exact IH|].
  rewrite !app_assoc. apply Permutation_app_tail. apply Permutation_app_comm.
Qed.

Lemma flat_map_perm : forall {A B} (f g : A -> list B) l, (forall x, In x l -> Permutation (f x) (g x)) ->
  Permutation (flat_map f l) (flat_map g l).
Proof.
  induction l as [|x l IH]; intros H; [constructor|]. cbn [flat_map].
  apply Permutation_app; [apply H; left; reflexivity | apply IH; intros y Hy; apply H; right; exact Hy].
Qed.

Lemma flat_map_swap : forall {A B C} (f : A -> B -> list C) la lb,
  Permutation (flat_map (fun a => flat_map (f a) lb) la) (flat_map (fun b => flat_map (fun a => f a b) la) lb).
Proof.
  induction la as [|a la IH]; intros lb.
  - cbn [flat_map]. assert (E : flat_map (fun _ : B => @nil C) lb = []) by (induction lb; auto). rewrite E. constructor.
  - cbn [flat_map]. eapply Permutation_trans; [apply Permutation_app_head; apply IH|].
    apply Permutation_sym. apply flat_map_perm_cons.
Qed.

Lemma levels_preorder : forall h d t, height t <= h ->
  Permutation (flat_map (fun k => nodes_at k (d, t)) (seq 0 h)) (preorder d t).
Proof.
  induction h as [|h IH]; intros d t H; [pose proof (height_pos t); lia|].
  cbn [seq flat_map nodes_at app]. rewrite preorder_eq. apply perm_skip.
  rewrite <- seq_shift, flat_map_concat_map, map_map, <- flat_map_concat_map.
  cbn [nodes_at snd].
  eapply Permutation_trans; [apply flat_map_swap|].
  apply flat_map_perm. intros [d' s] Hs. cbn [fst snd]. apply IH. pose proof (height_sub t d' s Hs). lia.
Qed.

Lemma traverse_ok : forall t, (forall d s, In (d, s) (preorder (Some 0) t) -> d <> None) ->
  traverse t = Ok (map report (flat_map (fun k => nodes_at k (None, t)) (seq 0 (height t)))).
Proof.
  intros t H. unfold traverse. rewrite (traverse_bfs (height t) [(None, t)] (tree_len t)).
  - rewrite bfs_levels. do 2 f_equal. clear. induction (seq 0 (height t)) as [|k ks IH]; [reflexivity|].
    cbn [flat_map]. rewrite app_nil_r. f_equal. exact IH.
  - intros x [<-|[]]. exact H.
  - unfold size. cbn [map list_sum fold_right snd]. pose proof (n_nodes_le t). lia.
  - unfold hmax. cbn [map list_max fold_right snd]. lia.
Qed.

(** A sub-tree without direction stops the traversal with an error. *)
Lemma scan_err : forall l outs next s, In (None, Sub s) l -> scan_children l outs next = Err AssertionError.
Proof.
  induction l as [|[d c] l IH]; intros outs next s H; [destruct H|]. cbn [scan_children].
  destruct H as [H|H]; [injection H as -> ->; reflexivity|].
  destruct c as [t|v]; [destruct d; [exact (IH _ _ s H) | reflexivity] | exact (IH _ _ s H)].
Qed.

(** When all nodes stand for different chips, no chip is visited twice. *)
Lemma traverse_once : forall t, (forall d s, In (d, s) (preorder (Some 0) t) -> d <> None) ->
  exists l, traverse t = Ok l /\ Permutation l (map report (preorder None t)) /\
    length l = length (flat_map sub_tree (iter t)) /\
    Permutation (map (fun r => snd (fst r)) l) (map tchip (flat_map sub_tree (iter t))).
Proof.
  intros t H. eexists. split; [apply traverse_ok; exact H|].
  assert (P : Permutation (flat_map (fun k => nodes_at k (None, t)) (seq 0 (height t))) (preorder None t))
    by (apply levels_preorder; lia).
  split; [apply Permutation_map; exact P|]. split.
  - rewrite map_length, (Permutation_length P). rewrite (iter_nodes t None), map_length. reflexivity.
  - rewrite map_map. rewrite (iter_nodes t None), map_map. cbn [report fst snd].
    apply (Permutation_map (fun x : option nat * tree => tchip (snd x))). exact P.
Qed.

Lemma traverse_levels : forall t, (forall d s, In (d, s) (preorder (Some 0) t) -> d <> None) ->
  exists l, traverse t = Ok l /\
    Forall2 (fun r dt => fst (fst r) = fst dt /\ snd (fst r) = tchip (snd dt) /\ NoDup (snd r) /\
                         forall n, In n (snd r) <-> exists c, In (Some n, c) (tchildren (snd dt)))
            l (flat_map (fun k => nodes_at k (None, t)) (seq 0 (height t))).
Proof.
  intros t H. eexists. split; [apply traverse_ok; exact H|].
  induction (flat_map (fun k => nodes_at k (None, t)) (seq 0 (height t))) as [|[d s] l IH]; [constructor|].
  cbn [map]. constructor; [|exact IH]. unfold report. cbn [fst snd].
  split; [reflexivity|]. split; [reflexivity|]. split; [apply dirs_NoDup; constructor|].
  intros n. rewrite dirs_spec. cbn [In]. split; [intros [[]|X]; exact X | auto].
Qed.

Lemma levels_complete : forall t,
  Permutation (map snd (flat_map (fun k => nodes_at k (None, t)) (seq 0 (height t)))) (flat_map sub_tree (iter t)).
Proof.
  intros t. rewrite (iter_nodes t None). apply Permutation_map. apply levels_preorder. lia.
Qed.
