(** How the application router fails (C111). *)
From Coq Require Import List ZArith NArith Arith Bool Lia Permutation.
From Verif Require Import Base Dict TreeModel TreeProofs MachModel LdfModel LdfProofs PathModel PathProofs
  RPartModel RPartProofs BfsModel BfsProofs TargetsModel TargetsProofs ConvModel ConvProofs RouterModel RouterProofs RouterTables
  RouterFinal RouterPlan RouterSuccess.
Import ListNotations.
Local Open Scope nat_scope.

(** * Conversions *)
Definition only_clash {A} (x : res A) : Prop := match x with Ok _ => True | Err e => e = InvalidParameter end.

Lemma add_served_errors : forall c p hs ip il l t, ip = None \/ il = None -> only_clash (add_served c t p hs ip il l).
Proof.
  intros c p hs ip il. induction l as [|[w [cores links]] l IH]; intros t IPL; cbn [add_served]; [exact I|].
  assert (M : exists e, make_entry (hs ++ links) cores ip il = Ok e).
  { unfold make_entry. destruct IPL as [-> | ->]; [|destruct ip]; eauto. }
  destruct M as [e M]. rewrite M. cbn [bind].
  pose proof (add_path_entry_spec (cv_env c) t e p w (cv_part c)) as SP.
  destruct (add_path_entry (cv_env c) t e p w (cv_part c)) as [t1|x]; cbn [bind]; [apply IH; exact IPL|]. exact (proj1 SP).
Qed.
Lemma convert_loop_errors : forall fuel c t stack, (forall p, exists l, served c p = Ok l) ->
  (forall v, In v stack -> plain_visit v) -> (forall ip il u, In (ip, il, u) stack -> ip = None \/ il = None) ->
  convert_loop fuel c t stack = Err OutOfFuel \/ only_clash (convert_loop fuel c t stack).
Proof.
  induction fuel as [|fuel IH]; intros c t stack SV P IPL; destruct stack as [|[[ip il] u] stack]; cbn [convert_loop];
    try (right; exact I); [left; reflexivity|].
  pose proof (P _ (or_introl eq_refl)) as PU. unfold plain_visit in PU. cbn [snd] in PU.
  rewrite (scan_plain _ _ _ _ (plain_here u PU)). cbn [bind app]. rewrite app_nil_r.
  destruct (SV (tchip u)) as [l S1]. rewrite S1. cbn [bind].
  pose proof (add_served_errors c (tchip u) (map fst (kids (tchildren u))) ip il l t (IPL _ _ _ (or_introl eq_refl))) as A.
  destruct (add_served c t (tchip u) (map fst (kids (tchildren u))) ip il l) as [t1|e]; cbn [bind]; [|right; exact A].
  assert (PUSH : forall v, In v (map (fun n : option nat * tree => (@None nat, fst n, snd n)) (rev (map (fun n => (Some ((fst n + 3) mod 6), snd n)) (kids (tchildren u))))) ->
     exists d s, In (Some d, Sub s) (tchildren u) /\ v = (None, Some ((d + 3) mod 6), s)).
  { intros v X. apply in_map_iff in X. destruct X as [[a s] [<- X]]. apply in_rev, in_map_iff in X. destruct X as [[d s'] [E X]].
    cbn [fst snd] in *. injection E as <- <-. apply kids_In in X. eauto. }
  apply IH; [exact SV| |].
  - intros v X. apply in_app_iff in X. destruct X as [X|X]; [|apply P; right; exact X].
    apply PUSH in X. destruct X as [d [s [X ->]]]. exact (plain_kid u d s PU X).
  - intros ip' il' u' X. apply in_app_iff in X. destruct X as [X|X]; [|exact (IPL _ _ _ (or_intror X))].
    apply PUSH in X. destruct X as [d [s [_ X]]]. injection X as -> _ _. auto.
Qed.
Lemma convert_errors : forall m c r p t ip il, (forall q, exists l, served c q = Ok l) -> sound_routes m r -> known r p ->
  ip = None \/ il = None -> only_clash (convert_a_route c t ip il (tree_of r p)).
Proof.
  intros m c r p t ip il SV SN K IPL. destruct (tree_of_sound m r p SN K) as [P _].
  pose proof (convert_fuel c t ip il _ P) as F. unfold convert_a_route in *.
  destruct (convert_loop_errors (tree_len (tree_of r p)) c t [(ip, il, tree_of r p)] SV) as [X|X]; [| |congruence|exact X].
  - intros v [<-|[]]; exact P.
  - intros ip' il' u [X|[]]; injection X as <- <- _; exact IPL.
Qed.

(** * One partition *)
Lemma target_routes_errors : forall i a k mp edges r, is_forest (ri_mach i) (fun p => In p edges) r ->
  forall es ts t, incl es edges -> only_clash (foldM (target_routes_step i a k mp r) (ts, t) es).
Proof.
  intros i a k mp edges r F. induction es as [|e es IH]; intros ts t SUB; cbn [foldM]; [exact I|].
  assert (KE : known r e) by (apply (fo_roots _ _ _ F e), SUB; left; reflexivity).
  unfold target_routes_step at 1. rewrite (proj2 (known_dmem r e) KE).
  set (ts' := if dmem xy_eqb ts e then ts else dset xy_eqb ts e (edge_targets mp)).
  pose proof (convert_errors (ri_mach i) (conv_app i a k ts') r e t None None (fun q => served_app (conv_app i a k ts') a q eq_refl)
    (forest_sound _ _ _ F) KE (or_introl eq_refl)) as C. unfold conv_app in C.
  destruct (convert_a_route (mkConv (ri_venv i) (fun b => ri_out i b k) (App a) k (conv_targets ts') false true) t None None (tree_of r e)) as [t'|x];
    cbn [bind]; [|exact C].
  apply IH. intros x X. apply SUB. right. exact X.
Qed.
Lemma vertex_routes_errors : forall i k ts self p r, is_tree (ri_mach i) p r -> forall vs t,
  only_clash (foldM (vertex_route i k ts self (tree_of r p)) t vs).
Proof.
  intros i k ts self p r TR. induction vs as [|x vs IH]; intros t; cbn [foldM]; [exact I|].
  unfold vertex_route at 1.
  pose proof (convert_errors (ri_mach i) (conv_mac i k ts self (fst x)) r p t (core_of (snd x)) (link_of (snd x))
    (fun q => served_plain (conv_mac i k ts self (fst x)) q eq_refl) (tree_sound _ _ _ TR) (tr_root _ _ _ TR)) as C. unfold conv_mac in C.
  destruct (convert_a_route (mkConv (ri_venv i) (fun b => ri_out i b k) (Mac (fst x)) k (if self then conv_targets ts else []) self false) t
    (core_of (snd x)) (link_of (snd x)) (tree_of r p)) as [t'|e]; cbn [bind]; [apply IH|].
  apply C. destruct (snd x); cbn; auto.
Qed.
Definition our_errors (e : exn) : Prop := e = RoutingException \/ e = InvalidParameter.
Lemma source_routes_errors : forall i k src wanted ts self, wanted <> [] -> forall mp t e,
  foldM (source_routes_step i k src wanted ts self) t mp = Err e -> our_errors e.
Proof.
  intros i k src wanted ts self WN. induction mp as [|[p vs] mp IH]; intros t e H; cbn [foldM] in H; [discriminate|].
  unfold source_routes_step at 1 in H.
  destruct (routes_cases (ri_mach i) src p wanted []) as [R|[r R]]; rewrite R in H; cbn [bind] in H; [injection H as <-; left; reflexivity|].
  destruct (route_fresh _ _ _ _ _ WN R) as [TR _]. rewrite (proj2 (known_dmem r p) (tr_root _ _ _ TR)) in H.
  pose proof (vertex_routes_errors i k ts self p r TR vs t) as V.
  destruct (foldM (vertex_route i k ts self (tree_of r p)) t vs) as [t'|x]; cbn [bind] in H.
  - exact (IH t' e H).
  - injection H as <-. right. exact V.
Qed.

(** Somebody asks for packets of the partition, and each target has incoming
    vertices. *)
Record part_asked (i : rinput) (pt : apart) : Prop := mkAsked {
  pa_some : ap_posts pt <> [] \/ exists ip, In ip (internal_of i (ap_pre pt) (ap_id pt)) /\ in_posts ip <> [];
  pa_incoming : forall target, In target (ap_posts pt) -> ri_in i target (ap_pre pt) (ap_id pt) <> [] }.

Lemma partition_errors : forall i pt t e, input_ok i -> part_ok i pt -> part_asked i pt ->
  route_partition i t pt = Err e -> our_errors e.
Proof.
  intros i pt t e IO PO PA H. unfold route_partition in H.
  pose proof (src_mapping i pt IO PO) as SM. pose proof (state_made i pt) as SMD. fold (src_chips i pt) in H.
  destruct (outgoing_mapping i (ap_pre pt) (ap_id pt)) as [|[source ms] mp'] eqn:EM; [discriminate|].
  remember ((source, ms) :: mp') as mp eqn:EMP.
  assert (SS : In source (src_chips i pt)).
  { apply SM. apply (dmem_true _ xy_eqb_eq). rewrite EMP. left. reflexivity. }
  destruct (proj1 (src_chips_In i pt source) SS) as [v0 [V0 E0]].
  destruct (edges_cases i pt v0 mp IO (pa_incoming i pt PA) (ap_posts pt) (mkP [] [] [] false []) (incl_refl _)) as [ES|[s ES]].
  { rewrite E0 in ES. rewrite ES in H. injection H as <-. left. reflexivity. }
  rewrite E0 in ES. rewrite ES in H. cbn [bind] in H. specialize (SMD source ms mp' s IO PO EMP ES).
  assert (WI : with_internal i pt s = match internal_of i (ap_pre pt) (ap_id pt) with [] => s | ips => fold_left (add_internal i) ips (mkP (p_edges s) (p_routes s) (p_targets s) true (p_self_xys s)) end) by reflexivity.
  rewrite <- WI in H. clear WI ES. generalize dependent (with_internal i pt s). clear s. intros s H PS.
  fold (wanted_of s) in H.
  pose proof (ps_routed _ _ _ PS) as RO.
  assert (SX : p_self s = true -> forall q, In q (p_self_xys s) -> wanted_of s <> []).
  { intros S q Q Z. unfold wanted_of in Z. rewrite S in Z. apply app_eq_nil in Z. destruct Z as [_ Z]. rewrite Z in Q. destruct Q. }
  assert (WN : wanted_of s <> []).
  { destruct (pa_some i pt PA) as [X|[ip [I W]]].
    - destruct (ap_posts pt) as [|target posts] eqn:EP; [congruence|].
      assert (T : In target (ap_posts pt)) by (rewrite EP; left; reflexivity).
      pose proof (pa_incoming i pt PA target T) as IN. destruct (ri_in i target (ap_pre pt) (ap_id pt)) as [|x l] eqn:EI; [congruence|].
      assert (Y : In x (ri_in i target (ap_pre pt) (ap_id pt))) by (rewrite EI; left; reflexivity).
      destruct (Nat.eq_dec target (ap_pre pt)) as [Q|Q].
      + rewrite Q in T, Y. apply (SX (proj2 (ps_self _ _ _ PS) (or_introl T)) (chip_of i (fst x))). apply (ps_xys _ _ _ PS). left. eauto.
      + pose proof (ps_away _ _ _ PS target x T Q Y) as K. destruct (fo_reach _ _ _ (ro_forest _ _ _ _ RO) _ K) as [d [E _]].
        intros Z. assert (D : In d (wanted_of s)); [|rewrite Z in D; destruct D].
        unfold wanted_of. destruct (p_self s); [apply in_app_iff; auto | exact E].
    - destruct (in_posts ip) as [|w l] eqn:EP; [congruence|].
      assert (X : In w (in_posts ip)) by (rewrite EP; left; reflexivity).
      apply (SX (proj2 (ps_self _ _ _ PS) (or_intror (fun Z : internal_of i (ap_pre pt) (ap_id pt) = [] => eq_ind _ (fun l => In ip l) I _ Z))) (chip_of i w)).
      apply (ps_xys _ _ _ PS). right. eauto. }
  pose proof (target_routes_errors i (ap_pre pt) (ap_id pt) mp (p_edges s) (p_routes s) (ro_forest _ _ _ _ RO) (ri_order i (p_edges s)) (p_targets s) t) as TR.
  destruct (foldM (target_routes_step i (ap_pre pt) (ap_id pt) mp (p_routes s)) (p_targets s, t) (ri_order i (p_edges s))) as [[ts1 t1]|x]; cbn [bind] in H.
  - exact (source_routes_errors _ _ _ _ _ _ WN _ _ _ H).
  - injection H as <-. right. apply TR. intros q. apply Permutation_in. exact (io_order i IO _).
Qed.

(** * The router *)
Lemma router_errors : forall i vs ps e, graph_ok i vs ps -> (forall pt, routed_part i vs ps pt -> part_asked i pt) ->
  route_application_graph i vs ps = Err e -> our_errors e.
Proof.
  intros i vs ps e [IO ND PO] PA. unfold route_application_graph.
  assert (P : forall pt, In pt (app_partitions i vs ps) -> part_ok i pt /\ part_asked i pt).
  { intros pt X. apply (routed_part_In i vs ps pt ND) in X. auto. }
  assert (G : forall l t, (forall pt, In pt l -> part_ok i pt /\ part_asked i pt) -> foldM (route_partition i) t l = Err e -> our_errors e);
    [|exact (G _ [] P)].
  clear P. induction l as [|pt l IH]; intros t P H; cbn [foldM] in H; [discriminate|].
  destruct (route_partition i t pt) as [t1|x] eqn:R; cbn [bind] in H.
  - exact (IH t1 (fun p X => P p (or_intror X)) H).
  - injection H as <-. destruct (P pt (or_introl eq_refl)) as [P1 P2]. exact (partition_errors i pt t x IO P1 P2 R).
Qed.
Lemma router_whole : forall i vs ps e, graph_ok i vs ps -> (forall pt, routed_part i vs ps pt -> part_whole i pt) ->
  route_application_graph i vs ps = Err e -> e = RoutingException.
Proof.
  intros i vs ps e [IO ND PO] PF. unfold route_application_graph.
  assert (PO' : forall pt, In pt (app_partitions i vs ps) -> part_ok i pt /\ part_whole i pt).
  { intros pt X. apply (routed_part_In i vs ps pt ND) in X. auto. }
  assert (N : NoDup (map pair_of (app_partitions i vs ps))) by exact (proj1 (app_partitions_spec i vs ps ND)).
  assert (G : forall pts done t, (forall pt, In pt (done ++ pts) -> part_ok i pt /\ part_whole i pt) -> NoDup (map pair_of (done ++ pts)) ->
    foldM (route_partition i) [] done = Ok t -> foldM (route_partition i) t pts = Err e -> e = RoutingException).
  { induction pts as [|pt pts IH]; intros done t P D H F; cbn [foldM] in F; [discriminate|].
    assert (IP : In pt (done ++ pt :: pts)) by (apply in_app_iff; right; left; reflexivity).
    destruct (partition_whole i pt t IO (proj1 (P pt IP)) (proj2 (P pt IP))) as [[t1 OT]|[_ [_ [_ [_ OT]]]]].
    - intros w q B.
      assert (S : same_at [] t w (ap_id pt)).
      { assert (PD : forall p, In p done -> part_ok i p) by (intros p X; apply P; apply in_app_iff; auto).
        apply (partitions_frame i done [] t IO PD H). intros p X [B' E].
        rewrite map_app in D. cbn [map] in D. apply NoDup_remove_2 in D. apply D. apply in_app_iff. left.
        unfold pair_of at 1. rewrite E, (belongs_one i _ _ w B B'). apply (in_map pair_of). exact X. }
      destruct (S q) as [X _]. destruct (get_entry t w (ap_id pt) q) as [en|]; [|reflexivity]. exfalso. apply (proj1 X); [discriminate|]. reflexivity.
    - rewrite OT in F. cbn [bind] in F. apply (IH (done ++ [pt]) t1); [| | |exact F].
      + intros p X. apply P. rewrite <- app_assoc in X. exact X.
      + rewrite <- app_assoc. exact D.
      + rewrite foldM_split, H. cbn [bind foldM]. rewrite OT. reflexivity.
    - rewrite OT in F. injection F as <-. reflexivity. }
  exact (G (app_partitions i vs ps) [] [] PO' N eq_refl).
Qed.
