From Coq Require Import List ZArith NArith Arith Bool Lia.
From Verif Require Import Base Dict TreeModel TagsModel TagsProofs TagsPorts.
Import ListNotations.
Local Open Scope nat_scope.

(** * C37: every request is served as asked; no board gives a tag or port twice *)
Theorem C37_tags : forall m pls s, sound_machine m pls -> basic_tag_allocator m pls = Ok s ->
  (forall pl, In pl pls -> Forall2 (serves_ip m pl) (tp_ip pl) (ips s pl) /\ Forall2 (serves_rev m pl) (tp_rev pl) (revs s pl)) /\
  NoDup (given s pls) /\ NoDup (ports_given s pls).
Proof. exact allocator_sound. Qed.

(** The allocator fails only with the two errors it documents: it never runs out
    of ports. *)
Theorem C37_errors : forall m pls e, sound_machine m pls -> basic_tag_allocator m pls = Err e -> e = NotFound \/ e = InvalidParameter.
Proof. exact allocator_errors. Qed.

(** * C38: IP tags fall back to other boards *)
Theorem C38_fallback : forall m pls pl s r, sound_machine m (pls ++ [pl]) -> basic_tag_allocator m pls = Ok s ->
  tp_ip pl = [r] -> tp_rev pl = [] ->
  ((exists s', basic_tag_allocator m (pls ++ [pl]) = Ok s') <->
   exists c t, In c (tm_eths m) /\ want_ok (iq_tag r) t /\ open_tag m (given s pls) c t) /\
  forall s' x, basic_tag_allocator m (pls ++ [pl]) = Ok s' -> ips s' pl = [x] ->
    ~ In (ipkey x) (given s pls) /\
    ((exists t, want_ok (iq_tag r) t /\ open_tag m (given s pls) (tp_eth pl) t) -> it_board x = tm_addr m (tp_eth pl)).
Proof. exact next_ip. Qed.

Theorem C38_capacity : forall m pls, sound_machine m pls -> (forall pl, In pl pls -> auto_ip pl) ->
  ((exists s, basic_tag_allocator m pls = Ok s) <-> length (flat_map tp_ip pls) <= 7 * length (tm_eths m)).
Proof. exact auto_iff. Qed.

(** * C70: the Tags class grants what it accepted and refuses only conflicts *)
Theorem C70_class : forall calls s oks, run_tagcalls no_tags calls = (s, oks) ->
  let acc := accepted calls oks in
  (forall v, match get_ip_tags s v with
             | Some l => l <> [] /\ Forall2 agrees (ips_of v acc) l
             | None => ips_of v acc = []
             end) /\
  (forall v, get_reverse_ip_tags s v = match revs_of v acc with [] => None | l => Some l end) /\
  (forall t v t' v', In (AddIP t v) acc -> In (AddRev t' v') acc -> ipkey t <> revkey t') /\
  NoDup (flat_map rev_key_l acc) /\ NoDup (flat_map rev_port_l acc).
Proof.
  intros calls s oks E acc. destruct (run_tagcalls_holds calls no_tags [] s oks holds_empty E) as [H _].
  cbn [app] in H. split; [intros v; now apply holds_get_ip|]. split; [exact (h_revv _ _ H)|].
  split; [exact (h_excl _ _ H)|]. split; [exact (h_keys _ _ H)|exact (h_prts _ _ H)].
Qed.

Theorem C70_shared : forall calls s oks v1 l1 x1 v2 l2 x2, run_tagcalls no_tags calls = (s, oks) ->
  get_ip_tags s v1 = Some l1 -> In x1 l1 -> get_ip_tags s v2 = Some l2 -> In x2 l2 ->
  ipkey x1 = ipkey x2 -> x1 = x2.
Proof.
  intros calls s oks v1 l1 x1 v2 l2 x2 E. destruct (run_tagcalls_holds calls no_tags [] s oks holds_empty E) as [H _].
  exact (holds_shared _ _ _ _ _ _ _ _ H).
Qed.

Theorem C70_refuses : forall calls s oks c, run_tagcalls no_tags calls = (s, oks) ->
  (forall e, run_tagcall s c = Err e -> e = InvalidParameter /\ conflict (accepted calls oks) c) /\
  (conflict (accepted calls oks) c -> run_tagcall s c = Err InvalidParameter).
Proof.
  intros calls s oks c E. destruct (run_tagcalls_holds calls no_tags [] s oks holds_empty E) as [H _].
  exact (run_raises _ _ _ H).
Qed.

(** * C71: a reverse tag is only ever given from the own board *)
Theorem C71_own_board : forall m pls pl s r p, sound_machine m (pls ++ [pl]) -> basic_tag_allocator m pls = Ok s ->
  tp_ip pl = [] -> tp_rev pl = [r] -> rq_port r = Some p ->
  ((exists s', basic_tag_allocator m (pls ++ [pl]) = Ok s') <->
   (exists t, want_ok (rq_tag r) t /\ open_tag m (given s pls) (tp_eth pl) t) /\
   ~ In (tm_addr m (tp_eth pl), p) (ports_given s pls)).
Proof. exact next_rev. Qed.

(** Two boards; the first one is used up by seven automatic IP tags. *)
Definition ex_m : tmachine := mkTM [0; 1] (fun c => 100 + c).
Definition ex_ip : ipreq := mkIPReq 5 None true None 0.
Definition ex_full : tplace := mkTPlace 0 (0, 0)%Z 1 0 (repeat ex_ip 7) [].
Definition ex_pl (ip : list ipreq) (rev : list revreq) : tplace := mkTPlace 1 (2, 3)%Z 4 0 ip rev.

Lemma ex_sound : forall ip rev, sound_machine ex_m [ex_full; ex_pl ip rev].
Proof.
  intros. split; [|split].
  - cbn. repeat constructor; cbn; intuition discriminate.
  - intros pl [<-|[<-|[]]]; cbn; auto.
  - cbn. repeat constructor; cbn; intuition discriminate.
Qed.

(** C71 as first stated: a free tag on another board is enough. *)
Theorem C71_reverse_fallback_refuted : exists m pls pl s r p,
  sound_machine m (pls ++ [pl]) /\ basic_tag_allocator m pls = Ok s /\ tp_ip pl = [] /\ tp_rev pl = [r] /\ rq_port r = Some p /\
  (exists c, In c (tm_eths m) /\ forall t, 1 <= t <= 7 -> open_tag m (given s pls) c t) /\ ports_given s pls = [] /\
  basic_tag_allocator m (pls ++ [pl]) = Err InvalidParameter.
Proof.
  exists ex_m, [ex_full], (ex_pl [] [mkRevReq (Some 5000%N) 1 None]).
  destruct (basic_tag_allocator ex_m [ex_full]) as [s|e] eqn:E; [|vm_compute in E; discriminate].
  exists s, (mkRevReq (Some 5000%N) 1 None), 5000%N.
  split; [apply ex_sound|]. split; [reflexivity|]. split; [reflexivity|]. split; [reflexivity|]. split; [reflexivity|].
  vm_compute in E. injection E as <-. split.
  - exists 1. split; [cbn; auto|]. intros t Ht. split; [assumption|]. vm_compute. intuition discriminate.
  - split; vm_compute; reflexivity.
Qed.

(** * C72: an automatic port is one that is free on the board *)
Theorem C72_automatic_port_refuted : exists m pls pl s r,
  sound_machine m (pls ++ [pl]) /\ basic_tag_allocator m pls = Ok s /\ tp_ip pl = [] /\ tp_rev pl = [r] /\
  rq_port r = None /\ rq_tag r = None /\ length (given s pls) = 1 /\ length (ports_given s pls) = 1 /\
  basic_tag_allocator m (pls ++ [pl]) = Err InvalidParameter.
Proof.
  exists ex_m, [mkTPlace 0 (0, 0)%Z 1 0 [] [mkRevReq (Some 17999%N) 1 None]], (ex_pl [] [mkRevReq None 1 None]).
  destruct (basic_tag_allocator ex_m [mkTPlace 0 (0, 0)%Z 1 0 [] [mkRevReq (Some 17999%N) 1 None]]) as [s|e] eqn:E;
    [|vm_compute in E; discriminate].
  exists s, (mkRevReq None 1 None). split.
  { split; [|split]; [cbn; repeat constructor; cbn; intuition discriminate|intros pl [<-|[<-|[]]]; cbn; auto|
      cbn; repeat constructor; cbn; intuition discriminate]. }
  vm_compute in E. injection E as <-. repeat split; vm_compute; reflexivity.
Qed.

(** An automatic port counts down from 17999 with the automatic requests on the board
    before it ([n_auto]).  It is granted exactly if there is a tag and no earlier
    request has that port, and such a request names the port itself. *)
Theorem C72_exact : forall m pls pl s r, sound_machine m (pls ++ [pl]) -> basic_tag_allocator m pls = Ok s ->
  tp_ip pl = [] -> tp_rev pl = [r] -> rq_port r = None ->
  let p := (17999 - N.of_nat (n_auto (tp_eth pl) (rev_reqs pls)))%N in
  ((exists s', basic_tag_allocator m (pls ++ [pl]) = Ok s') <->
   (exists t, want_ok (rq_tag r) t /\ open_tag m (given s pls) (tp_eth pl) t) /\
   ~ In (tm_addr m (tp_eth pl), p) (ports_given s pls)) /\
  (forall s', basic_tag_allocator m (pls ++ [pl]) = Ok s' -> exists x, revs s' pl = [x] /\ rt_port x = Some p) /\
  (In (tm_addr m (tp_eth pl), p) (ports_given s pls) ->
   exists r', In (tp_eth pl, r') (rev_reqs pls) /\ rq_port r' = Some p).
Proof. exact next_auto. Qed.

(** So automatic ports are granted when no port of the range is named on the board. *)
Theorem C72_no_fixed_partial : forall m pls pl s r t, sound_machine m (pls ++ [pl]) -> basic_tag_allocator m pls = Ok s ->
  tp_ip pl = [] -> tp_rev pl = [r] -> rq_port r = None ->
  (forall pl' r' p, In pl' pls -> tp_eth pl' = tp_eth pl -> In r' (tp_rev pl') -> rq_port r' = Some p ->
     (p < 17896 \/ 18000 <= p)%N) ->
  want_ok (rq_tag r) t -> open_tag m (given s pls) (tp_eth pl) t ->
  exists s' x p, basic_tag_allocator m (pls ++ [pl]) = Ok s' /\ revs s' pl = [x] /\ rt_port x = Some p /\
    ~ In (tm_addr m (tp_eth pl), p) (ports_given s pls).
Proof.
  intros m pls pl s r t HS E R1 R2 Rp NF W O. destruct (next_auto m pls pl s r HS E R1 R2 Rp) as (A & B & C). cbn zeta in *.
  pose proof (few_auto m pls s (proj1 (sound_front m pls pl HS)) E (tp_eth pl) (proj2 (sound_front m pls pl HS))) as K.
  assert (NI : ~ In (tm_addr m (tp_eth pl), (17999 - N.of_nat (n_auto (tp_eth pl) (rev_reqs pls)))%N) (ports_given s pls)).
  { intro X. destruct (C X) as (r' & I & P). unfold rev_reqs in I. apply in_flat_map in I. destruct I as (pl' & I1 & I2).
    apply in_map_iff in I2. destruct I2 as (r2 & [= EE ->] & I2).
    pose proof (NF pl' r' _ I1 EE I2 P). lia. }
  destruct (proj2 A) as (s' & S'); [split; [exists t; auto|exact NI]|]. destruct (B s' S') as (x & X1 & X2).
  exists s', x. eexists. split; [exact S'|]. split; [exact X1|]. split; [exact X2|exact NI].
Qed.
Example C72_example : exists s, basic_tag_allocator ex_m
    [mkTPlace 0 (0, 0)%Z 1 0 [] [mkRevReq None 1 None; mkRevReq (Some 5000%N) 1 None]; ex_pl [] [mkRevReq None 1 None]] = Ok s /\
  map rt_port (revs s (ex_pl [] [mkRevReq None 1 None])) = [Some 17998%N].
Proof. eexists. split; vm_compute; reflexivity. Qed.

(** * Examples *)
(** Fixed and automatic requests of both kinds on two boards. *)
Definition ex_mixed : list tplace :=
  [mkTPlace 0 (0, 0)%Z 1 0 [mkIPReq 5 (Some 1234%N) true (Some 3) 0; ex_ip] [mkRevReq (Some 5000%N) 1 None];
   mkTPlace 1 (2, 3)%Z 4 0 [mkIPReq 6 None false (Some 3) 2] [mkRevReq None 2 (Some 1)]].
Example C37_example : exists s, basic_tag_allocator ex_m ex_mixed = Ok s /\
  given s ex_mixed = [(100, 3); (100, 7); (100, 6); (101, 3); (100, 1)] /\
  ports_given s ex_mixed = [(100, 5000%N); (100, 17999%N)].
Proof. eexists. split; [vm_compute; reflexivity|]. split; vm_compute; reflexivity. Qed.
Example C37_sound_example : sound_machine ex_m ex_mixed.
Proof.
  split; [|split].
  - cbn. repeat constructor; cbn; intuition discriminate.
  - intros pl [<-|[<-|[]]]; cbn; auto.
  - cbn. repeat constructor; cbn; intuition discriminate.
Qed.
Example C37_errors_example : basic_tag_allocator ex_m [mkTPlace 0 (0, 0)%Z 1 0 [mkIPReq 5 None true (Some 8) 0] []] = Err NotFound.
Proof. vm_compute. reflexivity. Qed.
(** The own board is full: the lowest tag of the other board. *)
Example C38_example : exists s, basic_tag_allocator ex_m [ex_full; ex_pl [ex_ip] []] = Ok s /\
  map ipkey (ips s (ex_pl [ex_ip] [])) = [(101, 1)].
Proof. eexists. split; vm_compute; reflexivity. Qed.
Example C38_capacity_example : auto_ip ex_full /\ auto_ip (ex_pl (repeat ex_ip 7) []) /\
  (exists s, basic_tag_allocator ex_m [ex_full; ex_pl (repeat ex_ip 7) []] = Ok s) /\
  basic_tag_allocator ex_m [ex_full; ex_pl (repeat ex_ip 8) []] = Err NotFound.
Proof.
  split; [split; [reflexivity|cbn; intuition (subst; reflexivity)]|].
  split; [split; [reflexivity|cbn; intuition (subst; reflexivity)]|].
  split; [eexists|]; vm_compute; reflexivity.
Qed.
(** Two vertices share a tag, the second one sets its port, a third one differs. *)
Definition ex_t (ip : nat) (port : option N) : iptag := mkIPTag 100 2 (0, 0)%Z ip port true 0.
Definition ex_calls : list tagcall :=
  [AddIP (ex_t 5 None) 0; AddIP (ex_t 5 (Some 99%N)) 1; AddIP (ex_t 6 None) 2;
   AddRev (mkRevTag 100 2 (Some 5000%N) (0, 0)%Z 1 1) 3; AddRev (mkRevTag 100 4 (Some 5000%N) (0, 0)%Z 1 1) 3].
Example C70_example : exists s, run_tagcalls no_tags ex_calls = (s, [true; true; false; false; true]) /\
  get_ip_tags s 0 = Some [ex_t 5 (Some 99%N)] /\ get_ip_tags s 1 = Some [ex_t 5 (Some 99%N)] /\ get_ip_tags s 2 = None.
Proof. eexists. split; [vm_compute; reflexivity|]. repeat split; vm_compute; reflexivity. Qed.
Example C71_example : exists s, basic_tag_allocator ex_m [ex_full] = Ok s /\
  length (given s [ex_full]) = 7 /\ basic_tag_allocator ex_m [ex_full; ex_pl [] [mkRevReq (Some 5000%N) 1 None]] = Err InvalidParameter.
Proof. eexists. split; [vm_compute; reflexivity|]. split; vm_compute; reflexivity. Qed.

Print Assumptions C37_tags.
Print Assumptions C37_errors.
Print Assumptions C38_fallback.
Print Assumptions C38_capacity.
Print Assumptions C70_class.
Print Assumptions C70_shared.
Print Assumptions C70_refuses.
Print Assumptions C71_own_board.
Print Assumptions C71_reverse_fallback_refuted.
Print Assumptions C72_automatic_port_refuted.
Print Assumptions C72_exact.
Print Assumptions C72_no_fixed_partial.
