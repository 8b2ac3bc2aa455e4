(** Model of class Tags (pacman/model/tags/tags.py 25-193) and of the basic tag
    allocator (pacman/operations/tag_allocator_algorithms/basic_tag_allocator.py).
    Board addresses, IP addresses, traffic identifiers, vertices and Ethernet
    chips are numbers. IPTag objects can be shared by vertices and their port can
    change, so they live in a heap. *)
From Coq Require Import List NArith Arith Bool.
From Verif Require Import Base Dict TreeModel.
Import ListNotations.
Local Open Scope nat_scope.

(** IPTag and ReverseIPTag of spinn_machine. *)
Record iptag := mkIPTag {
  it_board : nat; it_tag : nat; it_dest : xy; it_ip : nat; it_port : option N; it_strip : bool; it_traffic : nat }.
Record revtag := mkRevTag {
  rt_board : nat; rt_tag : nat; rt_port : option N; rt_dest : xy; rt_proc : nat; rt_sdp : nat }.

Definition bt_eqb (a b : nat * nat) : bool := Nat.eqb (fst a) (fst b) && Nat.eqb (snd a) (snd b).

Definition bp_eqb (a b : nat * N) : bool := Nat.eqb (fst a) (fst b) && N.eqb (snd a) (snd b).

Record tags := mkTags {
  tg_heap : list iptag;
  tg_ip : list ((nat * nat) * nat);          (* _ip_tags *)
  tg_rev : list ((nat * nat) * revtag);      (* _reverse_ip_tags *)
  tg_ip_v : list (nat * list nat);           (* _ip_tags_by_vertex *)
  tg_rev_v : list (nat * list revtag);       (* _reverse_ip_tags_by_vertex *)
  tg_ports : list (nat * N) }.             (* _ports_assigned *)
Definition no_tags : tags := mkTags [] [] [] [] [] [].

(** utility_calls.is_equal_or_none (63-70). *)
Definition is_equal_or_none (a b : option N) : bool :=
  match a, b with Some x, Some y => N.eqb x y | _, _ => true end.

Definition dappend {V} (d : list (nat * list V)) (k : nat) (v : V) : list (nat * list V) :=
  dset Nat.eqb d k (match dget Nat.eqb d k with Some l => l | None => [] end ++ [v]).
Definition with_port (t : iptag) (p : option N) : iptag :=
  mkIPTag (it_board t) (it_tag t) (it_dest t) (it_ip t) p (it_strip t) (it_traffic t).

(** add_ip_tag (60-102). *)
Definition add_ip_tag (s : tags) (t : iptag) (vertex : nat) : res tags :=
  let key := (it_board t, it_tag t) in
  let existing := match dget bt_eqb (tg_ip s) key with
                  | Some a => match nth_error (tg_heap s) a with Some x => Some (a, x) | None => None end
                  | None => None
                  end in
  let differs := match existing with
                 | Some (_, x) => negb (Nat.eqb (it_ip x) (it_ip t)) || negb (is_equal_or_none (it_port x) (it_port t)) ||
                                  negb (Bool.eqb (it_strip x) (it_strip t))
                 | None => false
                 end in
  if differs then Err InvalidParameter
  else if dmem bt_eqb (tg_rev s) key then Err InvalidParameter
  else match existing with
       | None =>
           let a := length (tg_heap s) in
           Ok (mkTags (tg_heap s ++ [t]) (dset bt_eqb (tg_ip s) key a) (tg_rev s) (dappend (tg_ip_v s) vertex a) (tg_rev_v s) (tg_ports s))
       | Some (a, x) =>
           let x' := match it_port x, it_port t with None, Some p => with_port x (Some p) | _, _ => x end in
           Ok (mkTags (upd (tg_heap s) a x') (tg_ip s) (tg_rev s) (dappend (tg_ip_v s) vertex a) (tg_rev_v s) (tg_ports s))
       end.

(** add_reverse_ip_tag (104-141). *)
Definition add_reverse_ip_tag (s : tags) (t : revtag) (vertex : nat) : res tags :=
  let key := (rt_board t, rt_tag t) in
  if dmem bt_eqb (tg_ip s) key || dmem bt_eqb (tg_rev s) key then Err InvalidParameter
  else if match rt_port t with Some p => existsb (bp_eqb (rt_board t, p)) (tg_ports s) | None => false end then Err InvalidParameter
  else Ok (mkTags (tg_heap s) (tg_ip s) (dset bt_eqb (tg_rev s) key t) (tg_ip_v s) (dappend (tg_rev_v s) vertex t)
             (match rt_port t with Some p => tg_ports s ++ [(rt_board t, p)] | None => tg_ports s end)).

(** get_ip_tags_for_vertex (172-181) and get_reverse_ip_tags_for_vertex (183-193). *)
Definition get_ip_tags (s : tags) (vertex : nat) : option (list iptag) :=
  match dget Nat.eqb (tg_ip_v s) vertex with
  | Some l => Some (flat_map (fun a => match nth_error (tg_heap s) a with Some t => [t] | None => [] end) l)
  | None => None
  end.
Definition get_reverse_ip_tags (s : tags) (vertex : nat) : option (list revtag) := dget Nat.eqb (tg_rev_v s) vertex.

(** Calls on a Tags object; a call that raises leaves it as it is. *)
Inductive tagcall := AddIP (t : iptag) (v : nat) | AddRev (t : revtag) (v : nat).
Definition run_tagcall (s : tags) (c : tagcall) : res tags :=
  match c with AddIP t v => add_ip_tag s t v | AddRev t v => add_reverse_ip_tag s t v end.
Fixpoint run_tagcalls (s : tags) (calls : list tagcall) : tags * list bool :=
  match calls with
  | [] => (s, [])
  | c :: rest =>
      match run_tagcall s c with
      | Ok s' => let '(s'', oks) := run_tagcalls s' rest in (s'', true :: oks)
      | Err _ => let '(s'', oks) := run_tagcalls s rest in (s'', false :: oks)
      end
  end.

(** * The allocator *)
(** IPtagResource and ReverseIPtagResource. *)
Record ipreq := mkIPReq { iq_ip : nat; iq_port : option N; iq_strip : bool; iq_tag : option nat; iq_traffic : nat }.
Record revreq := mkRevReq { rq_port : option N; rq_sdp : nat; rq_tag : option nat }.
(** A placement with the tag requests of its vertex and the nearest Ethernet chip. *)
Record tplace := mkTPlace {
  tp_vertex : nat; tp_xy : xy; tp_proc : nat; tp_eth : nat; tp_ip : list ipreq; tp_rev : list revreq }.
(** The Ethernet chips, in the order of the machine, and their IP addresses; a
    chip without address (which fails an assertion) is not modelled. *)
Record tmachine := mkTM { tm_eths : list nat; tm_addr : nat -> nat }.

(** _CHIP_TAGS and _BOARD_PORTS (27-31). *)
Definition chip_tags : list nat := seq 1 7.
Definition board_ports : list N := map (fun i => 17896 + N.of_nat i)%N (seq 0 104).

Definition avail {A} (all : list A) (d : list (nat * list A)) (c : nat) : list A :=
  match dget Nat.eqb d c with Some l => l | None => all end.
(** list.remove: the first occurrence. *)
Fixpoint remove1 (x : nat) (l : list nat) : list nat :=
  match l with
  | [] => []
  | y :: r => if Nat.eqb x y then r else y :: remove1 x r
  end.

(** __find_tag_chip (105-112). *)
Fixpoint find_tag_chip (eths : list nat) (d : list (nat * list nat)) (tag : nat) : res (nat * list (nat * list nat)) :=
  match eths with
  | [] => Err NotFound
  | c :: rest =>
      let l := avail chip_tags d c in
      if existsb (Nat.eqb tag) l then Ok (c, dset Nat.eqb d c (remove1 tag l)) else find_tag_chip rest d tag
  end.
(** __find_free_tag (115-122). *)
Fixpoint find_free_tag (eths : list nat) (d : list (nat * list nat)) : res (nat * nat * list (nat * list nat)) :=
  match eths with
  | [] => Err NotFound
  | c :: rest =>
      match avail chip_tags d c with
      | tag :: l => Ok (c, tag, dset Nat.eqb d c l)
      | [] => find_free_tag rest d
      end
  end.
(** __get_chip_and_tag (86-102). *)
Definition get_chip_and_tag (m : tmachine) (d : list (nat * list nat)) (want : option nat) (eth : nat)
  : res (nat * nat * list (nat * list nat)) :=
  let l := avail chip_tags d eth in
  match want with
  | Some tag =>
      if existsb (Nat.eqb tag) l then Ok (eth, tag, dset Nat.eqb d eth (remove1 tag l))
      else let* (c, d') := find_tag_chip (tm_eths m) d tag in Ok (c, tag, d')
  | None =>
      match l with
      | [] => find_free_tag (tm_eths m) d
      | _ => Ok (eth, last l 0, dset Nat.eqb d eth (removelast l))
      end
  end.
(** __get_port (147-152). *)
Definition get_port (ports : list (nat * list N)) (want : option N) (eth : nat) : res (N * list (nat * list N)) :=
  match want with
  | Some p => Ok (p, ports)
  | None =>
      match avail board_ports ports eth with
      | [] => Err IndexError
      | l => Ok (last l 0%N, dset Nat.eqb ports eth (removelast l))
      end
  end.

Record astate := mkA { a_free : list (nat * list nat); a_ports : list (nat * list N); a_tags : tags }.

(** One IP tag request (68-73): __create_tag uses the address of the chip that had
    the tag. *)
Definition alloc_ip (m : tmachine) (pl : tplace) (s : astate) (r : ipreq) : res astate :=
  let* (ct, free') := get_chip_and_tag m (a_free s) (iq_tag r) (tp_eth pl) in
  let t := mkIPTag (tm_addr m (fst ct)) (snd ct) (tp_xy pl) (iq_ip r) (iq_port r) (iq_strip r) (iq_traffic r) in
  let* tg := add_ip_tag (a_tags s) t (tp_vertex pl) in
  Ok (mkA free' (a_ports s) tg).
(** One reverse IP tag request (74-81): __create_reverse_tag uses the address of
    the Ethernet chip nearest to the placement. *)
Definition alloc_rev (m : tmachine) (pl : tplace) (s : astate) (r : revreq) : res astate :=
  let* (ct, free') := get_chip_and_tag m (a_free s) (rq_tag r) (tp_eth pl) in
  let* (port, ports') := get_port (a_ports s) (rq_port r) (tp_eth pl) in
  let t := mkRevTag (tm_addr m (tp_eth pl)) (snd ct) (Some port) (tp_xy pl) (tp_proc pl) (rq_sdp r) in
  let* tg := add_reverse_ip_tag (a_tags s) t (tp_vertex pl) in
  Ok (mkA free' ports' tg).
Definition alloc_place (m : tmachine) (s : astate) (pl : tplace) : res astate :=
  let* s' := foldM (alloc_ip m pl) s (tp_ip pl) in
  foldM (alloc_rev m pl) s' (tp_rev pl).
(** basic_tag_allocator (34-83). *)
Definition basic_tag_allocator (m : tmachine) (pls : list tplace) : res tags :=
  let* s := foldM (alloc_place m) (mkA [] [] no_tags) pls in
  Ok (a_tags s).
