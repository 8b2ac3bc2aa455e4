(** Model of the routing information
    (pacman/model/routing_info/routing_info.py: the class RoutingInfo;
    vertex_routing_info.py 48-69: get_keys).
    Vertices and partition identifiers are numbers and the two kinds of routing
    information are those of AllocModel.  [_info] is a defaultdict(dict): reading
    the entry of an unknown vertex makes an empty one.  The messages of
    exceptions are left out. *)
From Coq Require Import List Arith NArith Bool.
From Verif Require Import Base Dict UtilModel AllocModel.
Import ListNotations.
Local Open Scope nat_scope.

(** Lines 31-35: [_info]. *)
Definition rinfos : Type := list (vertex * list (nat * info)).
Definition no_infos : rinfos := [].

(** "self._info[vertex]". *)
Definition open_vertex (s : rinfos) (v : vertex) : rinfos * list (nat * info) :=
  match dget vertex_eqb s v with
  | Some d => (s, d)
  | None => (dset vertex_eqb s v [], [])
  end.

Inductive icall :=
| AddRoutingInfo (i : info)
| RoutingInfoFromPreVertex (v : vertex) (p : nat)
| GetInfoFrom (v : vertex) (p : nat)
| FirstKeyFromPreVertex (v : vertex) (p : nat)
| GetKeyFrom (v : vertex) (p : nat)
| GetPartitionsFrom (v : vertex)
| HasInfoFrom (v : vertex) (p : nat)
| CheckInfoFrom (v : vertex) (allowed : list nat)
| GetSingleInfoFrom (v : vertex)
| GetSingleKeyFrom (v : vertex)
| IterInfos
| LenInfos.

Inductive ianswer :=
| RNone
| RInfo (i : info)
| RKey (k : N)
| RParts (l : list nat)
| RBool (b : bool)
| RInfos (l : list info)
| RNum (n : nat)
| RRaise (e : exn).

Definition key_of (i : info) : N := km_key (i_km i).

(** Lines 176-192: get_single_info_from. *)
Definition single_info (s : rinfos) (v : vertex) : res (option info) :=
  match dget vertex_eqb s v with
  | None => Ok None
  | Some [(_, i)] => Ok (Some i)
  | Some _ => Err KeyError
  end.

Definition istep (s : rinfos) (c : icall) : rinfos * ianswer :=
  match c with
  | AddRoutingInfo i =>                                      (* 37-51 *)
      if match dget vertex_eqb s (i_vertex i) with Some d => dmem Nat.eqb d (i_part i) | None => false end
      then (s, RRaise AlreadyExists)
      else let '(s', d) := open_vertex s (i_vertex i) in
           (dset vertex_eqb s' (i_vertex i) (dset Nat.eqb d (i_part i) i), RNone)
  | RoutingInfoFromPreVertex v p =>                          (* 53-73 *)
      let '(s', d) := open_vertex s v in
      (s', match dget Nat.eqb d p with Some i => RInfo i | None => RNone end)
  | GetInfoFrom v p =>                                       (* 75-89 *)
      let '(s', d) := open_vertex s v in
      (s', match dget Nat.eqb d p with Some i => RInfo i | None => RRaise KeyError end)
  | FirstKeyFromPreVertex v p =>                             (* 91-116 *)
      (s, match dget vertex_eqb s v with
          | None => RNone
          | Some d => match dget Nat.eqb d p with Some i => RKey (key_of i) | None => RNone end
          end)
  | GetKeyFrom v p =>                                        (* 118-132 *)
      let '(s', d) := open_vertex s v in
      (s', match dget Nat.eqb d p with Some i => RKey (key_of i) | None => RRaise KeyError end)
  | GetPartitionsFrom v =>                                   (* 134-141 *)
      let '(s', d) := open_vertex s v in (s', RParts (map fst d))
  | HasInfoFrom v p =>                                       (* 143-156 *)
      (s, RBool (match dget vertex_eqb s v with Some d => dmem Nat.eqb d p | None => false end))
  | CheckInfoFrom v allowed =>                               (* 158-174 *)
      (s, match dget vertex_eqb s v with
          | None => RNone
          | Some d => if forallb (fun x => existsb (Nat.eqb (fst x)) allowed) d then RNone else RRaise KeyError
          end)
  | GetSingleInfoFrom v =>                                   (* 176-192 *)
      (s, match single_info s v with Ok (Some i) => RInfo i | Ok None => RNone | Err e => RRaise e end)
  | GetSingleKeyFrom v =>                                    (* 194-207 *)
      (s, match single_info s v with Ok (Some i) => RKey (key_of i) | Ok None => RNone | Err e => RRaise e end)
  | IterInfos => (s, RInfos (flat_map (fun x => map snd (snd x)) s))   (* 209-217 *)
  | LenInfos => (s, RNum (length s))                         (* 219-220 *)
  end.

Fixpoint irun (s : rinfos) (cs : list icall) : rinfos * list ianswer :=
  match cs with
  | [] => (s, [])
  | c :: t =>
      let '(s1, a) := istep s c in
      let '(s2, l) := irun s1 t in
      (s2, a :: l)
  end.

(** vertex_routing_info.py 48-69: [get_keys] with its optional number of keys. *)
Definition vertex_keys (k : km) (n : option N) : res (list N) :=
  let max := n_keys (km_mask k) in
  let* n := match n with
            | None => Ok max
            | Some n => if N.ltb max n then Err ConfigurationException else Ok n
            end in
  let* (a, _) := get_keys (km_key k) (km_mask k) (Some (repeat 0%N (N.to_nat n))) 0 (Some n) in
  Ok a.
