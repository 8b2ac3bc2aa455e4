(** Model of the ordered covering compressor.
    Source: pacman/operations/router_compressors/
    ordered_covering_router_compressor/ordered_covering.py (lines cited below).

    Python sets of table indices are increasing lists without duplicates; sets of
    key/mask pairs are lists (only ever used to collect into other sets);
    [aliases] is an association list.  [time_to_run_for] is always [None] in the
    one call in the code (line 93) and is left out. *)
From Coq Require Import List Arith NArith ZArith Bool.
From Verif Require Import Base RouteSpec KeyMask DefaultModel.
Import ListNotations.

Definition keymask : Type := (N * N)%type.
Definition km (e : entry) : keymask := (e_key e, e_mask e).
Definition km_eqb (a b : keymask) : bool := (N.eqb (fst a) (fst b) && N.eqb (snd a) (snd b))%bool.

Definition aliases : Type := list (keymask * list keymask).

(** [aliases.get(km, {km})] and [aliases.pop(km, {km})]. *)
Fixpoint alias_get (a : aliases) (k : keymask) : list keymask :=
  match a with
  | [] => [k]
  | (k', v) :: a' => if km_eqb k k' then v else alias_get a' k
  end.
Definition alias_del (a : aliases) (k : keymask) : aliases :=
  filter (fun kv => negb (km_eqb k (fst kv))) a.
Definition alias_set (a : aliases) (k : keymask) (v : list keymask) : aliases :=
  (k, v) :: alias_del a k.

Definition FULL_MASK : N := 0xffffffff.

(** Number of positions below [n] where [f] holds. *)
Fixpoint count_bits (f : N -> bool) (n : nat) : nat :=
  match n with
  | O => O
  | S m => (if f (N.of_nat m) then 1 else 0) + count_bits f m
  end.

(** Lines 196-218: [get_generality]. *)
Definition get_generality (key mask : N) : Z :=
  Z.of_nat (count_bits (fun i => negb (N.testbit key i) && negb (N.testbit mask i)) 32).

(** Lines 221-225. *)
Definition entry_generality (e : entry) : Z := get_generality (e_key e) (e_mask e).

(** [_Merge] (lines 306-364).  The routing table is passed along separately. *)
Record merge := mkMerge {
  mg_entries : list nat;
  mg_key : N;
  mg_mask : N;
  mg_def : bool;
  mg_ins : nat
}.
Definition goodness (m : merge) : Z := Z.of_nat (length (mg_entries m)) - 1.

(** Lines 380-388: the binary search; [pg] is recomputed from [pos]. *)
Fixpoint binary_search (fuel : nat) (t : list entry) (g : Z) (bottom top pos : nat) : res nat :=
  match fuel with
  | O => Err OutOfFuel
  | S f =>
      let* e := aget t pos in
      let pg := entry_generality e in
      if (negb (Z.eqb pg g) && (Nat.ltb bottom pos && Nat.ltb pos top))%bool then
        let '(b, tp) := if Z.ltb pg g then (pos, top) else (bottom, pos) in
        binary_search f t g b tp (b + Nat.div (tp - b) 2)
      else Ok pos
  end.

(** Lines 391-394: the linear search, given the entries from [pos] on. *)
Fixpoint linear_search (t : list entry) (g : Z) (pos : nat) : nat :=
  match t with
  | [] => pos
  | e :: t' => if Z.leb (entry_generality e) g then linear_search t' g (S pos) else pos
  end.

(** Lines 366-396. *)
Definition insertion_index (t : list entry) (generality : Z) : res nat :=
  let g := (generality - 1)%Z in
  let* pos := binary_search (S (length t)) t g 0 (length t) (Nat.div (length t) 2) in
  Ok (linear_search (skipn pos t) g pos).

(** Lines 330-364: [_Merge.__init__]. *)
Definition merge_step (t : list entry) (acc : N * N * N * bool) (i : nat) : res (N * N * N * bool) :=
  let '(any_ones, all_ones, all_selected, d) := acc in
  let* e := aget t i in
  Ok (N.lor any_ones (e_key e), N.land all_ones (e_key e),
      N.land all_selected (e_mask e), (d && e_def e)%bool).

Definition make_merge (t : list entry) (entries : list nat) : res merge :=
  let* acc := foldM (merge_step t) (0%N, FULL_MASK, FULL_MASK, true) entries in
  let '(any_ones, all_ones, all_selected, d) := acc in
  let any_zeros := N.lnot all_ones 32 in
  let new_xs := N.lxor any_ones any_zeros in
  let mask := N.land all_selected new_xs in
  let key := N.land all_ones mask in
  let* ins := insertion_index t (get_generality key mask) in
  Ok (mkMerge entries key mask d ins).

(** Lines 752-777: [_get_covered_keys_and_masks]. *)
Definition get_covered (t : list entry) (a : aliases) (m : merge) : list keymask :=
  flat_map (fun e => filter (fun p => intersect (mg_key m) (mg_mask m) (fst p) (snd p))
                            (alias_get a (km e)))
           (skipn (mg_ins m) t).

(** Lines 650-676: the loop over the covered pairs.  A bit is its position. *)
Definition is_settable (mmask mask : N) (b : N) : bool :=
  (N.testbit mask b && negb (N.testbit mmask b))%bool.

Definition bits32 : list N := map N.of_nat (seq 0 32).

Definition stringency_step (mmask : N) (st : nat * list (N * bool)) (p : keymask)
    : nat * list (N * bool) :=
  let '(most_stringent, bits_and_vals) := st in
  let n_settable := count_bits (is_settable mmask (snd p)) 32 in
  if Nat.leb n_settable most_stringent then
    let '(ms, bv) := if Nat.ltb n_settable most_stringent then (n_settable, [])
                     else (most_stringent, bits_and_vals) in
    (ms, bv ++ map (fun b => (b, negb (N.testbit (fst p) b)))
                   (filter (is_settable mmask (snd p)) bits32))
  else st.

Definition stringency (mmask : N) (covered : list keymask) : nat * list (N * bool) :=
  fold_left (stringency_step mmask) covered (33%nat, []).

(** Line 693: [sorted(bits_and_vals, reverse=True)]: by bit, then True first. *)
Definition bv_eqb (a b : N * bool) : bool :=
  (N.eqb (fst a) (fst b) && Bool.eqb (snd a) (snd b))%bool.
Definition sorted_options (bv : list (N * bool)) : list (N * bool) :=
  filter (fun x => existsb (bv_eqb x) bv)
    (flat_map (fun b => [(b, true); (b, false)]) (rev bits32)).

(** Lines 694-706: [working_remove]. *)
Fixpoint working_remove (t : list entry) (bit : N) (val : bool) (entries : list nat)
    : res (list nat) :=
  match entries with
  | [] => Ok []
  | i :: rest =>
      let* e := aget t i in
      let* w := working_remove t bit val rest in
      if (negb (N.testbit (e_mask e) bit) || Bool.eqb (N.testbit (e_key e) bit) (negb val))%bool
      then Ok (i :: w) else Ok w
  end.

Definition set_minus (a b : list nat) : list nat :=
  filter (fun i => negb (existsb (Nat.eqb i) b)) a.

(** Lines 692-714: the merge is rebuilt inside the loop over the options. *)
Definition option_step (t : list entry) (st : list nat * merge) (o : N * bool)
    : res (list nat * merge) :=
  let '(remove, m) := st in
  let* w := working_remove t (fst o) (snd o) (mg_entries m) in
  let remove' := if (Nat.eqb (length remove) 0 || Nat.ltb (length w) (length remove))%bool
                 then w else remove in
  let* m' := make_merge t (set_minus (mg_entries m) remove') in
  Ok (remove', m').

(** Lines 547-749: [_refine_downcheck]. *)
Fixpoint refine_downcheck (fuel : nat) (t : list entry) (a : aliases) (m : merge) (min_good : Z)
    : res merge :=
  match fuel with
  | O => Err OutOfFuel
  | S f =>
      if Z.ltb min_good (goodness m) then
        let '(ms, bv) := stringency (mg_mask m) (get_covered t a m) in
        if Nat.eqb ms 33 then Ok m
        else if Nat.eqb ms 0 then make_merge t []
        else
          let* st := foldM (option_step t) ([], m) (sorted_options bv) in
          refine_downcheck f t a (snd st) min_good
      else make_merge t []
  end.

(** Lines 498-544: [_refine_upcheck]; [l[a:b]]. *)
Definition slice {A} (l : list A) (a b : nat) : list A := firstn (b - a) (skipn a l).

Fixpoint upcheck_loop (t : list entry) (is : list nat) (m : merge) (min_good : Z) (changed : bool)
    : res (merge * bool) :=
  match is with
  | [] => Ok (m, changed)
  | i :: rest =>
      let* e := aget t i in
      if existsb (fun o => intersect (e_key e) (e_mask e) (e_key o) (e_mask o))
           (slice t (i + 1) (mg_ins m))
      then
        let* m' := make_merge t (set_minus (mg_entries m) [i]) in
        if Z.leb (goodness m') min_good
        then let* z := make_merge t [] in Ok (z, true)
        else upcheck_loop t rest m' min_good true
      else upcheck_loop t rest m min_good changed
  end.
Definition refine_upcheck (t : list entry) (m : merge) (min_good : Z) : res (merge * bool) :=
  upcheck_loop t (rev (mg_entries m)) m min_good false.

(** Lines 460-495: [_refine_merge]. *)
Definition refine_merge (t : list entry) (a : aliases) (m : merge) (min_good : Z) : res merge :=
  let fuel := (2 + length t)%nat in
  let* m1 := refine_downcheck fuel t a m min_good in
  if Z.ltb min_good (goodness m1) then
    let* r := refine_upcheck t m1 min_good in
    let '(m2, changed) := r in
    if (changed && Z.ltb min_good (goodness m2))%bool
    then refine_downcheck fuel t a m2 min_good
    else Ok m2
  else Ok m1.

(** Lines 274-302: [_get_all_merges], as lists of indices. *)
Fixpoint same_route_from (r : N) (j : nat) (t : list entry) : list nat :=
  match t with
  | [] => []
  | e :: t' => if N.eqb r (e_route e) then j :: same_route_from r (S j) t'
               else same_route_from r (S j) t'
  end.

Fixpoint all_merges (considered : list nat) (i : nat) (t : list entry) : list (list nat) :=
  match t with
  | [] => []
  | e :: t' =>
      if existsb (Nat.eqb i) considered then all_merges considered (S i) t'
      else
        let m := i :: same_route_from (e_route e) (S i) t' in
        let rest := all_merges (considered ++ m) (S i) t' in
        if Nat.ltb 1 (length m) then m :: rest else rest
  end.

(** Lines 228-271: [_get_best_merge]. *)
Definition best_step (t : list entry) (a : aliases) (st : merge * Z) (entries : list nat)
    : res (merge * Z) :=
  let '(best, bg) := st in
  let* m := make_merge t entries in
  if Z.leb (goodness m) bg then Ok st
  else
    let* m' := refine_merge t a m bg in
    if Z.ltb bg (goodness m') then Ok (m', goodness m') else Ok st.

Definition get_best_merge (t : list entry) (a : aliases) : res merge :=
  let* empty := make_merge t [] in
  let* r := foldM (best_step t a) (empty, 0%Z) (all_merges [] 0 t) in
  Ok (fst r).

(** Lines 398-457: [_Merge.apply].  The new table is built by appending; its
    length is the preallocated [new_size] (proved). *)
Fixpoint apply_loop (m : merge) (new_entry : entry) (i : nat) (t : list entry)
    (a : aliases) (ours : list keymask) : list entry * aliases * list keymask :=
  match t with
  | [] => ([], a, ours)
  | e :: t' =>
      let here := if Nat.eqb i (mg_ins m) then [new_entry] else [] in
      if negb (existsb (Nat.eqb i) (mg_entries m)) then
        let '(nt, a', o') := apply_loop m new_entry (S i) t' a ours in
        (here ++ e :: nt, a', o')
      else
        let '(nt, a', o') :=
          apply_loop m new_entry (S i) t' (alias_del a (km e)) (ours ++ alias_get a (km e)) in
        (here ++ nt, a', o')
  end.

Definition apply_merge (t : list entry) (a : aliases) (m : merge) : res (list entry * aliases) :=
  match mg_entries m with
  | [] => Err StopIteration
  | i :: _ =>
      let* e := aget t i in
      let new_entry := mkEntry (mg_key m) (mg_mask m) (e_route e) (mg_def m) in
      let '(nt, a', ours) := apply_loop m new_entry 0 t a [] in
      let nt' := if Nat.eqb (mg_ins m) (length t) then nt ++ [new_entry] else nt in
      Ok (nt', alias_set a' (mg_key m, mg_mask m) ours)
  end.

(** Stable sort by generality (line 158, Python's [sorted]). *)
Fixpoint insert_entry (e : entry) (l : list entry) : list entry :=
  match l with
  | [] => [e]
  | x :: l' => if Z.leb (entry_generality e) (entry_generality x) then e :: l
               else x :: insert_entry e l'
  end.
Definition sort_entries (l : list entry) : list entry := fold_right insert_entry [] l.

(** Lines 160-178: the main loop. *)
Definition want_more (target : option nat) (t : list entry) : bool :=
  match target with None => true | Some n => Nat.ltb n (length t) end.

Fixpoint oc_loop (fuel : nat) (t : list entry) (a : aliases) (target : option nat)
    : res (list entry * aliases) :=
  match fuel with
  | O => Err OutOfFuel
  | S f =>
      if want_more target t then
        let* m := get_best_merge t a in
        if Z.leb (goodness m) 0 then Ok (t, a)
        else
          let* r := apply_merge t a m in
          oc_loop f (fst r) (snd r) target
      else Ok (t, a)
  end.

(** Lines 100-193: [ordered_covering]. *)
Definition ordered_covering (table : list entry) (target : option nat) (a : aliases)
    (no_raise : bool) : res (list entry * aliases) :=
  let t := sort_entries table in
  let* r := oc_loop (S (length t)) t a target in
  if (negb no_raise && match target with Some n => Nat.ltb n (length (fst r)) | None => false end)%bool
  then Err MinimisationFailed
  else Ok r.

(** Lines 66-97: [compress_table]; the target comes from the configuration. *)
Definition oc_compress_table (table : list entry) (target : option nat) : res (list entry) :=
  let* r := ordered_covering table target [] true in
  remove_default_routes (fst r) target true.
