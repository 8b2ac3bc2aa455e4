(** Model of /repo/pacman/operations/router_compressors/pair_compressor.py
    (_PairCompressor).  The instance attributes [_all_entries], [_routes],
    [_routes_frequency], [_write_index], ... become arguments and results.
    Array indices are [nat]; every index expression of the source is
    non-negative where it is used. *)
From Coq Require Import List Arith NArith ZArith Bool Lia.
From Verif Require Import Base RouteSpec KeyMask.
Import ListNotations.

(** The three parallel attributes [_routes], [_routes_frequency],
    [_routes_count] (lines 163-168). *)
Record hist := mkHist {
  h_routes : list N;
  h_freq : list nat;
  h_count : nat
}.

(** Lines 397-400: the search loop of [_update_frequency].
    [n] is the number of iterations left, [i] the loop variable. *)
Fixpoint find_route (routes : list N) (route : N) (i n : nat) : res (option nat) :=
  match n with
  | O => Ok None
  | S n' =>
      let* r := aget routes i in
      if N.eqb r route then Ok (Some i) else find_route routes route (S i) n'
  end.

(** Lines 392-403: [_update_frequency]. *)
Definition update_frequency (h : hist) (e : entry) : res hist :=
  let route := e_route e in
  let* found := find_route (h_routes h) route 0 (h_count h) in
  match found with
  | Some i =>
      let* f := aget (h_freq h) i in
      let* freq' := aset (h_freq h) i (S f) in
      Ok (mkHist (h_routes h) freq' (h_count h))
  | None =>
      let* routes' := aset (h_routes h) (h_count h) route in
      let* freq' := aset (h_freq h) (h_count h) 1 in
      Ok (mkHist routes' freq' (S (h_count h)))
  end.

(** Lines 225-230: the loop of [_compare_routes]. *)
Fixpoint compare_loop (routes : list N) (a b : N) (i n : nat) : res Z :=
  match n with
  | O => Err ElementAllocation
  | S n' =>
      let* r := aget routes i in
      if N.eqb r a then Ok 1%Z
      else if N.eqb r b then Ok (-1)%Z
      else compare_loop routes a b (S i) n'
  end.

(** Lines 206-230: [_compare_routes]. *)
Definition compare_routes (h : hist) (a b : N) : res Z :=
  if N.eqb a b then Ok 0%Z else compare_loop (h_routes h) a b 0 (h_count h).

(** Lines 183-204: [_compare_entries]. *)
Definition compare_entries (h : hist) (a b : entry) : res Z :=
  compare_routes h (e_route a) (e_route b).

(** Python's [list.sort] with a comparison function: the contract of the
    built-in (a stable sort that only asks whether [cmp(x, y) < 0]) is modelled
    by stable insertion. *)
Fixpoint insertM {A} (cmp : A -> A -> res Z) (x : A) (l : list A) : res (list A) :=
  match l with
  | [] => Ok [x]
  | y :: t =>
      let* c := cmp x y in
      if Z.ltb c 0 then Ok (x :: y :: t)
      else let* t' := insertM cmp x t in Ok (y :: t')
  end.

Fixpoint sortM_acc {A} (cmp : A -> A -> res Z) (acc l : list A) : res (list A) :=
  match l with
  | [] => Ok acc
  | x :: t => let* acc' := insertM cmp x acc in sortM_acc cmp acc' t
  end.

Definition sortM {A} (cmp : A -> A -> res Z) (l : list A) : res (list A) :=
  sortM_acc cmp [] l.

(** Lines 443-447: [zip] the frequencies with the routes, sort by descending
    frequency, and unzip.  Unpacking the result of [zip] over an empty list
    raises [ValueError]. *)
Definition sort_hist (h : hist) : res hist :=
  let pairs := combine (h_freq h) (h_routes h) in
  let* sorted := sortM (fun x y : nat * N =>
      Ok (Z.of_nat (fst y) - Z.of_nat (fst x))%Z) pairs in
  match sorted with
  | [] => Err ValueError
  | _ => Ok (mkHist (map snd sorted) (map fst sorted) (h_count h))
  end.

(** Swap of two array cells, as in lines 249-251 and 255-257. *)
Definition swap {A} (l : list A) (i j : nat) : res (list A) :=
  let* temp := aget l i in
  let* y := aget l j in
  let* l1 := aset l i y in
  aset l1 j temp.

(** Lines 243-261: [_three_way_partition_table]; the result also carries the
    updated array. *)
Fixpoint partition_table (fuel : nat) (h : hist) (arr : list entry) (pivot : N)
    (low check high : nat) : res (list entry * nat * nat) :=
  match fuel with
  | O => Err OutOfFuel
  | S fuel' =>
      if check <=? high then
        let* e := aget arr check in
        let* c := compare_routes h (e_route e) pivot in
        if Z.ltb c 0 then
          let* arr' := swap arr low check in
          partition_table fuel' h arr' pivot (S low) (S check) high
        else if Z.gtb c 0 then
          let* arr' := swap arr high check in
          partition_table fuel' h arr' pivot low check (high - 1)
        else partition_table fuel' h arr pivot low (S check) high
      else Ok (arr, low, check)
  end.

(** Lines 263-273: [_quicksort_table].  [high] is inclusive; Python's [-1] for
    an empty table behaves like [0] in the only test made on it. *)
Fixpoint quicksort_table (fuel : nat) (h : hist) (arr : list entry) (low high : nat)
    : res (list entry) :=
  match fuel with
  | O => Err OutOfFuel
  | S fuel' =>
      if low <? high then
        let* p := aget arr low in
        let* (arr1, lft, rgt) :=
          partition_table (S (S high - low)) h arr (e_route p) low (S low) high in
        let* arr2 := quicksort_table fuel' h arr1 low (lft - 1) in
        quicksort_table fuel' h arr2 rgt high
      else Ok arr
  end.

(** Lines 275-287: [_swap_routes]. *)
Definition swap_routes (h : hist) (i j : nat) : res hist :=
  let* freq' := swap (h_freq h) i j in
  let* routes' := swap (h_routes h) i j in
  Ok (mkHist routes' freq' (h_count h)).

(** Lines 289-313: [_three_way_partition_routes]. *)
Fixpoint partition_routes (fuel : nat) (h : hist) (pivot : nat)
    (low check high : nat) : res (hist * nat * nat) :=
  match fuel with
  | O => Err OutOfFuel
  | S fuel' =>
      if check <=? high then
        let* f := aget (h_freq h) check in
        if pivot <? f then
          let* h' := swap_routes h low check in
          partition_routes fuel' h' pivot (S low) (S check) high
        else if f <? pivot then
          let* h' := swap_routes h high check in
          partition_routes fuel' h' pivot low check (high - 1)
        else partition_routes fuel' h pivot low (S check) high
      else Ok (h, low, check)
  end.

(** Lines 315-325: [_quicksort_routes]. *)
Fixpoint quicksort_routes (fuel : nat) (h : hist) (low high : nat) : res hist :=
  match fuel with
  | O => Err OutOfFuel
  | S fuel' =>
      if low <? high then
        let* p := aget (h_freq h) low in
        let* (h1, lft, rgt) :=
          partition_routes (S (S high - low)) h p low (S low) high in
        let* h2 := quicksort_routes fuel' h1 low (lft - 1) in
        quicksort_routes fuel' h2 rgt high
      else Ok h
  end.

(** Lines 344-349 and 350-355: is the merged key/mask free of intersections
    with the [n] array cells from [lo] on? *)
Fixpoint no_intersect (arr : list entry) (lo n : nat) (mk mm : N) : res bool :=
  match n with
  | O => Ok true
  | S n' =>
      let* e := aget arr lo in
      if intersect (e_key e) (e_mask e) mk mm then Ok false
      else no_intersect arr (S lo) n' mk mm
  end.

(** Lines 327-360: [_find_merge].  [Some arr'] is "merged". *)
Definition find_merge (ordered : bool) (prev rem : nat) (arr : list entry)
    (left index : nat) : res (option (list entry)) :=
  let* l := aget arr left in
  let* r := aget arr index in
  let m_key := merge_key (e_key l) (e_mask l) (e_key r) (e_mask r) in
  let m_mask := merge_mask (e_key l) (e_mask l) (e_key r) (e_mask r) in
  let defaultable := (e_def l && e_def r)%bool in
  let* ok1 := if ordered then Ok true else no_intersect arr 0 prev m_key m_mask in
  if ok1 then
    let* ok2 := no_intersect arr rem (length arr - rem) m_key m_mask in
    if ok2 then
      let* arr' := aset arr left (mkEntry m_key m_mask (e_route l) defaultable) in
      Ok (Some arr')
    else Ok None
  else Ok None.

(** Lines 370-380: the search for a merge partner.  [n] iterations are left. *)
Fixpoint scan_merge (ordered : bool) (prev rem : nat) (arr : list entry)
    (left index n : nat) : res (option (list entry * nat)) :=
  match n with
  | O => Ok None
  | S n' =>
      let* m := find_merge ordered prev rem arr left index in
      match m with
      | Some arr' => Ok (Some (arr', index))
      | None => scan_merge ordered prev rem arr left (S index) n'
      end
  end.

(** Lines 362-390: [_compress_by_route]; returns the array and the new
    [_write_index]. *)
Fixpoint compress_by_route (fuel : nat) (ordered : bool) (prev rem : nat)
    (arr : list entry) (w left right : nat) : res (list entry * nat) :=
  match fuel with
  | O => Err OutOfFuel
  | S fuel' =>
      if left <? right then
        let* m := scan_merge ordered prev rem arr left (S left) (right - left) in
        match m with
        | Some (arr1, index) =>
            let* x := aget arr1 right in
            let* arr2 := aset arr1 index x in
            compress_by_route fuel' ordered prev rem arr2 w left (right - 1)
        | None =>
            let* x := aget arr left in
            let* arr1 := aset arr w x in
            compress_by_route fuel' ordered prev rem arr1 (S w) (S left) right
        end
      else if left =? right then
        let* x := aget arr left in
        let* arr1 := aset arr w x in
        Ok (arr1, S w)
      else Ok (arr, w)
  end.

(** Lines 457-461: the end of the run of entries with the route of [left]. *)
Fixpoint find_right (fuel : nat) (arr : list entry) (left right : nat) : res nat :=
  match fuel with
  | O => Err OutOfFuel
  | S fuel' =>
      if S right <? length arr then
        let* a := aget arr (S right) in
        let* b := aget arr left in
        if N.eqb (e_route a) (e_route b) then find_right fuel' arr left (S right)
        else Ok right
      else Ok right
  end.

(** Lines 456-465: the main loop.  [_previous_index] equals [_write_index] at
    the head of the loop. *)
Fixpoint compress_loop (fuel : nat) (ordered : bool) (arr : list entry)
    (w left : nat) : res (list entry * nat) :=
  match fuel with
  | O => Err OutOfFuel
  | S fuel' =>
      if left <? length arr then
        let* rgt := find_right (S (length arr)) arr left left in
        let* (arr', w') :=
          compress_by_route (S (S rgt - left)) ordered w (S rgt) arr w left rgt in
        compress_loop fuel' ordered arr' w' (S rgt)
      else Ok (arr, w)
  end.

(** Lines 436-449: the two ways to sort. *)
Definition sort_entries (c_sort : bool) (h : hist) (arr : list entry)
    : res (list entry) :=
  if c_sort then
    let* h' := quicksort_routes (S (h_count h)) h 0 (h_count h - 1) in
    quicksort_table (S (length arr)) h' arr 0 (length arr - 1)
  else
    let* h' := sort_hist h in
    sortM (compare_entries h') arr.

(** Lines 405-467: [compress_table].  [n_routes] is
    [chip.router.n_available_multicast_entries]. *)
Definition compress_table (ordered c_sort : bool) (n_routes : nat)
    (table : list entry) : res (list entry) :=
  let h0 := mkHist (repeat 0%N n_routes) (repeat 0 n_routes) 0 in
  let* h := foldM update_frequency h0 table in
  let* arr := sort_entries c_sort h table in
  let* (arr', w) := compress_loop (S (length arr)) ordered arr 0 0 in
  Ok (firstn w arr').
