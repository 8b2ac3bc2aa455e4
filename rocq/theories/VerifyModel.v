(** Model of [pair_compressor] and [verify_lengths]
    (pacman/operations/router_compressors/pair_compressor.py 25-60) and of
    [compress_all_tables] (abstract_compressor.py 56-67) for it: the precompressed
    tables and the number of entries of each chip's router are given. *)
From Coq Require Import List Arith NArith ZArith Bool.
From Verif Require Import Base RouteSpec TablesModel PairModel.
Import ListNotations.

(** Lines 45-60. *)
Definition verify_lengths (target : Z -> Z -> nat) (ts : list table) : res unit :=
  if existsb (fun t => Nat.ltb (target (t_x t) (t_y t)) (length (t_entries t))) ts then Err ElementAllocation else Ok tt.

(** Lines 25-42; a new compressor object has no problems yet. *)
Definition pair_compressor (n_routes : nat) (target : Z -> Z -> nat) (as_needed ordered accept_overflow verify c_sort : bool)
    (ts : list table) : res (list table) :=
  let* out := compress_tables (fun t => compress_table ordered c_sort n_routes (t_entries t))
                target as_needed ordered accept_overflow ts [] in
  if verify then let* _ := verify_lengths target out in Ok out else Ok out.
