(** Model of the routing compression checker.
    Source: pacman/operations/router_compressors/routing_compression_checker.py.
    Report writing (parameter [f]) is left out. *)
From Coq Require Import List Arith NArith Bool.
From Verif Require Import Base RouteSpec.
Import ListNotations.

(** Characters of a codified route: "0", "1" and the wildcard "*" (line 24). *)
Inductive tchar := T0 | T1 | TS.
Definition code := list tchar.

Definition tchar_eqb (a b : tchar) : bool :=
  match a, b with T0, T0 | T1, T1 | TS, TS => true | _, _ => false end.

Fixpoint code_eqb (a b : code) : bool :=
  match a, b with
  | [], [] => true
  | x :: a', y :: b' => (tchar_eqb x y && code_eqb a' b')%bool
  | _, _ => false
  end.

(** Lines 28-56: [codify]; most significant bit first. *)
Definition codify (e : entry) (length : nat) : code :=
  map (fun i => if N.testbit (e_mask e) (N.of_nat i)
                then (if N.testbit (e_key e) (N.of_nat i) then T1 else T0)
                else TS)
      (rev (seq 0 length)).

(** A Python dict of codes: insertion order, assignment to an existing key keeps
    its position. *)
Definition cdict := list (code * entry).
Fixpoint dict_set (d : cdict) (c : code) (e : entry) : cdict :=
  match d with
  | [] => [(c, e)]
  | (c', e') :: d' => if code_eqb c' c then (c', e) :: d' else (c', e') :: dict_set d' c e
  end.

(** Lines 59-72: [codify_table]. *)
Definition codify_table (t : list entry) (length : nat) : cdict :=
  fold_left (fun d e => dict_set d (codify e length) e) t [].

(** Lines 75-89: [covers]. *)
Fixpoint covers_chars (o c : code) : bool :=
  match o, c with
  | x :: o', y :: c' =>
      match x, y with
      | T1, T0 | T0, T1 => false
      | _, _ => covers_chars o' c'
      end
  | _, _ => true
  end.
Definition covers (o c : code) : bool := if code_eqb o c then true else covers_chars o c.

(** Lines 92-109: [calc_remainders]; indexing an empty string is IndexError. *)
Fixpoint calc_remainders (o c : code) : res (list code) :=
  if code_eqb o c then Ok []
  else match o, c with
       | [], _ => Err IndexError
       | x :: o', [] =>
           let* ts := calc_remainders o' [] in
           match x with TS => Err IndexError | _ => Ok (map (cons x) ts) end
       | x :: o', y :: c' =>
           let* ts := calc_remainders o' c' in
           Ok (map (cons x) ts ++
               match x, y with
               | TS, T0 => [T1 :: o']
               | TS, T1 => [T0 :: o']
               | _, _ => []
               end)
       end.

(** Processors and links of a route word. *)
Definition processor_ids (e : entry) : N := N.shiftr (e_route e) 6.
Definition link_ids (e : entry) : N := N.land (e_route e) 63.

Section Compare.
  (** [MulticastRoutingEntry.__eq__] of spinn_machine, used on line 143. *)
  Variable entry_eq : entry -> entry -> bool.

  (** Lines 112-157: [compare_route].  The argument [start] only grows, so the
      model recurses on the part of the dictionary from [start] on. *)
  Fixpoint compare_route (o : entry) (o_code : code) (d : cdict) : res unit :=
    match d with
    | [] => if negb (e_def o) then Err RoutingException else Ok tt
    | (c_code, c) :: rest =>
        if covers o_code c_code then
          if negb (N.eqb (processor_ids o) (processor_ids c)) then Err RoutingException
          else if negb (N.eqb (link_ids o) (link_ids c)) then Err RoutingException
          else if (negb (e_def o) && e_def c)%bool then
            if entry_eq o c then Err RoutingException
            else compare_route o o_code rest
          else
            let* rs := calc_remainders o_code c_code in
            fold_left (fun acc r => let* _ := acc in compare_route o r rest) rs (Ok tt)
        else compare_route o o_code rest
    end.

  (** Lines 160-175: [compare_tables]. *)
  Definition compare_tables (original compressed : list entry) : res unit :=
    let d := codify_table compressed 32 in
    fold_left (fun acc o => let* _ := acc in compare_route o (codify o 32) d) original (Ok tt).
End Compare.
