(** Model of the places users fix for vertices and of the rounding of sizes.
    Sources:
    - pacman/model/graphs/abstract_vertex.py 80-112
    - pacman/model/graphs/machine/machine_vertex.py 160-172
    - pacman/model/graphs/common/chip_and_core.py
    - pacman/model/graphs/application/application_vertex.py 169-194
    Simplifications: vertices are numbers; texts of warnings are left out; a
    float is the rational it stands for (infinities and NaN are left out). *)
From Coq Require Import List Arith ZArith QArith Qround Bool.
From Verif Require Import Base Dict.
Import ListNotations.
Local Open Scope Z_scope.

(** * Places *)

(** ChipAndCore (chip_and_core.py 33-42) and its equality (78-81). *)
Record place := mkPlace { pl_x : Z; pl_y : Z; pl_p : option Z }.
Definition opt_eqb (a b : option Z) : bool :=
  match a, b with
  | Some x, Some y => x =? y
  | None, None => true
  | _, _ => false
  end.
Definition place_eqb (a b : place) : bool :=
  (pl_x a =? pl_x b) && (pl_y a =? pl_y b) && opt_eqb (pl_p a) (pl_p b).

(** The attribute [_fixed_location] of the vertices for which it is not None. *)
Definition places : Type := list (nat * place).

(** set_fixed_location (abstract_vertex.py 93-112). *)
Definition set_fixed_location (s : places) (v : nat) (x y : Z) (p : option Z) : res places :=
  let fixed := mkPlace x y p in
  match dget Nat.eqb s v with
  | Some old => if place_eqb fixed old then Ok s else Err ConfigurationException
  | None => Ok (dset Nat.eqb s v fixed)
  end.

Section Owners.
  (** The application vertex of a machine vertex, None for an application vertex
      and for a machine vertex without (machine_vertex.py 43-62). *)
  Variable owner : nat -> option nat.

  (** get_fixed_location (abstract_vertex.py 80-91, machine_vertex.py 160-172). *)
  Definition get_fixed_location (s : places) (v : nat) : option place :=
    match dget Nat.eqb s v with
    | Some l => Some l
    | None => match owner v with
              | Some a => dget Nat.eqb s a
              | None => None
              end
    end.
End Owners.

(** A history of calls; one that raises leaves the vertices as they were. *)
Record call := mkCall { c_vertex : nat; c_place : place }.
Fixpoint run_calls (s : places) (cs : list call) : places * list (res unit) :=
  match cs with
  | [] => (s, [])
  | c :: cs' =>
      match set_fixed_location s (c_vertex c) (pl_x (c_place c)) (pl_y (c_place c)) (pl_p (c_place c)) with
      | Ok s' => let (s2, rs) := run_calls s' cs' in (s2, Ok tt :: rs)
      | Err e => let (s2, rs) := run_calls s cs' in (s2, Err e :: rs)
      end
  end.

(** * Sizes *)

(** "round(q)": to the nearest integer, halves to the even one. *)
Definition round_half_even (q : Q) : Z :=
  let f := Qfloor q in
  let d := (q - inject_Z f)%Q in
  match Qcompare d (1 # 2) with
  | Lt => f
  | Gt => f + 1
  | Eq => if Z.even f then f else f + 1
  end.

(** The double nearest to 0.001. *)
Definition tolerance : Q := 1152921504606847 # 1152921504606846976.

Definition Qlt_bool (a b : Q) : bool :=
  match Qcompare a b with Lt => true | _ => false end.
Definition Qabs_val (q : Q) : Q := if Qlt_bool q 0 then (- q)%Q else q.

Inductive number := PyInt (z : Z) | PyFloat (q : Q).

(** round_n_atoms (application_vertex.py 169-194).  The difference of a float and
    the integer nearest to it is exact. *)
Definition round_n_atoms (n : number) : res Z :=
  match n with
  | PyInt z => Ok z
  | PyFloat q =>
      let temp := round_half_even q in
      if Qlt_bool (Qabs_val (inject_Z temp - q)) tolerance then Ok temp else Err InvalidParameter
  end.
