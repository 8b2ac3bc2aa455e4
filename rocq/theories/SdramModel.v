(** Model of SDRAM costs (pacman/model/resources/constant_sdram.py,
    variable_sdram.py, shared_sdram.py, multi_region_sdram.py) and of the chip
    counter (pacman/utilities/utility_objs/chip_counter.py).

    The per-timestep cost is a float in the code; here it is a rational number,
    so additions are exact.  Values are immutable here; the mutation of
    MultiRegionSDRAM objects is modelled in RegionModel.v.  Labels of shared
    SDRAM are numbers. *)
From Coq Require Import List ZArith QArith Qround Bool.
From Verif Require Import Base Dict.
Import ListNotations.
Local Open Scope Z_scope.

(** ConstantSDRAM, VariableSDRAM, SharedSDRAM(shared, per_core) and
    MultiRegionSDRAM (only its "_total" matters for these operations). *)
Inductive sdram :=
| Const (z : Z)
| Var (f : Z) (p : Q)
| Shared (sh : list (nat * sdram)) (core : sdram)
| Multi (t : sdram).

(** get_total_sdram (constant_sdram.py 38-40, variable_sdram.py 56-64,
    shared_sdram.py 67-72, multi_region_sdram.py 140-147). *)
Fixpoint total (t : option Z) (s : sdram) {struct s} : res Z :=
  match s with
  | Const z => Ok z
  | Var f p =>
      match t with
      | Some n => Ok (Qceiling (inject_Z f + p * inject_Z n))
      | None => if Qeq_bool p 0 then Ok f else Err ConfigurationException
      end
  | Shared sh core =>
      let* running := total t core in
      (fix go l acc :=
         match l with
         | [] => Ok acc
         | (_, x) :: l' => let* y := total t x in go l' (acc + y)
         end) sh running
  | Multi u => total t u
  end.

(** fixed (constant_sdram.py 42-45, variable_sdram.py 66-69, shared_sdram.py
    74-80, multi_region_sdram.py 163-168). *)
Fixpoint fixed (s : sdram) : Z :=
  match s with
  | Const z => z
  | Var f _ => f
  | Shared sh core => fold_left (fun acc kx => acc + fixed (snd kx)) sh (fixed core)
  | Multi t => fixed t
  end.

(** per_timestep (constant_sdram.py 47-50, variable_sdram.py 71-74,
    shared_sdram.py 82-88, multi_region_sdram.py 170-178). *)
Fixpoint per_timestep (s : sdram) : Q :=
  match s with
  | Const _ => 0%Q
  | Var _ p => p
  | Shared sh core => fold_left (fun acc kx => Qplus acc (per_timestep (snd kx))) sh (per_timestep core)
  | Multi t => per_timestep t
  end.

(** "a == b": a.__eq__(b) (constant_sdram.py 52-55, variable_sdram.py 76-88,
    shared_sdram.py 90-96, multi_region_sdram.py 149-152).  Two dicts are equal
    when they have the same length and each key of the first is in the second
    with an equal value. *)
Fixpoint eq (a b : sdram) {struct a} : bool :=
  match a, b with
  | Const x, Const y => x =? y
  | Const _, _ => false
  | Var f p, Var g q => (f =? g) && Qeq_bool q p
  | Var f p, Const y => Qeq_bool p 0 && (y =? f)
  | Var _ _, _ => false
  | Shared sh c, Shared sh' c' =>
      eq c c' && (Nat.eqb (length sh) (length sh') &&
      (fix go l :=
         match l with
         | [] => true
         | (k, x) :: l' =>
             match dget Nat.eqb sh' k with
             | Some y => eq x y && go l'
             | None => false
             end
         end) sh)
  | Shared _ _, _ => false
  | Multi t, Multi t' => eq t t'
  | Multi t, _ => eq t b
  end.

(** The loop of SharedSDRAM.__add__ (shared_sdram.py 103-110). *)
Fixpoint merge_shared (shared other : list (nat * sdram)) : res (list (nat * sdram)) :=
  match other with
  | [] => Ok shared
  | (k, v) :: rest =>
      match dget Nat.eqb shared k with
      | Some w => if eq v w then merge_shared shared rest else Err ConfigurationException
      | None => merge_shared (dset Nat.eqb shared k v) rest
      end
  end.

(** "a + b": a.__add__(b) (constant_sdram.py 57-63, variable_sdram.py 90-100,
    shared_sdram.py 98-114, multi_region_sdram.py 154-161). *)
Fixpoint add_fuel (fuel : nat) (a b : sdram) : res sdram :=
  match fuel with
  | O => Err OutOfFuel
  | S n =>
      match a, b with
      | Const x, Const y => Ok (Const (x + y))
      | Const _, _ => add_fuel n b a
      | Var f p, Const y => Ok (Var (f + y) p)
      | Var f p, Var g q => Ok (Var (f + g) (Qplus p q))
      | Var _ _, _ => add_fuel n b a
      | Shared sh c, Const _ | Shared sh c, Var _ _ =>
          let* c' := add_fuel n c b in Ok (Shared sh c')
      | Shared sh c, Shared sh' c' =>
          let* m := merge_shared sh sh' in
          let* c2 := add_fuel n c c' in Ok (Shared m c2)
      | Shared _ _, Multi _ => add_fuel n b a
      | Multi t, _ => add_fuel n t b
      end
  end.

Fixpoint weight (s : sdram) : nat :=
  match s with
  | Const _ | Var _ _ => 1
  | Shared _ c => S (weight c)
  | Multi t => S (weight t)
  end.

Definition add (a b : sdram) : res sdram := add_fuel (S (2 * (weight a + weight b))) a b.

(** "running = ConstantSDRAM(0); for x in l: running += x", as in the placer
    (application_placer.py 478-488). *)
Definition sum (l : list sdram) : res sdram := foldM add (Const 0) l.

(** ChipCounter (chip_counter.py 19-56): cores and SDRAM per chip are fixed at
    construction; cores free, SDRAM free and the number of chips start at 0. *)
Record counter := mkCounter { cc_cores : Z; cc_sdram : Z; cc_chips : Z }.
Definition new_counter : counter := mkCounter 0 0 0.

(** ChipCounter.add_core (chip_counter.py 56-69). *)
Definition add_core (per_cores per_sdram : Z) (c : counter) (sdram : Z) : counter :=
  let c1 :=
    if (cc_cores c =? 0) || (cc_sdram c <? sdram)
    then mkCounter per_cores per_sdram (cc_chips c + 1) else c in
  mkCounter (cc_cores c1 - 1) (cc_sdram c1 - sdram) (cc_chips c1).
