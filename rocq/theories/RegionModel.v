(** Model of MultiRegionSDRAM as mutable objects
    (pacman/model/resources/multi_region_sdram.py).

    The heap is a list of objects; a region holds either an immutable SDRAM value
    or a reference to another MultiRegionSDRAM object.  Region identifiers are
    numbers.  The arguments of add_cost are rationals (int or float in the code). *)
From Coq Require Import List ZArith QArith Qround Bool.
From Verif Require Import Base Dict SdramModel.
Import ListNotations.

Inductive rv := RV (s : sdram) | RR (i : nat).
Record obj := mkObj { regs : list (nat * rv); tot : sdram }.

(** MultiRegionSDRAM.__init__ (55-57). *)
Definition new_obj : obj := mkObj [] (Const 0).

(** A region's value as the operand of an addition; a reference stands for the
    current total of the object (153-161: "return self._total + other"). *)
Definition as_sdram (h : list obj) (v : rv) : res sdram :=
  match v with
  | RV s => Ok s
  | RR i => let* o := aget h i in Ok (Multi (tot o))
  end.

(** self._total += other (100 and 124). *)
Definition add_total (h : list obj) (i : nat) (s : sdram) : res (list obj) :=
  let* o := aget h i in
  let* t := add (tot o) s in
  aset h i (mkObj (regs o) t).

(** self.__regions[region] = v *)
Definition set_region (h : list obj) (i k : nat) (v : rv) : res (list obj) :=
  let* o := aget h i in
  aset h i (mkObj (dset Nat.eqb (regs o) k v) (tot o)).

(** nest(region, other) for other not a MultiRegionSDRAM (100-101, 109-112). *)
Definition nest_val (h : list obj) (i k : nat) (s : sdram) : res (list obj) :=
  let* h1 := add_total h i s in
  let* o := aget h1 i in
  match dget Nat.eqb (regs o) k with
  | Some v => let* x := as_sdram h1 v in
              let* y := add x s in
              set_region h1 i k (RV y)
  | None => set_region h1 i k (RV s)
  end.

(** One round of the loop of merge (125-129). *)
Definition merge_one (i j : nat) (h : list obj) (k : nat) : res (list obj) :=
  let* o := aget h i in
  let* p := aget h j in
  let* w := dgetE Nat.eqb (regs p) k in
  match dget Nat.eqb (regs o) k with
  | Some v => let* x := as_sdram h v in
              let* y := as_sdram h w in
              let* z := add x y in
              set_region h i k (RV z)
  | None => set_region h i k w
  end.

(** merge(other) (114-129). *)
Definition merge (h : list obj) (i j : nat) : res (list obj) :=
  let* p := aget h j in
  let* h1 := add_total h i (Multi (tot p)) in
  let* p1 := aget h1 j in
  foldM (merge_one i j) h1 (map fst (regs p1)).

(** nest(region, other) for other a MultiRegionSDRAM (100-108, 111-112). *)
Definition nest_ref (h : list obj) (i k j : nat) : res (list obj) :=
  let* p := aget h j in
  let* h1 := add_total h i (Multi (tot p)) in
  let* o := aget h1 i in
  match dget Nat.eqb (regs o) k with
  | Some (RR m) => merge h1 m j
  | Some (RV s) => let* h2 := nest_val h1 j k s in set_region h2 i k (RR j)
  | None => set_region h1 i k (RR j)
  end.

(** add_cost(region, fixed_sdram, per_timestep_sdram) (68-84). *)
Definition cost_of (f p : Q) : sdram :=
  if Qeq_bool p 0 then Const (Qceiling f) else Var (Qceiling f) (inject_Z (Qceiling p)).
Definition add_cost (h : list obj) (i k : nat) (f p : Q) : res (list obj) :=
  nest_val h i k (cost_of f p).

(** A history of calls on any number of objects. *)
Inductive op :=
| New
| AddCost (i k : nat) (f p : Q)
| NestV (i k : nat) (s : sdram)
| NestR (i k j : nat)
| Merge (i j : nat).

Definition step (h : list obj) (o : op) : res (list obj) :=
  match o with
  | New => Ok (h ++ [new_obj])
  | AddCost i k f p => add_cost h i k f p
  | NestV i k s => nest_val h i k s
  | NestR i k j => nest_ref h i k j
  | Merge i j => merge h i j
  end.

Definition run (ops : list op) : res (list obj) := foldM step [] ops.
