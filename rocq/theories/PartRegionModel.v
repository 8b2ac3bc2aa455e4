(** What ConstantSDRAMMachinePartition tells about the region of a vertex
    (constant_sdram_machine_partition.py 92-102); the other partitions are in PartModel. *)
From Coq Require Import List ZArith.
From Verif Require Import Base PartModel.

(** get_sdram_base_address_for (constant 92-96): the vertex is not looked at. *)
Definition con_base_for (s : con) (v : nat) : res Z :=
  match c_base s with Some b => Ok b | None => Err PartitionException end.
(** get_sdram_size_of_region_for (constant 98-102). *)
Definition con_size_for (s : con) (v : nat) : res Z :=
  match c_size s with Some z => Ok z | None => Err PartitionException end.
