(** JSON values as produced and read by the Python [json] conversions.  Objects
    are association lists in insertion order; a later binding of a name replaces
    an earlier one, as in a Python dict literal. *)
From Coq Require Import List ZArith String.
From Verif Require Import Base.
Import ListNotations.

Inductive json :=
| JNull
| JBool (b : bool)
| JInt (z : Z)
| JStr (s : string)
| JList (l : list json)
| JObj (l : list (string * json)).

(** [d[name]]: KeyError if the name is missing; TypeError if not an object. *)
Fixpoint assoc (name : string) (l : list (string * json)) : option json :=
  match l with
  | [] => None
  | (n, v) :: t => if String.eqb n name then Some v else assoc name t
  end.
Definition jget (name : string) (j : json) : res json :=
  match j with
  | JObj l => match assoc name l with Some v => Ok v | None => Err KeyError end
  | _ => Err TypeError
  end.

Definition jint (j : json) : res Z := match j with JInt z => Ok z | _ => Err TypeError end.
Definition jbool (j : json) : res bool := match j with JBool b => Ok b | _ => Err TypeError end.
Definition jstr (j : json) : res string := match j with JStr s => Ok s | _ => Err TypeError end.
Definition jlist (j : json) : res (list json) := match j with JList l => Ok l | _ => Err TypeError end.
