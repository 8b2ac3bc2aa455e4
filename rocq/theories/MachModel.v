(** A machine as the routing code sees it (class Machine of spinn_machine, which is
    not part of the repository): chips at coordinates, links in six directions,
    and wrap-around in either dimension. *)
From Coq Require Import List ZArith Arith Bool.
From Verif Require Import Base TreeModel.
Import ListNotations.
Local Open Scope Z_scope.

Definition xy_eqb (a b : xy) : bool := (fst a =? fst b) && (snd a =? snd b).
Definition xy_in (p : xy) (l : list xy) : bool := existsb (xy_eqb p) l.

Record machine := mkMachine {
  m_width : Z; m_height : Z;
  m_wrap_x : bool; m_wrap_y : bool;
  m_chips : list xy;
  m_links : list (xy * nat) }.

(** The step of a link: 0 east, 1 north-east, 2 north, 3 west, 4 south-west,
    5 south. *)
Definition link_vector (link : nat) : xy :=
  match link with
  | 0%nat => (1, 0) | 1%nat => (1, 1) | 2%nat => (0, 1) | 3%nat => (-1, 0) | 4%nat => (-1, -1)
  | _ => (0, -1)
  end.

(** Machine.xy_over_link: where the link leads to, with the wraps of the machine. *)
Definition wrap (w : bool) (size v : Z) : Z := if w then v mod size else v.
Definition over_link (m : machine) (p : xy) (link : nat) : xy :=
  (wrap (m_wrap_x m) (m_width m) (fst p + fst (link_vector link)),
   wrap (m_wrap_y m) (m_height m) (snd p + snd (link_vector link))).

(** Machine.is_chip_at and Machine.is_link_at; a missing chip has no links. *)
Definition is_chip (m : machine) (p : xy) : bool := xy_in p (m_chips m).
Definition is_link (m : machine) (p : xy) (link : nat) : bool :=
  is_chip m p && existsb (fun pl => xy_eqb p (fst pl) && Nat.eqb link (snd pl)) (m_links m).

(** A step of a path: the link taken and the chip reached. *)
Notation node := (nat * xy)%type (only parsing).
