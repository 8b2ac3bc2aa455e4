(** Model of reading routing tables from comma separated text and of the text of
    a routing entry.
    Sources:
    - pacman/model/routing_tables/uncompressed_multicast_routing_table.py 132-169
    - pacman/utilities/algorithm_utilities/routes_format.py
    Simplifications: a file is the list of its lines; fields in quotes are not
    modelled; text is ASCII; a minus sign in front of a number is marked with
    [NotImplemented] (negative keys are outside of the model); compressed files
    are the same lines; log messages are left out. *)
From Coq Require Import String Ascii List Arith NArith ZArith Bool.
From Verif Require Import Base RouteSpec TablesModel UtilModel TextModel.
Import ListNotations.
Local Open Scope string_scope.
Local Open Scope list_scope.
Local Open Scope N_scope.

(** * "int(text, base=16)" *)

(** White space that "int" takes off both ends. *)
Definition is_space (a : ascii) : bool :=
  match nat_of_ascii a with
  | 9 | 10 | 11 | 12 | 13 | 32 => true
  | _ => false
  end%nat.
Fixpoint strip_left (s : string) : string :=
  match s with
  | String a r => if is_space a then strip_left r else s
  | EmptyString => EmptyString
  end.
Fixpoint strip_right (s : string) : string :=
  match s with
  | EmptyString => EmptyString
  | String a r =>
      match strip_right r with
      | EmptyString => if is_space a then EmptyString else String a EmptyString
      | r' => String a r'
      end
  end.

(** The value of a digit. *)
Definition hex_value (a : ascii) : option N :=
  let n := N_of_ascii a in
  if (48 <=? n) && (n <=? 57) then Some (n - 48)
  else if (65 <=? n) && (n <=? 70) then Some (n - 55)
  else if (97 <=? n) && (n <=? 102) then Some (n - 87)
  else None.

(** Digits, with single underscores between them; [acc] is the value so far. *)
Fixpoint hex_digits (s : string) (acc : N) : option N :=
  match s with
  | EmptyString => None
  | String a r =>
      match hex_value a with
      | None => None
      | Some v =>
          match r with
          | EmptyString => Some (16 * acc + v)
          | String "_" r' => hex_digits r' (16 * acc + v)
          | _ => hex_digits r (16 * acc + v)
          end
      end
  end.

(** The prefix "0x", after which one underscore is allowed. *)
Definition drop_prefix (s : string) : string :=
  match s with
  | String "0" (String "x" (String "_" r)) | String "0" (String "X" (String "_" r)) => r
  | String "0" (String "x" r) | String "0" (String "X" r) => r
  | _ => s
  end.
Definition drop_sign (s : string) : string :=
  match s with String "+" r => r | _ => s end.

Definition int16 (s : string) : res N :=
  match strip_right (strip_left s) with
  | String "-" _ => Err NotImplemented
  | t => match hex_digits (drop_prefix (drop_sign t)) 0 with
         | Some n => Ok n
         | None => Err ValueError
         end
  end.

(** * Reading a table (lines 132-154) *)

(** MulticastRoutingEntry (spinn_machine) rejects a key outside of its mask; an
    entry made of a route only is not defaultable. *)
Definition csv_entry (k m r : N) : res entry :=
  if N.land k m =? k then Ok (mkEntry k m r false) else Err InvalidParameter.

(** The fields read from a row: lines 138-151; rows of other lengths are left
    out. *)
Definition row_fields (row : list string) : option (string * string * string) :=
  match row with
  | [k; m; r] => Some (k, m, r)
  | [_; k; m; r; _; _] => Some (k, m, r)
  | _ => None
  end.

Section Read.
  Variable entry_eq : entry -> entry -> bool.

  (** The body of the loop without the handler. *)
  Definition read_row (t : table) (row : list string) : res table :=
    match row_fields row with
    | None => Ok t
    | Some (k, m, r) =>
        let* key := int16 k in
        let* mask := int16 m in
        let* route := int16 r in
        let* e := csv_entry key mask route in
        unc_add entry_eq t e
    end.

  (** Lines 136-153: a ValueError is logged and the row left out. *)
  Definition read_row_logged (t : table) (row : list string) : res table :=
    match read_row t row with
    | Err ValueError => Ok t
    | x => x
    end.

  (** Lines 132-154: [_from_csv_file]. *)
  Definition from_csv (lines : list string) : res table :=
    foldM (fun t line => read_row_logged t (split "," line)) (empty_table 0 0) lines.
End Read.

(** * The text of a routing entry (routes_format.py 23-70) *)

Definition hex_digit (n : N) : ascii :=
  if n <? 10 then ascii_of_N (48 + n) else ascii_of_N (55 + n).
Fixpoint hex_text (fuel : nat) (n : N) : string :=
  match fuel with
  | O => EmptyString
  | S f => if n =? 0 then EmptyString
           else (hex_text f (n / 16) ++ String (hex_digit (n mod 16)) EmptyString)%string
  end.
Fixpoint zeros (n : nat) : string :=
  match n with O => EmptyString | S k => String "0" (zeros k) end.
(** "{n:08X}". *)
Definition hex8 (n : N) : string :=
  let t := hex_text (N.size_nat n) n in (zeros (8 - String.length t) ++ t)%string.

(** Lines 39-56: [_expand_route_value]. *)
Definition link_label (l : N) : res string :=
  match l with
  | 0 => Ok "E" | 1 => Ok "NE" | 2 => Ok "N" | 3 => Ok "W" | 4 => Ok "SW" | 5 => Ok "S"
  | _ => Err KeyError
  end.
Definition expand_route_value (processors links : list N) : res string :=
  let* ls := mapM link_label links in
  Ok ("[" ++ String.concat ", " (map (fun p => str_int (Z.of_N p)) processors) ++ "] [" ++
      String.concat ", " ls ++ "]")%string.

(** Lines 59-70: [format_route].  A bool formatted with a width is formatted as
    an integer. *)
Definition format_route (key mask : N) (processors links : list N) (defaultable : bool)
    : res string :=
  let* x := expand_route_value processors links in
  Ok ("0x" ++ hex8 key ++ " 0x" ++ hex8 mask ++ " 0x" ++
      hex8 (reduce_route_value processors links) ++ " " ++
      (if defaultable then "1" else "0") ++ "       " ++ x)%string.
