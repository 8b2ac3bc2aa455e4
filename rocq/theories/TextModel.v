(** Model of the conversions of resources and placements to JSON
    (pacman/utilities/json_utils.py) and of slices to text
    (pacman/model/graphs/common/slice.py, mdslice.py).

    JSON values are those of [Json]; writing them to a file and reading them
    again (json_to_object) is not modelled.  Fields have the types the code
    declares.  Text is [string]; "int(text)" is modelled for decimal digits with a
    sign and spaces in front, anything else is a ValueError (Python takes a few
    more spellings, e.g. underscores). *)
From Coq Require Import String Ascii List ZArith Bool Decimal DecimalString.
From Verif Require Import Base AllocModel Json SliceModel.
Import ListNotations.
Local Open Scope string_scope.

(** * JSON *)

(** IPtagResource (iptag_resource.py 38-60). *)
Record iptag_res := mkIptagRes {
  ir_address : string;
  ir_port : option Z;
  ir_strip : bool;
  ir_tag : option Z;
  ir_traffic : string }.

(** ReverseIPtagResource (reverse_iptag_resource.py 33-47). *)
Record reverse_res := mkReverseRes {
  rr_port : option Z;
  rr_sdp_port : Z;
  rr_tag : option Z }.

(** "if value is not None: json_dict[name] = value". *)
Definition optional (name : string) (v : option Z) : list (string * json) :=
  match v with Some z => [(name, JInt z)] | None => [] end.

(** "json_dict.get(name)". *)
Definition jopt (name : string) (j : json) : res (option Z) :=
  match j with
  | JObj l => match assoc name l with
              | None | Some JNull => Ok None
              | Some v => let* z := jint v in Ok (Some z)
              end
  | _ => Err TypeError
  end.

(** Lines 51-64: key_mask_to_json. *)
Definition key_mask_to_json (k : km) : json :=
  JObj [("key", JInt (Z.of_N (km_key k))); ("mask", JInt (Z.of_N (km_mask k)))].

(** Lines 67-85: iptag_resource_to_json. *)
Definition iptag_to_json (t : iptag_res) : json :=
  JObj ([("ip_address", JStr (ir_address t))] ++ optional "port" (ir_port t) ++
        [("strip_sdp", JBool (ir_strip t))] ++ optional "tag" (ir_tag t) ++
        [("traffic_identifier", JStr (ir_traffic t))]).

(** Lines 88-98: iptag_resource_from_json. *)
Definition iptag_from_json (j : json) : res iptag_res :=
  let* a := jget "ip_address" j in
  let* a := jstr a in
  let* p := jopt "port" j in
  let* s := jget "strip_sdp" j in
  let* s := jbool s in
  let* t := jopt "tag" j in
  let* tr := jget "traffic_identifier" j in
  let* tr := jstr tr in
  Ok (mkIptagRes a p s t tr).

(** Lines 101-126: the lists of them. *)
Definition iptags_to_json (l : list iptag_res) : json := JList (map iptag_to_json l).
Definition iptags_from_json (j : json) : res (list iptag_res) :=
  let* l := jlist j in mapM iptag_from_json l.

(** Lines 128-144: reverse_iptag_to_json. *)
Definition reverse_to_json (t : reverse_res) : json :=
  JObj (optional "port" (rr_port t) ++ [("sdp_port", JInt (rr_sdp_port t))] ++
        optional "tag" (rr_tag t)).

(** Lines 147-157: reverse_iptag_from_json. *)
Definition reverse_from_json (j : json) : res reverse_res :=
  let* p := jopt "port" j in
  let* s := jget "sdp_port" j in
  let* s := jint s in
  let* t := jopt "tag" j in
  Ok (mkReverseRes p s t).

(** Lines 160-185: the lists of them. *)
Definition reverses_to_json (l : list reverse_res) : json := JList (map reverse_to_json l).
Definition reverses_from_json (j : json) : res (list reverse_res) :=
  let* l := jlist j in mapM reverse_from_json l.

(** A placement as far as it goes into JSON: the label of its vertex and where it
    is.  Lines 188-203: placement_to_json. *)
Record placed := mkPlaced { pl_label : option string; pl_x : Z; pl_y : Z; pl_p : Z }.
Definition placement_to_json (q : placed) : json :=
  JObj [("vertex_label", match pl_label q with Some s => JStr s | None => JNull end);
        ("x", JInt (pl_x q)); ("y", JInt (pl_y q)); ("p", JInt (pl_p q))].

(** Lines 206-213: placements_to_json. *)
Definition placements_to_json (l : list placed) : json := JList (map placement_to_json l).

(** Lines 216-227: placement_from_json.  A SimpleMachineVertex without a label
    takes the name of its class (machine_vertex.py 57-58). *)
Definition class_label : string := "<class 'SimpleMachineVertex'>".
Definition placement_from_json (j : json) : res placed :=
  let* l := jget "vertex_label" j in
  let* x := jget "x" j in
  let* x := jint x in
  let* y := jget "y" j in
  let* y := jint y in
  let* p := jget "p" j in
  let* p := jint p in
  match l with
  | JStr s => Ok (mkPlaced (Some s) x y p)
  | JNull => Ok (mkPlaced (Some class_label) x y p)
  | _ => Err TypeError
  end.

(** * Text *)

(** "str(z)". *)
Definition str_int (z : Z) : string := NilZero.string_of_int (Z.to_int z).

(** "int(s)". *)
Fixpoint lstrip (s : string) : string :=
  match s with String " " r => lstrip r | _ => s end.
Definition int_str (s : string) : res Z :=
  match NilZero.int_of_string (lstrip s) with
  | Some d => Ok (Z.of_int d)
  | None => Err ValueError
  end.

(** "s.split(c)". *)
Fixpoint split (c : ascii) (s : string) : list string :=
  match s with
  | EmptyString => [EmptyString]
  | String a r =>
      if Ascii.eqb a c then EmptyString :: split c r
      else match split c r with
           | [] => [String a EmptyString]
           | h :: t => String a h :: t
           end
  end.

(** "s[1:]" and "s[:-1]". *)
Definition drop1 (s : string) : string := match s with String _ r => r | _ => s end.
Fixpoint init (s : string) : string :=
  match s with
  | EmptyString => EmptyString
  | String a EmptyString => EmptyString
  | String a r => String a (init r)
  end.

(** "parts[n]". *)
Definition part (l : list string) (n : nat) : res string :=
  match nth_error l n with Some s => Ok s | None => Err IndexError end.

(** Slice.__str__ (slice.py 173-174). *)
Definition slice_str (s : slice) : string :=
  "(" ++ str_int (sl_lo s) ++ ":" ++ str_int (sl_lo s + sl_n s - 1) ++ ")".

(** Slice.from_string (slice.py 192-206); an empty text is an IndexError. *)
Definition slice_from_string (t : string) : res slice :=
  match t with
  | EmptyString => Err IndexError
  | String a _ =>
      if negb (Ascii.eqb a "(") then Err NotImplemented
      else
        let parts := split ":" (init (drop1 t)) in
        let* p0 := part parts 0 in
        let* lo := int_str p0 in
        let* p1 := part parts 1 in
        let* hi := int_str p1 in
        make_slice lo hi
  end.

(** "str" of a tuple of integers. *)
Fixpoint commas (l : list Z) : string :=
  match l with
  | [] => ""
  | [z] => str_int z
  | z :: r => str_int z ++ ", " ++ commas r
  end.
Definition tuple_str (l : list Z) : string :=
  match l with
  | [z] => "(" ++ str_int z ++ ",)"
  | _ => "(" ++ commas l ++ ")"
  end.

(** MDSlice.__str__ (mdslice.py 116-120): one "(start:stop)" for each dimension. *)
Fixpoint dims_str (l : list (Z * Z)) : string :=
  match l with
  | [] => ""
  | (st, sh) :: r => "(" ++ str_int st ++ ":" ++ str_int (st + sh)%Z ++ ")" ++ dims_str r
  end.
Definition mdslice_str (s : slice) : string :=
  match sl_md s with
  | None => slice_str s
  | Some (sh, st, a) => str_int (sl_lo s) ++ tuple_str a ++ dims_str (combine st sh)
  end.

(** The loop of MDSlice.from_string (mdslice.py 151-157): (begin, atoms) pairs. *)
Definition read_dim (t : string) : res (Z * Z) :=
  let subs := split ":" t in
  let* s0 := part subs 0 in
  let* b := int_str s0 in
  let* s1 := part subs 1 in
  let* e := int_str (init s1) in
  Ok (b, (e - b)%Z).

(** MDSlice.from_string (mdslice.py 133-160). *)
Definition mdslice_from_string (t : string) : res slice :=
  match t with
  | EmptyString => Err IndexError
  | String a _ =>
      if Ascii.eqb a "(" then slice_from_string t
      else
        let parts := split "(" t in
        let* p0 := part parts 0 in
        let* lo := int_str p0 in
        let* p1 := part parts 1 in
        let* shape := mapM int_str (split "," (init p1)) in
        let* ps := mapM read_dim (skipn 2 parts) in
        let size := fold_left Z.mul (map snd ps) 1%Z in
        make_mdslice lo (lo + size - 1)%Z (map snd ps) (map fst ps) shape
  end.

(** Slice.end (slice.py 144-151) and MDSlice.end (mdslice.py 99-102). *)
Definition slice_end (s : slice) : list Z :=
  match sl_md s with
  | None => [(sl_lo s + sl_n s)%Z]
  | Some (sh, st, _) => map (fun '(a, b) => (a + b - 1)%Z) (combine st sh)
  end.

(** Slice.get_slice(n) (slice.py 120-129) and MDSlice.get_slice (mdslice.py 79-92):
    start and stop; a negative n counts from the end in an MDSlice. *)
Definition get_dim (s : slice) (n : nat) : res (Z * Z) :=
  match sl_md s with
  | None => if Nat.eqb n 0 then Ok (sl_lo s, (sl_lo s + sl_n s)%Z) else Err IndexError
  | Some (sh, st, _) =>
      match nth_error st n, nth_error sh n with
      | Some a, Some b => Ok (a, (a + b)%Z)
      | _, _ => Err IndexError
      end
  end.
