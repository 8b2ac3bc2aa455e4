(** Proofs about reading routing tables from text and about the text of routing
    entries. *)
From Coq Require Import String Ascii List Arith NArith ZArith Bool Lia.
From Verif Require Import Base RouteSpec TablesModel TablesProofs UtilModel UtilProofs TextModel TextProofs CsvModel.
Import ListNotations.
Local Open Scope string_scope.
Local Open Scope list_scope.
Local Open Scope N_scope.

(** * Specification: numbers in base 16 *)

(** The digits and their values. *)
Definition hex_chars : list (ascii * N) :=
  [("0",0);("1",1);("2",2);("3",3);("4",4);("5",5);("6",6);("7",7);("8",8);("9",9);
   ("a",10);("b",11);("c",12);("d",13);("e",14);("f",15);
   ("A",10);("B",11);("C",12);("D",13);("E",14);("F",15)]%char.

(** [spells s n]: the digits of [s] mean [n] in base 16. *)
Inductive spells : string -> N -> Prop :=
| spells_one : forall a v, In (a, v) hex_chars -> spells (String a "") v
| spells_more : forall s n a v, spells s n -> In (a, v) hex_chars ->
    spells (s ++ String a "")%string (16 * n + v).

Definition spaces : list ascii := map ascii_of_nat [9; 10; 11; 12; 13; 32]%nat.
Fixpoint blank (s : string) : Prop :=
  match s with EmptyString => True | String a r => In a spaces /\ blank r end.

(** [numeral s n]: [s] is a number [n] as people write it in base 16: digits,
    perhaps after "0x" and a plus sign, with spaces on both sides. *)
Definition numeral (s : string) (n : N) : Prop :=
  exists a sign pre d b,
    s = (a ++ sign ++ pre ++ d ++ b)%string /\
    blank a /\ blank b /\ In sign [""; "+"] /\ In pre [""; "0x"; "0X"] /\ spells d n.

Fixpoint has (c : ascii) (s : string) : Prop :=
  match s with EmptyString => False | String a r => a = c \/ has c r end.

(** The characters that can be in a number. *)
Definition number_chars : list ascii :=
  map fst hex_chars ++ spaces ++ ["+"; "-"; "_"; "x"; "X"]%char.

(** [no_number s]: there is nothing but spaces or something that is in no
    number. *)
Definition no_number (s : string) : Prop :=
  blank s \/ exists c, has c s /\ ~ In c number_chars.

(** * Reading numbers *)

Ltac all_chars a := destruct a as [[] [] [] [] [] [] [] []].

Lemma hex_value_iff : forall a v, hex_value a = Some v <-> In (a, v) hex_chars.
Proof.
  intros a v. split.
  - all_chars a; cbn; intros [= <-]; cbn; tauto.
  - intro H. cbn in H.
    repeat (destruct H as [[= <- <-]|H]; [reflexivity|]). contradiction.
Qed.

Lemma is_space_iff : forall a, is_space a = true <-> In a spaces.
Proof.
  intro a. split.
  - all_chars a; cbn; try discriminate; intros _; tauto.
  - intro H. cbn in H. repeat (destruct H as [<-|H]; [reflexivity|]). contradiction.
Qed.

Lemma hex_value_not_us : hex_value "_" = None.
Proof. reflexivity. Qed.

Lemma hex_digits_cons : forall a v r acc, hex_value a = Some v -> r <> "" ->
  (forall r', r <> String "_" r') ->
  hex_digits (String a r) acc = hex_digits r (16 * acc + v).
Proof.
  intros a v r acc H NE NU. cbn [hex_digits]. rewrite H. destruct r as [|b r]; [contradiction|].
  destruct (ascii_dec b "_"); [subst; now destruct (NU r)|].
  all_chars b; try reflexivity. now contradiction n.
Qed.

Lemma hex_digits_us : forall a v r acc, hex_value a = Some v ->
  hex_digits (String a (String "_" r)) acc = hex_digits r (16 * acc + v).
Proof. intros a v r acc H. cbn [hex_digits]. now rewrite H. Qed.

Fixpoint all_hex (s : string) : Prop :=
  match s with EmptyString => True | String a r => (exists v, hex_value a = Some v) /\ all_hex r end.

Lemma spells_hex : forall s n, spells s n -> all_hex s /\ s <> "".
Proof.
  intros s n H. induction H as [a v H|s n a v H IH Ha].
  - split; [|discriminate]. split; [|exact I]. exists v. now apply hex_value_iff.
  - destruct IH as (IH & NE). split.
    + clear H NE. induction s as [|b s IHs]; cbn.
      * split; [|exact I]. exists v. now apply hex_value_iff.
      * destruct IH. split; auto.
    + destruct s; discriminate.
Qed.

Lemma hex_digits_snoc : forall s acc m a v, all_hex s -> hex_digits s acc = Some m ->
  hex_value a = Some v -> hex_digits (s ++ String a "")%string acc = Some (16 * m + v).
Proof.
  induction s as [|b s IH]; intros acc m a v Hs E Ha; [discriminate|].
  destruct Hs as ((w & Hw) & Hs). cbn [append].
  destruct s as [|c s].
  - cbn [append]. cbn [hex_digits] in E. rewrite Hw in E. injection E as <-.
    rewrite (hex_digits_cons b w) by (try assumption; try discriminate; intros r' [= -> _]; discriminate).
    cbn [hex_digits]. now rewrite Ha.
  - assert (NU : c <> "_"%char).
    { destruct Hs as ((x & Hx) & _). intros ->. discriminate. }
    rewrite (hex_digits_cons b w) in E by (try assumption; try discriminate; intros r' [= C _]; contradiction).
    rewrite (hex_digits_cons b w) by (try assumption; try discriminate; intros r' [= C _]; contradiction).
    now apply IH.
Qed.

Lemma hex_digits_spells : forall s n, spells s n -> hex_digits s 0 = Some n.
Proof.
  intros s n H. induction H as [a v H|s n a v H IH Ha].
  - apply hex_value_iff in H. cbn [hex_digits]. rewrite H. now rewrite N.mul_0_r, N.add_0_l.
  - apply hex_digits_snoc; [apply (spells_hex s n H)|exact IH|now apply hex_value_iff].
Qed.

Lemma strip_left_blank : forall a s, blank a -> strip_left (a ++ s)%string = strip_left s.
Proof.
  induction a as [|c a IH]; intros s B; [reflexivity|]. destruct B as (Hc & B).
  apply is_space_iff in Hc. cbn [append strip_left]. rewrite Hc. now apply IH.
Qed.

Lemma strip_right_blank : forall b, blank b -> strip_right b = "".
Proof.
  induction b as [|c b IH]; intro B; [reflexivity|]. destruct B as (Hc & B).
  apply is_space_iff in Hc. cbn [strip_right]. now rewrite (IH B), Hc.
Qed.

Fixpoint no_space (s : string) : Prop :=
  match s with EmptyString => True | String a r => is_space a = false /\ no_space r end.

Lemma strip_right_app : forall s b, no_space s -> blank b -> strip_right (s ++ b)%string = s.
Proof.
  induction s as [|c s IH]; intros b N B; [now apply strip_right_blank|].
  destruct N as (Hc & N). cbn [append strip_right]. rewrite (IH b N B), Hc. now destruct s.
Qed.

Lemma strip_left_none : forall s t, no_space s -> s <> "" -> strip_left (s ++ t)%string = (s ++ t)%string.
Proof. intros [|c s] t N H; [contradiction|]. destruct N as (Hc & _). cbn [append strip_left]. now rewrite Hc. Qed.

Lemma no_space_app : forall s t, no_space s -> no_space t -> no_space (s ++ t)%string.
Proof. induction s as [|c s IH]; intros t A B; [exact B|]. destruct A. split; auto. Qed.

Lemma hex_no_space : forall s, all_hex s -> no_space s.
Proof.
  induction s as [|c s IH]; intro H; [exact I|]. destruct H as ((v & Hv) & H). split; [|auto].
  all_chars c; try reflexivity; discriminate.
Qed.

Lemma drop_prefix_hex : forall s, all_hex s -> drop_prefix s = s.
Proof.
  intros [|a [|b s]] H; [reflexivity| |].
  - all_chars a; reflexivity.
  - destruct H as (_ & (v & Hv) & _). all_chars a; try reflexivity.
    all_chars b; try reflexivity; discriminate.
Qed.

Lemma drop_prefix_x : forall s c, all_hex s -> (c = "x"%char \/ c = "X"%char) ->
  drop_prefix (String "0" (String c s)) = s.
Proof.
  intros s c H [-> | ->]; destruct s as [|a s]; try reflexivity;
    destruct H as ((v & Hv) & _); all_chars a; try reflexivity; discriminate.
Qed.

Lemma int16_core : forall a t b n, blank a -> blank b -> no_space t -> t <> "" ->
  (forall r, t <> String "-" r) -> hex_digits (drop_prefix (drop_sign t)) 0 = Some n ->
  int16 (a ++ t ++ b)%string = Ok n.
Proof.
  intros a t b n A B N NE NM E. unfold int16.
  rewrite strip_left_blank, strip_left_none, strip_right_app by assumption.
  destruct t as [|c t]; [contradiction|].
  destruct (ascii_dec c "-"); [subst; now destruct (NM t)|].
  all_chars c; try (now rewrite E). now contradiction n0.
Qed.

Lemma numeral_int16 : forall s n, numeral s n -> int16 s = Ok n.
Proof.
  intros s n (a & sign & pre & d & b & -> & A & B & S & P & D).
  destruct (spells_hex d n D) as (H & NE). pose proof (hex_digits_spells d n D) as E.
  replace (a ++ sign ++ pre ++ d ++ b)%string with (a ++ ((sign ++ pre) ++ d) ++ b)%string
    by (now rewrite !app_assoc_s).
  apply int16_core; [assumption|assumption| | | |].
  - apply no_space_app; [|now apply hex_no_space].
    cbn in S, P. destruct S as [<-|[<-|[]]]; destruct P as [<-|[<-|[<-|[]]]]; cbn; auto.
  - destruct d as [|c d]; [contradiction|]. cbn in S, P.
    destruct S as [<-|[<-|[]]]; destruct P as [<-|[<-|[<-|[]]]]; discriminate.
  - intros r C. destruct d as [|c d]; [contradiction|]. destruct H as ((v & Hv) & _). cbn in S, P.
    destruct S as [<-|[<-|[]]]; destruct P as [<-|[<-|[<-|[]]]]; cbn in C; try discriminate.
    injection C as -> _. discriminate.
  - assert (DS : drop_sign ((sign ++ pre) ++ d) = (pre ++ d)%string).
    { cbn in S, P. destruct S as [<-|[<-|[]]]; destruct P as [<-|[<-|[<-|[]]]]; try reflexivity.
      cbn [append]. destruct d as [|c d]; [reflexivity|]. destruct H as ((v & Hv) & _).
      all_chars c; try reflexivity; discriminate. }
    rewrite DS. cbn in P. destruct P as [<-|[<-|[<-|[]]]]; cbn [append].
    + now rewrite drop_prefix_hex.
    + rewrite drop_prefix_x by auto. exact E.
    + rewrite drop_prefix_x by auto. exact E.
Qed.

(** * What is no number *)

Lemma hex_digits_chars : forall k s acc n, (String.length s <= k)%nat -> hex_digits s acc = Some n ->
  s <> "" /\ forall c, has c s -> c = "_"%char \/ exists v, In (c, v) hex_chars.
Proof.
  induction k as [|k IH]; intros s acc n L E.
  - destruct s; [discriminate|cbn in L; lia].
  - destruct s as [|a s]; [discriminate|]. split; [discriminate|].
    destruct (hex_value a) as [v|] eqn:V; [|cbn [hex_digits] in E; now rewrite V in E].
    intros c [<-|Hc]; [right; exists v; now apply hex_value_iff|].
    destruct s as [|b s]; [contradiction|]. cbn in L.
    destruct (ascii_dec b "_") as [->|NU].
    + rewrite (hex_digits_us a v) in E by assumption. destruct Hc as [<-|Hc]; [now left|].
      apply (IH s _ n) in E; [|lia]. now apply E.
    + rewrite (hex_digits_cons a v) in E by (try assumption; try discriminate; intros r' [= C _]; contradiction).
      apply (IH (String b s) _ n) in E; [|cbn; lia]. now apply E.
Qed.

Lemma has_strip_left : forall s c, has c s -> In c spaces \/ has c (strip_left s).
Proof.
  induction s as [|a s IH]; intros c H; [contradiction|]. cbn [strip_left].
  destruct (is_space a) eqn:S; [|now right]. destruct H as [<-|H]; [left; now apply is_space_iff|].
  now apply IH.
Qed.

Lemma has_strip_right : forall s c, has c s -> In c spaces \/ has c (strip_right s).
Proof.
  induction s as [|a s IH]; intros c H; [contradiction|]. cbn [strip_right].
  destruct H as [<-|H].
  - destruct (strip_right s); [|right; now left].
    destruct (is_space a) eqn:S; [left; now apply is_space_iff|right; now left].
  - destruct (IH c H) as [I|I]; [now left|]. right. destruct (strip_right s); [contradiction|]. now right.
Qed.

Lemma has_drop_sign : forall s c, has c s -> c = "+"%char \/ has c (drop_sign s).
Proof.
  intros [|a s] c H; [contradiction|]. destruct (ascii_dec a "+") as [->|N].
  - cbn [drop_sign]. destruct H as [<-|H]; auto.
  - right. all_chars a; try exact H. now contradiction N.
Qed.

Lemma has_drop_prefix : forall s c, has c s ->
  In c ["0"; "x"; "X"; "_"]%char \/ has c (drop_prefix s).
Proof.
  intros s c H. destruct s as [|a [|b s]]; [contradiction|right; now all_chars a|].
  destruct (ascii_dec a "0") as [->|N]; [|right; all_chars a; try exact H; now contradiction N].
  destruct (ascii_dec b "x") as [->|NX].
  { destruct H as [<-|[<-|H]]; [left; cbn; auto|left; cbn; auto|].
    destruct s as [|d s]; [contradiction|]. destruct (ascii_dec d "_") as [->|NU].
    - destruct H as [<-|H]; [left; cbn; auto|now right].
    - right. all_chars d; try exact H. now contradiction NU. }
  destruct (ascii_dec b "X") as [->|NX'].
  { destruct H as [<-|[<-|H]]; [left; cbn; auto|left; cbn; auto|].
    destruct s as [|d s]; [contradiction|]. destruct (ascii_dec d "_") as [->|NU].
    - destruct H as [<-|H]; [left; cbn; auto|now right].
    - right. all_chars d; try exact H. now contradiction NU. }
  right. all_chars b; try exact H; [now contradiction NX|now contradiction NX'].
Qed.


Lemma has_strip_right_inv : forall s c, has c (strip_right s) -> has c s.
Proof.
  induction s as [|a s IH]; intros c H; [contradiction|]. cbn [strip_right] in H.
  destruct (strip_right s) as [|b t] eqn:E.
  - destruct (is_space a); [contradiction|]. destruct H as [<-|[]]. now left.
  - destruct H as [<-|H]; [now left|]. right. now apply IH.
Qed.
Lemma has_strip_left_inv : forall s c, has c (strip_left s) -> has c s.
Proof.
  induction s as [|a s IH]; intros c H; [contradiction|]. cbn [strip_left] in H.
  destruct (is_space a); [right; now apply IH|exact H].
Qed.

Lemma int16_not_minus : forall s, ~ has "-" s ->
  int16 s = match hex_digits (drop_prefix (drop_sign (strip_right (strip_left s)))) 0 with
            | Some n => Ok n | None => Err ValueError end.
Proof.
  intros s H. unfold int16.
  destruct (strip_right (strip_left s)) as [|a t] eqn:E; [reflexivity|].
  destruct (ascii_dec a "-") as [->|N].
  - exfalso. apply H, has_strip_left_inv, has_strip_right_inv. rewrite E. now left.
  - all_chars a; try reflexivity. now contradiction N.
Qed.

Lemma blank_strip_left : forall s, blank s -> strip_left s = "".
Proof.
  intros s B. pose proof (strip_left_blank s "" B) as E.
  now replace (s ++ "")%string with s in E by (clear; induction s; cbn; congruence).
Qed.

Lemma blank_no_minus : forall s, blank s -> ~ has "-" s.
Proof.
  induction s as [|a s IH]; intros B H; [contradiction|]. destruct B as (Ha & B).
  destruct H as [->|H]; [|now apply IH]. cbn in Ha. 
  repeat (destruct Ha as [Ha|Ha]; [discriminate|]). contradiction.
Qed.

Lemma no_number_int16 : forall s, no_number s -> ~ has "-" s -> int16 s = Err ValueError.
Proof.
  intros s H M. rewrite int16_not_minus by assumption.
  destruct H as [B|(c & Hc & N)].
  - now rewrite blank_strip_left.
  - destruct (hex_digits (drop_prefix (drop_sign (strip_right (strip_left s)))) 0) as [n|] eqn:E; [|reflexivity].
    exfalso. apply N. unfold number_chars. rewrite !in_app_iff.
    destruct (has_strip_left s c Hc) as [I|H1]; [tauto|].
    destruct (has_strip_right _ c H1) as [I|H2]; [tauto|].
    destruct (has_drop_sign _ c H2) as [->|H3]; [right; right; cbn; auto|].
    destruct (has_drop_prefix _ c H3) as [I|H4].
    { cbn in I. destruct I as [<-|[<-|[<-|[<-|[]]]]]; cbn; auto 30. }
    apply (hex_digits_chars (String.length (drop_prefix (drop_sign (strip_right (strip_left s)))))) in E; [|lia].
    destruct E as (_ & E). destruct (E c H4) as [->|(v & V)]; [right; right; cbn; auto|].
    left. now apply (in_map fst) in V.
Qed.

(** * Specification: files *)

(** [cells line l]: the line has the fields [l]. *)
Definition cells (line : string) (l : list string) : Prop :=
  l <> [] /\ line = String.concat "," l /\ Forall (free ",") l.

(** The three fields that count: all of a row of three, the second to fourth of a
    row of six. *)
Definition fields_of (l : list string) (k m r : string) : Prop :=
  l = [k; m; r] \/ exists a b c, l = [a; k; m; r; b; c].

(** The line gives the key, mask and route of [e]. *)
Definition gives (line : string) (e : entry) : Prop :=
  exists l k m r, cells line l /\ fields_of l k m r /\
    numeral k (e_key e) /\ numeral m (e_mask e) /\ numeral r (e_route e).

(** The line is no row of a table: it has another number of fields, or one of
    the three is no number (minus signs are outside of the model). *)
Definition no_row (line : string) : Prop :=
  exists l, cells line l /\
    ((length l <> 3%nat /\ length l <> 6%nat) \/
     exists k m r, fields_of l k m r /\ ~ has "-" k /\ ~ has "-" m /\ ~ has "-" r /\
       (no_number k \/ no_number m \/ no_number r)).

(** The rows among the lines, in order. *)
Inductive rows : list string -> list entry -> Prop :=
| rows_nil : rows [] []
| rows_skip : forall line lines es, no_row line -> rows lines es -> rows (line :: lines) es
| rows_take : forall line lines e es, gives line e -> rows lines es -> rows (line :: lines) (e :: es).

(** Keys lie in their masks, and a key and mask given twice have one route. *)
Definition agree (es : list entry) : Prop :=
  forall a b, In a es -> In b es -> km a = km b -> e_route a = e_route b.

(** What is read of an entry. *)
Definition plain (e : entry) : entry := mkEntry (e_key e) (e_mask e) (e_route e) false.

Lemma split_concat : forall l, l <> [] -> Forall (free ",") l ->
  split "," (String.concat "," l) = l.
Proof.
  induction l as [|s l IH]; intros NE F; [contradiction|]. inversion F as [|? ? Fs Fl]; subst.
  destruct l as [|t l].
  - cbn [String.concat]. now apply split_free.
  - change (String.concat "," (s :: t :: l)) with (s ++ String "," (String.concat "," (t :: l)))%string.
    rewrite split_app by assumption. f_equal. apply IH; [discriminate|assumption].
Qed.

Lemma cells_split : forall line l, cells line l -> split "," line = l.
Proof. intros line l (NE & -> & F). now apply split_concat. Qed.

Lemma fields_row : forall l k m r, fields_of l k m r -> row_fields l = Some (k, m, r).
Proof. intros l k m r [-> | (a & b & c & ->)]; reflexivity. Qed.

Lemma row_none : forall l, length l <> 3%nat -> length l <> 6%nat -> row_fields l = None.
Proof.
  intros l A B. destruct l as [|? [|? [|? [|? [|? [|? [|? l]]]]]]]; try reflexivity; cbn in *; lia.
Qed.

Lemma int16_cases : forall s, ~ has "-" s -> (exists n, int16 s = Ok n) \/ int16 s = Err ValueError.
Proof.
  intros s H. rewrite int16_not_minus by assumption.
  destruct (hex_digits _ 0) as [n|]; [left; now exists n|now right].
Qed.

Section Reading.
  Variable entry_eq : entry -> entry -> bool.
  Hypothesis eq_spec : forall a b, entry_eq a b = true <-> a = b.

  Definition add_row (t : table) (e : entry) : res table :=
    let* x := csv_entry (e_key e) (e_mask e) (e_route e) in unc_add entry_eq t x.

  Lemma read_no_row : forall t line, no_row line ->
    read_row_logged entry_eq t (split "," line) = Ok t.
  Proof.
    intros t line (l & C & H). rewrite (cells_split line l C). unfold read_row_logged, read_row.
    destruct H as [(A & B)|(k & m & r & F & Mk & Mm & Mr & H)].
    - now rewrite row_none.
    - rewrite (fields_row l k m r F).
      destruct (int16_cases k Mk) as [(nk & Ek)|Ek]; rewrite Ek; cbn [bind]; [|reflexivity].
      destruct (int16_cases m Mm) as [(nm & Em)|Em]; rewrite Em; cbn [bind]; [|reflexivity].
      destruct (int16_cases r Mr) as [(nr & Er)|Er]; rewrite Er; cbn [bind]; [|reflexivity].
      exfalso. destruct H as [H|[H|H]]; apply no_number_int16 in H; try assumption; congruence.
  Qed.

  Lemma csv_entry_spec : forall e, csv_entry (e_key e) (e_mask e) (e_route e) =
    if N.land (e_key e) (e_mask e) =? e_key e then Ok (plain e) else Err InvalidParameter.
  Proof. reflexivity. Qed.

  Lemma read_gives : forall t line e, gives line e ->
    read_row_logged entry_eq t (split "," line) = add_row t e.
  Proof.
    intros t line e (l & k & m & r & C & F & Hk & Hm & Hr).
    rewrite (cells_split line l C). unfold read_row_logged, read_row.
    rewrite (fields_row l k m r F), (numeral_int16 k _ Hk). cbn [bind].
    rewrite (numeral_int16 m _ Hm). cbn [bind]. rewrite (numeral_int16 r _ Hr). cbn [bind].
    fold (add_row t e). unfold add_row. rewrite csv_entry_spec.
    destruct (N.land (e_key e) (e_mask e) =? e_key e); cbn [bind]; [|reflexivity].
    pose proof (unc_add_spec entry_eq t (plain e)) as S.
    destruct (unc_add entry_eq t (plain e)) as [t'|x]; [reflexivity|]. destruct S as (-> & _). reflexivity.
  Qed.

  Lemma from_rows : forall lines es, rows lines es -> forall t,
    foldM (fun t line => read_row_logged entry_eq t (split "," line)) t lines = foldM add_row t es.
  Proof.
    intros lines es H. induction H as [|line lines es N H IH|line lines e es G H IH]; intro t.
    - reflexivity.
    - cbn [foldM]. rewrite (read_no_row t line N). cbn [bind]. apply IH.
    - cbn [foldM]. rewrite (read_gives t line e G). destruct (add_row t e); cbn [bind]; [apply IH|reflexivity].
  Qed.

  (** The entries of the table are as the rows before them demand. *)
  Definition sound (t : table) (es : list entry) : Prop :=
    t_x t = 0%Z /\ t_y t = 0%Z /\ t_ndef t = 0%nat /\ t_entries t = firsts [] (map plain es).

  Lemma if_in_ext : forall (x : N * N) l l' (A : Type) (a b : A), (In x l <-> In x l') ->
    (if in_dec km_dec x l then a else b) = (if in_dec km_dec x l' then a else b).
  Proof.
    intros x l l' A a b H. destruct (in_dec km_dec x l), (in_dec km_dec x l'); tauto.
  Qed.

  Lemma firsts_snoc : forall es seen e, firsts seen (es ++ [e]) =
    firsts seen es ++ (if in_dec km_dec (km e) (seen ++ map km es) then [] else [e]).
  Proof.
    induction es as [|a es IH]; intros seen e.
    - cbn [firsts app map]. rewrite app_nil_r. destruct (in_dec km_dec (km e) seen); reflexivity.
    - cbn [app map firsts]. destruct (in_dec km_dec (km a) seen) as [I|I]; rewrite IH.
      + f_equal. apply if_in_ext. rewrite !in_app_iff. cbn. split; [tauto|].
        intros [K|[<-|K]]; tauto.
      + change ((a :: firsts (km a :: seen) es) ++ ?z) with (a :: (firsts (km a :: seen) es ++ z)).
        f_equal. f_equal. apply if_in_ext. rewrite !in_app_iff. cbn. tauto.
  Qed.

  Lemma firsts_In : forall es seen e, In e (firsts seen es) -> In e es.
  Proof.
    induction es as [|a es IH]; intros seen e H; [contradiction|]. cbn [firsts] in H.
    destruct (in_dec km_dec (km a) seen); [right; eauto|]. destruct H as [<-|H]; [now left|right; eauto].
  Qed.

  Lemma firsts_has : forall es seen e, In e es -> In (km e) seen \/ exists x, In x (firsts seen es) /\ km x = km e.
  Proof.
    induction es as [|a es IH]; intros seen e H; [contradiction|]. cbn [firsts].
    destruct (in_dec km_dec (km a) seen) as [I|I]; destruct H as [<-|H].
    - now left.
    - now apply IH.
    - right. exists a. split; [now left|reflexivity].
    - destruct (IH (km a :: seen) e H) as [[E|J]|(x & X & E)]; [|now left|].
      + right. exists a. split; [now left|exact E].
      + right. exists x. split; [now right|exact E].
  Qed.

  Lemma agree_sub : forall es fs, (forall e, In e es -> In e fs) -> agree fs -> agree es.
  Proof. intros es fs S A a b Ia Ib. apply A; auto. Qed.

  Lemma add_row_sound : forall t es e, sound t es -> agree es ->
    (entry_ok e -> agree (es ++ [e]) -> exists t', add_row t e = Ok t' /\ sound t' (es ++ [e])) /\
    (forall t', add_row t e = Ok t' -> entry_ok e /\ agree (es ++ [e])).
  Proof.
    intros t es e (X & Y & D & E) A. unfold add_row. rewrite csv_entry_spec. unfold entry_ok.
    assert (PK : forall a, km (plain a) = km a) by reflexivity.
    assert (MK : map km (map plain es) = map km es) by (rewrite map_map; apply map_ext, PK).
    assert (IN : forall old, In old (t_entries t) -> exists a, In a es /\ plain a = old).
    { intros old I. rewrite E in I. apply firsts_In, in_map_iff in I. destruct I as (a & Ea & Ia). eauto. }
    pose proof (unc_add_spec entry_eq t (plain e)) as S.
    split.
    - intros OK AG. rewrite (proj2 (N.eqb_eq _ _) OK). cbn [bind].
      unfold unc_add in *. destruct (find (same_km (plain e)) (t_entries t)) as [old|] eqn:F.
      + apply find_some in F. destruct F as (I & K). apply same_km_iff in K. rewrite PK in K.
        destruct (IN old I) as (a & Ia & <-). rewrite PK in K.
        assert (R : e_route e = e_route a).
        { apply AG; [apply in_app_iff; right; now left|apply in_app_iff; now left|exact K]. }
        assert (Q : plain a = plain e).
        { unfold plain. unfold km in K. injection K as -> ->. now rewrite R. }
        rewrite (proj2 (eq_spec _ _) Q). exists t. split; [reflexivity|].
        unfold sound. rewrite map_app. cbn [map]. rewrite firsts_snoc. cbn [app].
        destruct (in_dec km_dec (km (plain e)) (map km (map plain es))) as [J|J].
        * rewrite app_nil_r. auto.
        * exfalso. apply J. rewrite MK, PK, K. now apply in_map.
      + apply find_km_None in F. eexists. split; [reflexivity|]. unfold sound. cbn [t_x t_y t_ndef t_entries].
        change (e_def (plain e)) with false. rewrite map_app. cbn [map]. rewrite firsts_snoc. cbn [app].
        destruct (in_dec km_dec (km (plain e)) (map km (map plain es))) as [J|J].
        * exfalso. apply F. apply in_map_iff in J. destruct J as (b & Eb & Ib).
          destruct (firsts_has (map plain es) [] b Ib) as [[]|(x & Ix & Ex)].
          rewrite E, <- Eb, <- Ex. now apply in_map.
        * rewrite E. auto.
    - intros t' H. destruct (N.land (e_key e) (e_mask e) =? e_key e) eqn:OK; [|discriminate].
      apply N.eqb_eq in OK. cbn [bind] in H. rewrite H in S. split; [exact OK|].
      assert (AE : forall a, In a es -> km a = km e -> e_route a = e_route e).
      { intros a Ia K.
        destruct (firsts_has (map plain es) [] (plain a) (in_map _ _ _ Ia)) as [[]|(x & Ix & Ex)].
        rewrite <- E in Ix. rewrite PK in Ex.
        destruct S as [(_ & old & Io & Ko & Qo)|(_ & N)].
        - apply eq_spec in Qo. destruct (IN old Io) as (b & Ib & Eb).
          rewrite (A a b Ia Ib).
          + rewrite <- Eb in Qo. unfold plain in Qo. now injection Qo.
          + rewrite K. rewrite <- (PK b), Eb, Ko. now rewrite PK.
        - exfalso. apply N. rewrite PK, <- K, <- Ex. now apply in_map. }
      intros a b Ia Ib K. apply in_app_iff in Ia, Ib.
      destruct Ia as [Ia|[<-|[]]], Ib as [Ib|[<-|[]]].
      + now apply A.
      + now apply AE.
      + symmetry. now apply AE.
      + reflexivity.
  Qed.

  Lemma add_rows : forall fs t es, sound t es -> agree es ->
    (Forall entry_ok fs -> agree (es ++ fs) ->
       exists t', foldM add_row t fs = Ok t' /\ sound t' (es ++ fs)) /\
    (forall t', foldM add_row t fs = Ok t' -> Forall entry_ok fs /\ agree (es ++ fs)).
  Proof.
    induction fs as [|e fs IH]; intros t es S A.
    - rewrite app_nil_r. split; [intros _ _; exists t; auto|auto].
    - replace (es ++ e :: fs) with ((es ++ [e]) ++ fs) by (now rewrite <- app_assoc).
      destruct (add_row_sound t es e S A) as (P & Q). cbn [foldM]. split.
      + intros F G. inversion F as [|? ? Fe Ff]; subst.
        assert (G1 : agree (es ++ [e])) by (refine (agree_sub _ _ _ G); intros x; rewrite !in_app_iff; tauto).
        destruct (P Fe G1) as (t1 & E1 & S1). rewrite E1. cbn [bind].
        now apply (IH t1 (es ++ [e]) S1 G1).
      + intros t' H. apply bind_Ok_inv in H. destruct H as (t1 & E1 & H).
        destruct (Q t1 E1) as (Fe & G1).
        destruct (P Fe G1) as (t2 & E2 & S2). rewrite E1 in E2. injection E2 as <-.
        destruct (IH t1 (es ++ [e]) S2 G1) as (_ & R). destruct (R t' H) as (Ff & G). auto.
  Qed.

  (** The route a packet takes does not change when repeated entries go. *)
  Lemma firsts_match : forall es seen k, 
    (forall a, In a es -> In (km a) seen -> entry_matchesb k a = false) -> agree es ->
    option_map e_route (first_match (firsts seen es) k) = option_map e_route (first_match es k).
  Proof.
    induction es as [|a es IH]; intros seen k H A; [reflexivity|].
    assert (A' : agree es) by (refine (agree_sub _ _ _ A); intros x; now right).
    cbn [firsts first_match]. destruct (in_dec km_dec (km a) seen) as [I|I].
    - rewrite (H a (or_introl eq_refl) I). apply IH; [|exact A'].
      intros b Ib. apply H. now right.
    - cbn [first_match]. destruct (entry_matchesb k a) eqn:M; [reflexivity|].
      apply IH; [|exact A'].
      intros b Ib [K|J]; [|apply H; [now right|exact J]].
      unfold entry_matchesb in *. unfold km in K. injection K as <- <-. exact M.
  Qed.

  Lemma plain_match : forall es k,
    option_map e_route (first_match (map plain es) k) = option_map e_route (first_match es k).
  Proof.
    induction es as [|a es IH]; intro k; [reflexivity|]. cbn [map first_match].
    change (entry_matchesb k (plain a)) with (entry_matchesb k a).
    destruct (entry_matchesb k a); [reflexivity|apply IH].
  Qed.

  Lemma plain_agree : forall es, agree es -> agree (map plain es).
  Proof.
    intros es A a b Ia Ib K. apply in_map_iff in Ia, Ib.
    destruct Ia as (x & <- & Ix), Ib as (y & <- & Iy). exact (A x y Ix Iy K).
  Qed.

  Lemma csv_iff : forall lines es, rows lines es ->
    ((exists t, from_csv entry_eq lines = Ok t) <-> Forall entry_ok es /\ agree es).
  Proof.
    intros lines es R. unfold from_csv. rewrite (from_rows lines es R).
    assert (S0 : sound (empty_table 0 0) []) by (unfold sound; auto).
    assert (A0 : agree []) by (intros a b []).
    destruct (add_rows es (empty_table 0 0) [] S0 A0) as (P & Q). cbn [app] in P, Q. split.
    - intros (t & E). exact (Q t E).
    - intros (F & A). destruct (P F A) as (t & E & _). eauto.
  Qed.

  Lemma csv_reads : forall lines es t, rows lines es -> from_csv entry_eq lines = Ok t ->
    t_x t = 0%Z /\ t_y t = 0%Z /\ t_ndef t = 0%nat /\
    NoDup (map km (t_entries t)) /\
    (forall e, In e (t_entries t) <-> In e (map plain es)) /\
    (NoDup (map km es) -> t_entries t = map plain es) /\
    forall k, option_map e_route (first_match (t_entries t) k) = option_map e_route (first_match es k).
  Proof.
    intros lines es t R E. pose proof (proj1 (csv_iff lines es R) (ex_intro _ t E)) as (F & A).
    unfold from_csv in E. rewrite (from_rows lines es R) in E.
    assert (S0 : sound (empty_table 0 0) []) by (unfold sound; auto).
    assert (A0 : agree []) by (intros a b []).
    destruct (add_rows es (empty_table 0 0) [] S0 A0) as (P & _). cbn [app] in P.
    destruct (P F A) as (t' & E' & X & Y & D & S). rewrite E in E'. injection E' as <-.
    pose proof (plain_agree es A) as AP.
    split; [exact X|]. split; [exact Y|]. split; [exact D|]. rewrite S. split; [|split; [|split]].
    - clear. generalize (map plain es). intro l. generalize (@nil (N * N)). 
      assert (G : forall l seen, NoDup (map km (firsts seen l)) /\
        forall p, In p (map km (firsts seen l)) -> ~ In p seen).
      { clear. induction l as [|a l IH]; intro seen; cbn [firsts].
        - split; [constructor|intros p []].
        - destruct (in_dec km_dec (km a) seen) as [I|I]; [apply IH|].
          destruct (IH (km a :: seen)) as (N & M). cbn [map]. split.
          + constructor; [|exact N]. intro C. apply M in C. apply C. now left.
          + intros p [<-|Hp]; [exact I|]. apply M in Hp. intro C. apply Hp. now right. }
      intro seen. apply G.
    - intro e. split; [apply firsts_In|]. intro Ie.
      destruct (firsts_has (map plain es) [] e Ie) as [[]|(x & Ix & Ex)].
      replace e with x; [exact Ix|]. pose proof (firsts_In _ _ _ Ix) as Ix'.
      pose proof (AP x e Ix' Ie Ex) as RR. apply in_map_iff in Ie, Ix'.
      destruct Ie as (u & <- & _), Ix' as (v & <- & _). unfold plain, km in *. cbn in *.
      injection Ex as -> ->. now rewrite RR.
    - intro ND. assert (ND' : NoDup (map km (map plain es))) by (now rewrite map_map).
      revert ND'. generalize (map plain es). clear. intro l.
      assert (G : forall l seen, NoDup (map km l) -> (forall p, In p (map km l) -> ~ In p seen) ->
        firsts seen l = l).
      { clear. induction l as [|a l IH]; intros seen N M; [reflexivity|]. cbn [firsts].
        inversion N as [|? ? Na Nl]; subst. destruct (in_dec km_dec (km a) seen) as [I|I].
        - exfalso. exact (M (km a) (or_introl eq_refl) I).
        - f_equal. apply IH; [exact Nl|]. intros p Hp [<-|C]; [contradiction|].
          exact (M p (or_intror Hp) C). }
      intro N. apply G; [exact N|]. intros p _ [].
    - intro k. rewrite firsts_match; [apply plain_match|intros a _ []|exact AP].
  Qed.
End Reading.

(** * The text of an entry *)

Lemma hex_digit_char : forall v, v < 16 -> In (hex_digit v, v) hex_chars.
Proof.
  intros v H.
  assert (C : In v (map N.of_nat (seq 0 16))).
  { apply in_map_iff. exists (N.to_nat v). split; [apply N2Nat.id|]. apply in_seq. lia. }
  cbn in C. repeat (destruct C as [<-|C]; [cbn; tauto|]). contradiction.
Qed.

Lemma hex_text_spells : forall f n, n < 16 ^ N.of_nat f ->
  (n = 0 /\ hex_text f n = "") \/ spells (hex_text f n) n.
Proof.
  induction f as [|f IH]; intros n H.
  - left. cbn in H. split; [lia|reflexivity].
  - cbn [hex_text]. destruct (n =? 0) eqn:Z; [left; apply N.eqb_eq in Z; auto|].
    apply N.eqb_neq in Z. right.
    assert (L : n / 16 < 16 ^ N.of_nat f).
    { apply N.div_lt_upper_bound; [lia|]. rewrite Nat2N.inj_succ, N.pow_succ_r' in H. exact H. }
    assert (M : n mod 16 < 16) by (apply N.mod_lt; lia).
    pose proof (hex_digit_char _ M) as D.
    pose proof (N.div_mod n 16 ltac:(lia)) as E.
    destruct (IH (n / 16) L) as [(E0 & ET)|S].
    + rewrite ET. cbn [append]. rewrite E0, N.mul_0_r, N.add_0_l in E. rewrite <- E in D |- *.
      now apply spells_one.
    + rewrite E at 3. now apply spells_more.
Qed.

Lemma spells_zero : forall s n, spells s n -> spells (String "0" s) n.
Proof.
  intros s n H. induction H as [a v H|s n a v H IH Ha].
  - change (spells (String "0" "" ++ String a "")%string (16 * 0 + v)).
    apply spells_more; [|exact H]. apply spells_one. cbn. tauto.
  - change (spells (String "0" s ++ String a "")%string (16 * n + v)). now apply spells_more.
Qed.

Lemma spells_zeros : forall k s n, spells s n -> spells (zeros k ++ s)%string n.
Proof. induction k as [|k IH]; intros s n H; [exact H|]. cbn [zeros append]. apply spells_zero. auto. Qed.

Lemma zeros_spell : forall k, spells (zeros (S k)) 0.
Proof.
  induction k as [|k IH]; [apply spells_one; cbn; tauto|]. cbn [zeros]. now apply spells_zero.
Qed.

Lemma app_nil_s : forall s, (s ++ "")%string = s.
Proof. induction s as [|a s IH]; [reflexivity|]. cbn [append]. now rewrite IH. Qed.

Lemma hex8_spells : forall n, spells (hex8 n) n.
Proof.
  intro n. unfold hex8.
  assert (H : n < 16 ^ N.of_nat (N.size_nat n)).
  { apply N.lt_le_trans with (2 ^ N.of_nat (N.size_nat n)).
    - destruct n as [|p]; [reflexivity|].
      replace (N.of_nat (N.size_nat (N.pos p))) with (N.size (N.pos p)).
      + apply N.size_gt.
      + cbn. clear. induction p as [p IH|p IH|]; cbn; try reflexivity;
          rewrite Pos2Nat.inj_succ || idtac; cbn in IH; lia.
    - apply N.pow_le_mono_l. lia. }
  destruct (hex_text_spells _ n H) as [(E & ET)|S].
  - rewrite ET, E. exact (zeros_spell 7).
  - now apply spells_zeros.
Qed.

Lemma spells_fun : forall s n m, spells s n -> spells s m -> n = m.
Proof. intros s n m A B. apply hex_digits_spells in A, B. congruence. Qed.

Lemma hex8_numeral : forall n, numeral ("0x" ++ hex8 n)%string n.
Proof.
  intro n. exists "", "", "0x", (hex8 n), "". rewrite app_nil_s. cbn [append].
  repeat (split; [cbn; auto|]). apply hex8_spells.
Qed.

Lemma hex_free : forall s, all_hex s -> free " " s.
Proof.
  induction s as [|a s IH]; intro H; [exact I|]. destruct H as ((v & Hv) & H). split; [|auto].
  intros ->. discriminate.
Qed.

Lemma hex8_free : forall n, free " " ("0x" ++ hex8 n)%string.
Proof.
  intro n. apply free_app; [cbn; repeat split; discriminate|].
  apply hex_free, (spells_hex _ _ (hex8_spells n)).
Qed.

(** Reading up to a character that is not in the first part. *)
Lemma word_inj : forall c a b x y, free c a -> free c b ->
  (a ++ String c x)%string = (b ++ String c y)%string -> a = b /\ x = y.
Proof.
  induction a as [|p a IH]; intros [|q b] x y A B E.
  - injection E as ->. auto.
  - destruct B as (B & _). injection E as -> _. contradiction.
  - destruct A as (A & _). injection E as -> _. contradiction.
  - destruct A as (_ & A), B as (_ & B). injection E as -> E. apply IH in E; [|assumption|assumption].
    destruct E. split; congruence.
Qed.

Definition listed (s : string) : Prop := s <> "" /\ free "," s.

Lemma concat_inj : forall l m, Forall listed l -> Forall listed m ->
  String.concat ", " l = String.concat ", " m -> l = m.
Proof.
  assert (E0 : forall s l, Forall listed (s :: l) -> String.concat ", " (s :: l) <> "").
  { intros s l F C. inversion F as [|? ? (A & _) _]; subst. destruct l; cbn in C; [contradiction|].
    destruct s; [contradiction|discriminate]. }
  assert (CC : forall s t l, String.concat ", " (s :: t :: l) =
    (s ++ String "," (String " " (String.concat ", " (t :: l))))%string) by reflexivity.
  assert (NC : forall s t l x, free "," x -> String.concat ", " (s :: t :: l) <> x).
  { intros s t l x F C. rewrite CC in C. subst x. clear - F.
    induction s as [|a s IH]; cbn in F; [tauto|apply IH; tauto]. }
  induction l as [|s l IH]; intros [|t m] A B E.
  - reflexivity.
  - symmetry in E. now apply E0 in E.
  - now apply E0 in E.
  - inversion A as [|? ? (_ & As) Al]; subst. inversion B as [|? ? (_ & Bt) Bm]; subst.
    destruct l as [|u l], m as [|v m].
    + cbn in E. now subst.
    + symmetry in E. now apply NC in E.
    + now apply NC in E.
    + rewrite !CC in E. apply word_inj in E; [|assumption|assumption]. destruct E as (-> & E).
      injection E as E. f_equal. now apply IH.
Qed.

Lemma str_int_listed : forall z, listed (str_int z).
Proof.
  intro z. split; [destruct (str_int_head z) as (a & r & -> & _); discriminate|].
  apply str_int_free. cbn. lia.
Qed.

Lemma str_int_inj : forall y z, str_int y = str_int z -> y = z.
Proof.
  intros y z E. pose proof (int_str_round y) as A. rewrite E, int_str_round in A. now injection A.
Qed.

Lemma link_label_spec : forall l s, link_label l = Ok s -> listed s /\ l < 6.
Proof.
  intros l s H. destruct (N.lt_ge_cases l 6) as [L|L].
  - split; [|exact L].
    assert (C : In l (map N.of_nat (seq 0 6))).
    { apply in_map_iff. exists (N.to_nat l). split; [apply N2Nat.id|]. apply in_seq. lia. }
    cbn in C. repeat (destruct C as [<-|C]; [injection H as <-; split; [discriminate|cbn; repeat split; discriminate]|]).
    contradiction.
  - exfalso. destruct l as [|[[[p|p|]|[p|p|]|]|[[p|p|]|[p|p|]|]|]]; try discriminate; lia.
Qed.

Lemma link_label_high : forall l, 6 <= l -> link_label l = Err KeyError.
Proof.
  intros l H. destruct (link_label l) as [s|e] eqn:E.
  - apply link_label_spec in E. lia.
  - destruct l as [|[[[p|p|]|[p|p|]|]|[[p|p|]|[p|p|]|]|]]; cbn in E; congruence.
Qed.

Lemma link_label_inj : forall l m s, link_label l = Ok s -> link_label m = Ok s -> l = m.
Proof.
  intros l m s A B. pose proof (link_label_spec l s A) as (_ & L).
  pose proof (link_label_spec m s B) as (_ & M).
  assert (C : forall l, l < 6 -> In l (map N.of_nat (seq 0 6))).
  { intros x Hx. apply in_map_iff. exists (N.to_nat x). split; [apply N2Nat.id|]. apply in_seq. lia. }
  apply C in L, M. cbn in L, M. rewrite <- A in B. clear A.
  repeat (destruct L as [<-|L]; [repeat (destruct M as [<-|M]; [first [reflexivity|discriminate]|]); contradiction|]).
  contradiction.
Qed.

Lemma labels_listed : forall ls ss, mapM link_label ls = Ok ss -> Forall listed ss.
Proof.
  induction ls as [|l ls IH]; intros ss E; cbn [mapM] in E.
  - injection E as <-. constructor.
  - apply bind_Ok_inv in E. destruct E as (s & Es & E). apply bind_Ok_inv in E.
    destruct E as (ss' & Ess & E). injection E as <-. constructor; [now apply (link_label_spec l)|auto].
Qed.

Lemma labels_inj : forall ls ms ss, mapM link_label ls = Ok ss -> mapM link_label ms = Ok ss -> ls = ms.
Proof.
  induction ls as [|l ls IH]; intros ms ss A B; cbn [mapM] in A.
  - injection A as <-. destruct ms as [|m ms]; [reflexivity|]. cbn [mapM] in B.
    apply bind_Ok_inv in B. destruct B as (s & _ & B). apply bind_Ok_inv in B.
    destruct B as (t & _ & B). discriminate.
  - apply bind_Ok_inv in A. destruct A as (s & As & A). apply bind_Ok_inv in A.
    destruct A as (ss' & Al & A). injection A as <-.
    destruct ms as [|m ms]; [discriminate|]. cbn [mapM] in B.
    apply bind_Ok_inv in B. destruct B as (s' & Bs & B). apply bind_Ok_inv in B.
    destruct B as (ss2 & Bl & B). injection B as -> ->.
    f_equal; [now apply (link_label_inj l m s)|now apply (IH ms ss')].
Qed.

Lemma labels_fail : forall ls, (exists l, In l ls /\ 6 <= l) <-> mapM link_label ls = Err KeyError.
Proof.
  induction ls as [|l ls IH]; cbn [mapM].
  - split; [intros (l & [] & _)|discriminate].
  - destruct (N.lt_ge_cases l 6) as [L|L].
    + destruct (link_label l) as [s|e] eqn:E.
      * cbn [bind]. split.
        -- intros (x & [<-|Ix] & X); [lia|]. rewrite (proj1 IH (ex_intro _ x (conj Ix X))). reflexivity.
        -- intro F. destruct (mapM link_label ls) as [ss|e] eqn:M; cbn in F; [discriminate|].
           injection F as ->. destruct (proj2 IH eq_refl) as (x & Ix & X). exists x. split; [now right|exact X].
      * exfalso. assert (C : In l (map N.of_nat (seq 0 6))).
        { apply in_map_iff. exists (N.to_nat l). split; [apply N2Nat.id|]. apply in_seq. lia. }
        cbn in C. repeat (destruct C as [<-|C]; [discriminate|]). contradiction.
    + rewrite (link_label_high l L). cbn [bind]. split; [reflexivity|]. intros _. exists l. split; [now left|exact L].
Qed.

Lemma procs_free : forall ps, free "]" (String.concat ", " (map (fun p => str_int (Z.of_N p)) ps)).
Proof.
  induction ps as [|p ps IH]; [exact I|]. cbn [map].
  destruct ps as [|q ps]; [cbn; apply str_int_free; cbn; lia|]. cbn [map] in *.
  change (free "]" (str_int (Z.of_N p) ++ ", " ++
    String.concat ", " (str_int (Z.of_N q) :: map (fun p => str_int (Z.of_N p)) ps))%string).
  apply free_app; [apply str_int_free; cbn; lia|]. apply free_app; [|exact IH].
  cbn. repeat split; discriminate.
Qed.

Lemma tail_inj : forall a b c, (a ++ c)%string = (b ++ c)%string -> a = b.
Proof.
  intros a b c E.
  assert (L : String.length a = String.length b).
  { assert (LA : forall x y, String.length (x ++ y) = (String.length x + String.length y)%nat).
    { induction x as [|p x IH]; intro y; [reflexivity|]. cbn. now rewrite IH. }
    pose proof (f_equal String.length E) as F. rewrite !LA in F. lia. }
  revert b E L. induction a as [|p a IH]; intros [|q b] E L; try discriminate; [reflexivity|].
  injection E as -> E. f_equal. apply IH; [exact E|]. now injection L.
Qed.

Lemma expand_inj : forall ps ls qs ms s, expand_route_value ps ls = Ok s ->
  expand_route_value qs ms = Ok s -> ps = qs /\ ls = ms.
Proof.
  intros ps ls qs ms s A B. unfold expand_route_value in *.
  apply bind_Ok_inv in A. destruct A as (la & Ea & A). injection A as <-.
  apply bind_Ok_inv in B. destruct B as (lb & Eb & B). injection B as B.
  assert (B' : (String.concat ", " (map (fun p => str_int (Z.of_N p)) qs) ++
                String "]" (String " " (String "[" (String.concat ", " lb ++ "]"))))%string =
               (String.concat ", " (map (fun p => str_int (Z.of_N p)) ps) ++
                String "]" (String " " (String "[" (String.concat ", " la ++ "]"))))%string) by exact B.
  apply word_inj in B'; [|apply procs_free|apply procs_free].
  destruct B' as (P & L). injection L as L. apply tail_inj in L.
  split.
  - apply concat_inj in P.
    + clear - P. revert ps P. induction qs as [|q qs IH]; intros [|p ps] P; try discriminate; [reflexivity|].
      cbn [map] in P. injection P as E P. apply str_int_inj in E. f_equal; [lia|auto].
    + apply Forall_forall. intros x I. apply in_map_iff in I. destruct I as (p & <- & _). apply str_int_listed.
    + apply Forall_forall. intros x I. apply in_map_iff in I. destruct I as (p & <- & _). apply str_int_listed.
  - apply concat_inj in L; [|now apply (labels_listed ms)|now apply (labels_listed ls)].
    subst lb. now apply (labels_inj ls ms la).
Qed.

Lemma format_words : forall k m ps ls d s, format_route k m ps ls d = Ok s ->
  exists rest, s = (("0x" ++ hex8 k) ++ " " ++ ("0x" ++ hex8 m) ++ " " ++
                    ("0x" ++ hex8 (reduce_route_value ps ls)) ++ " " ++ rest)%string /\
    exists x, expand_route_value ps ls = Ok x /\
    rest = ((if d then "1" else "0") ++ "       " ++ x)%string.
Proof.
  intros k m ps ls d s H. unfold format_route in H. apply bind_Ok_inv in H.
  destruct H as (x & E & H). injection H as <-. eexists. split; [|exists x; split; [exact E|reflexivity]].
  rewrite !app_assoc_s. reflexivity.
Qed.

Lemma hex8_inj : forall n m, ("0x" ++ hex8 n)%string = ("0x" ++ hex8 m)%string -> n = m.
Proof.
  intros n m E. injection E as E. apply (spells_fun (hex8 n)); [apply hex8_spells|].
  rewrite E. apply hex8_spells.
Qed.

Lemma format_inj : forall k m ps ls d k' m' ps' ls' d' s,
  format_route k m ps ls d = Ok s -> format_route k' m' ps' ls' d' = Ok s ->
  k = k' /\ m = m' /\ ps = ps' /\ ls = ls' /\ d = d'.
Proof.
  intros k m ps ls d k' m' ps' ls' d' s A B.
  apply format_words in A. destruct A as (ra & A & xa & Xa & Ra).
  apply format_words in B. destruct B as (rb & B & xb & Xb & Rb).
  rewrite A in B. apply word_inj in B; [|apply hex8_free|apply hex8_free]. destruct B as (K & B).
  apply word_inj in B; [|apply hex8_free|apply hex8_free]. destruct B as (M & B).
  apply word_inj in B; [|apply hex8_free|apply hex8_free]. destruct B as (_ & B).
  apply hex8_inj in K, M. change ((" " ++ rb))%string with (String " " rb) in B.
  assert (R : ra = rb) by (cbn [append] in B; congruence). clear B. rewrite Ra, Rb in R.
  destruct d, d'; cbn [append] in R; try discriminate; injection R as R; subst xb;
    destruct (expand_inj ps ls ps' ls' xa Xa Xb); auto 10.
Qed.

Lemma format_fails : forall k m ps ls d,
  (exists l, In l ls /\ 6 <= l) <-> format_route k m ps ls d = Err KeyError.
Proof.
  intros k m ps ls d. rewrite labels_fail. unfold format_route, expand_route_value.
  destruct (mapM link_label ls) as [ss|e]; cbn [bind]; split; intro H; try discriminate; congruence.
Qed.

Lemma format_total : forall k m ps ls d, (forall l, In l ls -> l < 6) ->
  exists s, format_route k m ps ls d = Ok s.
Proof.
  intros k m ps ls d H. unfold format_route, expand_route_value.
  assert (T : exists ss, mapM link_label ls = Ok ss).
  { induction ls as [|l ls IH]; [exists []; reflexivity|]. cbn [mapM].
    destruct (IH (fun x I => H x (or_intror I))) as (ss & ->).
    destruct (link_label l) as [s|e] eqn:E; [eexists; reflexivity|].
    pose proof (H l (or_introl eq_refl)) as L. exfalso.
    assert (C : In l (map N.of_nat (seq 0 6))).
    { apply in_map_iff. exists (N.to_nat l). split; [apply N2Nat.id|]. apply in_seq. lia. }
    cbn in C. repeat (destruct C as [<-|C]; [discriminate|]). contradiction. }
  destruct T as (ss & ->). eexists. reflexivity.
Qed.

Lemma numeral_free : forall s n, numeral s n -> free "," s.
Proof.
  intros s n (a & sign & pre & d & b & -> & A & B & S & P & D).
  assert (BF : forall x, blank x -> free "," x).
  { induction x as [|c x IH]; intro H; [exact I|]. destruct H as (Hc & H). split; [|auto].
    intros ->. cbn in Hc. repeat (destruct Hc as [Hc|Hc]; [discriminate|]). contradiction. }
  assert (HF : forall x, all_hex x -> free "," x).
  { induction x as [|c x IH]; intro H; [exact I|]. destruct H as ((v & Hv) & H). split; [|auto].
    intros ->. discriminate. }
  repeat apply free_app; try (now apply BF).
  - cbn in S. destruct S as [<-|[<-|[]]]; cbn; repeat split; discriminate.
  - cbn in P. destruct P as [<-|[<-|[<-|[]]]]; cbn; repeat split; discriminate.
  - now apply HF, (spells_hex d n).
Qed.

Lemma numerals_give : forall k m r e, numeral k (e_key e) -> numeral m (e_mask e) ->
  numeral r (e_route e) -> gives (k ++ "," ++ m ++ "," ++ r)%string e.
Proof.
  intros k m r e K M R. exists [k; m; r], k, m, r. split; [|split; [now left|auto]].
  split; [discriminate|]. split; [reflexivity|].
  repeat (constructor; [eapply numeral_free; eassumption|]). constructor.
Qed.

(** A table written with one row for each entry. *)
Definition written (e : entry) : string :=
  ("0x" ++ hex8 (e_key e) ++ ",0x" ++ hex8 (e_mask e) ++ ",0x" ++ hex8 (e_route e))%string.

Lemma written_gives : forall e, gives (written e) e.
Proof.
  intro e. unfold written.
  pose proof (numerals_give _ _ _ e (hex8_numeral (e_key e)) (hex8_numeral (e_mask e))
                (hex8_numeral (e_route e))) as G.
  rewrite !app_assoc_s in G. exact G.
Qed.

Lemma written_rows : forall es, rows (map written es) es.
Proof. induction es as [|e es IH]; [constructor|]. apply rows_take; [apply written_gives|exact IH]. Qed.

Lemma format_read_back : forall entry_eq (eq_spec : forall a b, entry_eq a b = true <-> a = b)
    k m ps ls d s, format_route k m ps ls d = Ok s -> N.land k m = k ->
  exists a b c rest, s = (a ++ " " ++ b ++ " " ++ c ++ " " ++ rest)%string /\
    free " " a /\ free " " b /\ free " " c /\
    from_csv entry_eq [(a ++ "," ++ b ++ "," ++ c)%string] =
      Ok (mkTable 0 0 [mkEntry k m (reduce_route_value ps ls) false] 0).
Proof.
  intros entry_eq eq_spec k m ps ls d s H OK. apply format_words in H.
  destruct H as (rest & E & _). eexists _, _, _, rest. split; [exact E|].
  split; [apply hex8_free|]. split; [apply hex8_free|]. split; [apply hex8_free|].
  set (e := mkEntry k m (reduce_route_value ps ls) false).
  assert (R : rows [(("0x" ++ hex8 k) ++ "," ++ ("0x" ++ hex8 m) ++ "," ++
                     ("0x" ++ hex8 (reduce_route_value ps ls)))%string] [e]).
  { apply rows_take; [|constructor]. apply numerals_give; apply hex8_numeral. }
  destruct (proj2 (csv_iff entry_eq eq_spec _ _ R)) as (t & Et).
  { split; [constructor; [exact OK|constructor]|]. intros a b [<-|[]] [<-|[]] _. reflexivity. }
  rewrite Et. f_equal.
  destruct (csv_reads entry_eq eq_spec _ _ t R Et) as (X & Y & D & _ & _ & EN & _).
  assert (ND : NoDup (map km [e])) by (repeat constructor; intros []).
  apply EN in ND. destruct t as [x y en nd]. cbn in *. subst. reflexivity.
Qed.
