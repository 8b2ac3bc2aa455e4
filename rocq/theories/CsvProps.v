(** Properties of reading routing tables from text (C154) and of the text of a
    routing entry (C155).  [numeral s n] (CsvProofs): [s] is the number [n] in
    base 16, with or without "0x", plus sign and spaces around it; [gives line e]:
    a line of three fields, or of six of which the second to fourth count, with the
    key, mask and route of [e]; [no_row line]: a line with another number of
    fields, or with something that cannot be a number; [rows lines es]: each line
    gives an entry of [es], in order, or is no row. *)
From Coq Require Import String Ascii List Arith NArith ZArith Bool.
From Verif Require Import Base RouteSpec TablesModel UtilModel UtilProofs TextModel TextProofs CsvModel CsvProofs.
Import ListNotations.
Local Open Scope string_scope.
Local Open Scope list_scope.
Local Open Scope N_scope.

(** * C154 *)

(** A file is read exactly if every key lies in its mask and rows with the same
    key and mask have the same route. *)
Theorem C154_succeeds_iff :
  forall entry_eq, (forall a b, entry_eq a b = true <-> a = b) ->
  forall lines es, rows lines es ->
    ((exists t, from_csv entry_eq lines = Ok t) <->
     (forall e, In e es -> N.land (e_key e) (e_mask e) = e_key e) /\
     (forall a b, In a es -> In b es -> e_key a = e_key b -> e_mask a = e_mask b ->
        e_route a = e_route b)).
Proof.
  intros entry_eq H lines es R. rewrite (csv_iff entry_eq H lines es R).
  unfold agree, TablesProofs.km. rewrite Forall_forall. split.
  - intros (A & B). split; [exact A|]. intros a b Ia Ib K M. apply B; congruence || assumption.
  - intros (A & B). split; [exact A|]. intros a b Ia Ib [= K M]. now apply B.
Qed.
Print Assumptions C154_succeeds_iff.

(** The table read has the entries of the rows, in order, each key and mask once;
    none is defaultable, and every packet is routed as the rows say. *)
Theorem C154_table :
  forall entry_eq, (forall a b, entry_eq a b = true <-> a = b) ->
  forall lines es t, rows lines es -> from_csv entry_eq lines = Ok t ->
    t_x t = 0%Z /\ t_y t = 0%Z /\ t_ndef t = 0%nat /\
    NoDup (map (fun e => (e_key e, e_mask e)) (t_entries t)) /\
    (forall e, In e (t_entries t) <->
       exists x, In x es /\ e = mkEntry (e_key x) (e_mask x) (e_route x) false) /\
    (NoDup (map (fun e => (e_key e, e_mask e)) es) ->
       t_entries t = map (fun x => mkEntry (e_key x) (e_mask x) (e_route x) false) es) /\
    forall k r, routes_to (t_entries t) k r <-> routes_to es k r.
Proof.
  intros entry_eq H lines es t R E.
  destruct (csv_reads entry_eq H lines es t R E) as (X & Y & D & N & I & EN & RT).
  split; [exact X|]. split; [exact Y|]. split; [exact D|]. split; [exact N|].
  split; [|split; [exact EN|]].
  - intro e. rewrite I, in_map_iff. split; intros (x & A & B); eauto.
  - intros k r. specialize (RT k). unfold routes_to. split; intros (e & A & B); rewrite A in RT; cbn in RT.
    + destruct (first_match es k) as [x|]; [|discriminate]. injection RT as RT. exists x. split; congruence.
    + destruct (first_match (t_entries t) k) as [x|]; [|discriminate]. injection RT as RT. exists x. split; congruence.
Qed.
Print Assumptions C154_table.

(** Every table of entries that are not defaultable, written as hexadecimal
    rows, is read back as it was. *)
Theorem C154_round_trip :
  forall entry_eq, (forall a b, entry_eq a b = true <-> a = b) ->
  forall es, (forall e, In e es -> N.land (e_key e) (e_mask e) = e_key e /\ e_def e = false) ->
    NoDup (map (fun e => (e_key e, e_mask e)) es) ->
    from_csv entry_eq (map (fun e => "0x" ++ hex8 (e_key e) ++ ",0x" ++ hex8 (e_mask e) ++
                                     ",0x" ++ hex8 (e_route e))%string es) =
      Ok (mkTable 0 0 es 0).
Proof.
  intros entry_eq H es OK ND. pose proof (written_rows es) as R.
  change (from_csv entry_eq (map written es) = Ok (mkTable 0 0 es 0)).
  destruct (proj2 (C154_succeeds_iff entry_eq H _ es R)) as (t & E).
  - split; [intros e I; apply OK, I|]. intros a b Ia Ib K M.
    assert (a = b) as ->; [|reflexivity]. clear - ND Ia Ib K M.
    induction es as [|x es IH]; [contradiction|]. cbn [map] in ND.
    inversion ND as [|? ? N1 N2]; subst. destruct Ia as [<-|Ia], Ib as [<-|Ib].
    + reflexivity.
    + exfalso. apply N1. rewrite K, M. exact (in_map (fun e => (e_key e, e_mask e)) _ _ Ib).
    + exfalso. apply N1. rewrite <- K, <- M. exact (in_map (fun e => (e_key e, e_mask e)) _ _ Ia).
    + now apply IH.
  - rewrite E. f_equal.
    destruct (C154_table entry_eq H _ es t R E) as (X & Y & D & _ & _ & EN & _).
    specialize (EN ND). destruct t as [x y en nd]. cbn in *. subst. f_equal.
    clear - OK. induction es as [|e es IH]; [reflexivity|]. cbn [map]. f_equal.
    + destruct (OK e (or_introl eq_refl)) as (_ & D). destruct e. cbn in *. now subst.
    + apply IH. intros x I. apply OK. now right.
Qed.
Print Assumptions C154_round_trip.

Definition eqe (a b : entry) : bool :=
  (e_key a =? e_key b) && (e_mask a =? e_mask b) && (e_route a =? e_route b) &&
  Bool.eqb (e_def a) (e_def b).
Lemma eqe_spec : forall a b, eqe a b = true <-> a = b.
Proof.
  intros [k m r d] [k' m' r' d']. unfold eqe. cbn.
  rewrite !andb_true_iff, !N.eqb_eq, Bool.eqb_true_iff. split; [intros (((-> & ->) & ->) & ->); reflexivity|].
  intros [= -> -> -> ->]. auto.
Qed.

(** A header, a row of three fields, an empty line, a row of six. *)
Definition sample : list string :=
  ["Key,Mask,Route"; "0x00000010, FFFFFFF0 ,+1a"; ""; "0,20,0XfffffFF0,3f,x,y"].
Definition sample_es : list entry :=
  [mkEntry 16 0xFFFFFFF0 26 false; mkEntry 32 0xFFFFFFF0 63 false].

Example ex_sample_rows : rows sample sample_es.
Proof.
  apply rows_skip; [|apply rows_take; [|apply rows_skip; [|apply rows_take; [|constructor]]]].
  - exists ["Key"; "Mask"; "Route"]. split.
    + split; [discriminate|]. split; [reflexivity|]. repeat constructor; discriminate.
    + right. exists "Key", "Mask", "Route". split; [now left|].
      split; [cbn; intuition discriminate|]. split; [cbn; intuition discriminate|].
      split; [cbn; intuition discriminate|]. left. right. exists "K"%char. split; [now left|].
      cbn. intuition discriminate.
  - exists ["0x00000010"; " FFFFFFF0 "; "+1a"], "0x00000010", " FFFFFFF0 ", "+1a".
    split; [split; [discriminate|]; split; [reflexivity|]; repeat constructor; discriminate|].
    split; [now left|]. split; [exact (hex8_numeral 16)|]. split.
    + exists " ", "", "", "FFFFFFF0", " ". split; [reflexivity|].
      split; [cbn; auto 10|]. split; [cbn; auto 10|]. split; [cbn; auto|]. split; [cbn; auto|].
      exact (hex8_spells 0xFFFFFFF0).
    + exists "", "+", "", "1a", "". split; [reflexivity|].
      split; [exact I|]. split; [exact I|]. split; [cbn; auto|]. split; [cbn; auto|].
      apply (spells_more "1" 1 "a" 10); [apply spells_one; cbn; tauto|cbn; tauto].
  - exists [""]. split; [split; [discriminate|]; split; [reflexivity|]; repeat constructor|].
    left. cbn. split; discriminate.
  - exists ["0"; "20"; "0XfffffFF0"; "3f"; "x"; "y"], "20", "0XfffffFF0", "3f".
    split; [split; [discriminate|]; split; [reflexivity|]; repeat constructor; discriminate|].
    split; [right; exists "0", "x", "y"; reflexivity|].
    assert (F : forall s n a v, spells s n -> In (a, v) hex_chars -> spells (s ++ String a "")%string (16 * n + v))
      by exact spells_more.
    split; [|split].
    + exists "", "", "", "20", "". do 5 (split; [cbn; auto|]).
      apply (F "2" 2 "0"%char 0); [apply spells_one|]; cbn; tauto.
    + exists "", "", "0X", "fffffFF0", "". do 5 (split; [cbn; auto|]).
      apply (F "fffffFF" 0xFFFFFFF "0"%char 0); [|cbn; tauto].
      apply (F "fffffF" 0xFFFFFF "F"%char 15); [|cbn; tauto].
      apply (F "fffff" 0xFFFFF "F"%char 15); [|cbn; tauto].
      apply (F "ffff" 0xFFFF "f"%char 15); [|cbn; tauto].
      apply (F "fff" 0xFFF "f"%char 15); [|cbn; tauto].
      apply (F "ff" 0xFF "f"%char 15); [|cbn; tauto].
      apply (F "f" 0xF "f"%char 15); [|cbn; tauto].
      apply spells_one. cbn. tauto.
    + exists "", "", "", "3f", "". do 5 (split; [cbn; auto|]).
      apply (F "3" 3 "f"%char 15); [apply spells_one|]; cbn; tauto.
Qed.

Example ex_sample_read :
  (forall a b, eqe a b = true <-> a = b) /\
  from_csv eqe sample = Ok (mkTable 0 0 sample_es 0) /\
  (* the same key and mask with another route, and a key outside of its mask *)
  from_csv eqe (sample ++ ["10,FFFFFFF0,2"]) = Err AlreadyExists /\
  from_csv eqe (sample ++ ["10,FFFFFFF0,1A"]) = Ok (mkTable 0 0 sample_es 0) /\
  from_csv eqe (sample ++ ["11,FFFFFFF0,2"]) = Err InvalidParameter.
Proof. split; [exact eqe_spec|]. vm_compute. repeat split. Qed.

(** * C155 *)

(** The text of an entry starts with its key, mask and route; as a row of a
    file, these three words are read back. *)
Theorem C155_read_back :
  forall entry_eq, (forall a b, entry_eq a b = true <-> a = b) ->
  forall k m ps ls d s, format_route k m ps ls d = Ok s -> N.land k m = k ->
    NoDup ps -> NoDup ls ->
    exists a b c rest w,
      s = (a ++ " " ++ b ++ " " ++ c ++ " " ++ rest)%string /\
      free " " a /\ free " " b /\ free " " c /\
      (forall i, N.testbit w i = true <-> In i ls \/ exists p, In p ps /\ i = p + 6) /\
      from_csv entry_eq [(a ++ "," ++ b ++ "," ++ c)%string] = Ok (mkTable 0 0 [mkEntry k m w false] 0).
Proof.
  intros entry_eq H k m ps ls d s E OK NP NL.
  assert (L6 : forall l, In l ls -> l < 6).
  { intros l I. destruct (N.lt_ge_cases l 6) as [L|L]; [exact L|].
    assert (X : format_route k m ps ls d = Err KeyError) by (apply format_fails; eauto). congruence. }
  destruct (format_read_back entry_eq H k m ps ls d s E OK) as (a & b & c & rest & S & A & B & C & R).
  exists a, b, c, rest, (reduce_route_value ps ls).
  do 4 (split; [assumption|]). split; [|exact R]. intro i.
  rewrite (reduce_route_bits ps ls i NP NL L6). split.
  - intros [(_ & I)|(G & I)]; [now left|]. right. exists (i - 6). split; [exact I|]. now rewrite N.sub_add.
  - intros [I|(p & I & ->)]; [left; auto|]. right. rewrite N.add_sub. split; [|exact I].
    rewrite N.add_comm. apply N.le_add_r.
Qed.
Print Assumptions C155_read_back.

(** Entries with the same text are the same: key, mask, processors, links and
    defaultable. *)
Theorem C155_text_identifies :
  forall k m ps ls d k' m' ps' ls' d' s,
    format_route k m ps ls d = Ok s -> format_route k' m' ps' ls' d' = Ok s ->
    k = k' /\ m = m' /\ ps = ps' /\ ls = ls' /\ d = d'.
Proof. exact format_inj. Qed.
Print Assumptions C155_text_identifies.

(** There is a text exactly for the links a chip has. *)
Theorem C155_text_iff :
  forall k m ps ls d,
    (exists s, format_route k m ps ls d = Ok s) <-> (forall l, In l ls -> l < 6).
Proof.
  intros k m ps ls d. split; [|apply format_total].
  intros (s & E) l I. destruct (N.lt_ge_cases l 6) as [L|L]; [exact L|].
  assert (X : format_route k m ps ls d = Err KeyError) by (apply format_fails; eauto). congruence.
Qed.
Print Assumptions C155_text_iff.

Example ex_format :
  format_route 0x1F0 0xFFFFFFF0 [1; 17] [0; 5] true =
    Ok "0x000001F0 0xFFFFFFF0 0x008000A1 1       [1, 17] [E, S]" /\
  format_route 0 0 [] [1; 2] false = Ok "0x00000000 0x00000000 0x00000006 0       [] [NE, N]" /\
  format_route 0 0 [] [6] false = Err KeyError.
Proof. vm_compute. repeat split. Qed.
