(** On machines without faults, what is assumed of paths when graphs are mapped holds. *)
From Coq Require Import List Arith NArith ZArith QArith Bool Lia Permutation.
From Verif Require Import Base Dict PlacementsModel PlacementsProofs PlacerModel PlacerProofs PlacerFinal.
From Verif Require Import RouteSpec KeyMask AllocModel AllocProofs TablesModel TablesProofs GenModel GenProofs
  PairModel RangeModel OrderedModel
  TreeModel TreeProofs MachModel LdfModel LdfProofs PathModel PathProofs
  RPartModel RPartProofs BfsModel BfsProofs TargetsModel TargetsProofs ConvModel ConvProofs RouterModel RouterProofs RouterTables RouterPlan RouterFinal
  RouterSuccess ChainModel ChainProofs MapModel MapProofs WholeProofs.
Import ListNotations.
Local Open Scope Z_scope.

(** The vector from one chip to another: without a step that another takes back. *)
Definition med (a b : Z) : Z := Z.max (Z.min a b) (Z.min 0 (Z.max a b)).

Lemma minimal_straight : forall m a b, Z.abs a < m_width m -> Z.abs b < m_height m ->
  straight m (a - med a b, b - med a b, - med a b).
Proof.
  intros m a b A B. unfold straight.
  assert (M : 0 <= a /\ 0 <= b /\ med a b = Z.min a b \/ a <= 0 /\ b <= 0 /\ med a b = Z.max a b \/
              (a <= 0 <= b \/ b <= 0 <= a) /\ med a b = 0) by (unfold med; lia).
  remember (med a b) as c eqn:E. clear E.
  destruct M as [(M1 & M2 & ->)|[(M1 & M2 & ->)|(M1 & ->)]]; [| |nia].
  - destruct (Z.min_spec a b) as [[L ->]|[L ->]]; (split; [lia|]); (split; [nia|]); (split; [nia|]); lia.
  - destruct (Z.max_spec a b) as [[L ->]|[L ->]]; (split; [lia|]); (split; [nia|]); (split; [nia|]); lia.
Qed.

Lemma whole_connected : forall m, whole m -> connected m.
Proof.
  intros m W p q P Q. apply (wh_chips m W) in P, Q.
  destruct (whole_path m (fst q - fst p) (snd q - snd p) 0 p q W P Q) as (_ & A & _ & B & _).
  - destruct P, Q. unfold straight. lia.
  - replace (fst p + (fst q - fst p) - 0) with (fst q) by lia. replace (snd p + (snd q - snd p) - 0) with (snd q) by lia.
    rewrite <- surjective_pairing. now apply place_inside.
  - eauto.
Qed.

(** The link opposite to a link. *)
Definition opposite (l : nat) : nat := match l with 0 => 3 | 1 => 4 | 2 => 5 | 3 => 0 | 4 => 1 | _ => 2 end%nat.

Lemma over_back : forall m p l, inside m p -> (l < 6)%nat -> over_link m (over_link m p l) (opposite l) = p.
Proof.
  intros m p l P L. rewrite <- (place_inside m p P) at 1. rewrite !over_place. rewrite <- (place_inside m p P) at 2. f_equal.
  unfold plus. destruct p. cbn [fst snd]. do 6 (destruct l as [|l]; [cbn [opposite link_vector fst snd]; f_equal; lia|]). lia.
Qed.

Lemma whole_back : forall m p l q, whole m -> works m p (l, q) -> exists l', works m q (l', p).
Proof.
  intros m p l q W (L & K & E & C). cbn [fst snd] in *. exists (opposite l).
  assert (P : inside m p).
  { apply (wh_chips m W). unfold is_link in K. now apply andb_prop in K. }
  assert (B : over_link m q (opposite l) = p) by (rewrite E; now apply over_back).
  assert (L' : (opposite l < 6)%nat) by (do 6 (destruct l as [|l]; [cbn; lia|]); cbn; lia).
  split; [exact L'|]. cbn [fst snd]. split; [|split; [now rewrite B|now apply (wh_chips m W)]].
  apply (wh_links m W); [exact L'|now apply (wh_chips m W)|now rewrite B].
Qed.

Lemma whole_machines : forall i, whole (mi_mach i) -> 0 < m_width (mi_mach i) -> 0 < m_height (mi_mach i) ->
  (forall c d, PlacerModel.m_chip (pe_machine (mi_env i)) c = Some d -> inside (mi_mach i) (zxy c)) ->
  (forall a b, PlacerProofs.linked (mi_env i) a b -> PlacerModel.m_chip (pe_machine (mi_env i)) b <> None ->
     exists l, (l < 6)%nat /\ over_link (mi_mach i) (zxy a) l = zxy b) ->
  (forall p q, inside (mi_mach i) p -> inside (mi_mach i) q ->
     straight (mi_mach i) (mi_vec i p q) /\
     let '(x, y, z) := mi_vec i p q in LdfProofs.place (mi_mach i) (fst p + x - z, snd p + y - z) = q) ->
  (forall l, Permutation (mi_order i l) l) ->
  machines_ok i.
Proof.
  intros i W W0 H0 CH LK VE OR. constructor.
  - intros c d E. apply (wh_chips _ W). eauto.
  - intros a b L NB. destruct (LK a b L NB) as (l & L6 & E). exists l.
    assert (A : inside (mi_mach i) (zxy a)) by (destruct L as (c & C & _); eapply CH; exact C).
    assert (B : inside (mi_mach i) (zxy b)).
    { destruct (PlacerModel.m_chip (pe_machine (mi_env i)) b) as [d|] eqn:D; [eapply CH; exact D|contradiction]. }
    split; [exact L6|]. cbn [fst snd]. split; [apply (wh_links _ W); auto; now rewrite E|]. split; [auto|]. now apply (wh_chips _ W).
  - intros p l q _ K. eapply whole_back; eauto.
  - apply (wh_chips _ W). unfold inside. cbn. lia.
  - intros p P. now apply (wh_chips _ W).
  - intros p q P Q. apply (wh_chips _ W) in P, Q. apply (VE p q P Q).
  - intros p q l P Q R. apply (wh_chips _ W) in P, Q. destruct (VE p q P Q) as [ST E].
    destruct (mi_vec i p q) as [[x y] z]. destruct (whole_path _ x y z p q W P Q ST E) as (_ & WK & ND & _).
    rewrite (repaired_ok _ _ _ WK) in R. injection R as <-. now apply no_repeat_no_return.
  - exact OR.
Qed.
