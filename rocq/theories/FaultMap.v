(** On machines with faults at one chip only, what is assumed of paths when graphs are
    mapped holds. *)
From Coq Require Import List Arith NArith ZArith QArith Bool Lia Permutation.
From Verif Require Import Base Dict PlacementsModel PlacementsProofs PlacerModel PlacerProofs PlacerFinal.
From Verif Require Import RouteSpec KeyMask AllocModel AllocProofs TablesModel TablesProofs GenModel GenProofs
  PairModel RangeModel OrderedModel
  TreeModel TreeProofs MachModel LdfModel LdfProofs PathModel PathProofs
  RPartModel RPartProofs BfsModel BfsProofs TargetsModel TargetsProofs ConvModel ConvProofs RouterModel RouterProofs RouterTables RouterPlan RouterFinal
  RouterSuccess ChainModel ChainProofs MapModel MapProofs WholeProofs DetourProofs FaultProofs.
Import ListNotations.
Local Open Scope Z_scope.

Lemma fault_machines : forall i x, fault_at (mi_mach i) x -> both_ways (mi_mach i) -> is_chip (mi_mach i) (0, 0) = true ->
  (forall c d, PlacerModel.m_chip (pe_machine (mi_env i)) c = Some d -> is_chip (mi_mach i) (zxy c) = true) ->
  (forall a b, PlacerProofs.linked (mi_env i) a b -> PlacerModel.m_chip (pe_machine (mi_env i)) b <> None ->
     exists l, works (mi_mach i) (zxy a) (l, zxy b)) ->
  (forall p q, is_chip (mi_mach i) p = true -> is_chip (mi_mach i) q = true ->
     straight (mi_mach i) (mi_vec i p q) /\ fewest (mi_mach i) p (mi_vec i p q) /\
     let '(x, y, z) := mi_vec i p q in LdfProofs.place (mi_mach i) (fst p + x - z, snd p + y - z) = q) ->
  (forall l, Permutation (mi_order i l) l) ->
  machines_ok i.
Proof.
  intros i x F BW C0 CH LK VE OR. constructor; auto.
  - exact (fa_inside _ _ F).
  - intros p q P Q. apply (VE p q P Q).
  - intros p q l P Q R. destruct (VE p q P Q) as (ST & FE & E). exact (fault_no_return _ x _ p q l F BW P Q ST FE E R).
Qed.
