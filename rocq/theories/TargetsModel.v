(** Model of class _Targets of the application router
    (pacman/operations/router_algorithms/application_router.py 40-178). The lists of
    cores and links are Python objects that two sources can share: they live in a
    heap, and the dictionary holds addresses. Every application vertex has a
    splitter; its outgoing vertices are those of the one partition for which
    the targets are collected. *)
From Coq Require Import List Arith Bool.
From Verif Require Import Base Dict RPartModel.
Import ListNotations.

Record tstate := mkT {
  t_heap : list (list nat * list nat);   (* cores and links *)
  t_dict : list (vtx * nat) }.           (* __targets_by_source *)
Definition t_empty : tstate := mkT [] [].

(** splitter.get_out_going_vertices of an application vertex, and app_vertex of a
    machine vertex. *)
Record tenv := mkTEnv { te_out : nat -> list nat; te_app : nat -> option nat }.

Definition opt_list (o : option nat) : list nat := match o with Some x => [x] | None => [] end.

(** A new pair of empty lists for a source. *)
Definition t_fresh (s : tstate) (src : vtx) : tstate :=
  mkT (t_heap s ++ [([], [])]) (dset vtx_eqb (t_dict s) src (length (t_heap s))).

(** ensure_source (51-59). *)
Definition ensure_source (s : tstate) (src : vtx) : tstate :=
  if dmem vtx_eqb (t_dict s) src then s else t_fresh s src.

(** __add_source (147-157); the defaultdict makes a missing entry. *)
Definition add_source (s : tstate) (src : vtx) (core link : option nat) : tstate :=
  let s' := ensure_source s src in
  match dget vtx_eqb (t_dict s') src with
  | None => s'
  | Some a =>
      let '(cs, ls) := nth a (t_heap s') ([], []) in
      mkT (upd (t_heap s') a (cs ++ opt_list core, ls ++ opt_list link)) (t_dict s')
  end.

(** __add_m_vertices (135-145). *)
Fixpoint add_m_vertices (s : tstate) (vs : list nat) (core link : option nat) : tstate :=
  match vs with
  | [] => s
  | v :: rest => add_m_vertices (add_source s (Mac v) core link) rest core link
  end.

(** __replace_app_vertex (123-133): the machine vertices get the lists of the
    application vertex itself. *)
Definition replace_app_vertex (env : tenv) (s : tstate) (a : nat) : tstate :=
  match dget vtx_eqb (t_dict s) (App a) with
  | None => s
  | Some addr =>
      mkT (t_heap s)
          (fold_left (fun d v => dset vtx_eqb d (Mac v) addr) (te_out env a)
                     (ddel vtx_eqb (t_dict s) (App a)))
  end.
Definition replace_of (env : tenv) (s : tstate) (v : nat) : tstate :=
  match te_app env v with
  | Some a => if dmem vtx_eqb (t_dict s) (App a) then replace_app_vertex env s a else s
  | None => s
  end.

(** __is_m_vertex (110-121). *)
Definition is_m_vertex (env : tenv) (s : tstate) (a : nat) : bool :=
  existsb (fun v => dmem vtx_eqb (t_dict s) (Mac v)) (te_out env a).

(** One round of add_sources_for_target (61-84). *)
Definition add_src (env : tenv) (s : tstate) (core link : option nat) (src : vtx) : tstate :=
  match src with
  | App a =>
      if is_m_vertex env s a then add_m_vertices s (te_out env a) core link
      else add_source s (App a) core link
  | Mac v => add_source (replace_of env s v) (Mac v) core link
  end.
(** One round of add_machine_sources_for_target (86-108). *)
Definition add_machine_src (env : tenv) (s : tstate) (core link : option nat) (src : vtx) : tstate :=
  match src with
  | App a =>
      let s' := if dmem vtx_eqb (t_dict s) (App a) then replace_app_vertex env s a else s in
      add_m_vertices s' (te_out env a) core link
  | Mac v => add_source (replace_of env s v) (Mac v) core link
  end.

(** Calls of add_sources_for_target and add_machine_sources_for_target. *)
Record tcall := mkTCall { tc_machine : bool; tc_core : option nat; tc_link : option nat; tc_srcs : list vtx }.
Definition run_call (env : tenv) (s : tstate) (c : tcall) : tstate :=
  fold_left (fun s src => if tc_machine c then add_machine_src env s (tc_core c) (tc_link c) src
                          else add_src env s (tc_core c) (tc_link c) src) (tc_srcs c) s.
Definition run_calls (env : tenv) (calls : list tcall) : tstate := fold_left (run_call env) calls t_empty.

(** targets_by_source (159-168) and the lookup of get_targets_for_source
    (170-178), without the entry made for an unknown source. *)
Definition targets_of (s : tstate) (src : vtx) : option (list nat * list nat) :=
  match dget vtx_eqb (t_dict s) src with
  | Some a => nth_error (t_heap s) a
  | None => None
  end.
Definition targets_by_source (s : tstate) : list (vtx * (list nat * list nat)) :=
  map (fun e => (fst e, nth (snd e) (t_heap s) ([], []))) (t_dict s).
