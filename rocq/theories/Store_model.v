(** Model of [AStar] for any explored container, the last template argument of the class
    (/repo/planner/src/algo/a_star.h:213-219), and of the three containers of that file. The rest is as in
    AStar_model.v, which fixes the container to [ExploredMap]. *)
From Verif Require Import Base Frontier_model AStar_model.

Section Store.
  Context {S A C P E : Type}.
  Context (eqs : S -> S -> bool) (ltb : C -> C -> bool) (add : C -> C -> C) (zero : C).
  Context (h : S -> C) (succ : P -> S -> list (S * A * C) * P) (issol : S -> bool)
          (guard : S -> S -> bool) (graph : bool).
  (** What a_star.h asks of the container: [Clear] (line 355), [Insert] (361, 381) and [Contains] (393). *)
  Context (clear : E) (insert : node S A C -> E -> E) (contains : node S A C -> E -> bool).

  Notation cmp := (n_cmp ltb zero).
  Notation neq := (n_eq eqs).

  (** a_star.h:429-437, the members; [k_queried] records the calls to GetNeighborStates. *)
  Record kept_search := Kept {
    k_front : frontier (node S A C);
    k_expl : E;
    k_prop : P;
    k_queried : list S
  }.

  (** a_star.h:350-364, [InitializeSearch]. *)
  Definition k_init (init : S) (p : P) : res kept_search :=
    do (_, fr) <- f_push cmp neq (Root init) f_empty;
    Ok (Kept fr (insert (Root init) clear) p []).

  (** a_star.h:383-408, the body of the loop of [Expand] for one neighbour. *)
  Definition k_expand_one (n : node S A C) (e : E) (fr : frontier (node S A C)) (t : S * A * C)
    : res (frontier (node S A C)) :=
    let '(cs, a, c) := t in
    let g' := add (n_g zero n) c in
    let child := Child cs a g' (add g' (h cs)) n in
    if graph then
      match f_find neq child fr with
      | None => if contains child e then Ok fr else do (_, fr1) <- f_push cmp neq child fr; Ok fr1
      | Some fn => shortcut eqs ltb zero guard fn child fr
      end
    else do (_, fr1) <- f_push cmp neq child fr; Ok fr1.

  Fixpoint k_expand_all (n : node S A C) (e : E) (fr : frontier (node S A C)) (ts : list (S * A * C))
    : res (frontier (node S A C)) :=
    match ts with
    | [] => Ok fr
    | t :: ts' => do fr1 <- k_expand_one n e fr t; k_expand_all n e fr1 ts'
    end.

  (** a_star.h:377-409, [Expand]. *)
  Definition k_expand (n : node S A C) (st : kept_search) : res kept_search :=
    let e := insert n (k_expl st) in
    let (ts, p) := succ (k_prop st) (n_state n) in
    do fr <- k_expand_all n e (k_front st) ts;
    Ok (Kept fr e p (n_state n :: k_queried st)).

  (** a_star.h:337-345, the loop of [SearchPath]. *)
  Fixpoint k_loop (fuel : nat) (st : kept_search) : res (option (node S A C) * kept_search) :=
    match fuel with
    | O => NoFuel
    | Datatypes.S fuel' =>
      if f_is_empty (k_front st) then Ok (None, st)
      else
        do (n, fr) <- f_pop neq (k_front st);
        let st1 := Kept fr (k_expl st) (k_prop st) (k_queried st) in
        if issol (n_state n) then Ok (Some n, st1)
        else do st2 <- k_expand n st1; k_loop fuel' st2
    end.

  (** a_star.h:326-346, [SearchPath] of an initialized planner. *)
  Definition k_search (fuel : nat) (init : S) (p : P) : res (option (node S A C) * kept_search) :=
    do st <- k_init init p; k_loop fuel st.
End Store.

Arguments kept_search : clear implicits.
Arguments Kept {S A C P E}.
Arguments k_front {S A C P E}.
Arguments k_expl {S A C P E}.
Arguments k_prop {S A C P E}.
Arguments k_queried {S A C P E}.

Section Containers.
  Context {S A C P : Type}.
  Context (eqs : S -> S -> bool) (ltb : C -> C -> bool) (add : C -> C -> C) (zero : C).
  Context (h : S -> C) (succ : P -> S -> list (S * A * C) * P) (issol : S -> bool)
          (guard : S -> S -> bool) (graph : bool).

  (** a_star.h:163-178, [Explored]: a set of states. [insert] does nothing if an equal state is present. *)
  Definition set_contains (n : node S A C) (e : list S) : bool := existsb (fun s => eqs s (n_state n)) e.
  Definition set_insert (n : node S A C) (e : list S) : list S := if set_contains n e then e else n_state n :: e.
  Definition search_set := k_search eqs ltb add zero h succ issol guard graph [] set_insert set_contains.

  (** a_star.h:180-193, [ExploredMap]: a map from states to nodes. *)
  Definition search_map := k_search eqs ltb add zero h succ issol guard graph [] (e_insert eqs) (e_contains eqs).

  (** a_star.h:195-209, [ExploredVoid], which holds nothing. *)
  Definition void_insert (n : node S A C) (e : unit) : unit := tt.
  Definition void_contains (n : node S A C) (e : unit) : bool := false.
  Definition search_void := k_search eqs ltb add zero h succ issol guard graph tt void_insert void_contains.
End Containers.
