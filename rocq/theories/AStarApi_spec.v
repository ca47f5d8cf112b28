(** Specification: which search the results should belong to. *)
From Verif Require Import Base AStarApi_model AStar_spec.

Section Spec.
  Context {S A C : Type}.

  (** The most recent search of a history of events: its outcome and the initial and goal state
      that were set when it ran. [i], [g]: values set so far. *)
  Fixpoint last_search (evs : list (event S)) (i g : S) (acc : option (status * S * S)) : option (status * S * S) :=
    match evs with
    | [] => acc
    | EvInit s :: evs' => last_search evs' s g acc
    | EvGoal s :: evs' => last_search evs' i s acc
    | EvInitialize _ :: evs' => last_search evs' i g acc
    | EvSearch r :: evs' => last_search evs' i g (Some (r, i, g))
    end.

  (** No call to Initialize was rejected. *)
  Definition no_rejected_initialize (cs : list (call S A C)) : Prop :=
    forall e, In (Initialize e) cs -> e <> None.

  (** What GetPath should return: nothing unless the most recent search succeeded, and then a path from
      the initial to the goal state of that search. *)
  Definition path_matches (eqs : S -> S -> bool) (r : option (status * S * S)) (path : list S) : Prop :=
    match r with
    | Some (Success, i, g) => exists rest, path = i :: rest /\ eqs (last path i) g = true
    | _ => path = []
    end.
End Spec.
