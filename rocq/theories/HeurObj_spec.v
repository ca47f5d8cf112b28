(** Specification: what a heuristic object estimates, and what a search answers that shares its heuristics with nobody. *)
From Verif Require Import Base Frontier_model AStar_model Bidir_model HeurObj_model.

Section Spec.
  Context {S A C : Type}.
  Variables (vmax : C -> C -> C) (bottom : C).

  (** The object [id] estimates the cost to the goal [g] from [s] by [h g s], whichever goal it has at present. Functions, maxima and
      adapters of such objects do, nested at most [d] deep; averages do not. *)
  Fixpoint estimates (d : nat) (hp : heap S C) (id : nat) (h : S -> S -> C) : Prop :=
    match d with
    | O => False
    | Datatypes.S d =>
      match nth_error hp id with
      | Some (HFcn func _) => h = fun g s => func s g
      | Some (HCombined parts) =>
        exists hs, Forall2 (estimates d hp) parts hs /\
          h = fun g s => fold_left (fun v e => vmax v (e s)) (map (fun e => e g) hs) bottom
      | Some (HAdapter inner func) => exists e, estimates d hp inner e /\ h = fun g s => e (func g) (func s)
      | _ => False
      end
    end.

  (** The functions an object consults, once for each way to reach them. *)
  Fixpoint leaves (d : nat) (hp : heap S C) (id : nat) : list nat :=
    match d with
    | O => []
    | Datatypes.S d =>
      match nth_error hp id with
      | Some (HFcn _ _) => [id]
      | Some (HCombined parts) => flat_map (leaves d hp) parts
      | Some (HAdapter inner _) => leaves d hp inner
      | _ => []
      end
    end.

  Variables (eqs : S -> S -> bool) (ltb : C -> C -> bool) (add : C -> C -> C) (zero : C).

  (** The path and the cost that a planner returns. *)
  Definition results_of (w : world S A C) (p : nat) : res (list S) * option C :=
    match nth_error (w_planners w) p with
    | Some x => (get_planner_path x, get_planner_cost add zero x)
    | None => (UB, None)
    end.

  (** What a call of SearchPath shows of planner [p]: the status, the path and the cost. *)
  Definition shown (p : nat) (r : res (answer * world S A C)) : res (answer * (res (list S) * option C)) :=
    rmap (fun x => (fst x, results_of (snd x) p)) r.

  (** What a search answers on its own, given the estimates: C02 - C06 and C11 - C14 are about these. *)
  Definition alone (graph : bool) (fuel : nat) (h : S -> C) (prop : propagator S A C) (init goal : S) :
      res (answer * (res (list S) * option C)) :=
    rmap (fun x => (Searched (match fst x with Some _ => true | None => false end), (get_path (fst x), get_optimal_cost zero (fst x))))
      (search_path eqs ltb add zero h (fun (_ : unit) s => (prop s, tt)) (fun s => eqs s goal) (fun _ _ => true) graph fuel init tt).

  Definition both_alone (graph : bool) (fuel : nat) (hf hr : S -> C) (fp rp : propagator S A C) (init goal : S) :
      res (answer * (res (list S) * option C)) :=
    rmap (fun x => (Searched (fst x), (bi_path (b_sol (snd x)), bi_cost add zero (b_sol (snd x)))))
      (bi_search eqs ltb add zero hf hr (fun (_ : unit) s => (fp s, tt)) (fun (_ : unit) s => (rp s, tt)) graph fuel init goal tt tt).

  (** The states set last. *)
  Definition init_after (p : nat) (cs : list (call S A C)) (s : S) : S :=
    fold_left (fun s c => match c with SetInit q t => if Nat.eqb q p then t else s | _ => s end) cs s.
  Definition goal_after (p : nat) (cs : list (call S A C)) (s : S) : S :=
    fold_left (fun s c => match c with SetGoal q t => if Nat.eqb q p then t else s | _ => s end) cs s.

  (** Calls that neither initialize planner [p] nor extend a combination. Everything else is allowed: other planners, which may hold
      the same heuristics, are made, initialized and searched, as is [p]. *)
  Definition leaves_alone (p : nat) (cs : list (call S A C)) : Prop :=
    Forall (fun c => match c with
                     | AddPart _ _ => False
                     | InitAStar q _ _ => q <> p
                     | InitBidirectional q _ _ _ _ => q <> p
                     | _ => True
                     end) cs.
End Spec.
