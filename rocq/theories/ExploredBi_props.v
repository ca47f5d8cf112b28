(** Properties C97 (path) and C99: explored states and the path; explored states of bidirectional A*. *)
From Verif Require Import Base Frontier_model Frontier_spec AStar_model AStar_spec Bidir_model Bidir_spec Bidir_props Explored_model ExploredBi_proofs.

(** C97: every state of the path but the last was explored. Graph and tree search, any heuristic. *)
Theorem C97_path_is_explored :
  forall (S A C P : Type) (eqs : S -> S -> bool) (ltb : C -> C -> bool) (add : C -> C -> C) (zero : C)
    (h : S -> C) (succ : P -> S -> list (S * A * C) * P) (issol : S -> bool) (guard : S -> S -> bool) (graph : bool),
    decides_eq eqs -> strict_weak_order C ltb ->
    forall fuel init p n st, search_path eqs ltb add zero h succ issol guard graph fuel init p = Ok (Some n, st) ->
    exists l, get_path (Some n) = Ok (l ++ [n_state n]) /\ forall s, In s l -> In s (get_explored_states st).
Proof. exact @path_explored. Qed.
Print Assumptions C97_path_is_explored.

(** C99: each search reports its own start and the states it gave to its propagator, each once, all reachable. *)
Theorem C99_explored_are_expanded :
  forall (S A C Pf Pr : Type) (eqs : S -> S -> bool) (ltb : C -> C -> bool) (add : C -> C -> C) (zero : C)
    (hf hr : S -> C) (succf : Pf -> S -> list (S * A * C) * Pf) (succr : Pr -> S -> list (S * A * C) * Pr),
    decides_eq eqs -> strict_weak_order C ltb ->
    forall fuel init goal pf pr ok b,
    bi_search eqs ltb add zero hf hr succf succr true fuel init goal pf pr = Ok (ok, b) ->
    (NoDup (get_explored_states (b_f b)) /\ (forall s, In s (get_explored_states (b_f b)) <-> s = init \/ In s (st_queried (b_f b))) /\
     forall s, In s (get_explored_states (b_f b)) -> reachable succf init s) /\
    (NoDup (get_explored_states (b_r b)) /\ (forall s, In s (get_explored_states (b_r b)) <-> s = goal \/ In s (st_queried (b_r b))) /\
     forall s, In s (get_explored_states (b_r b)) -> reachable succr goal s).
Proof. exact @bi_explored. Qed.
Print Assumptions C99_explored_are_expanded.

(** C99: the states of the path are explored, the one where the two halves meet by both searches. *)
Theorem C99_path_is_explored :
  forall (S A C Pf Pr : Type) (eqs : S -> S -> bool) (ltb : C -> C -> bool) (add : C -> C -> C) (zero : C)
    (hf hr : S -> C) (succf : Pf -> S -> list (S * A * C) * Pf) (succr : Pr -> S -> list (S * A * C) * Pr),
    decides_eq eqs -> strict_weak_order C ltb ->
    forall fuel init goal pf pr b,
    bi_search eqs ltb add zero hf hr succf succr true fuel init goal pf pr = Ok (true, b) ->
    exists l1 s l2, bi_path (b_sol b) = Ok (l1 ++ s :: s :: l2) /\
      (forall t, In t l1 -> In t (get_explored_states (b_f b))) /\ In s (get_explored_states (b_f b)) /\ In s (get_explored_states (b_r b)) /\
      (forall t, In t l2 -> In t (get_explored_states (b_r b))).
Proof. exact @bi_path_explored. Qed.
Print Assumptions C99_path_is_explored.

(** C99: after a failure one of the searches has explored all it can reach, and no state was explored by both. *)
Theorem C99_failure_explores_a_side :
  forall (S A C Pf Pr : Type) (eqs : S -> S -> bool) (ltb : C -> C -> bool) (add : C -> C -> C) (zero : C)
    (hf hr : S -> C) (succf : Pf -> S -> list (S * A * C) * Pf) (succr : Pr -> S -> list (S * A * C) * Pr),
    decides_eq eqs -> strict_weak_order C ltb ->
    forall nbf nbr, deterministic succf nbf -> deterministic succr nbr ->
    forall fuel init goal pf pr b,
    bi_search eqs ltb add zero hf hr succf succr true fuel init goal pf pr = Ok (false, b) ->
    ((forall t, In t (get_explored_states (b_f b)) <-> reachable succf init t) \/ (forall t, In t (get_explored_states (b_r b)) <-> reachable succr goal t)) /\
    forall t, In t (get_explored_states (b_f b)) -> In t (get_explored_states (b_r b)) -> False.
Proof. exact @bi_failure_explored. Qed.
Print Assumptions C99_failure_explores_a_side.

(** Both outcomes: a chain of five states, searched from both ends, and one without its middle edge. *)
Definition bi_explored_of (es : list (nat * nat * Z)) (init goal : nat) :=
  match bi_search Nat.eqb Z.ltb Z.add 0%Z (fun _ => 0%Z) (fun _ => 0%Z) (und es) (und es) true 20 init goal tt tt with
  | Ok (ok, b) => Some (ok, get_explored_states (b_f b), get_explored_states (b_r b))
  | _ => None
  end.
Example C99_success : bi_explored_of [(0, 1, 1%Z); (1, 2, 1%Z); (2, 3, 1%Z); (3, 4, 1%Z)] 0 4 = Some (true, [2; 1; 0], [2; 3; 4]).
Proof. vm_compute. reflexivity. Qed.
Example C99_failure : bi_explored_of [(0, 1, 1%Z); (2, 3, 1%Z); (3, 4, 1%Z)] 0 4 = Some (false, [1; 0], [3; 4]).
Proof. vm_compute. reflexivity. Qed.
