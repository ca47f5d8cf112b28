(** Vocabulary for the memory of the bidirectional search: the uses of one object. *)
From Verif Require Import Base Frontier_model AStar_model AStarMem_model AStarMem_spec Bidir_model BidirMem_model Explored_model.

Section Uses.
  Context {S A C Pf Pr : Type}.
  Context (eqs : S -> S -> bool) (ltb : C -> C -> bool) (add : C -> C -> C) (zero : C) (dflt : A) (graph : bool).

  (** A call of [SearchPath]: the states, heuristics and propagators may change between the calls. *)
  Record bi_request := BiRequest {
    bq_init : S;
    bq_goal : S;
    bq_hf : S -> C;
    bq_hr : S -> C;
    bq_succf : Pf -> S -> list (S * A * C) * Pf;
    bq_succr : Pr -> S -> list (S * A * C) * Pr;
    bq_fuel : nat
  }.

  (** What the caller sees of a search: its status, the path, the cost, and the states explored by either search. *)
  Record bi_answer := BiAnswer { ba_found : bool; ba_path : list S; ba_cost : option C; ba_explored : list S * list S }.

  (** The calls on one object, with pointers. *)
  Definition bm_call (q : bi_request) (b : bmem S A C Pf Pr) : res (bi_answer * bmem S A C Pf Pr) :=
    do (found, b1) <- bm_search eqs ltb add zero dflt (bq_hf q) (bq_hr q) (bq_succf q) (bq_succr q) graph (bq_fuel q) (bq_init q) (bq_goal q) b;
    do path <- bm_path b1; do cost <- bm_cost add b1;
    Ok (BiAnswer found path cost (map fst (ms_expl (bm_f b1)), map fst (ms_expl (bm_r b1))), b1).
  Fixpoint bm_run (qs : list bi_request) (b : bmem S A C Pf Pr) : res (list bi_answer * bmem S A C Pf Pr) :=
    match qs with
    | [] => Ok ([], b)
    | q :: qs' => do (x, b1) <- bm_call q b; do (xs, b2) <- bm_run qs' b1; Ok (x :: xs, b2)
    end.

  (** The same calls, each of them a new search without pointers; only the states of the propagators are kept between them. *)
  Definition bi_call (q : bi_request) (pf : Pf) (pr : Pr) : res (bi_answer * (Pf * Pr)) :=
    do (found, b) <- bi_search eqs ltb add zero (bq_hf q) (bq_hr q) (bq_succf q) (bq_succr q) graph (bq_fuel q) (bq_init q) (bq_goal q) pf pr;
    do path <- bi_path (b_sol b);
    Ok (BiAnswer found path (bi_cost add zero (b_sol b)) (get_explored_states (b_f b), get_explored_states (b_r b)), (st_prop (b_f b), st_prop (b_r b))).
  Fixpoint bi_run (qs : list bi_request) (pf : Pf) (pr : Pr) : res (list bi_answer) :=
    match qs with
    | [] => Ok []
    | q :: qs' => do (x, p) <- bi_call q pf pr; do xs <- bi_run qs' (fst p) (snd p); Ok (x :: xs)
    end.
End Uses.
Arguments BiRequest {S A C Pf Pr}.
Arguments bq_init {S A C Pf Pr}.
Arguments bq_goal {S A C Pf Pr}.
Arguments bq_hf {S A C Pf Pr}.
Arguments bq_hr {S A C Pf Pr}.
Arguments bq_succf {S A C Pf Pr}.
Arguments bq_succr {S A C Pf Pr}.
Arguments bq_fuel {S A C Pf Pr}.
Arguments BiAnswer {S C}.

(** The pointers of one search are to nodes that are alive, those of the explored states to nodes of these states; and the nodes that are
    alive are those of one tree, which the root owns. *)
Definition sound_pointers {S A C P} (st : mstate S A C P) : Prop :=
  (forall a, In a (vec (ms_front st)) -> live (ms_mem st) a <> None) /\ (forall a, In a (set (ms_front st)) -> live (ms_mem st) a <> None) /\
  (forall s a, In (s, a) (ms_expl st) -> exists o, live (ms_mem st) a = Some o /\ ob_state o = s) /\
  exists r, ms_root st = Some r /\ forall a, live (ms_mem st) a <> None <-> owned (ms_mem st) r a.
