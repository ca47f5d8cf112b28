(** Property C104: the memory of the bidirectional search. *)
From Verif Require Import Base Frontier_model Frontier_spec AStar_model AStar_spec AStarMem_model AStarMem_spec Bidir_model BidirMem_model BidirMem_spec BidirMem_proofs.

(** With pointers, any sequence of searches by one object gives the answers (status, path, cost, explored states) of searches without
    pointers, each started afresh. The properties of those (C11 to C14, C99) are therefore properties of these. *)
Theorem C104_same_answers :
  forall S A C Pf Pr eqs ltb add zero dflt graph (qs : list (@bi_request S A C Pf Pr)) pf pr,
  rmap fst (bm_run eqs ltb add zero dflt graph qs (bm_new pf pr)) = bi_run eqs ltb add zero graph qs pf pr.
Proof. intros. apply brun_same. Qed.
Print Assumptions C104_same_answers.

(** No pointer to a deleted node, and no null pointer, is dereferenced. *)
Theorem C104_no_undefined_behaviour :
  forall S A C Pf Pr eqs ltb add zero dflt graph (qs : list (@bi_request S A C Pf Pr)) pf pr, equivalence S eqs -> strict_weak_order C ltb ->
  match bm_run eqs ltb add zero dflt graph qs (bm_new pf pr) with Ok _ => True | NoFuel => True | UB => False | Throw => False end.
Proof. intros. now apply brun_no_ub. Qed.
Print Assumptions C104_no_undefined_behaviour.

(** After a search the pointers of both searches are sound, and the solution of each is one of its own nodes. *)
Theorem C104_pointers :
  forall S A C Pf Pr eqs ltb add zero dflt graph (qs : list (@bi_request S A C Pf Pr)) q pf pr xs b,
  bm_run eqs ltb add zero dflt graph (qs ++ [q]) (bm_new pf pr) = Ok (xs, b) ->
  sound_pointers (bm_f b) /\ sound_pointers (bm_r b) /\
  (forall p, bm_fsol b = Some p -> fst p = Fwd /\ live (ms_mem (bm_f b)) (snd p) <> None) /\
  (forall p, bm_rsol b = Some p -> fst p = Rev /\ live (ms_mem (bm_r b)) (snd p) <> None).
Proof. intros *. apply brun_pointers. Qed.
Print Assumptions C104_pointers.

(** The destructor deletes all nodes. *)
Theorem C104_no_leak :
  forall S A C Pf Pr eqs ltb add zero dflt graph (qs : list (@bi_request S A C Pf Pr)) pf pr xs b,
  bm_run eqs ltb add zero dflt graph qs (bm_new pf pr) = Ok (xs, b) ->
  exists mf mr, bm_destroy b = Ok (mf, mr) /\ (forall a, live mf a = None) /\ forall a, live mr a = None.
Proof. intros *. apply brun_no_leak. Qed.
Print Assumptions C104_no_leak.

(** The pointers that GetExploredStates gives out are those of living nodes until the next search, which deletes all of them. *)
Theorem C104_explored_pointers_expire :
  forall S A C Pf Pr eqs ltb add zero dflt graph (qs : list (@bi_request S A C Pf Pr)) q q' pf pr xs b x b1,
  bm_run eqs ltb add zero dflt graph (qs ++ [q]) (bm_new pf pr) = Ok (xs, b) -> bm_call eqs ltb add zero dflt graph q' b = Ok (x, b1) ->
  (forall s a, In (s, a) (ms_expl (bm_f b)) -> live (ms_mem (bm_f b)) a <> None /\ live (ms_mem (bm_f b1)) a = None) /\
  (forall s a, In (s, a) (ms_expl (bm_r b)) -> live (ms_mem (bm_r b)) a <> None /\ live (ms_mem (bm_r b1)) a = None).
Proof. intros *. apply brun_fresh. Qed.
Print Assumptions C104_explored_pointers_expire.

(** Three searches on a ring of six states, in which the edge from 2 to 3 is expensive: one that succeeds, one that fails, as 9 is not on the
    ring, and one that succeeds again. The propagators count their calls. *)
Definition ring (n s : nat) : list (nat * nat * nat) * nat :=
  (match s with
   | 0 => [(1, 0, 1); (5, 0, 2)] | 1 => [(0, 0, 1); (2, 0, 1)] | 2 => [(1, 0, 1); (3, 0, 9)]
   | 3 => [(2, 0, 9); (4, 0, 1)] | 4 => [(3, 0, 1); (5, 0, 1)] | 5 => [(4, 0, 1); (0, 0, 2)]
   | _ => []
   end, S n).
Definition ring_request (init goal : nat) : @bi_request nat nat nat nat nat := BiRequest init goal (fun _ => 0) (fun _ => 0) ring ring 20.
Definition ring_run := bm_run Nat.eqb Nat.ltb Nat.add 0 7 true [ring_request 0 3; ring_request 2 9; ring_request 2 4] (bm_new 0 0).

Example C104_demo :
  match ring_run with
  | Ok (xs, b) =>
    map (fun x => (ba_found x, ba_path x, ba_cost x)) xs =
      [(true, [0; 5; 5; 4; 3], Some 4); (false, [], None); (true, [2; 1; 0; 5; 5; 4], Some 5)] /\
    (bm_fsol b, bm_rsol b) = (Some (Fwd, 18), Some (Rev, 12)) /\
    (filter (alive (ms_mem (bm_f b))) (seq 0 30), filter (alive (ms_mem (bm_r b))) (seq 0 30)) = ([12; 13; 14; 15; 18; 19], [10; 11; 12; 14; 15; 17])
  | _ => False
  end.
Proof. vm_compute. repeat split; reflexivity. Qed.
