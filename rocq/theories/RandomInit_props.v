(** C116: random numbers are drawn from generators that exist and go on where they stopped. *)
From Verif Require Import Base RandomInit_model RandomInit_proofs.

(** Full statement: whatever state spaces and planners a program makes, and in whatever order it uses them, no
    number is drawn from a generator that does not exist:
      [forall cs, calls_run p_start cs <> UB].
    It does not hold. RRT* draws doubles, and nothing has made their generator if its state space is one of
    floats. *)
Theorem C116_generators_exist_refuted :
  exists cs, cs = [MakeSpace Float; MakePlanner KRrtStar 0; Search 0 [true]] /\ calls_run p_start cs = UB.
Proof. eexists. split; reflexivity. Qed.

(** It holds for the programs that make no state space of floats, as the state spaces of the library are, ... *)
Theorem C116_doubles_only_partial cs :
  (forall c, In c cs -> c <> MakeSpace Float) -> calls_run p_start cs <> UB.
Proof. exact (double_run cs). Qed.
(** ... for those that make no RRT*, ... *)
Theorem C116_no_rrt_star_partial cs :
  (forall c i, In c cs -> c <> MakePlanner KRrtStar i) -> calls_run p_start cs <> UB.
Proof. exact (star_free_run cs). Qed.
(** ... and for those that first make a state space of doubles. *)
Theorem C116_double_space_first_partial cs : calls_run p_start (MakeSpace Double :: cs) <> UB.
Proof. exact (double_first_run cs). Qed.

(** The numbers of one type that a program draws are the first ones of one sequence, in order, each once. Making
    another state space or planner does not restart the sequence, and the objects do not have one each. *)
Theorem C116_one_sequence cs l p t : calls_run p_start cs = Ok (l, p) ->
  map snd (filter (fun x => scalar_eqb t (fst x)) l) = seq 0 (length (filter (fun x => scalar_eqb t (fst x)) l)).
Proof. exact (run_places cs l p t). Qed.

(** Two planners over two spaces. *)
Example C116_two_planners :
  match calls_run p_start [MakeSpace Double; MakePlanner KRrtStar 0; Search 0 [true; false]; MakeSpace Float; MakePlanner KRrt 1;
                           Search 1 [false]; MakePlanner KHybrid 0; Search 2 [true]; Sample 1] with
  | Ok (l, _) => l = [(Double, 0); (Double, 1); (Double, 2); (Double, 3); (Float, 0); (Double, 4); (Float, 1)]
  | _ => False
  end.
Proof. vm_compute. reflexivity. Qed.
(** An RRT over floats is safe by itself. *)
Example C116_rrt_float :
  match calls_run p_start [MakeSpace Float; MakePlanner KRrt 0; MakePlanner KRrtStar 0; Search 1 [false]] with
  | Ok (l, _) => l = [(Double, 0); (Float, 0)]
  | _ => False
  end.
Proof. vm_compute. reflexivity. Qed.

Print Assumptions C116_doubles_only_partial.
Print Assumptions C116_no_rrt_star_partial.
Print Assumptions C116_double_space_first_partial.
Print Assumptions C116_one_sequence.
