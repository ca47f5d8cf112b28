(** C110 - C112: heuristics are objects that several planners may hold. *)
From Verif Require Import Base Frontier_model AStar_model Bidir_model HeurObj_model HeurObj_spec HeurObj_proofs.

(** C110. A planner that was given a propagator and a heuristic, and did anything since, next to other planners with whatever
    heuristics, the same included, answers a search as if nobody else had the heuristic: the estimates are for its own goal. *)
Theorem C110_planners_may_share :
  forall (S A C : Type) (eqs : S -> S -> bool) (ltb : C -> C -> bool) (add : C -> C -> C) (zero : C)
    (vmax : C -> C -> C) (bottom : C) (half : C -> C) (avg : C -> C -> C -> C) (graph : bool) (depth fuel : nat)
    (w : world S A C) p i g x sol (prop : propagator S A C) id a w1 cs l w2 d h,
    nth_error (w_planners w) p = Some (Planner i g (Uni x sol)) ->
    step eqs ltb add zero vmax bottom half avg graph depth fuel w (InitAStar p (Some prop) (Some id)) = Ok (a, w1) ->
    leaves_alone p cs -> run eqs ltb add zero vmax bottom half avg graph depth fuel w1 cs = Ok (l, w2) ->
    estimates vmax bottom d (w_heap w) id h -> NoDup (leaves d (w_heap w) id) -> d <= depth ->
    a = Initialized true /\
    let init := init_after p cs i in
    let goal := goal_after p cs g in
    shown add zero p (step eqs ltb add zero vmax bottom half avg graph depth fuel w2 (SearchPath p)) =
    alone eqs ltb add zero graph fuel (h goal) prop init goal.
Proof. intros. cbn zeta. eapply shared_uni; eauto. Qed.
Print Assumptions C110_planners_may_share.

(** C110. The plain pointers of a bidirectional search to averages, when it may follow them, are to objects that its two searches
    hold, so they are alive, and which are averages. *)
Theorem C110_average_pointers :
  forall (S A C : Type) (eqs : S -> S -> bool) (ltb : C -> C -> bool) (add : C -> C -> C) (zero : C)
    (vmax : C -> C -> C) (bottom : C) (half : C -> C) (avg : C -> C -> C -> C) (graph : bool) (depth fuel : nat)
    cs l (w : world S A C) p i g f r fa ra sol,
    run eqs ltb add zero vmax bottom half avg graph depth fuel world_new cs = Ok (l, w) ->
    nth_error (w_planners w) p = Some (Planner i g (Duo f r fa ra true sol)) ->
    exists fprop fid rprop rid, su_held f = Some (fprop, fid) /\ su_held r = Some (rprop, rid) /\
      (forall a, fa = Some a -> a = fid /\ exists x y k, nth_error (w_heap w) a = Some (HAverage x y k)) /\
      (forall a, ra = Some a -> a = rid /\ exists x y k, nth_error (w_heap w) a = Some (HAverage x y k)).
Proof.
  intros S A C eqs ltb add zero vmax bottom half avg graph depth fuel cs l w p i g f r fa ra sol Hrun Hp.
  destruct (pointers_run eqs ltb add zero vmax bottom half avg graph depth fuel cs _ _ _ pointers_new Hrun _ _ _ _ _ _ _ _ Hp)
    as ((fp & fid & F1 & F2) & (rp & rid & R1 & R2)).
  exists fp, fid, rp, rid. split; [auto|]. split; [auto|]. split.
  - intros a Ha. destruct (F2 a Ha) as (-> & [] & E & K); try contradiction. eauto 6.
  - intros a Ha. destruct (R2 a Ha) as (-> & [] & E & K); try contradiction. eauto 6.
Qed.
Print Assumptions C110_average_pointers.

(** ** Programs on small maps of two-way roads *)
Definition roads (es : list (nat * nat * Z)) (s : nat) : list (nat * unit * Z) :=
  flat_map (fun e => let '(a, b, c) := e in
                     (if Nat.eqb a s then [(b, tt, c)] else []) ++ (if Nat.eqb b s then [(a, tt, c)] else [])) es.
(** Costs are integers. Half of a cost occurs only where costs are even. *)
Definition zrun (cs : list (call nat unit Z)) : res (list answer * world nat unit Z) :=
  run Nat.eqb Z.ltb Z.add 0%Z Z.max (-1000000)%Z (fun x => (x / 2)%Z) (fun k a b => (k + (a - b) / 2)%Z) true 5 30 world_new cs.
Definition zresults (cs : list (call nat unit Z)) (p : nat) : option (list answer * (res (list nat) * option Z)) :=
  match zrun cs with
  | Ok (l, w) => Some (l, results_of Z.add 0%Z w p)
  | _ => None
  end.

(** The difference of two potentials is a consistent estimate if the potentials of the ends of each road differ by at most its cost. *)
Definition apart (pot : list Z) (s g : nat) : Z := Z.abs (nth s pot 0 - nth g pot 0)%Z.
Definition consistent_on (es : list (nat * nat * Z)) (h : nat -> nat -> Z) : Prop :=
  forall g a b c, In (a, b, c) es -> (h a g <= c + h b g /\ h b g <= c + h a g)%Z.

Definition map5 : list (nat * nat * Z) := [(2, 0, 18%Z); (2, 1, 22%Z); (3, 0, 11%Z); (3, 1, 16%Z); (3, 2, 14%Z); (4, 2, 15%Z)].
Definition pot5 : list Z := [18; 22; 0; 14; 15]%Z.

(** Two planners share two functions through two combinations and an adapter; the first search of planner 0 is repeated after a search
    of planner 1 for another goal, and gives the same. *)
Definition shared_program : list (call nat unit Z) :=
  [ NewHeuristic (HFcn (apart pot5) 0); NewHeuristic (HFcn (fun _ _ => 0%Z) 0); NewHeuristic (HAdapter 1 (fun s => s));
    NewHeuristic (HCombined [0]); AddPart 3 2; NewHeuristic (HCombined [2; 0]);
    NewAStar 0; NewAStar 0;
    InitAStar 0 (Some (roads map5)) (Some 3); InitAStar 1 (Some (roads map5)) (Some 4);
    SetInit 0 1; SetGoal 0 4; SearchPath 0; SetInit 1 4; SetGoal 1 0; SearchPath 1; SearchPath 0 ].
Example C110_example :
  zresults shared_program 0 =
  Some ([Nothing; Nothing; Nothing; Nothing; Nothing; Nothing; Nothing; Nothing; Initialized true; Initialized true;
         Nothing; Nothing; Searched true; Nothing; Nothing; Searched true; Searched true], (Ok [1; 2; 4], Some 37%Z)) /\
  match zrun (firstn 8 shared_program) with
  | Ok (_, w) =>
    (exists h, estimates Z.max (-1000000)%Z 3 (w_heap w) 3 h) /\ NoDup (leaves 3 (w_heap w) 3) /\
    leaves_alone 0 (skipn 9 shared_program)
  | _ => False
  end.
Proof.
  split; [vm_compute; reflexivity|]. cbn. split; [|split].
  - eexists. eexists. split; [|reflexivity]. repeat constructor. cbn. eexists. split; reflexivity.
  - repeat constructor; cbn; intuition discriminate.
  - unfold leaves_alone. repeat constructor; discriminate.
Qed.

(** Each function must be reached in one way: behind two different adapters of one combination a function has only one goal. Here the
    second adapter leaves it with goal 9, and the estimate at the goal 0 of the search is 9 instead of the maximum of 0 and 0. *)
Example C110_one_function_behind_two_adapters :
  match zrun [NewHeuristic (HFcn (fun s g => Z.abs (Z.of_nat s - Z.of_nat g)) 0); NewHeuristic (HAdapter 0 (fun s => s));
              NewHeuristic (HAdapter 0 (fun s => s + 9)); NewHeuristic (HCombined [1; 2])] with
  | Ok (_, w) =>
    match set_goal 5 (w_heap w) 3 0 with
    | Ok hp => match value Z.max (-1000000)%Z (fun k a b => (k + (a - b) / 2)%Z) 5 hp 3 with Ok h => h 0 = 9%Z | _ => False end
    | _ => False
    end
  | _ => False
  end.
Proof. vm_compute. reflexivity. Qed.

(** C111 is false: the forward search is given the goal, then the reverse search gives the same object the initial state as goal.
    With a consistent heuristic the path costs 40 if both directions are given one object, and 33 if each has its own. *)
Definition directions (fid rid : nat) : list (call nat unit Z) :=
  [ NewHeuristic (HFcn (apart pot5) 0); NewHeuristic (HFcn (apart pot5) 0); NewBidirectional 0;
    InitBidirectional 0 (Some (roads map5)) (Some (roads map5)) (Some fid) (Some rid); SetInit 0 0; SetGoal 0 4; SearchPath 0 ].
Theorem C111_directions_may_share_refuted :
  consistent_on map5 (apart pot5) /\
  zresults (directions 0 0) 0 =
    Some ([Nothing; Nothing; Nothing; Initialized true; Nothing; Nothing; Searched true], (Ok [0; 3; 3; 2; 4], Some 40%Z)) /\
  zresults (directions 0 1) 0 =
    Some ([Nothing; Nothing; Nothing; Initialized true; Nothing; Nothing; Searched true], (Ok [0; 2; 2; 4], Some 33%Z)).
Proof.
  split; [|split; vm_compute; reflexivity].
  intros g a b c H. unfold apart. generalize (nth g pot5 0%Z). intros z. unfold map5 in H. cbn in H.
  repeat (destruct H as [H|H]; [injection H as <- <- <-; unfold pot5; cbn [nth]; lia|]). contradiction.
Qed.
Print Assumptions C111_directions_may_share_refuted.

(** C111, what holds: if the functions consulted by one direction are not consulted by the other, both directions have the estimates
    for their own goals, whoever else holds the objects and whatever was called before. *)
Theorem C111_separate_functions_partial :
  forall (S A C : Type) (eqs : S -> S -> bool) (ltb : C -> C -> bool) (add : C -> C -> C) (zero : C)
    (vmax : C -> C -> C) (bottom : C) (half : C -> C) (avg : C -> C -> C -> C) (graph : bool) (depth fuel : nat)
    (w : world S A C) p i g f r fa ra ok sol (fp rp : propagator S A C) fid rid a w1 cs l w2 d hf hr,
    nth_error (w_planners w) p = Some (Planner i g (Duo f r fa ra ok sol)) ->
    step eqs ltb add zero vmax bottom half avg graph depth fuel w
      (InitBidirectional p (Some fp) (Some rp) (Some fid) (Some rid)) = Ok (a, w1) ->
    leaves_alone p cs -> run eqs ltb add zero vmax bottom half avg graph depth fuel w1 cs = Ok (l, w2) ->
    estimates vmax bottom d (w_heap w) fid hf -> estimates vmax bottom d (w_heap w) rid hr ->
    NoDup (leaves d (w_heap w) fid ++ leaves d (w_heap w) rid) -> d <= depth ->
    a = Initialized true /\
    let init := init_after p cs i in
    let goal := goal_after p cs g in
    shown add zero p (step eqs ltb add zero vmax bottom half avg graph depth fuel w2 (SearchPath p)) =
    both_alone eqs ltb add zero graph fuel (hf goal) (hr init) fp rp init goal.
Proof. intros. cbn zeta. eapply shared_duo; eauto. Qed.
Print Assumptions C111_separate_functions_partial.

(** The last of the two programs above meets the hypotheses. *)
Example C111_example :
  match zrun (firstn 3 (directions 0 1)) with
  | Ok (_, w) =>
    estimates Z.max (-1000000)%Z 1 (w_heap w) 0 (fun g s => apart pot5 s g) /\
    estimates Z.max (-1000000)%Z 1 (w_heap w) 1 (fun g s => apart pot5 s g) /\
    NoDup (leaves 1 (w_heap w) 0 ++ leaves 1 (w_heap w) 1) /\ leaves_alone 0 (skipn 4 (directions 0 1))
  | _ => False
  end.
Proof.
  cbn. split; [reflexivity|]. split; [reflexivity|]. split.
  - repeat constructor; cbn; intuition discriminate.
  - unfold leaves_alone. repeat constructor.
Qed.

(** C112 is false: the functions inside an averaged pair are never given the goal of the search, they keep the goals they were made
    with. The estimates [far4] are the exact distances on the map. With the right goals the path costs 20, and 30 with others. *)
Definition map4 : list (nat * nat * Z) := [(2, 0, 14%Z); (2, 1, 6%Z); (3, 0, 20%Z); (3, 2, 16%Z)].
Definition far4 (s g : nat) : Z := nth g (nth s [[0; 20; 14; 20]; [20; 0; 6; 22]; [14; 6; 0; 16]; [20; 22; 16; 0]] [])%Z 0%Z.
Definition averaged (fgoal rgoal : nat) (k : Z) : list (call nat unit Z) :=
  [ NewHeuristic (HFcn far4 fgoal); NewHeuristic (HFcn far4 rgoal); NewHeuristic (HAverage 0 1 k); NewHeuristic (HAverage 1 0 k);
    NewBidirectional 0; InitBidirectional 0 (Some (roads map4)) (Some (roads map4)) (Some 2) (Some 3);
    SetInit 0 0; SetGoal 0 3; SearchPath 0 ].
Theorem C112_averaged_pair_has_own_goal_refuted :
  consistent_on map4 far4 /\
  (forall k, exists l, zresults (averaged 0 0 k) 0 = Some (l, (Ok [0; 2; 2; 3], Some 30%Z))) /\
  (forall k, exists l, zresults (averaged 3 0 k) 0 = Some (l, (Ok [0; 3; 3], Some 20%Z))).
Proof.
  split; [|split].
  - intros g a b c H. unfold map4 in H. cbn in H.
    repeat (destruct H as [H|H]; [injection H as <- <- <-; destruct g as [|[|[|[|[|g]]]]]; cbn; lia|]). contradiction.
  - intros k. eexists. vm_compute. reflexivity.
  - intros k. eexists. vm_compute. reflexivity.
Qed.
Print Assumptions C112_averaged_pair_has_own_goal_refuted.

(** C112 is false also in another way: if only one of the two heuristics is an average, its constant is never set and the search reads
    the value the memory happened to have. Here all functions are zero; the path costs 118 or 90. *)
Definition map_of_two_ways : list (nat * nat * Z) := [(0, 1, 30%Z); (1, 2, 30%Z); (2, 3, 30%Z); (0, 4, 59%Z); (4, 3, 59%Z)].
Definition half_averaged (k : Z) : list (call nat unit Z) :=
  [ NewHeuristic (HFcn (fun _ _ => 0%Z) 0); NewHeuristic (HAverage 0 0 k);
    NewBidirectional 0; InitBidirectional 0 (Some (roads map_of_two_ways)) (Some (roads map_of_two_ways)) (Some 1) (Some 0);
    SetInit 0 0; SetGoal 0 3; SearchPath 0 ].
Theorem C112_constant_is_not_set_refuted :
  (exists l path, zresults (half_averaged 0) 0 = Some (l, (path, Some 118%Z))) /\
  (exists l path, zresults (half_averaged 1000) 0 = Some (l, (path, Some 90%Z))).
Proof. split; do 2 eexists; vm_compute; reflexivity. Qed.
Print Assumptions C112_constant_is_not_set_refuted.

(** C112, what holds: if both heuristics of the search are the two averages of one pair, the search uses the averages of what the
    inner heuristics estimate at the time, for whatever goals they have then, with constants made for its own initial state and goal. *)
Theorem C112_averaged_pair_partial :
  forall (S A C : Type) (eqs : S -> S -> bool) (ltb : C -> C -> bool) (add : C -> C -> C) (zero : C)
    (vmax : C -> C -> C) (bottom : C) (half : C -> C) (avg : C -> C -> C -> C) (graph : bool) (depth fuel : nat)
    (w : world S A C) p i g f r fa ra ok sol (fp rp : propagator S A C) fid rid an w1 cs l w2 a b k k' d ha hb va vb,
    nth_error (w_planners w) p = Some (Planner i g (Duo f r fa ra ok sol)) ->
    step eqs ltb add zero vmax bottom half avg graph depth fuel w
      (InitBidirectional p (Some fp) (Some rp) (Some fid) (Some rid)) = Ok (an, w1) ->
    leaves_alone p cs -> run eqs ltb add zero vmax bottom half avg graph depth fuel w1 cs = Ok (l, w2) ->
    nth_error (w_heap w) fid = Some (HAverage a b k) -> nth_error (w_heap w) rid = Some (HAverage b a k') -> fid <> rid ->
    estimates vmax bottom d (w_heap w) a ha -> estimates vmax bottom d (w_heap w) b hb -> d < depth ->
    value vmax bottom avg depth (w_heap w2) a = Ok va -> value vmax bottom avg depth (w_heap w2) b = Ok vb ->
    let init := init_after p cs i in
    let goal := goal_after p cs g in
    shown add zero p (step eqs ltb add zero vmax bottom half avg graph depth fuel w2 (SearchPath p)) =
    both_alone eqs ltb add zero graph fuel
      (fun s => avg (half (vb goal)) (va s) (vb s)) (fun s => avg (half (va init)) (vb s) (va s)) fp rp init goal.
Proof. intros. cbn zeta. eapply shared_average; eauto. Qed.
Print Assumptions C112_averaged_pair_partial.

(** The programs above meet the hypotheses. *)
Example C112_example :
  match zrun (firstn 5 (averaged 3 0 7)) with
  | Ok (_, w) =>
    nth_error (w_heap w) 2 = Some (HAverage 0 1 7%Z) /\ nth_error (w_heap w) 3 = Some (HAverage 1 0 7%Z) /\
    estimates Z.max (-1000000)%Z 1 (w_heap w) 0 (fun g s => far4 s g) /\
    estimates Z.max (-1000000)%Z 1 (w_heap w) 1 (fun g s => far4 s g) /\
    value Z.max (-1000000)%Z (fun k a b => (k + (a - b) / 2)%Z) 5 (w_heap w) 0 = Ok (fun s => far4 s 3) /\
    value Z.max (-1000000)%Z (fun k a b => (k + (a - b) / 2)%Z) 5 (w_heap w) 1 = Ok (fun s => far4 s 0) /\
    leaves_alone 0 (skipn 6 (averaged 3 0 7))
  | _ => False
  end.
Proof. cbn. repeat (split; [reflexivity|]). unfold leaves_alone. repeat constructor. Qed.
