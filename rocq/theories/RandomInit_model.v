(** Model of the random generators, /repo/planner/src/utils/random.h: who initializes them and who draws from
    them. There is one generator for each scalar type, shared by the whole program. The objects of a program
    that have to do with them are its state spaces and its planners. *)
From Verif Require Import Base.

(** The template argument of [Random] (random.h:9), of the state spaces (state_space.h:12) and of the random
    planners (rrt.h:30, rrt_star.h:27). *)
Inductive scalar := Double | Float.
Definition scalar_eqb (a b : scalar) : bool :=
  match a, b with Double, Double | Float, Float => true | _, _ => false end.

(** random.h:39-42: the static members. [None]: the pointers are null. [Some k]: the engine exists and [k]
    numbers have been drawn from it. *)
Definition gens : Type := scalar -> option nat.
Definition gens_none : gens := fun _ => None.
Definition gens_set (g : gens) (t : scalar) (x : option nat) : gens :=
  fun u => if scalar_eqb t u then x else g u.

(** random.h:12-20, [Init]. *)
Definition gen_init (t : scalar) (g : gens) : gens :=
  match g t with
  | None => gens_set g t (Some 0)
  | Some _ => g
  end.

(** random.h:23-34, [SampleUniform] and [SampleGaussian]: the engine is dereferenced. The result is the place
    of the number in the sequence of the engine. *)
Definition gen_draw (t : scalar) (g : gens) : res (nat * gens) :=
  match g t with
  | None => UB
  | Some k => Ok (k, gens_set g t (Some (Datatypes.S k)))
  end.

Inductive kind := KRrt | KRrtStar | KHybrid.
Record program := Program {
  p_gens : gens;
  p_spaces : list scalar;
  p_planners : list (kind * scalar)
}.
Definition p_start : program := Program gens_none [] [].

(** A planner is made for a space, and a search is called on a planner, that the program has made before; the
    number is its place in the order of construction. [Sample]: one coordinate of a sample of the space.
    [Search j bs]: one element of [bs] for each iteration that draws. For the random planners it tells if the
    goal was taken; HybridAStar draws once for each expanded state that is not near the goal. *)
Inductive call :=
| MakeSpace (t : scalar)
| MakePlanner (k : kind) (i : nat)
| Sample (i : nat)
| Search (j : nat) (bs : list bool).

(** rrt.h:72 and rrt_star.h:70: [Random<double>::SampleUniform(0, 1)], and the state space if the goal is not
    taken. Of the coordinates of the sample only one is counted. hybrid_a_star.cpp:82: only the first. *)
Definition draws (k : kind) (t : scalar) (b : bool) (g : gens) : res (list (scalar * nat) * gens) :=
  do (n, g1) <- gen_draw Double g;
  match k with
  | KHybrid => Ok ([(Double, n)], g1)
  | _ => if b then Ok ([(Double, n)], g1)
         else do (m, g2) <- gen_draw t g1; Ok ([(Double, n); (t, m)], g2)
  end.

Fixpoint draws_all (k : kind) (t : scalar) (bs : list bool) (g : gens) : res (list (scalar * nat) * gens) :=
  match bs with
  | [] => Ok ([], g)
  | b :: bs' =>
    do (l, g1) <- draws k t b g;
    do (l', g2) <- draws_all k t bs' g1;
    Ok (l ++ l', g2)
  end.

(** One call. [Throw]: no such program, because the object does not exist or, for HybridAStar, because its
    state space is the one of poses in double precision (state_validator_occupancy_map.h:15). *)
Definition call_step (p : program) (c : call) : res (list (scalar * nat) * program) :=
  match c with
  | MakeSpace t => (* state_space.h:17-21 *)
    Ok ([], Program (gen_init t (p_gens p)) (p_spaces p ++ [t]) (p_planners p))
  | MakePlanner k i =>
    match nth_error (p_spaces p) i with
    | None => Throw
    | Some t =>
      match k with
      | KRrt => (* rrt.h:39-48 *)
        Ok ([], Program (gen_init Double (gen_init t (p_gens p))) (p_spaces p) (p_planners p ++ [(k, t)]))
      | KRrtStar => (* rrt_star.h:41-46 *)
        Ok ([], Program (p_gens p) (p_spaces p) (p_planners p ++ [(k, t)]))
      | KHybrid => (* hybrid_a_star.cpp:208-219 *)
        if scalar_eqb t Double then Ok ([], Program (p_gens p) (p_spaces p) (p_planners p ++ [(k, t)])) else Throw
      end
    end
  | Sample i =>
    match nth_error (p_spaces p) i with
    | None => Throw
    | Some t => do (n, g) <- gen_draw t (p_gens p); Ok ([(t, n)], Program g (p_spaces p) (p_planners p))
    end
  | Search j bs =>
    match nth_error (p_planners p) j with
    | None => Throw
    | Some (k, t) =>
      do (l, g) <- draws_all k t bs (p_gens p); Ok (l, Program g (p_spaces p) (p_planners p))
    end
  end.

(** A program: the numbers it has drawn, in order. *)
Fixpoint calls_run (p : program) (cs : list call) : res (list (scalar * nat) * program) :=
  match cs with
  | [] => Ok ([], p)
  | c :: cs' =>
    do (l, p1) <- call_step p c;
    do (l', p2) <- calls_run p1 cs';
    Ok (l ++ l', p2)
  end.
