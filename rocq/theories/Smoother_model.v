(** Model of the control flow of the smoother, /repo/planner/src/algo/smoother.{h,cpp}. The numbers are left open: positions
    [P], headings [T] and gradients [G] are arbitrary types, and so are the formulas of the gradient terms. They are given in
    SmootherGrad_model.v. *)
From Coq Require Import Reals.
From Verif Require Import Base RealBase.
Local Open Scope Z_scope.

(** smoother.h:20-26, [Status], with its numeric values. *)
Inductive status := MaxIteration | StepTolerance | PathSize | Failure | Collision.
Definition code (s : status) : Z :=
  match s with MaxIteration => 0 | StepTolerance => 1 | PathSize => 2 | Failure => -1 | Collision => -2 end.

(** smoother.cpp:56-76: the indices to optimize. [cusp] is membership in [cuspIndices]. The loop runs while [i < num - 4];
    every iteration increases [i], so that [num] iterations are enough. *)
Fixpoint select (fuel : nat) (cusp : Z -> bool) (num i : Z) : res (list Z) :=
  if i <? num - 4 then
    match fuel with
    | O => NoFuel
    | S k =>
        if cusp (i + 4) then select k cusp num (i + 3 + 1)
        else if cusp (i + 3) then select k cusp num (i + 2 + 1)
        else if cusp (i + 2) then select k cusp num (i + 1 + 1)
        else if cusp (i + 1) then select k cusp num (i + 1)
        else if cusp i then select k cusp num (i + 1)
        else do r <- select k cusp num (i + 1); Ok (i + 2 :: r)
    end
  else Ok [].

(** Access to a vector with an [int] index. *)
Definition zget {A} (v : list A) (i : Z) : res A := if i <? 0 then UB else vget v (Z.to_nat i).
Definition zset {A} (v : list A) (i : Z) (a : A) : res (list A) := if i <? 0 then UB else vset v (Z.to_nat i) a.

Section Smoother.
Variables P T G : Type.
(** The gradient (0, 0). *)
Variable zero : G.
(** smoother.cpp:107-138: the gradient of a point after the terms for the original path, collision, Voronoi field and
    smoothing. The arguments are the original position, the gradient accumulated before and the positions at [i-2] to [i+2]. The
    lookups in the map may be undefined. *)
Variable local_terms : P -> G -> P -> P -> P -> P -> P -> res G.
(** smoother.cpp:160-214, [CalculateCurvatureTerm]: the gradients of the three points after the call. *)
Variable curvature_term : P -> P -> P -> G * G * G -> res (G * G * G).
(** smoother.cpp:147: [position - learningRate * gradient]. *)
Variable move : P -> G -> P.
(** [Point2d::norm]. *)
Variable norm : G -> R.
(** [IsStateValid]. *)
Variable valid : P * T -> res bool.
(** smoother.h:31-33. *)
Variable maxIterations : Z.
Variable tolerance : R.

(** smoother.cpp:102-142, the iteration for index [i]. *)
Definition accumulate (path cur : list (P * T)) (grads : list G) (i : Z) : res (list G) :=
  do o <- zget path i;
  do x0 <- zget cur i;
  do xm2 <- zget cur (i - 2);
  do xm1 <- zget cur (i - 1);
  do xp1 <- zget cur (i + 1);
  do xp2 <- zget cur (i + 2);
  do g0 <- zget grads i;
  do g1 <- local_terms (fst o) g0 (fst xm2) (fst xm1) (fst x0) (fst xp1) (fst xp2);
  do grads1 <- zset grads i g1;
  do gm <- zget grads1 (i - 1);
  do gi <- zget grads1 i;
  do gp <- zget grads1 (i + 1);
  do (gmi', gp') <- curvature_term (fst xm1) (fst x0) (fst xp1) (gm, gi, gp);
  let '(gm', gi') := gmi' in
  do grads2 <- zset grads1 (i - 1) gm';
  do grads3 <- zset grads2 i gi';
  zset grads3 (i + 1) gp'.

Fixpoint accumulate_all (path cur : list (P * T)) (grads : list G) (indices : list Z) : res (list G) :=
  match indices with
  | [] => Ok grads
  | i :: r => do grads1 <- accumulate path cur grads i; accumulate_all path cur grads1 r
  end.

(** smoother.cpp:145-149. Both vectors have [num] elements; the loop over the indices is written as a traversal of both. *)
Definition apply_all (cur : list (P * T)) (grads : list G) : list (P * T) :=
  map (fun xg => (move (fst (fst xg)) (snd xg), snd (fst xg))) (combine cur grads).
Definition max_norm (grads : list G) : R := fold_left (fun s g => Rmax s (norm g)) grads 0%R.

(** smoother.cpp:85-150. *)
Fixpoint iterate (fuel : nat) (path : list (P * T)) (indices : list Z) (count : Z) (step : R) (cur : list (P * T)) :
  res (status * list (P * T)) :=
  let count := count + 1 in
  if count >=? maxIterations then Ok (MaxIteration, cur)
  else if Rltb step tolerance then Ok (StepTolerance, cur)
  else match fuel with
       | O => NoFuel
       | S k =>
           do grads <- accumulate_all path cur (repeat zero (length path)) indices;
           iterate k path indices count (max_norm grads) (apply_all cur grads)
       end.

(** smoother.cpp:216-225, [IsPathSafe]. *)
Fixpoint is_path_safe (l : list (P * T)) : res bool :=
  match l with
  | [] => Ok true
  | x :: r => do v <- valid x; if negb v then Ok false else is_path_safe r
  end.

(** smoother.cpp:33-158, [Smooth]. [old] is [m_currentPath] before the call; the result is the status and [m_currentPath]. *)
Definition smooth (fuel : nat) (initialized : bool) (old path : list (P * T)) (cusp : Z -> bool) : res (status * list (P * T)) :=
  if negb initialized then Ok (Failure, old)
  else if Z.of_nat (length path) <? 5 then
    do safe <- is_path_safe path;
    Ok (if negb safe then Failure else PathSize, path)
  else
    do indices <- select (length path) cusp (Z.of_nat (length path)) 0;
    do (s, cur) <- iterate fuel path indices (-1) tolerance path;
    do safe <- is_path_safe cur;
    Ok (if negb safe then Failure else s, cur).
End Smoother.
