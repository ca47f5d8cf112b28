(** What the calls made to a planner mean for its map. *)
From Coq Require Import Reals.
From Verif Require Import Base RealBase Pose_model World_model Planner_model.
Local Open Scope R_scope.

(** The calls that reach the map and its diagram: those made by the user; the size set by each validator; the diagram made by
    [Initialize]; and its update at the start of [SearchPath], if the planner is initialized ([ready]) and no size was set since
    ([linked]). *)
Fixpoint map_calls (ready linked : bool) (l : list call) : list wop :=
  match l with
  | [] => []
  | x :: r =>
      match x with
      | PMap (WSize width height) => WSize width height :: map_calls ready false r
      | PMap x => x :: map_calls ready linked r
      | PValidator lower upper => WSize (px upper - px lower) (py upper - py lower) :: map_calls ready false r
      | PInitialize None => map_calls false linked r
      | PInitialize (Some _) => WGvd :: map_calls true true r
      | PSearch => if ready && linked then WGvdUpdate :: map_calls ready linked r else map_calls ready linked r
      | _ => map_calls ready linked r
      end
  end.

(** Of a new planner. *)
Definition history (l : list call) : list wop := map_calls false false l.

(** Since the last [Initialize], the size of the map did not change. *)
Definition undisturbed (l : list call) : Prop :=
  Forall (fun x => match x with PMap (WSize _ _) | PValidator _ _ | PInitialize _ => False | _ => True end) l.

(** The call sets the size of the map. *)
Definition resizes (x : call) : Prop := match x with PMap (WSize _ _) | PValidator _ _ => True | _ => False end.

(** No call of the user updates the distance map, sets the size or initializes the planner; searches are allowed. *)
Definition only_searched (l : list call) : Prop :=
  Forall (fun x => match x with PMap (WSize _ _) | PMap WUpdate | PMap WGvdUpdate | PValidator _ _ | PInitialize (Some _) => False | _ => True end) l.

(** The same system, with the random generator in another state. *)
Definition reseed {Rng} (s : system Rng) (rng : Rng) : system Rng := System (sy_world s) (sy_validators s) (sy_planner s) rng.

(** Only parameters of validators, of the sampling and of the smoother change. *)
Definition tuned (l : list call) : Prop :=
  Forall (fun x => match x with PSafe _ _ | PStep _ _ | PInterpolation _ | PSmoothing _ => True | _ => False end) l.
