(** Model of the Reeds-Shepp paths and of their solver, /repo/planner/src/geometry/reeds_shepp.{h,cpp} and
    /repo/planner/src/paths/path_reeds_shepp.{h,cpp}, over the reals. *)
From Coq Require Import Reals.
From Verif Require Import Base RealBase Pose_model Bicycle_model.
Local Open Scope R_scope.

(** [std::atan2]. Zeros have no sign here: [atan2 0 0 = 0] and [atan2 0 x = PI] for negative [x]. *)
Definition atan2 (y x : R) : R :=
  if Rltb 0 x then atan (y / x)
  else if Rltb x 0 then (if Rltb y 0 then atan (y / x) - PI else atan (y / x) + PI)
  else if Rltb 0 y then PI / 2 else if Rltb y 0 then - (PI / 2) else 0.

(** ** Path segments *)

(** reeds_shepp.h:51-62, [Motion], with a finite length. *)
Record motion := Motion { m_steer : steer; m_dir : direction; m_len : R }.

(** reeds_shepp.h:68-104, [PathSegment]. [None] is a default-constructed [Motion], of infinite length and without direction. *)
Definition num_motion : nat := 5.
Record rs_segment := RsSegment { g_motions : list (option motion); g_length : R }.

(** reeds_shepp.cpp:423-426, [Motion::IsValid]. *)
Definition m_valid (m : option motion) : bool :=
  match m with
  | None => false
  | Some m => match m_dir m with NoMotion => false | _ => true end
  end.

(** reeds_shepp.cpp:428-435, the constructor. *)
Definition g_new : rs_segment := RsSegment (repeat None num_motion) 0.

(** reeds_shepp.cpp:439-446: index of the first motion that is not valid. *)
Fixpoint first_invalid (l : list (option motion)) : option nat :=
  match l with
  | [] => None
  | m :: r => if m_valid m then option_map S (first_invalid r) else Some 0%nat
  end.

(** reeds_shepp.cpp:437-453, [AddMotion]. Without assertions, adding a sixth motion writes before the array. *)
Definition add_motion (g : rs_segment) (m : motion) : res rs_segment :=
  match first_invalid (g_motions g) with
  | None => UB
  | Some i => do l <- vset (g_motions g) i (Some m); Ok (RsSegment l (g_length g + Rabs (m_len m)))
  end.
Definition add_motions (g : rs_segment) (l : list motion) : res rs_segment :=
  fold_left (fun r m => do g <- r; add_motion g m) l (Ok g).

(** The valid motions before the first that is not: what the loops of the code see. *)
Fixpoint valid_motions (l : list (option motion)) : list motion :=
  match l with
  | Some m :: r => if m_valid (Some m) then m :: valid_motions r else []
  | _ => []
  end.

(** reeds_shepp.cpp:455-464, [GetNumMotions]. *)
Definition g_num (g : rs_segment) : nat := length (valid_motions (g_motions g)).

Definition dir_eqb (a b : direction) : bool :=
  match a, b with Forward, Forward | Backward, Backward | NoMotion, NoMotion => true | _, _ => false end.

(** reeds_shepp.cpp:466-494, [ComputeCost]; [None] is infinity. Floats are reals. *)
Fixpoint cost_loop (radius reverse forward switching : R) (l : list motion) (prev : direction) (cost : R) : R :=
  match l with
  | [] => cost
  | m :: r =>
      let c := m_len m * radius in
      let c := match m_dir m with Forward => c * forward | Backward => c * reverse | NoMotion => c end in
      let c := if dir_eqb (m_dir m) prev then c else c + switching in
      cost_loop radius reverse forward switching r (m_dir m) (cost + c)
  end.
Definition g_cost (g : rs_segment) (radius reverse forward switching : R) : option R :=
  match valid_motions (g_motions g) with
  | [] => None
  | m :: _ =>
      if Reqb reverse 1 && Reqb switching 0 then Some (g_length g * radius)
      else Some (cost_loop radius reverse forward switching (valid_motions (g_motions g)) (m_dir m) 0)
  end.

(** reeds_shepp.cpp:496-505, [TimeflipTransform], and 507-516, [ReflectTransform]. *)
Definition flip_dir (d : direction) : direction := match d with Backward => Forward | Forward => Backward | NoMotion => NoMotion end.
Definition flip_steer (s : steer) : steer := match s with SLeft => SRight | SRight => SLeft | SStraight => SStraight end.
Definition timeflip (g : rs_segment) : rs_segment :=
  RsSegment (map (option_map (fun m => Motion (m_steer m) (flip_dir (m_dir m)) (m_len m))) (g_motions g)) (g_length g).
Definition reflect (g : rs_segment) : rs_segment :=
  RsSegment (map (option_map (fun m => Motion (flip_steer (m_steer m)) (m_dir m) (m_len m))) (g_motions g)) (g_length g).

(** ** The words *)

(** The outcome of a formula: [t], [u], [v] and the returned length; or an infinite length; or not-a-number for each of them. *)
Inductive lengths := Lengths (t u v total : R) | Infinite | NotANumber.

(** reeds_shepp.cpp:11-14, [IsAngleInvalid]. *)
Definition angle_invalid (theta : R) : bool := Rltb theta 0 || Rltb PI theta.
Definition turns (x : R) : R := modulo x (2 * PI).

(** reeds_shepp.cpp:21-35. *)
Definition LfSfLf (goal : pose) : lengths :=
  let x := px goal - sin (pth goal) in
  let y := py goal - 1 + cos (pth goal) in
  let u := sqrt (x * x + y * y) in
  let t := atan2 y x in
  let v := wrap_angle (pth goal - t) in
  if angle_invalid t || angle_invalid v then Infinite else Lengths t u v (t + u + v).

(** reeds_shepp.cpp:37-58. Line 47 lacks a [return]: the root of a negative number follows, and comparisons with
    not-a-number are false, so that it is returned. *)
Definition LfSfRf (goal : pose) : lengths :=
  let x := px goal + sin (pth goal) in
  let y := py goal - 1 - cos (pth goal) in
  let u1squared := x * x + y * y in
  let t1 := atan2 y x in
  if Rltb (u1squared - 4) 0 then NotANumber else
  let u := sqrt (u1squared - 4) in
  let phi := atan2 2 u in
  let t := wrap_angle (t1 + phi) in
  let v := wrap_angle (t - pth goal) in
  if angle_invalid t || angle_invalid v then Infinite else Lengths t u v (t + u + v).

(** reeds_shepp.cpp:60-82. *)
Definition LfRbLf (goal : pose) : lengths :=
  let xi := px goal - sin (pth goal) in
  let eta := py goal - 1 + cos (pth goal) in
  let u1 := sqrt (xi * xi + eta * eta) in
  if Rltb 4 u1 then Infinite else
  let phi := atan2 eta xi in
  let alpha := acos (u1 / 4) in
  let t := turns (PI / 2 + alpha + phi) in
  let u := turns (PI - 2 * alpha) in
  let v := turns (pth goal - t - u) in
  if angle_invalid t || angle_invalid u || angle_invalid v then Infinite else Lengths t u v (t + u + v).

(** reeds_shepp.cpp:84-103. *)
Definition LfRbLb (goal : pose) : lengths :=
  let xi := px goal - sin (pth goal) in
  let eta := py goal - 1 + cos (pth goal) in
  let u1 := sqrt (xi * xi + eta * eta) in
  if Rltb 4 u1 then Infinite else
  let phi := atan2 eta xi in
  let alpha := acos (u1 / 4) in
  let t := turns (PI / 2 + alpha + phi) in
  let u := turns (PI - 2 * alpha) in
  let v := turns (t + u - pth goal) in
  Lengths t u v (t + u + v).

(** reeds_shepp.cpp:105-125. The quotient of line 120 is not a number if [u1] is zero, as then [va] is. *)
Definition LfRfLb (goal : pose) : lengths :=
  let xi := px goal - sin (pth goal) in
  let eta := py goal - 1 + cos (pth goal) in
  let u1 := sqrt (xi * xi + eta * eta) in
  if Rltb 4 u1 then Infinite else
  let phi := atan2 eta xi in
  let u := acos ((8 - u1 * u1) / 8) in
  let va := sin u in
  if Reqb u1 0 then NotANumber else
  let alpha := asin (2 * va / u1) in
  let t := turns (PI / 2 - alpha + phi) in
  let v := turns (t - u - pth goal) in
  Lengths t u v (t + u + v).

(** reeds_shepp.cpp:127-154. *)
Definition LfRufLubRb (goal : pose) : lengths :=
  let xi := px goal + sin (pth goal) in
  let eta := py goal - 1 - cos (pth goal) in
  let u1 := sqrt (xi * xi + eta * eta) in
  if Rltb 4 u1 then Infinite else
  let phi := atan2 eta xi in
  if Rltb 2 u1 then
    let alpha := acos (u1 / 4 - 1 / 2) in
    let t := turns (PI / 2 + phi - alpha) in
    let u := turns (PI - alpha) in
    let v := turns (pth goal - t + 2 * u) in
    Lengths t u v (t + u + u + v)
  else
    let alpha := acos (u1 / 4 + 1 / 2) in
    let t := turns (PI / 2 + phi + alpha) in
    let u := turns alpha in
    let v := turns (pth goal - t + 2 * u) in
    Lengths t u v (t + u + u + v).

(** reeds_shepp.cpp:156-180. [u1] is not zero in line 175: otherwise [va1] is above one. *)
Definition LfRubLubRf (goal : pose) : lengths :=
  let xi := px goal + sin (pth goal) in
  let eta := py goal - 1 - cos (pth goal) in
  let u1 := sqrt (xi * xi + eta * eta) in
  if Rltb 6 u1 then Infinite else
  let phi := atan2 eta xi in
  let va1 := 5 / 4 - u1 * u1 / 16 in
  if Rltb va1 0 || Rltb 1 va1 then Infinite else
  let u := acos va1 in
  let va2 := sin u in
  let alpha := asin (2 * va2 / u1) in
  let t := turns (PI / 2 + phi + alpha) in
  let v := turns (t - pth goal) in
  Lengths t u v (t + u + u + v).

(** reeds_shepp.cpp:182-205. *)
Definition LfRbpi2SbLb (goal : pose) : lengths :=
  let xi := px goal - sin (pth goal) in
  let eta := py goal - 1 + cos (pth goal) in
  let u1squared := xi * xi + eta * eta in
  if Rltb u1squared 4 then Infinite else
  let phi := atan2 eta xi in
  let u := sqrt (u1squared - 4) - 2 in
  if Rltb u 0 then Infinite else
  let alpha := atan2 2 (u + 2) in
  let t := turns (PI / 2 + phi + alpha) in
  let v := turns (t + PI / 2 - pth goal) in
  Lengths t u v (t + PI / 2 + u + v).

(** reeds_shepp.cpp:207-226. *)
Definition LfRbpi2SbRb (goal : pose) : lengths :=
  let xi := px goal + sin (pth goal) in
  let eta := py goal - 1 - cos (pth goal) in
  let u1 := sqrt (xi * xi + eta * eta) in
  if Rltb u1 2 then Infinite else
  let phi := atan2 eta xi in
  let t := turns (PI / 2 + phi) in
  let u := u1 - 2 in
  let v := turns (pth goal - t - PI / 2) in
  Lengths t u v (t + PI / 2 + u + v).

(** reeds_shepp.cpp:228-251. *)
Definition LfSfRfpi2Lb (goal : pose) : lengths :=
  let xi := px goal - sin (pth goal) in
  let eta := py goal - 1 + cos (pth goal) in
  let u1squared := xi * xi + eta * eta in
  if Rltb u1squared 4 then Infinite else
  let phi := atan2 eta xi in
  let u := sqrt (u1squared - 4) - 2 in
  if Rltb u 0 then Infinite else
  let alpha := atan2 (u + 2) 2 in
  let t := turns (PI / 2 + phi - alpha) in
  let v := turns (t - PI / 2 - pth goal) in
  Lengths t u v (t + u + PI / 2 + v).

(** reeds_shepp.cpp:253-272. *)
Definition LfSfLfpi2Rb (goal : pose) : lengths :=
  let xi := px goal + sin (pth goal) in
  let eta := py goal - 1 - cos (pth goal) in
  let u1 := sqrt (xi * xi + eta * eta) in
  if Rltb u1 2 then Infinite else
  let phi := atan2 eta xi in
  let t := turns phi in
  let u := u1 - 2 in
  let v := turns (- t - PI / 2 + pth goal) in
  Lengths t u v (t + u + PI / 2 + v).

(** reeds_shepp.cpp:274-297. *)
Definition LfRbpi2SbLbpi2Rf (goal : pose) : lengths :=
  let xi := px goal + sin (pth goal) in
  let eta := py goal - 1 - cos (pth goal) in
  let u1squared := xi * xi + eta * eta in
  if Rltb u1squared 16 then Infinite else
  let phi := atan2 eta xi in
  let u := sqrt (u1squared - 4) - 4 in
  if Rltb u 0 then Infinite else
  let alpha := atan2 2 (u + 4) in
  let t := turns (PI / 2 + phi + alpha) in
  let v := turns (t - pth goal) in
  Lengths t u v (t + u + v + PI).

(** reeds_shepp.cpp:299-413, the motions of each base word; base words are numbered in the order of the enumeration,
    reeds_shepp.h:17-42, that is by a quarter of their value. *)
Definition Lf := Motion SLeft Forward.
Definition Lb := Motion SLeft Backward.
Definition Rf := Motion SRight Forward.
Definition Rb := Motion SRight Backward.
Definition Sf := Motion SStraight Forward.
Definition Sb := Motion SStraight Backward.
Definition base_motions (base : nat) (t u v : R) : option (list motion) :=
  match base with
  | 0 => Some [Lf t; Sf u; Lf v]
  | 1 => Some [Lf t; Sf u; Rf v]
  | 2 => Some [Lf t; Rb u; Lf v]
  | 3 => Some [Lf t; Rb u; Lb v]
  | 4 => Some [Lf t; Rf u; Lb v]
  | 5 => Some [Lf t; Rf u; Lb u; Rb v]
  | 6 => Some [Lf t; Rb u; Lb u; Rf v]
  | 7 => Some [Lf t; Rb (PI / 2); Sb u; Lb v]
  | 8 => Some [Lf t; Rb (PI / 2); Sb u; Rb v]
  | 9 => Some [Lf t; Sf u; Rf (PI / 2); Lb v]
  | 10 => Some [Lf t; Sf u; Lf (PI / 2); Rb v]
  | 11 => Some [Lf t; Rb (PI / 2); Sb u; Lb (PI / 2); Rf v]
  | _ => None
  end%nat.

(** reeds_shepp.h:44, [NumPathWords]. *)
Definition num_words : nat := 48.

(** reeds_shepp.cpp:518-535, [GetGoalArray]. *)
Definition goal_array (start goal : pose) (radius : R) : list pose :=
  let d := pose_sub goal start in
  let x := px d / radius in
  let y := py d / radius in
  [mk_pose x y (pth d); mk_pose (- x) y (- pth d); mk_pose x (- y) (- pth d); mk_pose (- x) (- y) (pth d)].

(** reeds_shepp.cpp:537-564, [GetMotionLengths]. *)
Definition motion_lengths (w : nat) (goals : list pose) : lengths :=
  let goal := nth (w mod 4) goals (Pose 0 0 0) in
  match Nat.div w 4 with
  | 0 => LfSfLf goal | 1 => LfSfRf goal | 2 => LfRbLf goal | 3 => LfRbLb goal
  | 4 => LfRfLb goal | 5 => LfRufLubRb goal | 6 => LfRubLubRf goal | 7 => LfRbpi2SbLb goal
  | 8 => LfRbpi2SbRb goal | 9 => LfSfRfpi2Lb goal | 10 => LfSfLfpi2Rb goal | 11 => LfRbpi2SbLbpi2Rf goal
  | _ => Infinite
  end%nat.

(** reeds_shepp.cpp:566-606, [GetPath]. *)
Definition get_path (w : nat) (t u v : R) : res rs_segment :=
  match base_motions (Nat.div w 4) t u v with
  | None => Ok g_new
  | Some l =>
      do g <- add_motions g_new l;
      Ok (match Nat.modulo w 4 with
          | 1%nat => timeflip g
          | 2%nat => reflect g
          | 3%nat => reflect (timeflip g)
          | _ => g
          end)
  end.

(** reeds_shepp.cpp:608-637, [GetShortestDistance]: the smallest length, the word and its parameters; [None] if no length is finite:
    then the distance is infinite, the word is [NoPath] and the parameters are not initialised. *)
Definition shorter (goals : list pose) (best : option (R * nat * (R * R * R))) (w : nat) : option (R * nat * (R * R * R)) :=
  match motion_lengths w goals with
  | Lengths t u v len =>
      match best with
      | Some (b, _, _) => if Rltb len b then Some (len, w, (t, u, v)) else best
      | None => Some (len, w, (t, u, v))
      end
  | _ => best
  end.
Definition shortest (start goal : pose) (radius : R) : option (R * nat * (R * R * R)) :=
  fold_left (shorter (goal_array start goal radius)) (seq 0 num_words) None.
Definition shortest_distance (start goal : pose) (radius : R) : option R :=
  option_map (fun b => fst (fst b)) (shortest start goal radius).

(** reeds_shepp.cpp:639-652, [GetShortestPath]: line 634 reads the parameters even if they are not initialised. *)
Definition shortest_path (start goal : pose) (radius : R) : res rs_segment :=
  match shortest start goal radius with
  | None => UB
  | Some (_, w, (t, u, v)) => get_path w t u v
  end.

(** reeds_shepp.cpp:654-683, [GetOptimalPath]. The cost of a path with lengths that are no numbers is none, and not smaller. *)
Definition cheaper (goals : list pose) (radius reverse forward switching : R) (best : option (R * nat * rs_segment)) (w : nat)
  : res (option (R * nat * rs_segment)) :=
  match motion_lengths w goals with
  | Lengths t u v _ =>
      do g <- get_path w t u v;
      match g_cost g radius reverse forward switching with
      | None => Ok best
      | Some c =>
          match best with
          | Some (b, _, _) => if Rltb c b then Ok (Some (c, w, g)) else Ok best
          | None => Ok (Some (c, w, g))
          end
      end
  | _ => Ok best
  end.
Definition optimal (start goal : pose) (radius reverse forward switching : R) : res (option (R * nat * rs_segment)) :=
  fold_left (fun r w => do best <- r; cheaper (goal_array start goal radius) radius reverse forward switching best w) (seq 0 num_words) (Ok None).
Definition optimal_path (start goal : pose) (radius reverse forward switching : R) : res rs_segment :=
  do best <- optimal start goal radius reverse forward switching;
  match best with
  | None => Ok g_new
  | Some (_, _, g) => Ok g
  end.

(** ** Paths *)

(** path_reeds_shepp.h:7-38 and path.h:55-56, [PathReedsShepp]. *)
Record rspath := RsPath { q_init : pose; q_final : pose; q_length : R; q_segment : rs_segment; q_radius : R }.

(** path_reeds_shepp.cpp:121-133, [Straight]. *)
Definition rs_straight (radius : R) (start : pose) (dir : direction) (len : R) : pose :=
  let len := match dir with Backward => - len | _ => len end in
  let len := len * radius in
  mk_pose (px start + len * cos (pth start)) (py start + len * sin (pth start)) (pth start).

(** path_reeds_shepp.cpp:135-151, [Turn]. *)
Definition rs_turn (radius : R) (start : pose) (dir : direction) (st : steer) (angle : R) : pose :=
  let angle := match dir with Backward => - angle | _ => angle end in
  let phi := angle / 2 in
  let L := 2 * sin phi * radius in
  let x := L * cos phi in
  let y := L * sin phi in
  match st with
  | SRight => pose_add start (mk_pose x (- y) (- angle))
  | _ => pose_add start (mk_pose x y angle)
  end.

(** path_reeds_shepp.cpp:34-38. *)
Definition rs_move (radius : R) (start : pose) (m : motion) (len : R) : pose :=
  match m_steer m with
  | SStraight => rs_straight radius start (m_dir m) len
  | st => rs_turn radius start (m_dir m) st len
  end.

(** path_reeds_shepp.cpp:22-44, the loop of [Interpolate]; [d] is the length to go. *)
Fixpoint interp_loop (radius d : R) (l : list motion) (len : R) (interp : pose) : pose :=
  match l with
  | [] => interp
  | m :: r =>
      let ml := m_len m * radius in
      if Reqb ml 0 then interp_loop radius d r len interp
      else
        let ratio := Rmin ((d - len) / ml) 1 in
        let interp := rs_move radius interp m (m_len m * ratio) in
        let len := len + ml in
        if Rleb d len then interp else interp_loop radius d r len interp
  end.

(** path_reeds_shepp.cpp:12-47, [Interpolate]. *)
Definition rs_interp (init : pose) (total : R) (g : rs_segment) (radius ratio : R) : pose :=
  if Reqb total 0 then init else interp_loop radius (ratio * total) (valid_motions (g_motions g)) 0 init.
Definition rs_at (p : rspath) (ratio : R) : pose := rs_interp (q_init p) (q_length p) (q_segment p) (q_radius p) ratio.

(** path_reeds_shepp.cpp:5-10, the constructor; reeds_shepp.h:89, [GetLength]. *)
Definition rs_new (init : pose) (g : rs_segment) (radius : R) : rspath :=
  let total := g_length g * radius in
  RsPath init (rs_interp init total g radius 1) total g radius.

(** path_reeds_shepp.cpp:60-88, the loop of [Truncate], at the index [i]. The inner loop, lines 83-85, resets the motion [i] for
    each of the later ones. *)
Fixpoint truncate_loop (radius d : R) (i : nat) (l : list (option motion)) (len : R) (interp : pose) : pose * list (option motion) :=
  match l with
  | Some m :: r =>
      if m_valid (Some m) then
        let ml := m_len m * radius in
        if Reqb ml 0 then let (p, r') := truncate_loop radius d (S i) r len interp in (p, Some m :: r')
        else
          let ratio := Rmin ((d - len) / ml) 1 in
          let interp := rs_move radius interp m (m_len m * ratio) in
          let len := len + ml in
          if Rleb d len then
            (interp, (if Nat.ltb (S i) num_motion then None else Some (Motion (m_steer m) (m_dir m) (m_len m * ratio))) :: r)
          else let (p, r') := truncate_loop radius d (S i) r len interp in (p, Some m :: r')
      else (interp, l)
  | _ => (interp, l)
  end.

(** path_reeds_shepp.cpp:49-94, [Truncate]. *)
Definition rs_truncate (p : rspath) (ratio : R) : rspath :=
  if Reqb (q_length p) 0 then RsPath (q_init p) (q_init p) (q_length p * ratio) (q_segment p) (q_radius p)
  else
    let (final, l) := truncate_loop (q_radius p) (ratio * q_length p) 0 (g_motions (q_segment p)) 0 (q_init p) in
    RsPath (q_init p) final (q_length p * ratio) (RsSegment l (g_length (q_segment p))) (q_radius p).

(** path_reeds_shepp.cpp:96-119, [GetCuspPointRatios]; the set is given by a list of its elements. *)
Fixpoint rs_cusp_loop (radius total : R) (l : list motion) (prev : direction) (len : R) : list R :=
  match l with
  | [] => []
  | m :: r =>
      let ratio := len / total in
      if Rltb 1 ratio then []
      else (if dir_eqb (m_dir m) prev then [] else [ratio]) ++ rs_cusp_loop radius total r (m_dir m) (len + m_len m * radius)
  end.
Definition rs_cusps (p : rspath) : list R :=
  if Reqb (q_length p) 0 then []
  else
    match valid_motions (g_motions (q_segment p)) with
    | [] => []
    | m :: r => rs_cusp_loop (q_radius p) (q_length p) r (m_dir m) (m_len m * q_radius p)
    end.

(** path_reeds_shepp.cpp:153-167, [GetDirection]. *)
Fixpoint rs_direction_loop (radius d : R) (l : list motion) (len : R) : direction :=
  match l with
  | [] => NoMotion
  | m :: r => let len := len + m_len m * radius in if Rleb d len then m_dir m else rs_direction_loop radius d r len
  end.
Definition rs_direction (p : rspath) (ratio : R) : direction :=
  if Reqb (q_length p) 0 then NoMotion
  else rs_direction_loop (q_radius p) (ratio * q_length p) (valid_motions (g_motions (q_segment p))) 0.

(** path_reeds_shepp.cpp:169-172, [ComputeCost]. *)
Definition rs_cost (p : rspath) (switching reverse forward : R) : option R := g_cost (q_segment p) (q_radius p) reverse forward switching.

(** path_reeds_shepp.cpp:174-179, [PathConnectionReedsShepp::Connect]. *)
Definition rs_connect (radius switching reverse forward : R) (from to : pose) : res rspath :=
  do g <- optimal_path from to radius reverse forward switching; Ok (rs_new from g radius).
