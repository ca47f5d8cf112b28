(** Model of [Planner::Frontier], /repo/planner/src/utils/frontier.h. *)
From Verif Require Import Base.

Section Frontier.
  (** The element type [T] and the template parameters [Compare] and [KeyEqual]
      (frontier.h:13). [Hash] is left out: the hash set is modelled by a list searched with [KeyEqual]
      (sound when the hash respects KeyEqual; see Hash_props.v). *)
  Variable T : Type.
  Variable cmp : T -> T -> bool.
  Variable eqk : T -> T -> bool.

  (** frontier.h:154-158, members [m_vec] and [m_set]. *)
  Record frontier := Frontier { vec : list T; set : list T }.

  (** frontier.h:16, default construction; also the effect of [Clear], frontier.h:29-33. *)
  Definition f_empty : frontier := Frontier [] [].

  (** frontier.h:23 and 26. *)
  Definition f_size (f : frontier) : nat := length (vec f).
  Definition f_is_empty (f : frontier) : bool :=
    match vec f with [] => true | _ => false end.

  (** frontier.h:111-129, [FindFirstCompareIsFalse]. Iterators are indices. The fuel bounds the
      number of loop iterations; [f_push] passes one more than the size. *)
  Fixpoint ffirst (fuel : nat) (v : list T) (value : T) (b e mid : nat) : res nat :=
    match fuel with
    | O => NoFuel
    | S fuel' =>
      if b =? e then Ok mid
      else
        let mid := b + (e - b) / 2 in
        let midNext := S mid in
        do m <- vget v mid;
        if cmp value m then ffirst fuel' v value b mid mid
        else
          do nxt <- (if midNext =? length v then Ok false
                     else do n <- vget v midNext; Ok (negb (cmp value n)));
          if nxt then ffirst fuel' v value midNext e mid
          else Ok midNext
    end.

  (** frontier.h:135-152, [FindLastCompareIsTrue]. *)
  Fixpoint flast (fuel : nat) (v : list T) (value : T) (b e mid : nat) : res nat :=
    match fuel with
    | O => NoFuel
    | S fuel' =>
      if b =? e then Ok mid
      else
        let mid := b + (e - b) / 2 in
        let midNext := S mid in
        do m <- vget v mid;
        if negb (cmp m value) then flast fuel' v value b mid mid
        else
          do nxt <- (if midNext =? length v then Ok false
                     else do n <- vget v midNext; Ok (cmp n value));
          if nxt then flast fuel' v value midNext e mid
          else Ok mid
    end.

  (** [unordered_set::find], used at frontier.h:41, 55 and 97. *)
  Definition set_find (x : T) (s : list T) : option T := find (eqk x) s.
  (** [unordered_set::erase(key)] (frontier.h:89) and [erase(iterator)] (frontier.h:68): removes the
      element equal to the key. *)
  Definition set_erase (x : T) (s : list T) : list T := filter (fun y => negb (eqk x y)) s.

  (** frontier.h:39-48, [Push]. The returned pointer is modelled by the element it points to. *)
  Definition f_push (x : T) (f : frontier) : res ((T * bool) * frontier) :=
    match set_find x (set f) with
    | None =>
      do i <- ffirst (S (length (vec f))) (vec f) x 0 (length (vec f)) 0;
      do v <- vinsert (vec f) i x;
      Ok ((x, true), Frontier v (x :: set f))
    | Some y => Ok ((y, false), f)
    end.

  (** frontier.h:59-65, the loop of [Remove]: scan from index [i] for the first element equal to
      [y] and erase it. The list argument is the part of the vector from [i] on. *)
  Fixpoint scan_erase (y : T) (rest : list T) (i : nat) (v : list T) : res (list T * bool) :=
    match rest with
    | [] => Ok (v, false)
    | z :: rest' => if eqk z y then (do v' <- verase v i; Ok (v', true)) else scan_erase y rest' (S i) v
    end.

  (** frontier.h:52-73, [Remove]. The assertion at line 66 is compiled out in release builds, so it
      is not part of the model; [Frontier_proofs] shows that it never fires. *)
  Definition f_remove (x : T) (f : frontier) : res (nat * frontier) :=
    match set_find x (set f) with
    | None => Ok (0, f)
    | Some y =>
      do i <- flast (S (length (vec f))) (vec f) y 0 (length (vec f)) 0;
      do (v, erased) <- scan_erase y (skipn i (vec f)) i (vec f);
      Ok (1, Frontier v (set_erase y (set f)))
    end.

  (** frontier.h:76-79, [Top]: UB on an empty frontier. *)
  Definition f_top (f : frontier) : res T :=
    match rev (vec f) with
    | [] => UB
    | x :: _ => Ok x
    end.

  (** frontier.h:83-91, [Pop]: UB on an empty frontier. *)
  Definition f_pop (f : frontier) : res (T * frontier) :=
    do x <- f_top f;
    Ok (x, Frontier (removelast (vec f)) (set_erase x (set f))).

  (** frontier.h:95-101, [Find]. *)
  Definition f_find (x : T) (f : frontier) : option T := set_find x (set f).

  (** The public operations as one step function, with their observable outputs. *)
  Inductive fop := OpClear | OpPush (x : T) | OpRemove (x : T) | OpPop | OpTop | OpFind (x : T)
                 | OpSize | OpEmpty | OpIterate.
  Inductive fout := OutUnit | OutPush (x : T) (b : bool) | OutNat (n : nat) | OutElem (x : T)
                  | OutOpt (o : option T) | OutBool (b : bool) | OutList (l : list T).

  Definition f_step (f : frontier) (o : fop) : res (fout * frontier) :=
    match o with
    | OpClear => Ok (OutUnit, f_empty)
    | OpPush x => do ((y, b), f') <- f_push x f; Ok (OutPush y b, f')
    | OpRemove x => do (n, f') <- f_remove x f; Ok (OutNat n, f')
    | OpPop => do (x, f') <- f_pop f; Ok (OutElem x, f')
    | OpTop => do x <- f_top f; Ok (OutElem x, f)
    | OpFind x => Ok (OutOpt (f_find x f), f)
    | OpSize => Ok (OutNat (f_size f), f)
    | OpEmpty => Ok (OutBool (f_is_empty f), f)
    | OpIterate => Ok (OutList (vec f), f)
    end.

  Fixpoint f_run (f : frontier) (ops : list fop) : res (list fout) :=
    match ops with
    | [] => Ok []
    | o :: ops' =>
      do (out, f') <- f_step f o;
      do outs <- f_run f' ops';
      Ok (out :: outs)
    end.
End Frontier.

Arguments Frontier {T}.
Arguments vec {T}.
Arguments set {T}.
Arguments f_empty {T}.
Arguments f_size {T}.
Arguments f_is_empty {T}.
Arguments ffirst {T}.
Arguments flast {T}.
Arguments set_find {T}.
Arguments set_erase {T}.
Arguments f_push {T}.
Arguments scan_erase {T}.
Arguments f_remove {T}.
Arguments f_top {T}.
Arguments f_pop {T}.
Arguments f_find {T}.
Arguments f_step {T}.
Arguments f_run {T}.
Arguments OpClear {T}.
Arguments OpPush {T}.
Arguments OpRemove {T}.
Arguments OpPop {T}.
Arguments OpTop {T}.
Arguments OpFind {T}.
Arguments OpSize {T}.
Arguments OpEmpty {T}.
Arguments OpIterate {T}.
Arguments OutUnit {T}.
Arguments OutPush {T}.
Arguments OutNat {T}.
Arguments OutElem {T}.
Arguments OutOpt {T}.
Arguments OutBool {T}.
Arguments OutList {T}.
