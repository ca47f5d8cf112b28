(** Model of [ProfilingTimer], /repo/planner/src/debug/profiler.h:65-97, and of the scopes that are measured with it. *)
From Verif Require Import Base Profiler_model.
Local Open Scope list_scope.

(** profiler.h:93-96, a timer. Time points are in nanoseconds. *)
Record timer := Timer { pt_name : bytes; pt_start : Z; pt_stopped : bool }.

(** profiler.h:68-72, the constructor, given the time that the clock shows. *)
Definition pt_new (name : bytes) (now : Z) : timer := Timer name now false.

(** profiler.h:84-85, [time_point_cast] to microseconds, which rounds towards zero. *)
Definition to_us (t : Z) : Z := Z.quot t 1000.

(** profiler.h:80-90, [Stop]: the record that is given to the profiler. *)
Definition pt_stop (thread : N) (t : timer) (now : Z) : timer * result :=
  (Timer (pt_name t) (pt_start t) true, Result (pt_name t) (to_us (pt_start t)) (to_us now) thread).

(** What happens while a timer runs: inner scopes with a timer of their own ([PP_PROFILE_SCOPE], [PP_PROFILE_FUNCTION], profiler.h:146-151),
    and calls of [Stop] of the timer. Scopes that an exception leaves end as others do. *)
Inductive item := Inner (name : bytes) (body : list item) | StopTimer.

Section Run.
  (** The readings of the clock by one thread, one after the other. *)
  Variable clock : nat -> Z.
  Variable thread : N.

  (** The number of readings so far, and the records written so far. *)
  Notation pstep := (nat * list result)%type.

  (** profiler.h:74-78, the destructor. *)
  Definition pt_destroy (t : timer) (st : pstep) : pstep :=
    if pt_stopped t then st
    else let (_, r) := pt_stop thread t (clock (fst st)) in (S (fst st), snd st ++ [r]).

  (** One item, in the scope of [t]. *)
  Fixpoint run_item (x : item) (y : timer * pstep) : timer * pstep :=
    let (t, st) := y in
    match x with
    | StopTimer => let (t', r) := pt_stop thread t (clock (fst st)) in (t', (S (fst st), snd st ++ [r]))
    | Inner name body =>
      let '(t', st') := (fix each (l : list item) (z : timer * pstep) : timer * pstep :=
                           match l with [] => z | i :: l' => each l' (run_item i z) end)
                          body (pt_new name (clock (fst st)), (S (fst st), snd st)) in
      (t, pt_destroy t' st')
    end.
  Definition run_items (l : list item) (z : timer * pstep) : timer * pstep := fold_left (fun z i => run_item i z) l z.

  (** The records of a scope that starts at reading [n]. *)
  Definition run_scope (name : bytes) (body : list item) (n : nat) : pstep :=
    let (t, st) := run_items body (pt_new name (clock n), (S n, [])) in pt_destroy t st.
End Run.
